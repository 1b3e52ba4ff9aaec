(** Wavefunction files (C28). *)
From Verif Require Import Base BaseFacts Wfn_Spec Wfn_Model Wfn_Proofs.
Open Scope nat_scope.

(** Occupation lists of a particle-hole expansion come back exactly. *)
Theorem C28_phmsd : forall n na nb norb occa occb nelec, shaped n na nb occa occb ->
  (forall e, nelec = Some e -> e = (na, nb) /\ na = nb) ->
  exists f, write_phmsd (na, nb) norb n occa occb = Ok f /\
    read_phmsd f nelec = Ok (occa, map (map Z.of_nat) occb).
Proof. exact phmsd_roundtrip. Qed.
Print Assumptions C28_phmsd.

Example C28_phmsd_example :
  shaped 2 2 1 [[0; 1]; [0; 2]] [[0]; [3]] /\
  exists f, write_phmsd (2, 1) 4 2 [[0; 1]; [0; 2]] [[0]; [3]] = Ok f /\ p_occs f = [0; 1; 4; 0; 2; 7] /\
    read_phmsd f None = Ok ([[0; 1]; [0; 2]], [[0%Z]; [3%Z]]).
Proof. split; [repeat split; repeat constructor|]. eexists. repeat split. Qed.

(** Passing the electron numbers to the reader fails whenever they differ. *)
Theorem C28_nelec_refuted : forall f : phmsd, p_na f <> p_nb f ->
  read_phmsd f (Some (p_na f, p_nb f)) = Err AssertionError.
Proof. exact phmsd_unequal. Qed.
Print Assumptions C28_nelec_refuted.

Theorem C28_nomsd_nelec_refuted : forall (K : Type) (zero : K) (add : K -> K -> K) (conj : K -> K) (f : nomsd K),
  n_na K f <> n_nb K f -> read_nomsd K zero add conj f (Some (n_na K f, n_nb K f)) = Err AssertionError.
Proof. exact nomsd_unequal_nelec. Qed.
Print Assumptions C28_nomsd_nelec_refuted.

(** One set of orbitals, stored as a sparse conjugate transpose, comes back. *)
Theorem C28_orbitals : forall (K : Type) (zero : K) (add : K -> K -> K) (conj : K -> K) (small isz : K -> bool),
  (forall x, add x zero = x) -> (forall x, isz x = true -> x = zero) -> (forall x, conj (conj x) = x) ->
  forall m n g, 0 < m ->
  exists h, orbs_from_dset K zero add conj (write_single K isz m n g) = Ok (n, m, h) /\
    forall i j, i < n -> j < m -> h i j = conj (g j i).
Proof. exact single_roundtrip. Qed.
Print Assumptions C28_orbitals.

(** Restricted files: the alpha block of every determinant, and its first nb columns as beta. *)
Theorem C28_nomsd_rhf : forall (K : Type) (zero : K) (add : K -> K -> K) (conj : K -> K) (small isz : K -> bool),
  (forall x, add x zero = x) -> (forall x, isz x = true -> x = zero) -> (forall x, conj (conj x) = x) ->
  forall nmo na nb ws nelec, 0 < na -> nb <= na -> nelec = None \/ (nelec = Some (na, nb) /\ na = nb) ->
  exists out, read_nomsd K zero add conj (write_nomsd K zero conj small isz nmo na nb false ws) nelec = Ok out /\
    length out = length ws /\
    forall i w r, nth_error ws i = Some w -> nth_error out i = Some r ->
      mat_eq nmo (na + nb) r (side na (alpha (cut zero small w)) (alpha (cut zero small w))).
Proof. exact nomsd_rhf. Qed.
Print Assumptions C28_nomsd_rhf.

(** Unrestricted files with one determinant. *)
Theorem C28_nomsd_uhf_partial : forall (K : Type) (zero : K) (add : K -> K -> K) (conj : K -> K) (small isz : K -> bool),
  (forall x, add x zero = x) -> (forall x, isz x = true -> x = zero) -> (forall x, conj (conj x) = x) ->
  forall nmo na nb w nelec, 0 < na -> 0 < nb -> nelec = None \/ (nelec = Some (na, nb) /\ na = nb) ->
  exists r, read_nomsd K zero add conj (write_nomsd K zero conj small isz nmo na nb true [w]) nelec = Ok [r] /\
    mat_eq nmo (na + nb) r (cut zero small w).
Proof. exact nomsd_uhf_one. Qed.
Print Assumptions C28_nomsd_uhf_partial.

(** Unrestricted files with several determinants: determinant i gets the i-th stored block
    as alpha orbitals, which is the wrong one for all i > 0. *)
Theorem C28_nomsd_uhf_what : forall (K : Type) (zero : K) (add : K -> K -> K) (conj : K -> K) (small isz : K -> bool),
  (forall x, add x zero = x) -> (forall x, isz x = true -> x = zero) -> (forall x, conj (conj x) = x) ->
  forall nmo n ws nelec, 0 < n -> nelec = None \/ nelec = Some (n, n) ->
  exists out, read_nomsd K zero add conj (write_nomsd K zero conj small isz nmo n n true ws) nelec = Ok out /\
    length out = length ws /\
    forall i w w' r, nth_error ws i = Some w -> nth_error ws (i / 2) = Some w' -> nth_error out i = Some r ->
      mat_eq nmo (n + n) r
        (side n (if Nat.even i then alpha (cut zero small w') else beta n (cut zero small w'))
                (beta n (cut zero small w))).
Proof. exact nomsd_uhf_many. Qed.
Print Assumptions C28_nomsd_uhf_what.

Theorem C28_nomsd_uhf_stops : forall (K : Type) (zero : K) (add : K -> K -> K) (conj : K -> K) (small isz : K -> bool),
  (forall x, add x zero = x) -> (forall x, isz x = true -> x = zero) -> (forall x, conj (conj x) = x) ->
  forall nmo na nb w0 w1 ws, 0 < na -> 1 < nb -> na <> nb ->
  read_nomsd K zero add conj (write_nomsd K zero conj small isz nmo na nb true (w0 :: w1 :: ws)) None = Err ValueError.
Proof. exact nomsd_uhf_unequal. Qed.
Print Assumptions C28_nomsd_uhf_stops.

(** No beta electrons: cannot be read. *)
Theorem C28_polarised_refuted : forall (K : Type) (zero : K) (add : K -> K -> K) (conj : K -> K) (small isz : K -> bool),
  (forall x, add x zero = x) -> (forall x, isz x = true -> x = zero) -> (forall x, conj (conj x) = x) ->
  forall nmo na w ws nelec, 0 < na -> nelec = None ->
  read_nomsd K zero add conj (write_nomsd K zero conj small isz nmo na 0 true (w :: ws)) nelec = Err IndexError.
Proof. exact nomsd_polarised. Qed.
Print Assumptions C28_polarised_refuted.

(** Two determinants, one electron of each spin, two orbitals. *)
Theorem C28_nomsd_uhf_refuted : exists w0 w1 out r,
  read_nomsd nat 0 plus (fun x => x) (write_nomsd nat 0 (fun x => x) (fun _ => false) (Nat.eqb 0) 2 1 1 true [w0; w1]) None = Ok out /\
  nth_error out 1 = Some r /\ ~ mat_eq 2 (1 + 1) r w1.
Proof. exact uhf_refuted. Qed.
Print Assumptions C28_nomsd_uhf_refuted.

(** Text files: padded square matrices come back with the same orbitals for both spins. *)
Theorem C28_phfmol : forall (K : Type) (zero : K) nmo padding na nb dets, na <= nmo -> nb <= nmo ->
  Forall2 (fun c data => exists r, read_phfmol_det K zero (nmo + padding) na data = Ok r /\
      mat_eq (nmo + padding) (na + nb) r (side na (pad K zero nmo c) (pad K zero nmo c)))
    dets (write_phfmol K zero nmo padding dets).
Proof. exact phfmol_roundtrip. Qed.
Print Assumptions C28_phfmol.

Example C28_example :
  let w i j := 3 * i + j + 1 in
  read_phfmol_det nat 0 3 1 (ravel_f nat 3 (pad nat 0 2 w)) <> Err ValueError /\
  write_phfmol nat 0 2 1 [w] = [[1; 4; 0; 2; 5; 0; 0; 0; 0]].
Proof. split; [discriminate|reflexivity]. Qed.
