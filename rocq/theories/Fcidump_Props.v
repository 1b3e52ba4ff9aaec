(** FCIDUMP files (C26). *)
From Verif Require Import Base Fcidump_Model Fcidump_Spec Fcidump_Proofs.
Open Scope nat_scope.

(** Of every class of equivalent index tuples exactly one is written. *)
Theorem C26_representative : forall n sym q, sym = 1 \/ sym = 4 \/ sym = 8 -> in_range n q ->
  exists r, In r (orbit sym q) /\ check_sym r n sym = true /\
    forall r', In r' (orbit sym q) -> check_sym r' n sym = true -> r' = r.
Proof. exact representative. Qed.
Print Assumptions C26_representative.

Theorem C26_one_line : forall (K : Type) (zero : K) (conj re : K -> K) (big imgpos : K -> bool),
  (forall x, big (conj x) = big x) -> forall n sym (v : tensor4 K) q,
  sym = 1 \/ sym = 4 \/ sym = 8 -> has_sym conj sym v -> in_range n q -> big (at4 K v q) = true ->
  exists r, filter (fun p => if in_dec quad_dec p (orbit sym q) then true else false) (emitted K big v n sym) = [r].
Proof. exact one_line_per_class. Qed.
Print Assumptions C26_one_line.

(** The lines written are those of the list [emitted]. *)
Theorem C26_lines : forall (K : Type) (re : K -> K) (big imgpos : K -> bool) v n sym cplx paren qs,
  (cplx = true \/ forall q, In q qs -> imgpos (at4 K v q) = false) ->
  write_two K re big imgpos (fun i k l j => v i k j l) n sym cplx paren qs =
  Ok (map (fun q => fmt_integral K re (at4 K v q) (succ4 q) cplx paren)
          (filter (fun q => big (at4 K v q) && check_sym q n sym) qs)).
Proof. exact write_two_ok. Qed.
Print Assumptions C26_lines.

(** Writing and reading with the same symmetry gives back every integral above the
    threshold, and zero for the others, the core energy and the electron numbers, when
    the numbers are complex format or real. *)
Theorem C26_roundtrip : forall (K : Type) (zero : K) (conj re : K -> K) (big imgpos : K -> bool),
  (forall x, big (conj x) = big x) -> forall n sym cplx (v : tensor4 K) (h : tensor2 K) enuc na nb,
  sym = 1 \/ sym = 4 \/ sym = 8 -> has_sym conj sym v -> (forall i j, h j i = conj (h i j)) ->
  let cplx' := if cplx && (4 <? sym) then false else cplx in
  (forall q, in_range n q -> kept K re imgpos cplx' (at4 K v q)) ->
  (forall i j, i < n -> j < n -> kept K re imgpos cplx' (h i j)) -> kept K re imgpos cplx' enuc ->
  exists d h1 h2, write_fcidump K re big imgpos h (fun i k l j => v i k j l) enuc n (na, nb) sym cplx false = Ok d /\
    read_fcidump K zero conj d sym = Ok (h1, h2, enuc, (na, nb)) /\
    (forall i k j l, in_range n (i, k, j, l) -> h2 i k j l = trunc K zero big (v i k j l)) /\
    (forall i j, i < n -> j < n -> h1 i j = trunc K zero big (h i j)).
Proof. exact dump_roundtrip. Qed.
Print Assumptions C26_roundtrip.

(** In the real format a negative imaginary part is dropped without notice. *)
Theorem C26_imag_refuted : has_sym zconj 4 zt /\ exists d h1 h2,
  write_fcidump (Z * Z) zre zbig zimgpos (fun _ _ => (0, 0)%Z) (fun i k l j => zt i k j l) (0, 0)%Z 2 (1, 1)%Z 4 false false = Ok d /\
  read_fcidump (Z * Z) (0, 0)%Z zconj d 4 = Ok (h1, h2, (0, 0)%Z, (1, 1)%Z) /\
  h2 0 0 0 1 = (1, 0)%Z /\ zt 0 0 0 1 = (1, -1)%Z.
Proof. exact (conj zt_sym imag_lost). Qed.
Print Assumptions C26_imag_refuted.

(** A file written with parentheses cannot be read. *)
Theorem C26_paren_refuted : forall (K : Type) (zero : K) (conj re : K -> K) (big imgpos : K -> bool) d sym,
  (sym = 1 \/ sym = 4 \/ sym = 8) -> forall h eris enuc n nelec cplx,
  cplx && (4 <? sym) = false -> cplx = true ->
  write_fcidump K re big imgpos h eris enuc n nelec sym cplx true = Ok d ->
  exists e, read_fcidump K zero conj d sym = Err e.
Proof. exact paren_unreadable. Qed.
Print Assumptions C26_paren_refuted.

(** A complex 4-fold symmetric Hamiltonian of two orbitals: four of the sixteen
    entries are in one class, one line is written for it. *)
Example C26_case :
  length (emitted (Z * Z) zbig zt 2 4) = 1 /\
  (forall q, in_range 2 q -> kept (Z * Z) zre zimgpos true (at4 _ zt q)).
Proof. split; [reflexivity|]. left. reflexivity. Qed.
