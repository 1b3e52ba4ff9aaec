(** The plane-wave basis of the electron gas (C33, C34). *)
From Verif Require Import Base BaseFacts UEG_Model UEG_Spec UEG_Proofs.
Open Scope Z_scope.

(** Once constructed: the basis is the sphere without repetition, and lookup finds exactly the basis. *)
Theorem C33_lookup : forall ecut ks u, build ecut ks = Ok u ->
  NoDup (basis u) /\ (forall v, In v (basis u) <-> within ecut v) /\
  forall v, exists r, lookup_basis u v = Ok r /\ forall j, r = Some j <-> nth_error (basis u) j = Some v.
Proof. exact lookup_main. Qed.
Print Assumptions C33_lookup.

(** The index is injective on the sphere although its base 2*nmax is one too small for the cube. *)
Theorem C33_index_injective : forall ecut n v w, get_nmax ecut = Ok n -> within ecut v -> within ecut w ->
  map_index n v = map_index n w -> v = w.
Proof. exact index_inj. Qed.
Print Assumptions C33_index_injective.

(** Without a twist the construction succeeds. *)
Theorem C33_untwisted : forall ecut, (0 <= ecut)%Q -> exists u, build ecut (0, 0, 0)%Q = Ok u.
Proof. exact build_untwisted. Qed.
Print Assumptions C33_untwisted.

(** With a twist it succeeds exactly when the last plane wave has the largest norm. *)
Theorem C33_twisted : forall ecut ks l n, sp_energies ecut ks = Ok (l, n) ->
  (last_is_largest l -> exists u, build ecut ks = Ok u) /\ (~ last_is_largest l -> build ecut ks = Err AssertionError).
Proof. exact build_twisted. Qed.
Print Assumptions C33_twisted.

Theorem C33_twist_refuted : build 6 (1 # 2, 0, 0)%Q = Err AssertionError.
Proof. exact twist_refuted. Qed.
Print Assumptions C33_twist_refuted.

Theorem C33_negative_cutoff : forall ecut ks, (ecut < 0)%Q -> build ecut ks = Err ValueError.
Proof. exact negative_cutoff. Qed.
Print Assumptions C33_negative_cutoff.

Example C33_example : exists u, build 1 (0, 0, 0)%Q = Ok u /\ length (basis u) = 19%nat /\ nmax u = 2 /\
  lookup_basis u (1, 0, -1) = Ok (Some 16%nat) /\ lookup_basis u (1, 1, 1) = Ok None.
Proof. eexists. split; [vm_compute; reflexivity|]. repeat split; vm_compute; reflexivity. Qed.

(** The lists hold exactly the pairs differing by q with the first below the limit, each once. *)
Theorem C34_ikpq : forall ecut ks u n q, build ecut ks = Ok u -> exists l, ikpq u n q = Ok l /\ NoDup l /\
  forall i j, In (i, j) l <-> (i < n)%nat /\ connected u q i j.
Proof. exact ikpq_main. Qed.
Print Assumptions C34_ikpq.

Theorem C34_ipmq : forall ecut ks u n q, build ecut ks = Ok u -> exists l, ipmq u n q = Ok l /\ NoDup l /\
  forall i j, In (i, j) l <-> (i < n)%nat /\ connected u q j i.
Proof. exact ipmq_main. Qed.
Print Assumptions C34_ipmq.

(** Without a twist the transfers are the nonzero vectors of the sphere of four times the cutoff, *)
Theorem C34_transfers : forall ecut, (0 <= ecut)%Q -> exists qs, get_qvecs ecut (0, 0, 0)%Q = Ok qs /\ NoDup qs /\
  forall q, In q qs <-> q <> origin /\ within (4 * ecut) q.
Proof. exact qvecs_main. Qed.
Print Assumptions C34_transfers.

(** and any two plane waves differ by exactly one of them. *)
Theorem C34_transfers_complete : forall ecut u qs, (0 <= ecut)%Q -> build ecut (0, 0, 0)%Q = Ok u -> get_qvecs ecut (0, 0, 0)%Q = Ok qs ->
  forall i j a b, i <> j -> nth_error (basis u) i = Some a -> nth_error (basis u) j = Some b ->
  exists iq q, nth_error qs iq = Some q /\ b = vadd a q /\
    forall iq' q', nth_error qs iq' = Some q' -> b = vadd a q' -> iq' = iq.
Proof. exact transfers_complete. Qed.
Print Assumptions C34_transfers_complete.

(** The density operators: one value for each pair differing by q, at (k+q, k) or transposed. *)
Theorem C34_density : forall (K : Type) (factor : vec -> K) ecut ks u, build ecut ks = Ok u ->
  forall (tr : bool) qs iq0, exists l, density K factor u tr iq0 qs = Ok l /\
  forall i j iq q, (i < length (basis u))%nat -> (j < length (basis u))%nat -> nth_error qs iq = Some q ->
    (connected u q i j -> at_pos (if tr then (i * length (basis u) + j)%nat else (j * length (basis u) + i)%nat) (iq0 + iq)%nat l = [factor q]) /\
    (~ connected u q i j -> at_pos (if tr then (i * length (basis u) + j)%nat else (j * length (basis u) + i)%nat) (iq0 + iq)%nat l = []).
Proof. exact density_main. Qed.
Print Assumptions C34_density.

(** With a twist of one half the zero transfer stays and a nonzero one is dropped. *)
Theorem C34_twist_refuted : exists u qs, build (1 # 2) (1 # 2, 0, 0)%Q = Ok u /\ get_qvecs (1 # 2) (1 # 2, 0, 0)%Q = Ok qs /\
  In origin qs /\ ~ In (-1, 0, 0) qs.
Proof. exact twist_origin_refuted. Qed.
Print Assumptions C34_twist_refuted.

(** The limit is nup for both spins: with more down electrons their pairs are missing. *)
Theorem C34_down_refuted : exists u l, build (1 # 2) (0, 0, 0)%Q = Ok u /\ ikpq u (nlimit false 1 (length (basis u))) (1, 0, 0) = Ok l /\
  nth_error (basis u) 1 = Some (-1, 0, 0) /\ nth_error (basis u) 0 = Some (vadd (-1, 0, 0) (1, 0, 0)) /\ ~ In (1%nat, 0%nat) l.
Proof. exact down_refuted. Qed.
Print Assumptions C34_down_refuted.

Example C34_example : exists u, build (1 # 2) (0, 0, 0)%Q = Ok u /\
  ikpq u 7 (1, 0, 0) = Ok [(0, 6); (1, 0)]%nat /\ ipmq u 7 (1, 0, 0) = Ok [(0, 1); (6, 0)]%nat.
Proof. eexists. split; [vm_compute; reflexivity|]. split; vm_compute; reflexivity. Qed.
