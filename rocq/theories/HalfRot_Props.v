(* Half rotation of Cholesky vectors: property C53. *)

From Verif Require Import Base BaseFacts HalfRot_Model HalfRot_Spec HalfRot_Proofs.
Open Scope nat_scope.

Section Props.
Variable K : Type.
Variables (k0 : K) (kadd kmul : K -> K -> K) (conj : K -> K).
Variables (M na nb ndets nchol : nat).
Variable psi : nat -> nat -> nat -> K.
Variable chol : nat -> nat -> nat -> K.
Notation one := (rank_writes K k0 kadd kmul conj M na nb ndets nchol psi chol).
Notation all := (all_writes K k0 kadd kmul conj M na nb ndets nchol psi chol).
Notation stored := (rchol K k0 M na nb ndets nchol).
Notation wanted := (determinants k0 kadd kmul conj M nchol psi chol ndets (na + nb)).
Notation orbs := (orbitals k0 kadd kmul conj M nchol psi chol).

(* However many processes share the work, and in whatever order their writes
   arrive, the shared array holds the half rotated vectors. *)
Theorem C53_array : forall csize ws, 0 < csize -> Permutation ws (all csize) ->
  stored ws = wanted.
Proof. exact (rchol_right K k0 kadd kmul conj M na nb ndets nchol psi chol). Qed.

(* No element is written twice, by one process or by two. *)
Theorem C53_once : forall csize, 0 < csize -> NoDup (map fst (all csize)).
Proof. exact (writes_once K k0 kadd kmul conj M na nb ndets nchol psi chol). Qed.

(* Exactly one process works on a vector, when there is anything to do. *)
Theorem C53_partition : forall csize n, 0 < csize ->
  0 < M -> 0 < na + nb -> 0 < ndets -> n < nchol ->
  exists! r, r < csize /\ exists row x, In (row, n, x) (one (Some (r, csize))).
Proof. exact (partition_ranks K k0 kadd kmul conj M na nb ndets nchol psi chol). Qed.

(* Without a communicator. *)
Theorem C53_serial : stored (one None) = wanted.
Proof. exact (serial_right K k0 kadd kmul conj M na nb ndets nchol psi chol). Qed.

(* The slices are the orbitals of one determinant and spin. *)
Theorem C53_slices : forall csize ws idet, 0 < csize -> Permutation ws (all csize) ->
  idet < ndets ->
  rot_chol K M na nb (stored ws) idet None = orbs idet 0 (na + nb) /\
  rot_chol K M na nb (stored ws) idet (Some 0) = orbs idet 0 na /\
  rot_chol K M na nb (stored ws) idet (Some 1) = orbs idet na nb.
Proof. exact (slices_right K k0 kadd kmul conj M na nb ndets nchol psi chol). Qed.

(* They are contiguous, do not overlap and together are the whole array. *)
Theorem C53_tiling : forall csize ws, 0 < csize -> Permutation ws (all csize) ->
  flat_map (fun idet => rot_chol K M na nb (stored ws) idet (Some 0)
                        ++ rot_chol K M na nb (stored ws) idet (Some 1)) (seq 0 ndets)
  = stored ws.
Proof. exact (tiling_right K k0 kadd kmul conj M na nb ndets nchol psi chol). Qed.

(* Both accessors return the same rows. *)
Theorem C53_both : forall arr idet spin,
  rot_hs_pot K M na nb arr idet spin = rot_chol K M na nb arr idet spin.
Proof. exact (both_right K M na nb). Qed.
End Props.

(* Two determinants of three electrons in two orbitals, with five vectors on two
   processes and with one vector on two processes. *)
Example C53_instance :
  let psi i p a := Z.of_nat (100 * i + 10 * p + a) in
  let chol p q n := Z.of_nat (p + 2 * q + n) in
  let w nchol csize := all_writes Z 0%Z Z.add Z.mul Z.opp 2 2 1 2 nchol psi chol csize in
  length (w 5 2) = 60 /\ length (w 1 2) = 12 /\
  rchol Z 0%Z 2 2 1 2 1 (rev (w 1 2))
  = [[-10]; [-30]; [-11]; [-35]; [-12]; [-40];
     [-110]; [-530]; [-111]; [-535]; [-112]; [-540]]%Z /\
  rot_chol Z 2 2 1 (rchol Z 0%Z 2 2 1 2 2 (w 2 2)) 1 (Some 1)
  = [[-112; -326]; [-540; -754]]%Z.
Proof. vm_compute; repeat split. Qed.

Print Assumptions C53_array.
Print Assumptions C53_once.
Print Assumptions C53_partition.
Print Assumptions C53_serial.
Print Assumptions C53_slices.
Print Assumptions C53_tiling.
Print Assumptions C53_both.
