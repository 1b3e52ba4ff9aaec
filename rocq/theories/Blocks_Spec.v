(** Specification vocabulary for the estimator blocks. *)
From Verif Require Import Base Cplx Mixed_Model Mixed_Spec Blocks_Model.
Open Scope nat_scope.

(** Measurements made on every rank in steps [a .. a+len-1]. *)
Definition window (data : nat -> list (list meas)) (nranks a len : nat) : list history :=
  map (fun r => map (fun s => (s, nth r (data s) [])) (seq a len)) (seq 0 nranks).
(** Every step provides walkers for every rank, of the declared sizes. *)
Definition proper_data (o : opts) (nranks : nat) (data : nat -> list (list meas)) : Prop :=
  forall s, List.length (data s) = nranks /\ Forall (Forall (shaped o)) (data s).
