(* C58: what happens when the driver has more slices than the trial. *)
Set Warnings "-notation-overridden,-ambiguous-paths".
From Verif Require Import Base TimeGrid_Model.
From mathcomp Require Import all_ssreflect all_algebra zify.
From Verif Require Import PropStack_Model PropStack_Spec PropStack_Proofs.

Set Implicit Arguments.
Unset Strict Implicit.
Unset Printing Implicit Defensive.
Import GRing.Theory.
Local Open Scope ring_scope.

(* The walker's stack has the slices of the trial, the driver goes on: the last
   slice of the first path raises. *)
Theorem C58_overrun : forall beta dt d t,
  TimeGrid_Model.ntime_slices beta dt = Ok d -> num_slices beta dt = Ok t -> d = Z.succ t -> Z.le 0 t ->
  forall (F : fieldType) n s diag (BT BTinv : 'M[F]_n) (Bs : seq 'M[F]_n),
  (0 < s)%N -> (s %| Z.to_nat t)%N -> good_trial diag BT BTinv -> size Bs = Z.to_nat d ->
  run_full diag BT BTinv s (Z.to_nat t) Bs = Err IndexError.
Proof.
move=> beta dt d t _ _ E Ht F n s diag BT BTinv Bs Hs Hd Hg Hz.
by apply: stack_overrun => //; lia.
Qed.
Print Assumptions C58_overrun.
