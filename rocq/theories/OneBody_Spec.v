(* The expectation value of a one-body operator.  Nothing here refers to the functions of the
   model, only to its matrices. *)

From Coq Require Import Reals List.
From Verif Require Import Ratio_Spec OneBody_Model.
Import ListNotations.
Local Open Scope R_scope.

Definition re_product (a b : cx) : R := fst a * fst b - snd a * snd b.

(* Re sum_ij A_ij G_ij *)
Definition contraction (nb : nat) (A G : mat) : R :=
  sum (map (fun i => sum (map (fun j => re_product (A i j) (G i j)) (seq 0 nb))) (seq 0 nb)).

(* Both spins together. *)
Definition both (P : mat * mat) : mat :=
  fun i j => (fst (fst P i j) + fst (snd P i j), snd (fst P i j) + snd (snd P i j)).

(* The mean of the sampled matrices. *)
Definition mean_matrix (Ps : list (mat * mat)) : mat :=
  fun i j => (average (map (fun P => fst (both P i j)) Ps), average (map (fun P => snd (both P i j)) Ps)).
