(* Functions of a hopping matrix, for C65. *)

From Verif Require Import Base.
Set Warnings "-notation-overridden,-ambiguous-paths".
From mathcomp Require Import all_ssreflect all_algebra.

Set Implicit Arguments.
Unset Strict Implicit.
Unset Printing Implicit Defensive.

Import Order.TTheory GRing.Theory Num.Theory.
Local Open Scope ring_scope.

Section Spec.
Variable C : numClosedFieldType.

(* A matrix with n rows and columns applied to a vector. *)
Definition times (n : nat) (A : nat -> nat -> C) (v : nat -> C) (i : nat) : C :=
  \sum_(j < n) A i j * v j.

Definition eigen (n : nat) (A : nat -> nat -> C) (v : nat -> C) (e : C) : Prop :=
  forall i, (i < n)%N -> times n A v i = e * v i.

(* B = f(A): every eigenvector of A at e is one of B at f e. *)
Definition function_of (n : nat) (f : C -> C) (A B : nat -> nat -> C) : Prop :=
  forall v e, eigen n A v e -> eigen n B v (f e).

(* w n stands for exp(2 pi i / n) *)
Definition roots (w : nat -> C) : Prop := forall n, (0 < n)%N -> n.-primitive_root (w n).
End Spec.
