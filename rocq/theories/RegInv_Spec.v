(* Damped least squares.  Nothing here refers to the model. *)

From Verif Require Import Base.
Set Warnings "-notation-overridden,-ambiguous-paths".
From mathcomp Require Import all_ssreflect all_algebra.
From Verif Require Import Ortho_Spec.

Set Implicit Arguments.
Unset Strict Implicit.
Unset Printing Implicit Defensive.

Import Order.TTheory GRing.Theory Num.Theory.
Local Open Scope ring_scope.

Section Spec.
Variable C : numClosedFieldType.

(* A singular value decomposition of A. *)
Definition svd_of n (A U : 'M[C]_n) (D : 'rV[C]_n) (V : 'M[C]_n) : Prop :=
  [/\ A = U *m diag_mx D *m V, orthonormal U, orthonormal V & forall i, 0 <= D 0 i].

Definition sqnorm n (x : 'cV[C]_n) : C := \sum_i `|x i 0| ^+ 2.

(* |A x - b|^2 + c^2 |x|^2 *)
Definition cost n (A : 'M[C]_n) (c : C) (b x : 'cV[C]_n) : C :=
  sqnorm (A *m x - b) + c ^+ 2 * sqnorm x.

(* The only minimum. *)
Definition minimiser n (f : 'cV[C]_n -> C) (x : 'cV[C]_n) : Prop :=
  forall y, f x <= f y /\ (f y = f x -> y = x).

(* A^H A + c^2 *)
Definition normal_mx n (A : 'M[C]_n) (c : C) : 'M[C]_n := adj A *m A + (c ^+ 2)%:M.
End Spec.
