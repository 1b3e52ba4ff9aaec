(* Orthonormal orbitals in a metric S.  Nothing here refers to the model. *)

From Verif Require Import Base.
Set Warnings "-notation-overridden,-ambiguous-paths".
From mathcomp Require Import all_ssreflect all_algebra.

Set Implicit Arguments.
Unset Strict Implicit.
Unset Printing Implicit Defensive.

Import Order.TTheory GRing.Theory Num.Theory.
Local Open Scope ring_scope.

Section Spec.
Variable C : numClosedFieldType.
Local Notation "A ^c" := (map_mx (@conjC C) A) (at level 2, format "A ^c").

(* What eigh returns. *)
Definition eigen_of n (S : 'M[C]_n) (d : 'rV[C]_n) (U : 'M[C]_n) : Prop :=
  (U^c)^T *m U = 1%:M /\ S *m U = U *m diag_mx d.

(* The columns of X are orthonormal with the overlap matrix S. *)
Definition orthonormal n k (S : 'M[C]_n) (X : 'M[C]_(n, k)) : Prop := (X^c)^T *m S *m X = 1%:M.
End Spec.
