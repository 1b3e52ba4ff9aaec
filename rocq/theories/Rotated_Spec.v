(* What the half-rotated Green's function of a trial psi and a walker phi is: the matrix with rows
   in the span of the orbitals of the walker that is dual to the trial.  psi^* times it is the
   Green's function.  Nothing here refers to the model. *)

From Verif Require Import Base.
Set Warnings "-notation-overridden,-ambiguous-paths".
From mathcomp Require Import all_ssreflect all_algebra.

Set Implicit Arguments.
Unset Strict Implicit.
Unset Printing Implicit Defensive.

Import Order.TTheory GRing.Theory Num.Theory.
Local Open Scope ring_scope.

Section Spec.
Variable C : numClosedFieldType.
Definition half_rotated n m (psi phi : 'M[C]_(n, m)) (H : 'M[C]_(m, n)) : Prop :=
  H *m map_mx (@conjC C) psi = 1%:M /\ exists X : 'M[C]_m, H = X *m phi^T.
End Spec.
