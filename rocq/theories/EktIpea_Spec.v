(* Orbitals that are orthonormal in a metric and diagonalise a matrix.  Nothing here refers to the
   model. *)

From Verif Require Import Base.
Set Warnings "-notation-overridden,-ambiguous-paths".
From mathcomp Require Import all_ssreflect all_algebra.
From Verif Require Import OrthoAO_Spec.

Set Implicit Arguments.
Unset Strict Implicit.
Unset Printing Implicit Defensive.

Import Order.TTheory GRing.Theory Num.Theory.
Local Open Scope ring_scope.

Section Spec.
Variable C : numClosedFieldType.
Local Notation "A ^c" := (map_mx (@conjC C) A) (at level 2, format "A ^c").

Definition hermitian k (A : 'M[C]_k) : Prop := A = (A^c)^T.

(* Z^+ S Z = 1 and Z^+ F Z = diag(e) *)
Definition diagonalised_by n k (S F : 'M[C]_n) (e : 'rV[C]_k) : Prop :=
  exists Z : 'M[C]_(n, k), orthonormal S Z /\ (Z^c)^T *m F *m Z = diag_mx e.

(* The eigenvalues e of F z = e S z with all eigenvectors. *)
Definition generalised_eigenvalues n k (S F : 'M[C]_n) (e : 'rV[C]_k) : Prop :=
  exists Z : 'M[C]_(n, k), orthonormal S Z /\ F *m Z = S *m Z *m diag_mx e.

(* Zero where the average is below its error. *)
Definition significant n (f : C) (av err A : 'M[C]_n) : Prop :=
  forall i j, (`|av i j| < f * err i j -> A i j = 0) /\ (~~ (`|av i j| < f * err i j) -> A i j = av i j).
End Spec.
