(* What the matrix exponentials are compared with: powers and Taylor
   polynomials.  Nothing here refers to the model. *)

From Verif Require Import Base.
Set Warnings "-notation-overridden,-ambiguous-paths".
From mathcomp Require Import all_ssreflect all_algebra.

Set Implicit Arguments.
Unset Strict Implicit.
Unset Printing Implicit Defensive.

Import GRing.Theory.
Local Open Scope ring_scope.

Section Spec.
Variable K : fieldType.

(* A to the power k *)
Definition mxpow n (A : 'M[K]_n) (k : nat) : 'M[K]_n :=
  iter k (mulmx A) 1%:M.

(* sum of A^k / k! for k up to N *)
Definition taylor n (N : nat) (A : 'M[K]_n) : 'M[K]_n :=
  \sum_(k < N.+1) ((k`!)%:R)^-1 *: mxpow A k.

(* The same for a number. *)
Definition taylor1 (N : nat) (x : K) : K :=
  \sum_(k < N.+1) x ^+ k / (k`!)%:R.

(* The rows and columns of a grid operator that carry orbitals. *)
Definition restrict ng n (gmap : 'I_n -> 'I_ng) (V : 'M[K]_ng) : 'M[K]_n :=
  \matrix_(i, j) V (gmap i) (gmap j).

End Spec.
