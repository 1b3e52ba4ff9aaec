(* The regularised matrix inverse.

   Sources (all under /repo/pauxy):
     utils/linalg.py 60-80   regularise_matrix_inverse

   Simplifications: numbers as in Ortho_Model; square matrices only (with rectangular ones the
   products do not match and numpy raises ValueError).  scipy.linalg.svd is an argument that may
   raise.  0 / 0 is NaN and spreads to every element of the products: the result None. *)

From Verif Require Import Base.
Set Warnings "-notation-overridden,-ambiguous-paths".
From mathcomp Require Import all_ssreflect all_algebra.

Set Implicit Arguments.
Unset Strict Implicit.
Unset Printing Implicit Defensive.

Import Order.TTheory GRing.Theory Num.Theory.
Local Open Scope ring_scope.

Section RegInv.
Variable C : numClosedFieldType.
Variable n : nat.
Variable svd : 'M[C]_n -> res ('M[C]_n * 'rV[C]_n * 'M[C]_n).
Local Notation "A ^c" := (map_mx (@conjC C) A) (at level 2, format "A ^c").

Definition damped (cutoff : C) (D : 'rV[C]_n) : 'rV[C]_n :=
  \row_i (D 0 i / (cutoff ^+ 2 + D 0 i ^+ 2)).

Definition regularise (A : 'M[C]_n) (cutoff : C) : res (option 'M[C]_n) :=
  rbind (svd A) (fun r =>
  let '(U, D, V) := r in
  if [exists i, cutoff ^+ 2 + D 0 i ^+ 2 == 0] then Ok None else
  Ok (Some ((V^c)^T *m diag_mx (damped cutoff D) *m (U^c)^T))).
End RegInv.
