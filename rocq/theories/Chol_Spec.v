(* Vocabulary for C47 and C48. *)

From Verif Require Import Base.
Set Warnings "-notation-overridden,-ambiguous-paths".
From mathcomp Require Import all_ssreflect all_algebra.
From Verif Require Import Ortho_Spec.

Set Implicit Arguments.
Unset Strict Implicit.
Unset Printing Implicit Defensive.

Import Order.TTheory GRing.Theory Num.Theory.
Local Open Scope ring_scope.

Section Chol.
Variable C : numClosedFieldType.
Variable n : nat.
Implicit Types (M : 'M[C]_n) (L : seq 'cV[C]_n).

Definition hermitian M : Prop := adj M = M.

(* x^H M x >= 0 for every x. *)
Definition positive M : Prop := forall x : 'cV[C]_n, 0 <= (adj x *m M *m x) 0 0.

(* The matrix the vectors stand for. *)
Definition rebuilt L : 'M[C]_n := \sum_(v <- L) v *m adj v.

(* The vectors L are a pivoted decomposition of M: there is one pivot for
   every vector, no pivot twice, and the rows of the pivots are exact. *)
Definition exact_on (pivots : seq 'I_n) M L : Prop :=
  forall p q, p \in pivots -> rebuilt L p q = M p q.

Definition real_matrix M : Prop := forall p q, M p q \is Num.real.
End Chol.

(* Orbital j is orbital number off of shell s, where the shells follow each
   other: the shells before s hold j - off orbitals together. *)
Definition in_shell (sizes : seq nat) (j s off : nat) : Prop :=
  (s < size sizes)%N /\ (off < nth 0%N sizes s)%N
  /\ j = (sumn (take s sizes) + off)%N.
