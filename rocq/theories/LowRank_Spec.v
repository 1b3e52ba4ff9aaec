(* What the low-rank propagator stack is compared with.  Nothing here refers to the model. *)

From Verif Require Import Base.
Set Warnings "-notation-overridden,-ambiguous-paths".
From mathcomp Require Import all_ssreflect all_fingroup all_algebra.
From Verif Require Import Ortho_Spec.

Set Implicit Arguments.
Unset Strict Implicit.
Unset Printing Implicit Defensive.

Import Order.TTheory GRing.Theory Num.Theory.
Local Open Scope ring_scope.

Section Spec.
Variable C : numClosedFieldType.

(* QR with column pivoting of one matrix of any shape: unitary and upper trapezoidal factors,
   real diagonal, and the pivoting rule: what is left of a later column below a row is never
   longer than the diagonal entry of that row. *)
Definition is_pivoted m k (A : 'M[C]_(m, k)) (Q : 'M[C]_m) (R : 'M[C]_(m, k)) (P : 'S_k)
  : Prop :=
  [/\ col_perm P A = Q *m R, orthonormal Q,
      forall (i : 'I_m) (j : 'I_k), (j < i)%N -> R i j = 0,
      forall (i : 'I_m) (j : 'I_k), i = j :> nat -> R i j \is Num.real
    & forall (i : 'I_m) (j j' : 'I_k), i = j :> nat -> (j <= j')%N ->
        \sum_(l : 'I_m | (i <= l)%N) `|R l j'| ^+ 2 <= `|R i j| ^+ 2].

Definition pivoted (qrp : forall m k, 'M[C]_(m, k) -> 'M[C]_m * 'M[C]_(m, k) * 'S_k) : Prop :=
  forall m k (A : 'M[C]_(m, k)), let '(Q, R, P) := qrp m k A in is_pivoted A Q R P.

Variable n : nat.

(* how many entries are larger than the threshold *)
Definition larger (thresh : C) (d : 'rV[C]_n) : nat := #|[set i | thresh < `|d 0 i|]|.

(* the first m entries, and zeros *)
Definition first_entries (m : nat) (d : 'rV[C]_n) : 'rV[C]_n :=
  \row_i (if (i < m)%N then d 0 i else 0).

Definition col_dist (A B : 'M[C]_n) (j : 'I_n) : C := \sum_i `|A i j - B i j| ^+ 2.
End Spec.
