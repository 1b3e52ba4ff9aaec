(* States that obey Wick's theorem, and the matrices of the extended Koopmans'
   theorem. *)

From Verif Require Import Base.
Set Warnings "-notation-overridden,-ambiguous-paths".
From mathcomp Require Import all_ssreflect all_algebra.
From Verif Require Import Reorder_Spec.

Set Implicit Arguments.
Unset Strict Implicit.
Unset Printing Implicit Defensive.

Import Order.TTheory GRing.Theory Num.Theory.
Local Open Scope ring_scope.

Section Spec.
Variable C : numClosedFieldType.
Variable A : algType C.
Variable M : nat.
Variables cd c : 'I_M -> bool -> A.

(* <c+_ps c_qt> *)
Definition pair_mean (P : bool -> 'M[C]_M) p (s : bool) q t : C :=
  if s == t then P s p q else 0.

(* E is a normalised linear functional, with density matrices P, for which
   the average of two pairs is given by Wick's theorem. *)
Record wick_state (E : A -> C) (P : bool -> 'M[C]_M) : Prop := MkWick {
  ws_linear : forall a x y, E (a *: x + y) = a * E x + E y;
  ws_one : E 1 = 1;
  ws_pair : forall p s q t, E (cd p s * c q t) = pair_mean P p s q t;
  ws_wick : forall p s q t u t' r s',
    E (cd p s * cd q t * c u t' * c r s')
    = pair_mean P p s r s' * pair_mean P q t u t'
      - pair_mean P p s u t' * pair_mean P q t r s'
}.

(* Removing and adding an electron. *)
Definition hole_matrix (E : A -> C) (H : A) p q s : C :=
  E (cd p s * (H * c q s - c q s * H)).
Definition particle_matrix (E : A -> C) (H : A) p q s : C :=
  E (c p s * (H * cd q s - cd q s * H)).

End Spec.
