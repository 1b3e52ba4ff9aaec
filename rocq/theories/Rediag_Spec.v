(* Linear combinations of determinants with the lowest energy, and what is assumed of
   scipy.linalg.eigh.  Nothing here refers to the model. *)

From Verif Require Import Base.
Set Warnings "-notation-overridden,-ambiguous-paths".
From mathcomp Require Import all_ssreflect all_algebra.
From Verif Require Import Rank1_Spec Ortho_Spec MultiDet_Spec Fock_Spec.

Set Implicit Arguments.
Unset Strict Implicit.
Unset Printing Implicit Defensive.

Import Order.TTheory GRing.Theory Num.Theory.
Local Open Scope ring_scope.

Section Spec.
Variable C : numClosedFieldType.

(** LAPACK *)

(* The Hermitian matrix read from the diagonal and the upper triangle. *)
Definition from_upper N (A : 'M[C]_N) : 'M[C]_N :=
  \matrix_(i, j) (if (i < j)%N then A i j else if (j < i)%N then (A j i)^* else 'Re (A i i)).

Definition pos_def N (S : 'M[C]_N) : Prop :=
  forall x : 'cV[C]_N, x != 0 -> 0 < (adj x *m S *m x) 0 0.

Definition increasing N (w : 'rV[C]_N) : Prop :=
  forall i j : 'I_N, (i <= j)%N -> w 0 i <= w 0 j.

(* eigh(H, lower=False) *)
Definition eigh_ok N (eigh : 'M[C]_N -> res ('rV[C]_N * 'M[C]_N)) : Prop :=
  forall H, exists w v, [/\ eigh H = Ok (w, v), increasing w, orthonormal v
    & from_upper H *m v = v *m diag_mx w].

(* eigh(H, S, lower=False) *)
Definition eigh2_ok N (eigh : 'M[C]_N -> 'M[C]_N -> res ('rV[C]_N * 'M[C]_N)) : Prop :=
  forall H S,
  (pos_def (from_upper S) -> exists w v, [/\ eigh H S = Ok (w, v), increasing w,
     adj v *m from_upper S *m v = 1%:M & from_upper H *m v = from_upper S *m v *m diag_mx w]) /\
  (~ pos_def (from_upper S) -> eigh H S = Err ValueError).

(** The lowest expectation value sum c_i^* c_j F_ij / sum c_i^* c_j S_ij *)
Definition lowest N (F S : 'I_N -> 'I_N -> C) (c : 'I_N -> C) : Prop :=
  sesq S c c = 1 /\
  forall x : 'I_N -> C, 0 < sesq S x x -> expectation F S c <= expectation F S x.

(** Combinations of occupation number states *)
Definition combination N M (A : 'I_N -> {set 'I_M}) (x : 'I_N -> C) : state C M :=
  fun T => \sum_i x i * ket C (A i) T.
Definition inner M (f g : state C M) : C := \sum_T (f T)^* * g T.
Definition energy M (op : state C M -> state C M) (f : state C M) : C :=
  inner f (op f) / inner f f.
(* The coefficients of the combination with the lowest energy. *)
Definition ground N M (op : state C M -> state C M) (A : 'I_N -> {set 'I_M}) (c : 'I_N -> C)
  : Prop :=
  inner (combination A c) (combination A c) = 1 /\
  forall x : 'I_N -> C, (exists i, x i != 0) ->
    energy op (combination A c) <= energy op (combination A x).
(* The coefficients of the one with the highest energy. *)
Definition highest N M (op : state C M -> state C M) (A : 'I_N -> {set 'I_M}) (c : 'I_N -> C)
  : Prop :=
  inner (combination A c) (combination A c) = 1 /\
  forall x : 'I_N -> C, (exists i, x i != 0) ->
    energy op (combination A x) <= energy op (combination A c).

(* Determinants of n orbitals with the same numbers of electrons, all different. *)
Definition same_electrons N n (nel nup : nat) (A : 'I_N -> {set 'I_(n + n)}) : Prop :=
  injective A /\ forall i, #|A i| = nel /\ ups (A i) = nup.

(* Determinants that are linearly independent, by their overlaps. *)
Definition independent N (S : 'I_N -> 'I_N -> C) : Prop :=
  forall x : 'I_N -> C, (exists i, x i != 0) -> 0 < sesq S x x.

(* The pairs of determinants whose overlap is above eps, the others without any element. *)
Definition above_only N (eps : C) (S F : 'I_N -> 'I_N -> C) (i j : 'I_N) : C :=
  if eps < `|S i j| then F i j else 0.
End Spec.
