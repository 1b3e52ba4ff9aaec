(* Expectation values in linear combinations of Slater determinants. *)

From Verif Require Import Base.
Set Warnings "-notation-overridden,-ambiguous-paths".
From mathcomp Require Import all_ssreflect all_algebra.
From Verif Require Import Rank1_Spec Ortho_Spec.

Set Implicit Arguments.
Unset Strict Implicit.
Unset Printing Implicit Defensive.

Import Order.TTheory GRing.Theory Num.Theory.
Local Open Scope ring_scope.

Section Spec.
Variable C : numClosedFieldType.

(* Column k of A replaced by that of B. *)
Definition with_col n m (A B : 'M[C]_(n, m)) (k : 'I_m) : 'M[C]_(n, m) :=
  \matrix_(i, j) (if j == k then B i j else A i j).

(* <psi| t |phi> for a one-body operator t = sum_ij t_ij c_i^+ c_j: it acts on
   one orbital of phi at a time.  The overlap may vanish. *)
Definition one_body n m (t : 'M[C]_n) (psi phi : 'M[C]_(n, m)) : C :=
  \sum_k overlap (@conjC C) psi (with_col phi (t *m phi) k).

(* The same for two spins. *)
Definition one_body2 n nu nd (t : 'M[C]_n) (psiu phiu : 'M[C]_(n, nu))
    (psid phid : 'M[C]_(n, nd)) : C :=
  one_body t psiu phiu * overlap (@conjC C) psid phid
  + overlap (@conjC C) psiu phiu * one_body t psid phid.

(* <Psi| t |phi> for Psi = sum_i c_i D_i. *)
Definition mixed_sum n nu nd (t : 'M[C]_n) (trial : list (C * 'M[C]_(n, nu) * 'M[C]_(n, nd)))
    (phiu : 'M[C]_(n, nu)) (phid : 'M[C]_(n, nd)) : C :=
  \sum_(d <- trial) (d.1.1)^* * one_body2 t d.1.2 phiu d.2 phid.

(* sum_ij conj(a_i) b_j F_ij = <a|F|b> *)
Definition sesq N (F : 'I_N -> 'I_N -> C) (a b : 'I_N -> C) : C :=
  \sum_i \sum_j (a i)^* * b j * F i j.
(* <c|F|c> / <c|S|c> *)
Definition expectation N (F S : 'I_N -> 'I_N -> C) (c : 'I_N -> C) : C :=
  sesq F c c / sesq S c c.

Definition delta N (i j : 'I_N) : C := (i == j)%:R.

(* All coefficients have the phase of one number. *)
Definition common_phase N (c : 'I_N -> C) : Prop :=
  exists2 z : C, z != 0 & forall i, c i / z \is Num.real.

(* The overlaps of the determinants of the trial with each other. *)
Definition pair_overlap N n nu nd (psiu : 'I_N -> 'M[C]_(n, nu)) (psid : 'I_N -> 'M[C]_(n, nd))
    (i j : 'I_N) : C :=
  overlap2 (psiu i) (psiu j) (psid i) (psid j).

(* The determinant t has a nonzero overlap with the walker. *)
Definition keeps n nu nd (phiu : 'M[C]_(n, nu)) (phid : 'M[C]_(n, nd))
    (t : C * 'M[C]_(n, nu) * 'M[C]_(n, nd)) : bool :=
  overlap2 t.1.2 phiu t.2 phid != 0.

(* The overlaps of t with the walker are at or above the threshold. *)
Definition seen n nu nd (eps : C) (phiu : 'M[C]_(n, nu)) (phid : 'M[C]_(n, nd))
    (t : C * 'M[C]_(n, nu) * 'M[C]_(n, nd)) : Prop :=
  eps <= `|overlap (@conjC C) t.1.2 phiu| /\ eps <= `|overlap2 t.1.2 phiu t.2 phid|.

(* They are, or the overlap is exactly zero. *)
Definition clear n nu nd (eps : C) (phiu : 'M[C]_(n, nu)) (phid : 'M[C]_(n, nd))
    (t : C * 'M[C]_(n, nu) * 'M[C]_(n, nd)) : Prop :=
  seen eps phiu phid t \/ overlap2 t.1.2 phiu t.2 phid = 0.

(* sum_(j < i) Im conj(c_i) c_j H_ij *)
Definition odd_part N (H : 'I_N -> 'I_N -> C) (c : 'I_N -> C) : C :=
  \sum_(i < N) \sum_(j < N | (j < i)%N) 'Im ((c i)^* * c j * H i j).
End Spec.
