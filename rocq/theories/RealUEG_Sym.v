(* The integrals of a potential over real orbitals have the eightfold symmetry. *)

From Verif Require Import Base.
Set Warnings "-notation-overridden,-ambiguous-paths".
From mathcomp Require Import all_ssreflect all_algebra.
From Verif Require Import RealUEG_Model RealUEG_Spec RealUEG_Proofs.

Set Implicit Arguments.
Unset Strict Implicit.
Unset Printing Implicit Defensive.

Import Order.TTheory GRing.Theory Num.Theory.
Local Open Scope ring_scope.

Section Sym.
Variables (C : numClosedFieldType) (n : nat) (basis : 'I_n -> 'rV[int]_3) (sg : 'I_n -> 'I_n).
Hypothesis inj : injective basis.
Hypothesis sgE : forall i, basis (sg i) = - basis i.
Variable v : 'rV[int]_3 -> C.
Hypothesis even : forall q, v (- q) = v q.
Hypothesis real : forall q, (v q)^* = v q.
Local Notation eri := (plane_wave_eri basis v).

Lemma opp_sub (V : zmodType) (a b : V) : - a - - b = - (a - b).
Proof. by rewrite opprB opprK addrC. Qed.

Lemma plane_wave_symmetric : inversion_symmetric basis eri.
Proof.
split=> [m k l s|m k l s m' k' l' s' em ek el es]; rewrite /plane_wave_eri.
  by case: ifP => _; [exact: real|exact: rmorph0].
by rewrite em ek el es !opp_sub eqr_opp even.
Qed.

Lemma eri_pair m k l s : eri (sg m) (sg k) l s = eri k m l s.
Proof. by rewrite /plane_wave_eri !sgE opp_sub opprB. Qed.

Lemma eri_exchange m k l s : eri l s m k = eri m k l s.
Proof.
rewrite /plane_wave_eri -(opprB (basis l)) -(opprB (basis k)) eqr_opp eq_sym even.
by case: eqP => // ->.
Qed.

Variable U : 'M[C]_n.
Hypothesis RU : real_orbitals basis U.

Lemma swap_first p q r t : in_basis U eri q p r t = in_basis U eri p q r t.
Proof.
have ij := inv_inj (sgK inj sgE); have Us m x : U (sg m) x = (U m x)^* by apply: RU.
apply: eq_bigr => s _; apply: eq_bigr => l _; rewrite exchange_big [LHS](reindex_inj ij).
apply: eq_bigr => k _; rewrite [LHS](reindex_inj ij); apply: eq_bigr => m _.
by rewrite !Us conjCK eri_pair; congr (_ * _); rewrite mulrAC.
Qed.

Lemma swap_sums (F : 'I_n -> 'I_n -> 'I_n -> 'I_n -> C) :
  \sum_s \sum_l \sum_k \sum_m F s l k m = \sum_k \sum_m \sum_s \sum_l F s l k m.
Proof.
under eq_bigr do rewrite exchange_big.
rewrite exchange_big; apply: eq_bigr => k _.
under eq_bigr do rewrite exchange_big.
by rewrite exchange_big.
Qed.

Lemma swap_pairs p q r t : in_basis U eri r t p q = in_basis U eri p q r t.
Proof.
rewrite /in_basis swap_sums; apply: eq_bigr => s _; apply: eq_bigr => l _.
apply: eq_bigr => k _; apply: eq_bigr => m _; rewrite eri_exchange; congr (_ * _).
by rewrite -[LHS]mulrA -[RHS]mulrA [LHS]mulrC.
Qed.

Lemma symmetric : eightfold (in_basis U eri).
Proof.
move=> p q r t; split; first exact: swap_first.
by split; [rewrite swap_pairs swap_first swap_pairs|exact: swap_pairs].
Qed.
End Sym.
