(* Lemmas for C75: overlaps under the threshold. *)

From Verif Require Import Base.
Set Warnings "-notation-overridden,-ambiguous-paths".
From mathcomp Require Import all_ssreflect all_fingroup all_algebra.
From Verif Require Import LEnergy_Proofs Rank1_Spec Ortho_Spec Ortho_Model Ortho_Proofs MultiDet_Spec MultiDet_Model
  MultiDet_Proofs BackProp_Proofs PivotQR_Proofs TGreen_Proofs Fock_Spec Fock_Proofs CI_Model CI_Proofs
  Rediag_Model Rediag_Spec Rediag_Proofs Rediag_More.

Set Implicit Arguments.
Unset Strict Implicit.
Unset Printing Implicit Defensive.

Import Order.TTheory GRing.Theory Num.Theory.
Local Open Scope ring_scope.

(** Two orbitals that are not quite orthogonal. *)
Section Near.
Variable C : numClosedFieldType.
Local Notation cj := (@conjC C).
Variable eps : C.
Hypothesis e0 : 0 < eps.
Hypothesis e1 : eps < 1.

Definition near (i : 'I_2) : 'M[C]_(2, 1) :=
  \matrix_(k, l) (if i == 0 then (k == 0)%:R else if k == 0 then eps else 1).
Definition none (i : 'I_2) : 'M[C]_(2, 0) := 0.
Definition hop : 'M[C]_2 := \matrix_(k, l) (k != l)%:R.
Definition hop_energy (Gu Gd : 'M[C]_2) : C := dot_mx hop Gu + dot_mx hop Gd.
Local Notation S_el := (pair_overlap near none).
Let F (i j : 'I_2) : C := S_el i j * hop_energy (green cj (near i) (near j)) (green cj (none i) (none j)).

Lemma epsC : eps^* = eps.
Proof. by apply/CrealP; rewrite gtr0_real. Qed.

Lemma near_el i k : near i k 0 = if i == 0 then (k == 0)%:R else if k == 0 then eps else 1.
Proof. by rewrite mxE. Qed.

Lemma SE i j : S_el i j = \sum_k (near i k 0)^* * near j k 0.
Proof.
rewrite /pair_overlap /overlap2 overlap0 mulr1 /overlap det_mx11 mxE.
by apply: eq_bigr => k _; rewrite !mxE.
Qed.

Lemma S00 : S_el 0 0 = 1.
Proof. by rewrite SE two_sum !near_el /= conjC1 conjC0 mulr1 mul0r addr0. Qed.
Lemma S01 : S_el 0 1 = eps.
Proof. by rewrite SE two_sum !near_el /= conjC1 conjC0 mul1r mul0r addr0. Qed.
Lemma S10 : S_el 1 0 = eps.
Proof. by rewrite -S_conj S01 epsC. Qed.
Lemma S11 : S_el 1 1 = 1 + eps ^+ 2.
Proof. by rewrite SE two_sum !near_el /= conjC1 epsC mulr1 addrC. Qed.

Lemma S_nz2 i j : S_el i j != 0.
Proof.
have c (k : 'I_2) : k = 0 \/ k = 1 by case: k => [[|[|k]] h] //; [left|right]; exact: val_inj.
have p : 0 < 1 + eps ^+ 2 by rewrite ltr_paddr ?exprn_ge0 ?ltr01 // ltW.
by case: (c i) => ->; case: (c j) => ->; rewrite ?S00 ?S01 ?S10 ?S11 ?oner_eq0 ?gt_eqF.
Qed.

Lemma FE i j : F i j = (near i 0 0)^* * near j 1 0 + (near i 1 0)^* * near j 0 0.
Proof.
have u := @units_pair C 2 2 1 0 near none S_nz2 i j.
rewrite /F /hop_energy mulrDr.
have -> : dot_mx hop (green cj (none i) (none j)) = 0.
  rewrite /dot_mx big1 // => k _; rewrite big1 // => l _.
  by rewrite [X in _ * X]mxE [X in _ * X]mxE big_ord0 mulr0.
rewrite mulr0 addr0 /pair_overlap /overlap2 overlap0 mulr1 -one_body_green; last by case: u.
rewrite MultiDet_Proofs.one_body1 mxE two_sum ![adj _ _ _]mxE ![map_mx _ _ _ _]mxE.
rewrite ![(hop *m _) _ _]mxE !two_sum ![hop _ _]mxE /= !mul0r !mul1r.
by rewrite add0r addr0.
Qed.

Lemma F00 : F 0 0 = 0.
Proof. by rewrite FE !near_el /= conjC0 mul0r mulr0 addr0. Qed.
Lemma F01 : F 0 1 = 1.
Proof. by rewrite FE !near_el /= conjC1 conjC0 mul0r mulr1 addr0. Qed.
Lemma F10 : F 1 0 = 1.
Proof. by rewrite FE !near_el /= conjC1 mulr0 mulr1 add0r. Qed.
Lemma F11 : F 1 1 = eps *+ 2.
Proof. by rewrite FE !near_el /= conjC1 epsC mulr1 mul1r mulr2n. Qed.

Lemma F_herm i j : (F i j)^* = F j i.
Proof.
rewrite !FE !rmorphD !rmorphM /= !conjCK addrC.
by rewrite [X in X + _ = _]mulrC [X in _ + X = _]mulrC.
Qed.

Lemma sesq2 (G : 'I_2 -> 'I_2 -> C) x : sesq G x x =
  `|x 0| ^+ 2 * G 0 0 + (x 0)^* * x 1 * G 0 1 + ((x 1)^* * x 0 * G 1 0 + `|x 1| ^+ 2 * G 1 1).
Proof. by rewrite /sesq !two_sum !normCK [x 0 * _]mulrC [x 1 * _]mulrC. Qed.

Let Fc := above_only eps S_el F.
Let Sc := above_only eps S_el S_el.

Lemma cut00 (G : 'I_2 -> 'I_2 -> C) : above_only eps S_el G 0 0 = G 0 0.
Proof. by rewrite /above_only S00 normr1 e1. Qed.
Lemma cut01 (G : 'I_2 -> 'I_2 -> C) : above_only eps S_el G 0 1 = 0.
Proof. by rewrite /above_only S01 gtr0_norm // ltxx. Qed.
Lemma cut10 (G : 'I_2 -> 'I_2 -> C) : above_only eps S_el G 1 0 = 0.
Proof. by rewrite /above_only S10 gtr0_norm // ltxx. Qed.
Lemma S11_gt : 1 < S_el 1 1.
Proof. by rewrite S11 ltr_addl exprn_gt0. Qed.
Lemma cut11 (G : 'I_2 -> 'I_2 -> C) : above_only eps S_el G 1 1 = G 1 1.
Proof.
rewrite /above_only gtr0_norm ?(lt_trans ltr01 S11_gt) //.
by rewrite (lt_trans e1 S11_gt).
Qed.

Lemma Sc2 x : sesq Sc x x = `|x 0| ^+ 2 + `|x 1| ^+ 2 * (1 + eps ^+ 2).
Proof. by rewrite sesq2 /Sc cut00 cut01 cut10 cut11 S00 S11 !mulr0 mulr1 addr0 add0r. Qed.
Lemma Fc2 x : sesq Fc x x = `|x 1| ^+ 2 * (eps *+ 2).
Proof. by rewrite sesq2 /Fc cut00 cut01 cut10 cut11 F00 F11 !mulr0 !add0r. Qed.

Lemma pick2 (x : 'I_2 -> C) : (exists i, x i != 0) -> x 0 != 0 \/ x 1 != 0.
Proof.
have c (k : 'I_2) : k = 0 \/ k = 1 by case: k => [[|[|k]] h] //; [left|right]; exact: val_inj.
by move=> [i]; case: (c i) => ->; [left|right].
Qed.

Lemma Sc_indep : independent Sc.
Proof.
move=> x /pick2 h; rewrite Sc2.
have p : 0 < 1 + eps ^+ 2 by rewrite -S11 (lt_trans ltr01 S11_gt).
case: h => h.
- by rewrite ltr_paddr ?exprn_gt0 ?normr_gt0 ?mulr_ge0 ?exprn_ge0 // ltW.
- by rewrite ltr_paddl ?exprn_ge0 // mulr_gt0 // exprn_gt0 ?normr_gt0.
Qed.

Lemma near_wrong c : lowest Fc Sc c -> ~ lowest F S_el c.
Proof.
move=> [h1 h2] [_ lo].
pose x (z : C) (i : 'I_2) : C := if i == 0 then 1 else z.
have p : 0 < 1 + eps ^+ 2 by rewrite -S11 (lt_trans ltr01 S11_gt).
have c1 : c 1 = 0.
  have := h2 (x 0); rewrite /expectation h1 !Sc2 !Fc2 /x /= normr0 normr1 !expr0n expr1n /= !mul0r.
  rewrite addr0 divr1 => /(_ ltr01).
  rewrite pmulr_lle0 ?pmulrn_lgt0 // => h.
  have : `|c 1| ^+ 2 = 0 by apply/eqP; rewrite eq_le h exprn_ge0.
  by move/eqP; rewrite sqrf_eq0 normr_eq0 => /eqP.
have Fx : sesq F c c = 0.
  by rewrite sesq2 F00 c1 conjC0 normr0 expr0n !(mul0r, mulr0) !addr0.
have q : 0 < 1 - eps by rewrite subr_gt0.
have Sv : sesq S_el (x (-1)) (x (-1)) = (1 - eps) ^+ 2 + 1.
  rewrite sesq2 S00 S01 S10 S11 /x /= normrN normr1 rmorphN /= conjC1 expr1n !mul1r !mulr1 !mulN1r.
  rewrite sqrrB expr1n mul1r [eps *+ 2]mulr2n opprD -!addrA; do 3 congr (_ + _).
  by rewrite addrC.
have Sx : 0 < sesq S_el (x (-1)) (x (-1)).
  by rewrite Sv; apply: ltr_paddl; rewrite ?ltr01 // exprn_ge0 // ltW.
have := lo _ Sx; rewrite {1}/expectation Fx mul0r.
rewrite /expectation pmulr_lge0 ?invr_gt0 // sesq2 F00 F01 F10 F11 /x /= normrN normr1 rmorphN /= conjC1.
rewrite expr1n !mul1r !mulr1 add0r.
have -> : -1 + (-1 + eps *+ 2) = - ((1 - eps) *+ 2).
  by rewrite mulrnBl opprB addrA [RHS]addrC; congr (_ + _); rewrite -opprD.
by rewrite oppr_ge0 lt_geF // pmulrn_lgt0.
Qed.
End Near.

Lemma above_all (C : numClosedFieldType) N (eps : C) (S F : 'I_N -> 'I_N -> C) :
  (forall i j, eps < `|S i j|) -> forall i j, above_only eps S F i j = F i j.
Proof. by move=> h i j; rewrite /above_only h. Qed.

Lemma sesq_ext (C : numClosedFieldType) N (F G : 'I_N -> 'I_N -> C) x y :
  (forall i j, F i j = G i j) -> sesq F x y = sesq G x y.
Proof. by move=> h; apply: eq_bigr => i _; apply: eq_bigr => j _; rewrite h. Qed.

Lemma general_above (C : numClosedFieldType) m n nu nd
    (psiu : 'I_m.+1 -> 'M[C]_(n, nu)) (psid : 'I_m.+1 -> 'M[C]_(n, nd)) (eps : C)
    (le : 'M[C]_n -> 'M[C]_n -> C) (eigh : 'M[C]_m.+1 -> 'M[C]_m.+1 -> res ('rV[C]_m.+1 * 'M[C]_m.+1)) :
  let S := pair_overlap psiu psid in
  let F i j := S i j * le (green (@conjC C) (psiu i) (psiu j)) (green (@conjC C) (psid i) (psid j)) in
  (forall i j, (F i j)^* = F j i) -> 0 <= eps -> (forall i j, eps < `|S i j|) ->
  eigh2_ok eigh ->
  (independent S -> exists2 c : 'cV[C]_m.+1,
     recompute_general eigh eps false le psiu psid = Ok c & lowest F S (fun i => c i 0)) /\
  (~ independent S -> recompute_general eigh eps false le psiu psid = Err ValueError).
Proof.
move=> S F hF e0 h he.
have nz i j : S i j != 0 by rewrite -normr_gt0 (le_lt_trans e0 (h i j)).
have ES x := sesq_ext x x (above_all S h).
have EF x := sesq_ext x x (above_all F h).
have ind : independent (above_only eps S S) <-> independent S.
  by split=> k x hx; have := k x hx; rewrite ES.
split=> [k|k]; last by apply: (general_dependent hF nz he); move/ind.
have [c e [l1 l2]] := general_lowest hF nz he ((proj2 ind) k).
exists c => //; split=> [|x hx]; first by rewrite -ES.
by have := l2 x; rewrite /expectation !ES !EF; exact.
Qed.

Lemma threshold_wrong (C : numClosedFieldType) (eps : C) : 0 < eps -> eps < 1 ->
  exists (psiu : 'I_2 -> 'M[C]_(2, 1)) (psid : 'I_2 -> 'M[C]_(2, 0)) (t : 'M[C]_2),
  let le Gu Gd := dot_mx t Gu + dot_mx t Gd in
  let S := pair_overlap psiu psid in
  let F i j := S i j * le (green (@conjC C) (psiu i) (psiu j)) (green (@conjC C) (psid i) (psid j)) in
  [/\ forall i j, (F i j)^* = F j i, forall i j, S i j != 0 &
    forall eigh : 'M[C]_2 -> 'M[C]_2 -> res ('rV[C]_2 * 'M[C]_2), eigh2_ok eigh ->
    exists2 c : 'cV[C]_2, recompute_general eigh eps false le psiu psid = Ok c &
      ~ lowest F S (fun i => c i 0)].
Proof.
move=> e0 e1; exists (near eps), (@none C), (hop C); move=> le S F.
have hF i j : (F i j)^* = F j i := F_herm e0 i j.
have nz i j : S i j != 0 := S_nz2 e0 i j.
split=> // eigh he.
have [c e lo] := @general_lowest C 1 2 1 0 (near eps) (@none C) eps le hF nz eigh he (Sc_indep e0 e1).
by exists c => //; exact: near_wrong lo.
Qed.

Section RingFacts.
Context {K : Type} {z o : K} {ad mu sb : K -> K -> K} {op : K -> K}.
Hypothesis Kth : ring_theory z o ad mu sb op (@eq K).
Add Ring Kring : Kth.
Lemma near_ring a b a' b' e :
  ad (ad (mu (mu a a') o) (mu (mu a' b) e))
     (ad (mu (mu b' a) e) (mu (mu b b') (ad o (mu e e))))
  = ad (mu (ad a (mu e b)) (ad a' (mu e b'))) (mu b b').
Proof. ring. Qed.
End RingFacts.

Lemma near_case (C : numClosedFieldType) :
  let S := pair_overlap (near (2%:R^-1 : C)) (@none C) in
  independent S /\ forall i j, 4%:R^-1 < `|S i j|.
Proof.
set e := 2%:R^-1; move=> S.
have e0 : 0 < e :> C by rewrite invr_gt0 ltr0n.
have ec := epsC e0.
have q : 4%:R^-1 < e :> C by rewrite ltf_pinv ?posrE ?ltr0n // ltr_nat.
have q1 : e < 1 :> C by rewrite invf_lt1 ?ltr0n // ltr1n.
have p0 : 0 < (1 + e ^+ 2 : C) by rewrite ltr_paddr ?exprn_ge0 ?ltr01 // ltW.
split=> [x hx|i j].
- have -> : sesq S x x = `|x 0 + e * x 1| ^+ 2 + `|x 1| ^+ 2.
    rewrite /S sesq2 S00 S01 // S10 // S11 // !normCK rmorphD rmorphM /= ec.
    rewrite expr2; exact: (near_ring (comring_th C)).
  case: (pick2 hx) => h; last by rewrite ltr_paddl ?exprn_ge0 // exprn_gt0 ?normr_gt0.
  have [z|z] := eqVneq (x 1) 0.
    by rewrite z mulr0 addr0 normr0 expr0n addr0 exprn_gt0 ?normr_gt0.
  by rewrite ltr_paddl ?exprn_ge0 // exprn_gt0 ?normr_gt0.
- have c (k : 'I_2) : k = 0 \/ k = 1 by case: k => [[|[|k]] h] //; [left|right]; exact: val_inj.
  have q2 : 4%:R^-1 < 1 :> C := lt_trans q q1.
  case: (c i) => ->; case: (c j) => ->; rewrite /S ?S00 ?S01 ?S10 ?S11 ?normr1 ?gtr0_norm //.
  by rewrite (lt_trans q2) // ltr_addl exprn_gt0.
Qed.
