(* Proofs about the regularised inverse. *)

From Verif Require Import Base.
Set Warnings "-notation-overridden,-ambiguous-paths".
From mathcomp Require Import all_ssreflect all_fingroup all_algebra.
From Verif Require Import Rank1_Spec Ortho_Spec Ortho_Proofs Spectral_Proofs Rediag_Proofs
  LEnergy_Proofs RegInv_Model RegInv_Spec.

Set Implicit Arguments.
Unset Strict Implicit.
Unset Printing Implicit Defensive.

Import Order.TTheory GRing.Theory Num.Theory.
Local Open Scope ring_scope.

Section RingFacts.
Variables (K : Type) (z o : K) (ad mu sb : K -> K -> K) (op : K -> K).
Hypothesis Kth : ring_theory z o ad mu sb op eq.
Add Ring Kring : Kth.
Lemma ring_cross a b c d : ad (ad a b) (ad c d) = ad (ad a d) (ad b c).
Proof. ring. Qed.
Lemma ring_cost a1 a2 a3 a4 p q s t k :
  ad (ad (ad a1 a2) (ad s p)) (mu k (ad (ad a3 a4) (ad t q)))
  = ad (ad (ad a1 (mu k a3)) (ad a2 (mu k a4))) (ad (ad p (mu k q)) (ad s (mu k t))).
Proof. ring. Qed.
Lemma ring_squares c d : mu (ad o (ad o (ad o o))) (mu (mu c c) (mu d d))
  = sb (mu (ad (mu c c) (mu d d)) (ad (mu c c) (mu d d))) (mu (sb (mu c c) (mu d d)) (sb (mu c c) (mu d d))).
Proof. ring. Qed.
End RingFacts.

Section Facts.
Variable C : numClosedFieldType.

Lemma sqnormE n (x : 'cV[C]_n) : sqnorm x = (adj x *m x) 0 0.
Proof. by rewrite -[X in X *m x]mulmx1 one_quad. Qed.

Lemma sqnorm_ge0 n (x : 'cV[C]_n) : 0 <= sqnorm x.
Proof. by apply: sumr_ge0 => i _; rewrite exprn_ge0. Qed.

Lemma sqnorm_add n (x y : 'cV[C]_n) :
  sqnorm (x + y) = sqnorm x + sqnorm y + ((adj x *m y) 0 0 + (adj y *m x) 0 0).
Proof.
rewrite !sqnormE adj_add mulmxDl !mulmxDr.
rewrite mxE [X in X + _]mxE [X in _ + X]mxE; exact: (ring_cross (comring_th C)).
Qed.

Lemma adj_adj n m (A : 'M[C]_(n, m)) : adj (adj A) = A.
Proof. by apply/matrixP => i j; rewrite !mxE conjCK. Qed.

Lemma sqnorm_unitary n (Q : 'M[C]_n) x : orthonormal Q -> sqnorm (Q *m x) = sqnorm x.
Proof. by move=> o; rewrite !sqnormE adjM mulmxA -(mulmxA (adj x)) o mulmx1. Qed.

Lemma orthonormal_adj n (Q : 'M[C]_n) : orthonormal Q -> orthonormal (adj Q).
Proof. by rewrite /orthonormal adj_adj => /mulmx1C. Qed.

Section Normal.
Variables (n : nat) (A B : 'M[C]_n) (c : C).
Hypothesis cr : c \is Num.real.
Hypothesis c0 : c != 0.
Hypothesis nB : normal_mx A c *m B = adj A.

Lemma c2 : 0 < c ^+ 2.
Proof. by rewrite lt_def sqrf_eq0 c0 -realEsqr. Qed.

Lemma cost_step b h : cost A c b (B *m b + h) = cost A c b (B *m b) + (sqnorm (A *m h) + c ^+ 2 * sqnorm h).
Proof.
set x := B *m b; set r := A *m x - b.
have z : adj A *m r + c ^+ 2 *: x = 0.
  rewrite /r mulmxBr mulmxA addrAC; apply/eqP; rewrite subr_eq0; apply/eqP.
  by rewrite -[X in _ = X *m b]nB -[RHS]mulmxA -/x /normal_mx mulmxDl mul_scalar_mx.
have z1 : (adj (A *m h) *m r) 0 0 + c ^+ 2 * (adj h *m x) 0 0 = 0.
  have : adj h *m (adj A *m r + c ^+ 2 *: x) = 0 by rewrite z mulmx0.
  rewrite mulmxDr mulmxA -adjM -scalemxAr => /matrixP /(_ 0 0); rewrite mxE [RHS]mxE => <-.
  by congr (_ + _); rewrite [RHS]mxE.
have z2 : (adj r *m (A *m h)) 0 0 + c ^+ 2 * (adj x *m h) 0 0 = 0.
  have e : adj (adj A *m r + c ^+ 2 *: x) = 0 by rewrite z; apply/matrixP => i j; rewrite !mxE conjC0.
  move: e; rewrite adj_add adjM adj_adj (_ : adj (c ^+ 2 *: x) = c ^+ 2 *: adj x); last first.
    by apply/matrixP => i j; rewrite !mxE rmorphM rmorphX (CrealP cr).
  move=> e; have : (adj r *m A + c ^+ 2 *: adj x) *m h = 0 by rewrite e mul0mx.
  rewrite mulmxDl -mulmxA -scalemxAl => /matrixP /(_ 0 0); rewrite mxE [RHS]mxE => <-.
  by congr (_ + _); rewrite [RHS]mxE.
rewrite /cost mulmxDr addrAC -/r !sqnorm_add.
move: z1 z2; move: (sqnorm r) (sqnorm (A *m h)) (sqnorm x) (sqnorm h) => a1 a2 a3 a4.
move: ((adj (A *m h) *m r) 0 0) ((adj h *m x) 0 0) ((adj r *m (A *m h)) 0 0) ((adj x *m h) 0 0).
move=> p q s t z1 z2; move: (c ^+ 2) z1 z2 => k z1 z2.
rewrite (ring_cost (comring_th C)).
by rewrite z1 z2 !addr0.
Qed.

Lemma minimiser_lemma b : minimiser (cost A c b) (B *m b).
Proof.
move=> y; rewrite -(subrK (B *m b) y) addrC; move: (y - B *m b) => h; rewrite cost_step.
have p : 0 <= c ^+ 2 * sqnorm h by rewrite mulr_ge0 ?sqnorm_ge0 // ltW ?c2.
split; first by rewrite ler_addl addr_ge0 // sqnorm_ge0.
move/eqP; rewrite -subr_eq0 addrAC subrr add0r paddr_eq0 ?sqnorm_ge0 // => /andP[_].
rewrite mulf_eq0 gt_eqF ?c2 //= => /eqP /sq_eq0 ->.
by rewrite addr0.
Qed.
End Normal.

Section Inverse.
Variables (n : nat) (A U V : 'M[C]_n) (D : 'rV[C]_n) (c : C).
Hypothesis sv : svd_of A U D V.
Hypothesis cr : c \is Num.real.

Let B := adj V *m diag_mx (damped c D) *m adj U.

Lemma D_real i : D 0 i \is Num.real.
Proof. by case: sv => _ _ _ p; apply: ger0_real. Qed.

Lemma UU : adj U *m U = 1%:M. Proof. by case: sv. Qed.
Lemma VV : V *m adj V = 1%:M. Proof. by case: sv => _ _ o _; apply: mulmx1C. Qed.

Lemma adjA : adj A = adj V *m diag_mx D *m adj U.
Proof.
case: sv => -> _ _ _; rewrite !adjM (adj_diag D_real) mulmxA //.
Qed.

Lemma diag_mul (x y : 'rV[C]_n) : diag_mx x *m diag_mx y = diag_mx (\row_i (x 0 i * y 0 i)).
Proof. by rewrite mulmx_diag. Qed.

Lemma zeroD i : c ^+ 2 + D 0 i ^+ 2 == 0 -> c = 0 /\ D 0 i = 0.
Proof.
rewrite paddr_eq0 -?realEsqr ?D_real // !sqrf_eq0 => /andP[/eqP -> /eqP ->] //.
Qed.

Hypothesis nz : forall i, c ^+ 2 + D 0 i ^+ 2 != 0.

Lemma normal_lemma : normal_mx A c *m B = adj A.
Proof.
have e : normal_mx A c = adj V *m diag_mx (\row_i (c ^+ 2 + D 0 i ^+ 2)) *m V.
  rewrite /normal_mx adjA; case: sv => {1}-> _ oV _.
  rewrite !mulmxA -(mulmxA (adj V *m diag_mx D)) UU mulmx1 -(mulmxA (adj V)) diag_mul.
  rewrite (_ : (c ^+ 2)%:M = adj V *m diag_mx (const_mx (c ^+ 2)) *m V); last first.
    by rewrite diag_const_mx mul_mx_scalar -scalemxAl oV -scalemx1.
  rewrite -mulmxDl -mulmxDr -raddfD /=; congr (_ *m diag_mx _ *m _).
  by apply/rowP => i; rewrite !mxE addrC expr2.
rewrite e /B !mulmxA -(mulmxA _ V) VV mulmx1 -(mulmxA (adj V)) diag_mul adjA.
congr (_ *m diag_mx _ *m _); apply/rowP => i; rewrite !mxE mulrC mulfVK //.
Qed.

Lemma bounded_lemma b : 4%:R * c ^+ 2 * sqnorm (B *m b) <= sqnorm b.
Proof.
case: sv => _ oU oV _.
rewrite /B -!mulmxA (sqnorm_unitary _ (orthonormal_adj oV)) -(sqnorm_unitary b (orthonormal_adj oU)).
move: (adj U *m b) => x; rewrite /sqnorm mulr_sumr; apply: ler_sum => i _.
rewrite mul_diag_mx !mxE normrM exprMn mulrA -[leRHS]mul1r ler_wpmul2r ?exprn_ge0 //.
have p : 0 < c ^+ 2 + D 0 i ^+ 2.
  by rewrite lt_def nz addr_ge0 // -realEsqr ?D_real.
rewrite real_normK ?rpred_div ?rpredD ?rpredX ?D_real //.
rewrite expr_div_n mulrA ler_pdivr_mulr ?exprn_gt0 // mul1r -subr_ge0.
have -> : (c ^+ 2 + D 0 i ^+ 2) ^+ 2 - 4%:R * c ^+ 2 * D 0 i ^+ 2 = (c ^+ 2 - D 0 i ^+ 2) ^+ 2.
  have := ring_squares (comring_th C) c (D 0 i); rewrite -!expr2 => h.
  by rewrite -mulrA (_ : 4%:R = 1 + (1 + (1 + 1))) // h opprB addrCA subrr addr0.
by rewrite -realEsqr rpredB ?rpredX ?D_real.
Qed.

Lemma exact_lemma : c = 0 -> B *m A = 1%:M.
Proof.
move=> c0; case: sv => {1}-> _ oV _; rewrite /B !mulmxA -(mulmxA _ (adj U)) UU mulmx1.
rewrite -(mulmxA (adj V)) diag_mul (_ : \row_i _ = const_mx 1) ?diag_const_mx ?mulmx1 //.
apply/rowP => i; rewrite !mxE c0 expr0n add0r.
have d0 : D 0 i != 0 by move: (nz i); rewrite c0 expr0n add0r sqrf_eq0.
by rewrite expr2 invfM mulrA divff // mul1r mulVf.
Qed.

Lemma pseudo_lemma : c != 0 -> A *m B *m A = A -> A = 0.
Proof.
move=> c0; case: sv => eA oU oV _.
have e : A *m B *m A = U *m diag_mx (\row_i (D 0 i * (damped c D) 0 i * D 0 i)) *m V.
  rewrite {1 2}eA /B !mulmxA -(mulmxA _ V) VV mulmx1 -(mulmxA _ (adj U)) UU mulmx1.
  rewrite -!(mulmxA U) !diag_mul; congr (_ *m (diag_mx _ *m _)).
  by apply/rowP => i; rewrite !mxE.
rewrite e => h.
have {}h : diag_mx (\row_i (D 0 i * (damped c D) 0 i * D 0 i)) = diag_mx D.
  have := congr1 (fun X => adj U *m X *m adj V) h.
  by rewrite eA !mulmxA UU mul1mx -!mulmxA VV !mulmx1 mul1mx.
rewrite eA (_ : D = 0) ?raddf0 ?mulmx0 ?mul0mx //.
apply/rowP => i; rewrite [RHS]mxE; apply/eqP/negPn/negP => d0.
have := congr1 (fun X : 'M_n => X i i) h; rewrite !mxE eqxx !mulr1n.
move/(canRL (mulfK d0)); rewrite divff // mulrA -expr2 => /(canRL (mulfVK (nz i))).
rewrite mul1r => /eqP; rewrite -subr_eq0 opprD addrCA subrr addr0 oppr_eq0 sqrf_eq0.
by rewrite (negbTE c0).
Qed.
End Inverse.

Lemma unit_D n (A U V : 'M[C]_n) D : svd_of A U D V -> (A \in unitmx) = [forall i, D 0 i != 0].
Proof.
case=> -> oU oV _; have [_ uU] := mulmx1_unit oU; have [_ uV] := mulmx1_unit oV.
rewrite !unitmx_mul uU uV andbT /= unitmxE det_diag unitfE.
by apply/prodf_neq0/forallP => h i; [apply: h | move=> _; apply: h].
Qed.

Section Code.
Variables (n : nat) (svd : 'M[C]_n -> res ('M[C]_n * 'rV[C]_n * 'M[C]_n)).
Variables (A U V : 'M[C]_n) (D : 'rV[C]_n) (c : C).
Hypothesis e : svd A = Ok (U, D, V).
Hypothesis sv : svd_of A U D V.
Hypothesis cr : c \is Num.real.

Lemma code_ok : (forall i, c ^+ 2 + D 0 i ^+ 2 != 0) ->
  regularise svd A c = Ok (Some (adj V *m diag_mx (damped c D) *m adj U)).
Proof.
by move=> nz; rewrite /regularise e /=; case: existsP => // -[i]; rewrite (negbTE (nz i)).
Qed.

Lemma nz_c : c != 0 -> forall i, c ^+ 2 + D 0 i ^+ 2 != 0.
Proof. by move=> c0 i; apply/negP => /(zeroD sv cr) [h _]; rewrite h eqxx in c0. Qed.

Lemma code_cutoff : c != 0 -> exists B, [/\ regularise svd A c = Ok (Some B),
  normal_mx A c \in unitmx, B = invmx (normal_mx A c) *m adj A & normal_mx A c *m B = adj A].
Proof.
move=> c0; have nz := nz_c c0; exists (adj V *m diag_mx (damped c D) *m adj U).
have h := normal_lemma sv nz.
suff u : normal_mx A c \in unitmx by split=> //; [exact: code_ok | rewrite -h mulKmx].
rewrite -row_free_unit -kermx_eq0; apply/rowV0P => v /sub_kermxP vN.
have z : sqnorm (A *m adj v) + c ^+ 2 * sqnorm (adj v) = 0.
  rewrite !sqnormE adjM adj_adj -!mulmxA (mulmxA (adj A)) mulmxA.
  have := congr1 (fun X => (X *m adj v) 0 0) vN; rewrite mul0mx [RHS]mxE => <-.
  by rewrite /normal_mx mulmxDr mulmxDl [RHS]mxE -!mulmxA mul_scalar_mx -scalemxAr [X in _ + X = _]mulrC; congr (_ + _); rewrite [RHS]mxE mulrC.
have p : 0 <= c ^+ 2 by rewrite -realEsqr.
move/eqP: z; rewrite paddr_eq0 ?sqnorm_ge0 ?(mulr_ge0 p) ?sqnorm_ge0 // => /andP[_].
rewrite mulf_eq0 sqrf_eq0 (negbTE c0) /= => /eqP /sq_eq0 v0.
by rewrite -(adj_adj v) v0; apply/matrixP => i j; rewrite !mxE conjC0.
Qed.

Lemma code_exact : c = 0 -> A \in unitmx -> regularise svd A c = Ok (Some (invmx A)).
Proof.
move=> c0; rewrite (unit_D sv) => /forallP dn.
have nz i : c ^+ 2 + D 0 i ^+ 2 != 0 by rewrite c0 expr0n add0r sqrf_eq0.
have uA : A \in unitmx by rewrite (unit_D sv); apply/forallP.
by rewrite code_ok // -[X in Some X](mulmxK uA) (exact_lemma sv nz c0) mul1mx.
Qed.

Lemma code_singular : c = 0 -> A \notin unitmx -> regularise svd A c = Ok None.
Proof.
move=> c0; rewrite (unit_D sv) negb_forall => /existsP[i]; rewrite negbK => /eqP d0.
rewrite /regularise e /=; case: existsP => // h; case: h; exists i.
by rewrite c0 d0 expr0n addr0.
Qed.
End Code.
End Facts.
