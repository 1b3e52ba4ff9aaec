(* Proofs about the low-rank propagator stack. *)

From Verif Require Import Base BaseFacts.
Set Warnings "-notation-overridden,-ambiguous-paths".
From mathcomp Require Import all_ssreflect all_fingroup all_algebra zify.
From Verif Require Import Rank1_Spec Rank1_Proofs Ortho_Spec Ortho_Proofs.
From Verif Require Import PropStack_Spec PropStack_Proofs TGreen_Model TGreen_Proofs.
From Verif Require Import LowRank_Model LowRank_Spec PivotQR_Proofs.

Set Implicit Arguments.
Unset Strict Implicit.
Unset Printing Implicit Defensive.

Import Order.TTheory GRing.Theory Num.Theory.
Local Open Scope ring_scope.

Section Arrays.
Variable C : numClosedFieldType.

Lemma entE p q (A : 'M[C]_(p, q)) (i : 'I_p) (j : 'I_q) : ent A i j = A i j.
Proof. by rewrite /ent !valK. Qed.

Lemma ent_row p q (A : 'M[C]_(p, q)) i j : (p <= i)%N -> ent A i j = 0.
Proof. by move=> h; rewrite /ent insubN // -leqNgt. Qed.

Lemma ent_col p q (A : 'M[C]_(p, q)) i j : (q <= j)%N -> ent A i j = 0.
Proof. by move=> h; rewrite /ent (insubN _ (x := j)) -?leqNgt //; case: insub. Qed.

Lemma ent_sub p q m k (A : 'M[C]_(p, q)) i j :
  ent (sub m k A) i j = if (i < m)%N && (j < k)%N then ent A i j else 0.
Proof.
case: ifP => [/andP[hi hj]|].
  by rewrite (entE (sub m k A) (Ordinal hi) (Ordinal hj)) mxE.
by move/negbT; rewrite negb_and -!leqNgt => /orP[h|h]; [rewrite ent_row|rewrite ent_col].
Qed.

Lemma sum_narrow r m (F : nat -> C) : (r <= m)%N ->
  (forall i, (r <= i < m)%N -> F i = 0) -> \sum_(i < m) F i = \sum_(i < r) F i.
Proof.
move=> h hF; rewrite (big_ord_widen _ _ h) [RHS]big_mkcond; apply: eq_bigr => i _.
by case: ltnP => // h'; apply: hF; rewrite h' /=.
Qed.

Lemma entM p q k (A : 'M[C]_(p, q)) (B : 'M[C]_(q, k)) i j :
  ent (A *m B) i j = \sum_(l < q) ent A i l * ent B l j.
Proof.
case: (ltnP i p) => hi; last by rewrite ent_row // big1 // => l _; rewrite ent_row ?mul0r.
case: (ltnP j k) => hj; last first.
  by rewrite ent_col // big1 // => l _; rewrite [ent B _ _]ent_col ?mulr0.
rewrite (entE _ (Ordinal hi) (Ordinal hj)) mxE; apply: eq_bigr => l _.
by rewrite (entE A (Ordinal hi)) (entE B l (Ordinal hj)).
Qed.

Lemma entP p q (A B : 'M[C]_(p, q)) :
  (forall i j, (i < p)%N -> (j < q)%N -> ent A i j = ent B i j) -> A = B.
Proof.
by move=> h; apply/matrixP => i j; have := h i j (ltn_ord i) (ltn_ord j); rewrite !entE.
Qed.

Lemma ent_diag m (d : 'rV[C]_m) i j : ent (diag_mx d) i j = if i == j then ent d 0 i else 0.
Proof.
case: (ltnP i m) => hi; last first.
  rewrite ent_row //; case: eqP => // _; by rewrite ent_col.
case: (ltnP j m) => hj; last first.
  rewrite ent_col //; case: eqP => // e; by rewrite ent_col // e.
rewrite (entE _ (Ordinal hi) (Ordinal hj)) mxE (entE d 0 (Ordinal hi)) -val_eqE /=.
by case: eqP => _; rewrite ?mulr1n ?mulr0n.
Qed.

Lemma entD p q (A B : 'M[C]_(p, q)) i j : ent (A + B) i j = ent A i j + ent B i j.
Proof.
case: (ltnP i p) => hi; last by rewrite !ent_row ?addr0.
case: (ltnP j q) => hj; last by rewrite !ent_col ?addr0.
by rewrite !(entE _ (Ordinal hi) (Ordinal hj)) mxE.
Qed.

Lemma sub_mul n m k (W : 'M[C]_(k, m)) (T : 'M[C]_n) : (m <= n)%N ->
  sub k n W *m T = W *m sub m n T.
Proof.
move=> h; apply: entP => i j hi hj; rewrite !entM (sum_narrow (F := fun l => ent (sub k n W) i l * ent T l j) h).
  by apply: eq_bigr => l _; rewrite !ent_sub hi hj !ltn_ord (leq_trans (ltn_ord l) h).
by move=> l /andP[hl _]; rewrite ent_sub [ent W i l]ent_col // if_same mul0r.
Qed.

Lemma sub_small m k p q (W : 'M[C]_(m, k)) : (m <= p)%N -> (k <= q)%N ->
  sub m k (sub p q W) = W.
Proof.
move=> h1 h2; apply: entP => i j hi hj.
by rewrite !ent_sub hi hj (leq_trans hi h1) (leq_trans hj h2).
Qed.

(* multiplying the slices *)
Lemma sub_slice n m k (T : 'M[C]_(m, n)) (Q : 'M[C]_k) : (k <= n)%N ->
  sub m k T *m sub k m Q = T *m sub n m Q.
Proof.
move=> h; apply: entP => i j hi hj; rewrite !entM [RHS](sum_narrow (F := fun l => ent T i l * ent (sub n m Q) l j) h).
  by apply: eq_bigr => l _; rewrite !ent_sub hi hj !ltn_ord (leq_trans (ltn_ord l) h).
by move=> l /andP[hl _]; rewrite ent_sub [ent Q l j]ent_row // if_same mulr0.
Qed.

(* counting a decreasing sequence *)
Lemma count_down (f : nat -> bool) m : (forall i, (i.+1 < m)%N -> f i.+1 -> f i) ->
  forall i, (i < m)%N -> f i = (i < count f (iota 0 m))%N.
Proof.
elim: m => // m IH hf i hi.
have hf' j : (j.+1 < m)%N -> f j.+1 -> f j by move=> h; apply: hf; exact: ltnW.
rewrite -[X in iota 0 X]addn1 iotaD count_cat /= add0n addn0.
have hc : (count f (iota 0 m) <= m)%N by rewrite -{2}(size_iota 0 m) count_size.
case hm : (f m) => /=.
  have hall j : (j <= m)%N -> f j.
    move=> hj; rewrite -(subKn hj); elim: (m - j)%N (leq_subr j m) => [|d IHd] hd.
      by rewrite subn0.
    apply: hf; first by lia.
    have -> : (m - d.+1).+1 = (m - d)%N by lia.
    by apply: IHd; lia.
  have -> : count f (iota 0 m) = m.
    rewrite -{2}(size_iota 0 m); apply/eqP; rewrite -all_count; apply/allP => j.
    by rewrite mem_iota => h; apply: hall; lia.
  by rewrite hall; lia.
rewrite addn0; move: hi; rewrite ltnS leq_eqVlt => /orP[/eqP ->|hi]; last exact: IH.
by rewrite hm; lia.
Qed.

(* inverse and determinant of one plus a low-rank matrix *)
Lemma low_inv n m (Q : 'M[C]_(n, m)) (D : 'rV[C]_m) (T : 'M[C]_(m, n)) :
  (forall i, D 0 i \is Num.real) -> T *m Q \in unitmx ->
  let db := \row_i split_b (D 0 i) in
  let ds := \row_i split_s (D 0 i) (D 0 i) in
  let A := 1%:M + Q *m diag_mx D *m T in
  let tmp := invmx (T *m Q) *m diag_mx db + diag_mx ds in
  [/\ (tmp \in unitmx) = (A \in unitmx),
      \det (tmp *m diag_mx (inv_row db) *m (T *m Q)) = \det A
    & A \in unitmx ->
      1%:M - Q *m diag_mx D *m (diag_mx db *m (invmx tmp *m invmx (T *m Q)) *m T) = invmx A].
Proof.
move=> hr hTQ db ds A tmp.
have hd i : db 0 i != 0 by rewrite mxE split_b_neq0.
have hb : diag_mx db \in unitmx.
  by rewrite unitmxE det_diag unitfE; apply/prodf_neq0 => i _; exact: hd.
set Z := 1%:M + T *m Q *m diag_mx D.
have dZ : \det Z = \det A by rewrite /Z -mulmxA det_1pMM.
have hTi : invmx (T *m Q) \in unitmx by rewrite unitmx_inv.
have Et : tmp = invmx (T *m Q) *m Z *m diag_mx db.
  rewrite /tmp /Z mulmxDr mulmx1 mulmxDl mulmxA mulVmx // mul1mx; congr (_ + _).
  rewrite mulmx_diag; congr diag_mx; apply/rowP => i.
  by rewrite !mxE split_mul // mulrC.
split.
- by rewrite Et !unitmx_mul hTi hb andbT /= !unitmxE dZ.
- rewrite Et -[_ *m diag_mx db *m _]mulmxA mulmx_diag.
  have -> : diag_mx (\row_i (db 0 i * (inv_row db) 0 i)) = 1%:M.
    rewrite -diag_const_mx; congr diag_mx; apply/rowP => i.
    by rewrite !mxE divff // split_b_neq0.
  by rewrite mulmx1 !det_mulmx mulrAC -det_mulmx mulVmx // det1 mul1r dZ.
- move=> hA; have hZ : Z \in unitmx by rewrite unitmxE dZ -unitmxE.
  have hTZ : invmx (T *m Q) *m Z \in unitmx by rewrite unitmx_mul hTi hZ.
  rewrite Et (invmx_mul hTZ hb) (invmx_mul hTi hZ) invmxK.
  have -> : diag_mx db *m (invmx (diag_mx db) *m (invmx Z *m (T *m Q))
            *m invmx (T *m Q)) = invmx Z.
    by rewrite -[X in _ *m X]mulmxA mulKVmx // mulmxK.
  apply: inv_left; rewrite mulmxBl mul1mx mulmxA.
  set QD := Q *m diag_mx D.
  have -> : QD *m invmx Z *m T *m A = QD *m (invmx Z *m Z) *m T.
    rewrite /Z /A mulmxDr !mulmxDr !mulmx1 mulmxDl; congr (_ + _).
    by rewrite !mulmxA.
  by rewrite mulVmx // mulmx1 /A /QD addrK.
Qed.
End Arrays.

Section Kept.
Variable C : numClosedFieldType.
Variables (mL mR : nat) (A : 'M[C]_(mL, mR)) (Q : 'M[C]_mL) (R : 'M[C]_(mL, mR)) (P : 'S_mR).
Hypothesis hp : is_pivoted A Q R P.
Variable thresh : C.
Hypothesis hth : 0 <= thresh.
Let mT := count (fun i => thresh < `|ent R i i|) (iota 0 (minn mL mR)).

Lemma mT_min : (mT <= minn mL mR)%N.
Proof. by rewrite -[X in (_ <= X)%N](size_iota 0) count_size. Qed.

Lemma mT_L : (mT <= mL)%N.
Proof. exact: leq_trans mT_min (geq_minl _ _). Qed.

Lemma mT_R : (mT <= mR)%N.
Proof. exact: leq_trans mT_min (geq_minr _ _). Qed.

Lemma kept i : (i < minn mL mR)%N -> (thresh < `|ent R i i|) = (i < mT)%N.
Proof.
move=> hi; apply: (count_down (f := fun i => thresh < `|ent R i i|)) hi => j.
rewrite leq_min => /andP[hL hR] h; apply: lt_le_trans h _.
have hL' : (j < mL)%N by exact: ltnW.
have hR' : (j < mR)%N by exact: ltnW.
rewrite (entE R (Ordinal hL) (Ordinal hR)) (entE R (Ordinal hL') (Ordinal hR')).
case: hp => _ _ _ _ /(_ (Ordinal hL') (Ordinal hR') (Ordinal hR) erefl (leqnSn _)).
rewrite (bigD1 (Ordinal hL)) /=; last by [].
move=> h; rewrite -(@ler_pexpn2r _ 2) ?nnegrE //; apply: le_trans h.
by rewrite ler_addl; apply: sumr_ge0 => l _; rewrite exprn_ge0.
Qed.

Lemma diag_real i : ent R i i \is Num.real.
Proof.
case: (ltnP i mL) => hL; last by rewrite ent_row ?rpred0.
case: (ltnP i mR) => hR; last by rewrite ent_col ?rpred0.
rewrite (entE R (Ordinal hL) (Ordinal hR)).
by case: hp => _ _ _ h _; exact: h.
Qed.

Lemma kept_neq0 i : (i < mT)%N -> ent R i i != 0.
Proof.
move=> h; have hi := leq_trans h mT_min.
by rewrite -normr_eq0 gt_eqF // (le_lt_trans hth) // kept.
Qed.

(* what the truncated factorisation leaves out *)
Definition rest : 'M[C]_(mL, mR) := \matrix_(i, j) (if (i < mT)%N then 0 else R i j).

Lemma rest_small (j : 'I_mR) :
  \sum_i `|rest i j| ^+ 2 <= if mT == minn mL mR then 0 else thresh ^+ 2.
Proof.
have h0 : (j < mT)%N -> \sum_i `|rest i j| ^+ 2 = 0.
  move=> hj; apply: big1 => i _; rewrite mxE; case: ltnP => hi; first by rewrite normr0 expr0n.
  case: hp => _ _ hu _ _; rewrite hu ?normr0 ?expr0n //; exact: leq_trans hj hi.
case: (ltnP j mT) => hj; first by rewrite h0 //; case: ifP => // _; rewrite exprn_ge0.
case: eqP => [e|/eqP ne].
  have [eL|eR] : mT = mL \/ mT = mR by move: e; rewrite {1}/minn; case: ifP => _; [left|right].
    rewrite big1 // => i _; rewrite mxE (_ : (i < mT)%N = true) ?normr0 ?expr0n //.
    by rewrite eL ltn_ord.
  by move: hj; rewrite eR leqNgt ltn_ord.
have hm : (mT < minn mL mR)%N by rewrite ltn_neqAle ne mT_min.
have hL : (mT < mL)%N by move: hm; rewrite leq_min => /andP[].
have hR : (mT < mR)%N by move: hm; rewrite leq_min => /andP[].
have hT : `|ent R mT mT| <= thresh.
  by rewrite real_leNgt ?ger0_real // kept // ltnn.
apply: (@le_trans _ _ (`|R (Ordinal hL) (Ordinal hR)| ^+ 2)); last first.
  rewrite -(entE R (Ordinal hL) (Ordinal hR)) /=.
  by rewrite ler_pexpn2r ?nnegrE.
case: hp => _ _ _ _ /(_ (Ordinal hL) (Ordinal hR) j erefl hj); apply: le_trans.
rewrite [X in _ <= X]big_mkcond; apply: ler_sum => i _; rewrite mxE /=.
by case: ltnP => // _; rewrite normr0 expr0n.
Qed.

Definition kept_mx n : 'M[C]_(n, mR) :=
  sub n mT Q *m diag_mx (\row_i ent R i i) *m scaled mT R P.

Lemma kept_mxE n i (j : 'I_mR) : (i < n)%N ->
  ent (kept_mx n) i j = if (i < mL)%N then ent A i j - ent (Q *m rest) i ((P^-1)%g j) else 0.
Proof.
move=> hi; rewrite /kept_mx entM.
have E1 : \sum_(l < mT) ent (sub n mT Q *m diag_mx (\row_i ent R i i)) i l
            * ent (scaled mT R P) l j
          = \sum_(l < mT) ent Q i l * ent R l ((P^-1)%g j).
  apply: eq_bigr => l _; rewrite entM (bigD1 l) //= big1 ?addr0; last first.
    move=> l' hl; rewrite ent_diag; case: eqP => [e|_]; last by rewrite mulr0.
    by case/negP: hl; apply/eqP/val_inj.
  rewrite ent_sub hi ltn_ord /= ent_diag eqxx (entE _ 0 l) (entE _ l j) !mxE.
  by rewrite -mulrA mulVKf // kept_neq0.
rewrite E1; case: ltnP => hL; last by rewrite big1 // => l _; rewrite ent_row ?mul0r.
set p := ((P^-1)%g j).
have -> : ent A i j = ent (Q *m R) i p.
  case: hp => <- _ _ _ _; rewrite (entE _ (Ordinal hL) p) mxE /p permKV.
  by rewrite (entE A (Ordinal hL)).
rewrite !entM -sumrB.
rewrite (sum_narrow (F := fun l => ent Q i l * ent R l p - ent Q i l * ent rest l p) mT_L).
  apply: eq_bigr => l _; have hl := leq_trans (ltn_ord l) mT_L.
  by rewrite (entE rest (Ordinal hl) p) mxE /= ltn_ord mulr0 subr0.
move=> l /andP[h1 h2]; rewrite (entE rest (Ordinal h2) p) (entE R (Ordinal h2) p) mxE /=.
by rewrite ltnNge h1 /= subrr.
Qed.

Lemma kept_dist n (j : 'I_mR) : (mL <= n)%N ->
  \sum_(i < n) `|ent (kept_mx n) i j - ent A i j| ^+ 2
    <= if mT == minn mL mR then 0 else thresh ^+ 2.
Proof.
move=> h; rewrite (sum_narrow (F := fun i => `|ent (kept_mx n) i j - ent A i j| ^+ 2) h).
  have hQ : orthonormal Q by case: hp.
  apply: le_trans (rest_small ((P^-1)%g j)); rewrite -(col_sq_orth _ _ hQ).
  apply: ler_sum => i _; rewrite kept_mxE; last exact: leq_trans (ltn_ord i) h.
  by rewrite ltn_ord addrAC subrr sub0r normrN (entE _ i).
move=> i /andP[h1 h2]; rewrite kept_mxE // ltnNge h1 /= ent_row // subr0.
by rewrite normr0 expr0n.
Qed.
End Kept.

Section Steps.
Variable C : numClosedFieldType.
Variable qrp : forall m k, 'M[C]_(m, k) -> 'M[C]_m * 'M[C]_(m, k) * 'S_k.
Hypothesis hq : pivoted qrp.
Variable n : nat.
Variable thresh : C.
Hypothesis hth : 0 <= thresh.
Notation M := 'M[C]_n.

Lemma square_unit m (Qp : 'M[C]_(n, m)) (T : 'M[C]_(m, n)) (D : 'M[C]_m) :
  let A := Qp *m D *m T in \rank (A *m A) = m -> T *m Qp \in unitmx.
Proof.
move=> A h; rewrite -row_full_unit -col_leq_rank -{1}h.
have -> : A *m A = Qp *m D *m (T *m Qp *m (D *m T)) by rewrite /A !mulmxA.
exact: leq_trans (mxrankM_maxr _ _) (mxrankM_maxl _ _).
Qed.

Lemma finish_spec mL mR (Qr : M) (Dr : 'rV[C]_n) (Tr : M) (Dl : 'rV[C]_n) :
  (mL <= n)%N -> (mR <= n)%N ->
  exists b CT theta mT, exists W : M,
  [/\ finish qrp thresh mL mR Qr Dr Tr Dl
      = (if b && (1%:M + W *m Tr \in unitmx)
         then Ok (\det (1%:M + W *m Tr), invmx (1%:M + W *m Tr), CT, theta, mT)
         else Err ValueError),
      \rank (W *m Tr *m (W *m Tr)) = mT -> b,
      (\rank W <= mT)%N /\ (mT <= minn mL mR)%N,
      forall i j : 'I_n, (mL <= i)%N || (mR <= j)%N -> W i j = 0
    & forall j : 'I_n,
        \sum_(i < n) `|W i j - (if (i < mL)%N && (j < mR)%N
                                then Dl 0 i * (Qr i j * Dr 0 j) else 0)| ^+ 2
          <= if mT == minn mL mR then 0 else thresh ^+ 2].
Proof.
move=> hL hR; rewrite /finish.
set Clcr : 'M[C]_(mL, mR) := \matrix_(i, j) _.
have := hq Clcr; case: (qrp Clcr) => [[Q R] P] hp.
set mT := count _ _.
pose W := sub n n (kept_mx Q R P thresh n).
set D : 'rV[C]_mT := \row_i ent R i i.
set T := scaled mT R P *m sub mR n Tr.
have hTn : (mT <= n)%N by exact: leq_trans (mT_L _ _) hL.
have EW : W *m Tr = sub n mT Q *m diag_mx D *m T.
  by rewrite /W sub_mul // /kept_mx /T -!mulmxA.
have ETQ : sub mT mL T *m sub mL mT Q = T *m sub n mT Q by rewrite sub_slice.
rewrite ETQ.
set CT := sub n n (dag _); set theta := sub n n (_ ^T).
exists (T *m sub n mT Q \in unitmx), CT, theta, mT, W.
have hr i : D 0 i \is Num.real by rewrite mxE; exact: (diag_real hp).
split.
- case hTQ : (T *m sub n mT Q \in unitmx) => //=.
  have [u1 u2 u3] := low_inv hr hTQ; rewrite u1 u2 -EW.
  case hA : (1%:M + W *m Tr \in unitmx) => //=.
  rewrite /CT /theta !sub_small // !dagE adjK trmxK.
  by rewrite u3 -EW // hA.
- rewrite EW; exact: square_unit.
- split; last exact: mT_min.
  have -> : W = sub n mT Q *m diag_mx D *m sub mT n (scaled mT R P).
    apply: entP => i j hi hj; rewrite ent_sub hi hj /= /kept_mx !entM.
    by apply: eq_bigr => l _; rewrite ent_sub ltn_ord hj.
  exact: mulmx_max_rank.
- move=> i j; rewrite mxE => /orP[h|h]; last by rewrite ent_col.
  case: (ltnP j mR) => hj; last by rewrite ent_col.
  by rewrite (kept_mxE hp hth (Ordinal hj)) // ltnNge h.
- move=> j; case: (ltnP j mR) => hj; last first.
    rewrite big1; first by case: ifP => // _; rewrite exprn_ge0.
    by move=> i _; rewrite andbF mxE ent_col // subr0 normr0 expr0n.
  apply: le_trans (kept_dist hp hth (Ordinal hj) hL).
  apply: ler_sum => i _; rewrite andbT mxE /=.
  suff -> : ent Clcr i j = (if (i < mL)%N then Dl 0 i * (Qr i j * Dr 0 j) else 0) by [].
  case: ltnP => hi; last by rewrite ent_row.
  by rewrite (entE Clcr (Ordinal hi) (Ordinal hj)) mxE /= !(entE _ 0) entE.
Qed.

Lemma ent_scale p q (X : 'M[C]_(p, q)) (d : 'rV[C]_q) i j :
  ent (X *m diag_mx d) i j = ent X i j * ent d 0 j.
Proof.
case: (ltnP j q) => hj; last by rewrite !(ent_col _ _ hj) mul0r.
rewrite entM (bigD1 (Ordinal hj)) //= big1 ?addr0; first by rewrite ent_diag eqxx.
move=> l' hl; rewrite ent_diag; case: eqP => [e|_]; last by rewrite mulr0.
by case/negP: hl; apply/eqP/val_inj.
Qed.

Lemma triple p q k (X : 'M[C]_(p, q)) (d : 'rV[C]_q) (Y : 'M[C]_(q, k)) i j :
  ent (X *m diag_mx d *m Y) i j = \sum_(l < q) ent X i l * ent d 0 l * ent Y l j.
Proof. by rewrite entM; apply: eq_bigr => l _; rewrite ent_scale. Qed.

Lemma aboveE (D : 'rV[C]_n) : above thresh D = larger thresh D.
Proof.
rewrite /above /larger -sum1_count -sum1dep_card -{1}[n]subn0 big_mkord.
by apply: eq_bigl => i; rewrite (entE D 0 i).
Qed.

Lemma larger_le (D : 'rV[C]_n) : (larger thresh D <= n)%N.
Proof. by rewrite -[X in (_ <= X)%N](card_ord n) max_card. Qed.

Lemma larger_all (D : 'rV[C]_n) : larger thresh D = n <-> forall i, thresh < `|D 0 i|.
Proof.
rewrite /larger; split=> [h i|h].
  have /eqP e : [set i | thresh < `|D 0 i|] == setT.
    by rewrite eqEcard subsetT cardsT card_ord h /=.
  by have := in_setT i; rewrite -e inE.
by rewrite (_ : [set i | _] = setT) ?cardsT ?card_ord //; apply/setP => i; rewrite !inE h.
Qed.

Lemma first_sub mR (Q : M) (D : 'rV[C]_n) (T : M) : (mR <= n)%N ->
  Q *m diag_mx (first_entries mR D) *m T = sub n mR Q *m diag_mx (sub 1 mR D) *m sub mR n T.
Proof.
move=> h; apply: entP => i j hi hj; rewrite !triple.
rewrite (sum_narrow (F := fun l => ent Q i l * ent (first_entries mR D) 0 l * ent T l j) h).
  apply: eq_bigr => l _; rewrite !ent_sub hi hj !ltn_ord /=.
  have hl := leq_trans (ltn_ord l) h.
  by rewrite (entE _ 0 (Ordinal hl)) mxE /= ltn_ord (entE D 0 (Ordinal hl)).
move=> l /andP[h1 h2]; rewrite (entE _ 0 (Ordinal h2)) mxE /= ltnNge h1 /=.
by rewrite mulr0 mul0r.
Qed.

Lemma first_all (D : 'rV[C]_n) : first_entries n D = D.
Proof. by apply/rowP => i; rewrite mxE ltn_ord. Qed.

Lemma right_plain_spec mR (B : M) (s : lowrank C n) : (mR <= n)%N ->
  let '(Q, D, T) := right_plain mR B s in
  Q *m diag_mx D *m T = B *m lQr s *m diag_mx (first_entries mR (lDr s)) *m lTr s
  /\ (forall i j : 'I_n, (mR <= j)%N -> Q i j * D 0 j = 0).
Proof.
move=> h; rewrite /right_plain; split; last first.
  by move=> i j hj; rewrite mxE [ent _ _ _]ent_col // mul0r.
set X := B *m sub n mR (lQr s).
have -> : sub n n X *m diag_mx (lDr s) *m lTr s
          = sub n n X *m diag_mx (first_entries mR (lDr s)) *m lTr s.
  apply: entP => i j hi hj; rewrite !triple; apply: eq_bigr => l _; congr (_ * _).
  rewrite !(entE _ 0 l) !mxE; case: ltnP => // hl.
  by rewrite ent_sub [ent X _ _]ent_col // if_same !mul0r.
rewrite first_sub // sub_small // -!mulmxA; congr (B *m _).
by rewrite !mulmxA first_sub.
Qed.

Lemma upper_det (R : M) : (forall i j : 'I_n, (j < i)%N -> R i j = 0) ->
  \det R = \prod_i R i i.
Proof.
move=> h; rewrite -det_tr det_trig; first by apply: eq_bigr => i _; rewrite mxE.
by apply/is_trig_mxP => i j hij; rewrite mxE h.
Qed.

Lemma diag_nz k (A : 'M[C]_(n, k)) : k = n -> sub n n A \in unitmx ->
  let '(Q, R, P) := qrp A in forall i : 'I_n, ent R i i != 0.
Proof.
move=> e; move: A; rewrite e => A.
have -> : sub n n A = A by apply: entP => i j hi hj; rewrite ent_sub hi hj.
have := hq A; case: (qrp A) => [[Q R] P] [h1 h2 h3 _ _] hA i.
have : Q *m R \in unitmx by rewrite -h1 col_permE unitmx_mul hA unitmx_perm.
rewrite unitmx_mul => /andP[_]; rewrite unitmxE upper_det // unitfE => /prodf_neq0/(_ i isT).
by rewrite entE.
Qed.

Lemma right_qr_spec mR (B : M) (s : lowrank C n) : (mR <= n)%N ->
  let '(Q, D, T) := right_qr qrp mR B s in
  [/\ (forall i : 'I_n, (i < mR)%N -> D 0 i != 0) ->
      Q *m diag_mx D *m T = B *m lQr s *m diag_mx (first_entries mR (lDr s)) *m lTr s,
      forall i j : 'I_n, (mR <= j)%N -> Q i j * D 0 j = 0
    & mR = n -> B *m lQr s *m diag_mx (lDr s) \in unitmx -> forall i, D 0 i != 0].
Proof.
move=> h; rewrite /right_qr.
set Ccr := _ *m diag_mx _.
have := hq Ccr; have := @diag_nz _ Ccr; case: (qrp Ccr) => [[Q R] P] hn hp.
split.
- move=> hD.
  have -> : B *m lQr s *m diag_mx (first_entries mR (lDr s)) *m lTr s = Ccr *m sub mR n (lTr s).
    rewrite /Ccr -!mulmxA; congr (B *m _); by rewrite !mulmxA first_sub.
  have -> : Ccr = sub n mR Q *m diag_mx (\row_i ent R i i) *m scaled mR R P.
    apply: entP => i j hi hj; rewrite triple.
    pose p := ((P^-1)%g (Ordinal hj)).
    have -> : ent Ccr i j = ent (Q *m R) i p.
      case: hp => <- _ _ _ _; rewrite (entE _ (Ordinal hi) p) mxE /p permKV.
      by rewrite (entE Ccr (Ordinal hi) (Ordinal hj)).
    rewrite entM (sum_narrow (F := fun l => ent Q i l * ent R l p) h).
      apply: eq_bigr => l _; have hl := leq_trans (ltn_ord l) h.
      rewrite ent_sub hi ltn_ord /= (entE _ 0 l) (entE _ l (Ordinal hj)) !mxE -/p.
      have := hD (Ordinal hl) (ltn_ord l); rewrite mxE /= ltn_ord => hnz.
      by rewrite -mulrA mulVKf.
    move=> l /andP[h1 h2]; rewrite (entE R (Ordinal h2) p).
    case: hp => _ _ hu _ _; rewrite hu ?mulr0 //=; exact: leq_trans (ltn_ord p) h1.
  apply: entP => i j hi hj; rewrite triple -!mulmxA mulmxA triple.
  set TT := scaled mR R P *m sub mR n (lTr s).
  rewrite (sum_narrow (F := fun l => ent Q i l * ent (\row_i0 (if (i0 < mR)%N then ent R i0 i0 else 0)) 0 l * ent (\matrix_(i0 < n, j0 < n) (if (i0 < mR)%N then ent TT i0 j0 else lTr s i0 j0)) l j) h).
    apply: eq_bigr => l _; have hl := leq_trans (ltn_ord l) h.
    rewrite ent_sub hi ltn_ord /= (entE _ 0 l) (entE _ 0 (Ordinal hl)).
    by rewrite (entE _ (Ordinal hl) (Ordinal hj)) !mxE /= ltn_ord.
  move=> l /andP[h1 h2]; rewrite (entE _ 0 (Ordinal h2)) mxE /= ltnNge h1 /=.
  by rewrite mulr0 mul0r.
- by move=> i j hj; rewrite mxE ltnNge hj /= mulr0.
- move=> e hu i; have hi : (i < mR)%N by rewrite e.
  rewrite mxE hi; apply: hn => //.
  have -> : sub n n Ccr = B *m lQr s *m diag_mx (lDr s); last by [].
  apply: entP => i1 j1 hi1 hj1; rewrite ent_sub hi1 hj1 /= /Ccr.
  have hj2 : (j1 < mR)%N by rewrite e.
  rewrite !ent_scale ent_sub hj2 /= !entM; congr (_ * _); apply: eq_bigr => l _.
  by rewrite ent_sub ltn_ord hj2.
Qed.

(* one step *)
Lemma step_spec (BTinv : 'rV[C]_n) (s : lowrank C n) (B : M) :
  let mR := larger thresh (lDr s) in
  let Dl := \row_i (lDl s 0 i * BTinv 0 i) in
  let mL := larger thresh Dl in
  ~~ ((lcounter s == 0%N) && (lbins s <= lblock s)%N) ->
  exists Qr Dr Tr, exists b CT theta mT, exists W : M,
  [/\ update_low_rank qrp thresh BTinv s B
      = (if b && (1%:M + W *m Tr \in unitmx)
         then Ok (MkLow (lslice s).+1 (lsize s) (lbins s) ((lcounter s).+1 %% lsize s)
                    ((lslice s).+1 %/ lsize s) Qr Dr Tr Dl
                    (\det (1%:M + W *m Tr)) (invmx (1%:M + W *m Tr)) CT theta mT)
         else Err ValueError),
      (forall i : 'I_n, (i < mR)%N -> Dr 0 i != 0) ->
        Qr *m diag_mx Dr *m Tr = B *m lQr s *m diag_mx (first_entries mR (lDr s)) *m lTr s,
      mR = n -> B *m lQr s *m diag_mx (lDr s) \in unitmx -> forall i, Dr 0 i != 0,
      (\rank (W *m Tr *m (W *m Tr)) = mT -> b) /\ (\rank W <= mT <= minn mL mR)%N
    & (forall i j : 'I_n, (mL <= i)%N -> W i j = 0) /\
      forall j, col_dist W (diag_mx (first_entries mL Dl) *m Qr *m diag_mx Dr) j
                <= if mT == minn mL mR then 0 else thresh ^+ 2].
Proof.
move=> mR Dl mL hb; rewrite /update_low_rank (negPf hb) aboveE -/mR -/Dl aboveE -/mL.
have hL : (mL <= n)%N by exact: larger_le.
have hR : (mR <= n)%N by exact: larger_le.
set r := if (lblock s < _)%N then _ else _.
have : let '(Q, D, T) := r in
  [/\ (forall i : 'I_n, (i < mR)%N -> D 0 i != 0) ->
      Q *m diag_mx D *m T = B *m lQr s *m diag_mx (first_entries mR (lDr s)) *m lTr s,
      forall i j : 'I_n, (mR <= j)%N -> Q i j * D 0 j = 0
    & mR = n -> B *m lQr s *m diag_mx (lDr s) \in unitmx -> forall i, D 0 i != 0].
  rewrite /r; case: ifP => _; first by have := right_qr_spec B s hR; case: (right_qr qrp mR B s) => [[? ?] ?].
  have := right_plain_spec B s hR; rewrite /right_plain => -[h1 h2]; split=> //.
  move=> _; rewrite unitmx_mul => /andP[_ hu] i; exact: diag_unit hu i.
case: r => [[Qr Dr] Tr] [h1 h2 h3].
have [b [CT [theta [mT [W [e1 e2 [e3 e3'] e4 e5]]]]]] := finish_spec Qr Dr Tr Dl hL hR.
exists Qr, Dr, Tr, b, CT, theta, mT, W; split=> //.
- by rewrite e1; case: ifP.
- by split; rewrite ?e3.
split; first by move=> i j h; apply: e4; rewrite h.
move=> j; apply: le_trans (e5 j); rewrite /col_dist; apply: ler_sum => i _.
suff -> : (diag_mx (first_entries mL Dl) *m Qr *m diag_mx Dr) i j
  = if (i < mL)%N && (j < mR)%N then Dl 0 i * (Qr i j * Dr 0 j) else 0 by [].
rewrite -[LHS]entE ent_scale (entE Dr 0 j) entE mul_diag_mx !mxE.
case: ltnP => hi; last by rewrite !mul0r.
by case: ltnP => hj /=; rewrite -mulrA // h2 // mulr0.
Qed.

Lemma update_ok (BTinv : 'rV[C]_n) (s s' : lowrank C n) (B : M) :
  let mR := larger thresh (lDr s) in
  update_low_rank qrp thresh BTinv s B = Ok s' ->
  [/\ ~~ ((lcounter s == 0%N) && (lbins s <= lblock s)%N),
      [/\ lslice s' = (lslice s).+1, lsize s' = lsize s, lbins s' = lbins s,
          lcounter s' = ((lcounter s).+1 %% lsize s)%N
        & lblock s' = ((lslice s).+1 %/ lsize s)%N],
      lDl s' = \row_i (lDl s 0 i * BTinv 0 i),
      (forall i : 'I_n, (i < mR)%N -> lDr s' 0 i != 0) ->
        lQr s' *m diag_mx (lDr s') *m lTr s'
        = B *m lQr s *m diag_mx (first_entries mR (lDr s)) *m lTr s
    & exists W : M,
      [/\ 1%:M + W *m lTr s' \in unitmx,
          lG s' = invmx (1%:M + W *m lTr s'), lovlp s' = \det (1%:M + W *m lTr s'),
          forall i j : 'I_n, (larger thresh (lDl s') <= i)%N -> W i j = 0
        & forall j, col_dist W (diag_mx (first_entries (larger thresh (lDl s')) (lDl s'))
                                *m lQr s' *m diag_mx (lDr s')) j
            <= if lmT s' == minn (larger thresh (lDl s')) mR then 0 else thresh ^+ 2]].
Proof.
move=> mR h.
have hg : ~~ ((lcounter s == 0%N) && (lbins s <= lblock s)%N).
  by apply/negP => hg; move: h; rewrite /update_low_rank hg.
have [Qr [Dr [Tr [b [CT [theta [mT [W [e1 e2 e3 [e4 e5] [e6 e7]]]]]]]]]] := step_spec BTinv B hg.
move: h; rewrite e1; case: ifP => // /andP[_ hu] [<-]; split=> //=.
by exists W; split.
Qed.

Lemma rows_identity (A G : M) i : A \in unitmx -> G = invmx A ->
  (forall j, A i j = (i == j)%:R) -> forall j, G i j = (i == j)%:R.
Proof.
move=> hA -> h j; have := congr1 (fun X : M => X i j) (mulmxV hA).
rewrite mxE (bigD1 i) //= h eqxx mul1r big1 ?addr0; last first.
  by move=> l hl; rewrite h eq_sym (negPf hl) mul0r.
by rewrite mxE.
Qed.

Lemma dropped_rows (BTinv : 'rV[C]_n) (s s' : lowrank C n) (B : M) :
  update_low_rank qrp thresh BTinv s B = Ok s' ->
  forall i j : 'I_n, (larger thresh (lDl s') <= i)%N -> lG s' i j = (i == j)%:R.
Proof.
move=> /update_ok [_ _ _ _ [W [h1 h2 _ h4 _]]] i j hi.
apply: (rows_identity h1 h2) => l; rewrite mxE [1%:M _ _]mxE mxE big1 ?addr0 //.
by move=> q _; rewrite h4 ?mul0r.
Qed.

Lemma col_dist0 (A B : M) : (forall j, col_dist A B j <= 0) -> A = B.
Proof.
move=> h; apply/matrixP => i j; apply/subr0_eq/eqP; rewrite -normr_eq0 -sqrf_eq0.
have hp l : true -> 0 <= `|A l j - B l j| ^+ 2 by move=> _; rewrite exprn_ge0.
have h0 : col_dist A B j = 0 by apply/le_anti; rewrite h /=; apply: sumr_ge0.
by apply/eqP; exact: (psumr_eq0P (P := xpredT) hp h0 (i := i) isT).
Qed.

(* paths *)
Variables (BT BTinv : 'rV[C]_n) (size slices : nat).
Hypothesis hBT : forall i, BT 0 i * BTinv 0 i = 1.

Definition at_step (k : nat) (s : lowrank C n) : Prop :=
  [/\ lslice s = k, lsize s = size, lbins s = (slices %/ size)%N, lcounter s = (k %% size)%N
    & lblock s = (k %/ size)%N] /\ lDl s = \row_i BT 0 i ^+ (slices - k).

Lemma iter_mul k (x y : C) : iter k (fun z => x * z) y = x ^+ k * y.
Proof. by elim: k => [|k IH] /=; rewrite ?expr0 ?mul1r // IH exprS mulrA. Qed.

Lemma new_spec s : low_new BT size slices = Ok s ->
  [/\ (0 < size)%N, (slices %/ size * size)%N = slices, at_step 0 s,
      lQr s *m diag_mx (lDr s) *m lTr s = 1%:M /\ lDr s = const_mx 1
    & lG s = invmx (1%:M + diag_mx (lDl s)) /\ lovlp s = \det (1%:M + diag_mx (lDl s))].
Proof.
rewrite /low_new; case: eqP => // /eqP h0; case: ltnP => // h1; case: eqP => // /eqP h2 [<-].
have e : (slices %/ size * size)%N = slices.
  by apply/eqP; rewrite eqn_leq leq_trunc_div h1.
split=> //=.
- by rewrite lt0n.
- split; first by rewrite mod0n div0n.
  apply/rowP => i; rewrite !mxE /bin_diag !iter_mul mulr1 subn0 -exprM -exprD.
  congr (_ ^+ _); rewrite -[in RHS]e; move: h2; rewrite -lt0n; case: (slices %/ size)%N => // b _.
  by rewrite /= mulnC -mulSnr.
- by rewrite mul1mx mulmx1 diag_const_mx.
- by split=> //; rewrite div1r det_inv invrK.
Qed.

Lemma run_rcons s Bs B : low_run qrp thresh BTinv s (rcons Bs B)
  = rbind (low_run qrp thresh BTinv s Bs) (fun s' => update_low_rank qrp thresh BTinv s' B).
Proof.
elim: Bs s => [|A tl IH] s /=; first by case: update_low_rank.
by case: update_low_rank => //= s'; rewrite IH.
Qed.

Lemma run_at s0 Bs s : low_new BT size slices = Ok s0 ->
  low_run qrp thresh BTinv s0 Bs = Ok s ->
  (seq.size Bs <= slices)%N /\ at_step (seq.size Bs) s.
Proof.
move=> /new_spec [hs hd h0 _ _]; elim/last_ind: Bs s => [|Bs B IH] s /=; first by case=> <-.
rewrite run_rcons; case E : low_run => [s1|//] /=; have [hk [[a1 a2 a3 a4 a5] a6]] := IH _ E.
move=> /update_ok [hg [b1 b2 b3 b4 b5] b6 _ _]; rewrite size_rcons.
have hlt : (seq.size Bs < slices)%N.
  rewrite ltn_neqAle hk andbT; apply: contraNneq hg => e.
  by rewrite a4 a3 a5 e -{1}hd modnMl eqxx leqnn.
split=> //; split.
  split; rewrite ?b1 ?b2 ?b3 ?b4 ?b5 ?a1 ?a2 ?a3 ?a4 //.
  by rewrite -[_.+1 in LHS]addn1 modnDml addn1.
rewrite b6 a6; apply/rowP => i; rewrite !mxE.
have -> : (slices - seq.size Bs)%N = (slices - (seq.size Bs).+1).+1 by lia.
by rewrite exprSr -mulrA hBT mulr1.
Qed.

Lemma ordered_nseq k : ordered (nseq k (diag_mx BT)) = diag_mx (\row_i BT 0 i ^+ k).
Proof.
elim: k => [|k IH].
  by rewrite /ordered /= -diag_const_mx; congr diag_mx; apply/rowP => i; rewrite !mxE.
rewrite ordered_cons IH mulmx_diag; congr diag_mx; apply/rowP => i; by rewrite !mxE exprSr.
Qed.

Lemma ordered_slices Bs : ordered (PropStack_Spec.slices slices (diag_mx BT) Bs)
  = diag_mx (\row_i BT 0 i ^+ (slices - seq.size Bs)) *m ordered Bs.
Proof. by rewrite ordered_cat ordered_nseq. Qed.

Definition exact (Bs : seq M) (s : lowrank C n) : Prop :=
  let A := ordered (PropStack_Spec.slices slices (diag_mx BT) Bs) in
  [/\ lQr s *m diag_mx (lDr s) *m lTr s = ordered Bs, lG s = invmx (1%:M + A)
    & lovlp s = \det (1%:M + A)].

Lemma run_exact s0 Bs s : low_new BT size slices = Ok s0 ->
  low_run qrp thresh BTinv s0 Bs = Ok s ->
  (forall k sk, (k <= seq.size Bs)%N -> low_run qrp thresh BTinv s0 (take k Bs) = Ok sk ->
     [/\ larger thresh (lDr sk) = n, larger thresh (lDl sk) = n & lmT sk = n]) ->
  exact Bs s.
Proof.
move=> hn; have [_ _ [_ h0] [h1 _] [h2 h3]] := new_spec hn.
elim/last_ind: Bs s => [|Bs B IH] s hr hk.
  move: hr => /= [<-]; rewrite /exact ordered_slices /= subn0 (_ : ordered [::] = 1%:M) // mulmx1.
  by rewrite h0 subn0 in h2 h3; split.
have hr' := hr; move: hr'; rewrite run_rcons; case E : low_run => [s1|//] /=.
have hR : larger thresh (lDr s1) = n.
  have [||//] := hk (seq.size Bs) s1; first by rewrite size_rcons.
  by rewrite -cats1 take_size_cat.
have [hR' hL' hT'] : [/\ larger thresh (lDr s) = n, larger thresh (lDl s) = n & lmT s = n].
  apply: (hk (seq.size Bs).+1); first by rewrite size_rcons.
  by rewrite -(size_rcons Bs B) take_size.
have [e1 _ _] : exact Bs s1.
  apply: IH => // k sk hkk hsk; apply: (hk k); first by rewrite size_rcons ltnW.
  by rewrite -cats1 takel_cat.
have [_ [_ a6]] := run_at hn hr.
move=> /update_ok [_ _ _ b4 [W [b5 b6 b7 _ b9]]].
move: b4 b9; rewrite hR hT' hL' minnn eqxx !first_all => b4 b9.
have hD i : lDr s 0 i != 0.
  by rewrite -normr_eq0 gt_eqF // (le_lt_trans hth) //; move/larger_all: hR'; apply.
have b4' := b4 (fun i _ => hD i).
have ER : lQr s *m diag_mx (lDr s) *m lTr s = ordered (rcons Bs B).
  by rewrite b4' ordered_rcons -e1 !mulmxA.
have EW : W *m lTr s = ordered (PropStack_Spec.slices slices (diag_mx BT) (rcons Bs B)).
  by rewrite ordered_slices -a6 -ER (col_dist0 b9) !mulmxA.
by split; rewrite // -EW.
Qed.
End Steps.

Section Zero.
Variable C : numClosedFieldType.
Variable qrp : forall m k, 'M[C]_(m, k) -> 'M[C]_m * 'M[C]_(m, k) * 'S_k.
Hypothesis hq : pivoted qrp.
Variable n : nat.
Notation M := 'M[C]_n.
Variables (BT BTinv : 'rV[C]_n) (size slices : nat).
Hypothesis hBT : forall i, BT 0 i * BTinv 0 i = 1.

Lemma run_zero s0 Bs : low_new BT size slices = Ok s0 ->
  (seq.size Bs <= slices)%N -> all (fun B : M => B \in unitmx) Bs ->
  (forall k, (0 < k <= seq.size Bs)%N ->
     1%:M + ordered (PropStack_Spec.slices slices (diag_mx BT) (take k Bs)) \in unitmx) ->
  exists s, [/\ low_run qrp 0 BTinv s0 Bs = Ok s, exact BT slices Bs s
              & (forall i, lDr s 0 i != 0) /\ lmT s = n].
Proof.
move=> hn; have [hsz hdv [_ h0] [h1 h1'] [h2 h3]] := new_spec hn.
have hbt i : BT 0 i != 0.
  by apply/eqP => e; have /eqP := hBT i; rewrite e mul0r eq_sym oner_eq0.
elim/last_ind: Bs => [|Bs B IH].
  move=> _ _ _; exists s0; split=> //.
    rewrite /exact ordered_slices /= subn0 (_ : ordered [::] = 1%:M) // mulmx1.
    by rewrite h0 subn0 in h2 h3; split.
  split; first by move=> i; rewrite h1' mxE oner_neq0.
  by move: hn; rewrite /low_new; case: eqP => // _; case: ltnP => // _; case: eqP => // _ [<-].
rewrite size_rcons all_rcons => hle /andP[hB hBs] hun.
have [|//|k hk|s [hr [e1 _ _] [hD hT]]] := IH; first exact: ltnW.
  have := hun k; rewrite -cats1 takel_cat; last by case/andP: hk.
  by apply; case/andP: hk => -> /= h; exact: ltnW.
have [hk' [[a1 a2 a3 a4 a5] a6]] := run_at hq (lexx 0) hBT hn hr.
have hg : ~~ ((lcounter s == 0%N) && (lbins s <= lblock s)%N).
  rewrite a3 a5; apply/negP => /andP[_]; rewrite leqNgt => /negP; apply.
  by rewrite ltn_divLR // hdv.
rewrite run_rcons hr /=.
have [Qr [Dr [Tr [b [CT [theta [mT [W [f1 f2 f3 [f4 f5] [f6 f7]]]]]]]]]] :=
  step_spec hq (lexx 0) BTinv B hg.
move: f1 f2 f3 f5 f6 f7; set Dl := \row_i _ => f1 f2 f3 f5 f6 f7.
have EDl : Dl = \row_i BT 0 i ^+ (slices - (seq.size Bs).+1).
  rewrite /Dl a6; apply/rowP => i; rewrite !mxE.
  have -> : (slices - seq.size Bs)%N = (slices - (seq.size Bs).+1).+1 by lia.
  by rewrite exprSr -mulrA hBT mulr1.
have hR : larger 0 (lDr s) = n by apply/larger_all => i; rewrite normr_gt0.
have hL : larger 0 Dl = n.
  by apply/larger_all => i; rewrite normr_gt0 EDl mxE expf_neq0.
rewrite hR hL minnn !first_all in f2 f3 f5 f7.
have hO : ordered Bs \in unitmx.
  elim: (Bs) hBs => [|X tl IHt] /=; first by rewrite /ordered /= unitmx1.
  by move=> /andP[hX ht]; rewrite ordered_cons unitmx_mul IHt.
have hQD : B *m lQr s *m diag_mx (lDr s) \in unitmx.
  move: hO; rewrite -e1 !unitmx_mul hB => /andP[/andP[-> ->] _] //.
have hDr := f3 erefl hQD.
have EW : W = diag_mx Dl *m Qr *m diag_mx Dr.
  apply: col_dist0 => j; have := f7 j; by case: ifP => // _; rewrite expr0n.
have ER : Qr *m diag_mx Dr *m Tr = ordered (rcons Bs B).
  by rewrite f2 // ordered_rcons -e1 !mulmxA.
have EA : W *m Tr = ordered (PropStack_Spec.slices slices (diag_mx BT) (rcons Bs B)).
  by rewrite ordered_slices size_rcons -EDl -ER EW !mulmxA.
have hWT : W *m Tr \in unitmx.
  rewrite EA ordered_slices unitmx_mul ordered_rcons unitmx_mul hB hO andbT /=.
  rewrite andbT unitmxE det_diag unitfE; apply/prodf_neq0 => i _; rewrite mxE expf_neq0 //.
have hmT : mT = n.
  have : \rank W = n by apply/mxrank_unit; move: hWT; rewrite unitmx_mul => /andP[].
  by move=> e; apply/eqP; rewrite eqn_leq; move: f5; rewrite e andbC.
have hA : 1%:M + W *m Tr \in unitmx.
  have := hun (seq.size Bs).+1; rewrite -(size_rcons Bs B) take_size size_rcons EA; apply.
  by rewrite /= leqnn.
have hb : b by apply: f4; rewrite hmT; apply: mxrank_unit; rewrite unitmx_mul hWT.
rewrite f1 hb hA /=; eexists; split; first reflexivity.
  by split; rewrite //= EA.
by [].
Qed.
End Zero.

(* the order of the trial's diagonal *)
Section Order.
Variable C : numClosedFieldType.
Variable qrp : forall m k, 'M[C]_(m, k) -> 'M[C]_m * 'M[C]_(m, k) * 'S_k.
Hypothesis hq : pivoted qrp.
Variables (thresh x : C).
Hypotheses (hx : 0 < x) (hxt : x <= thresh) (ht : thresh * 3%:R < 1).

Definition dip : 'rV[C]_3 := \row_i (if i == 1 then x else 1).
Definition dipinv : 'rV[C]_3 := \row_i (if i == 1 then x^-1 else 1).

Lemma dip_inv i : dip 0 i * dipinv 0 i = 1.
Proof. by rewrite !mxE; case: ifP => _; rewrite ?mulr1 // divff // gt_eqF. Qed.

Lemma t1 : thresh < 1.
Proof.
apply: le_lt_trans ht; rewrite ler_pemulr ?(le_trans (ltW hx)) //; by rewrite (ler_nat C 1 3).
Qed.

Lemma dip_larger : larger thresh dip = 2%N.
Proof.
rewrite /larger -sum1dep_card !big_mkcond !big_ord_recl big_ord0 /= !mxE /= normr1 t1.
by rewrite gtr0_norm // (le_gtF hxt).
Qed.

Lemma one_larger : larger thresh (const_mx 1 : 'rV[C]_3) = 3%N.
Proof. by apply/larger_all => i; rewrite mxE normr1 t1. Qed.

Lemma sub_id p q (A : 'M[C]_(p, q)) : sub p q A = A.
Proof. by apply: entP => i j hi hj; rewrite ent_sub hi hj. Qed.

Lemma rank1_form (W : 'M[C]_3) : (\rank W <= 1)%N ->
  exists (u : 'cV[C]_3) (v : 'rV[C]_3), W = u *m v.
Proof.
move=> h; exists (col_base W *m pid_mx (\rank W)), (pid_mx (\rank W) *m row_base W).
rewrite -[LHS]mulmx_base; move: (col_base W) (row_base W) => u v.
by rewrite mulmxA -[u *m _ *m _]mulmxA mul_pid_mx minnn (minn_idPr h) pid_mx_1 mulmx1.
Qed.

Lemma rank1_minor (W : 'M[C]_3) i j k l : (\rank W <= 1)%N -> W i j * W k l = W i l * W k j.
Proof.
move=> /rank1_form [u [v ->]]; rewrite !mxE !big_ord_recl !big_ord0 !addr0.
by rewrite mulrACA [RHS]mulrACA [v _ j * _]mulrC.
Qed.

Lemma rank1_det (W : 'M[C]_3) : (\rank W <= 1)%N -> \det (1%:M + W) = 1 + \tr W.
Proof.
by move=> /rank1_form [u [v ->]]; rewrite det_1pMM det_mx11 !mxE eqxx mxtrace_mulC /mxtrace
     big_ord1 !mxE.
Qed.

Lemma sum3 (f : 'I_3 -> C) : \sum_i f i = f 0 + f 1 + f 2%:R.
Proof.
rewrite !big_ord_recl big_ord0 addr0 addrA; congr (_ + f _ + f _); exact/val_inj.
Qed.

Lemma dip_runs s0 : low_new dip 2 2 = Ok s0 ->
  exists s, low_run qrp thresh dipinv s0 [:: 1%:M] = Ok s.
Proof.
rewrite /low_new /= => -[<-] /=.
have hth : 0 <= thresh by apply: le_trans (ltW hx) hxt.
rewrite /update_low_rank /= !aboveE one_larger.
set Dl := \row_i _.
have EDl : Dl = dip.
  apply/rowP => i; rewrite !mxE /= /bin_diag /= !mxE; case: ifP => _; rewrite ?mulr1 //.
  by rewrite mulfK // gt_eqF.
rewrite EDl dip_larger /right_plain /= !mul1mx !sub_id.
have [b [CT [theta [mT [W [-> e2 [e3 e3'] e4 e5]]]]]] :=
  finish_spec hq hth 1%:M (const_mx 1) 1%:M dip (leqnSn 2) (leqnn 3).
rewrite mulmx1 in e2 *.
suff [-> ->] : b /\ 1%:M + W \in unitmx by rewrite /=; eexists.
pose Z (i j : 'I_3) : C := if (i < 2)%N && (j < 3)%N then dip 0 i * ((1%:M : 'M[C]_3) i j * 1) else 0.
have hd i j : `|W i j - Z i j| ^+ 2 <= if mT == 2%N then 0 else thresh ^+ 2.
  have := e5 j; rewrite (_ : minn 2 3 = 2%N) //; apply: le_trans.
  rewrite (bigD1 i) //= [const_mx _ _ _]mxE -/(Z i j) ler_addl.
  by apply: sumr_ge0 => l _; rewrite exprn_ge0.
have x0 : x != 0 by rewrite gt_eqF.
move: e3'; rewrite (_ : minn 2 3 = 2%N) // leq_eqVlt => /orP[/eqP eT|].
  have EW : W = diag_mx (\row_i (if (i < 2)%N then dip 0 i else 0)).
    apply/matrixP => i j; apply/subr0_eq/eqP; rewrite -normr_eq0 -sqrf_eq0.
    have := hd i j; rewrite eT eqxx /Z !mxE ltn_ord andbT mulr1 => h.
    rewrite -[_ *+ _]mulr_natr; apply/eqP/le_anti; rewrite exprn_ge0 // andbT.
    by apply: le_trans h; case: ltnP => _ //=; rewrite mul0r.
  split.
    apply: e2; rewrite eT; apply/eqP; rewrite eqn_leq; apply/andP; split.
      by apply: leq_trans (mxrankM_maxl _ _) _; move: e3; rewrite eT.
    apply: (@leq_trans (\rank (W *m W *m diag_mx (\row_i (if (i < 2)%N then (dip 0 i ^+ 2)^-1 else 0))))).
      have -> : W *m W *m diag_mx (\row_i (if (i < 2)%N then (dip 0 i ^+ 2)^-1 else 0)) = pid_mx 2.
        rewrite EW !mulmx_diag; apply/matrixP => i j; rewrite !mxE -val_eqE /=.
        case: ltnP => hi; rewrite ?mul0r ?mul0rn ?andbF //; rewrite andbT.
        by rewrite -expr2 divff // sqrf_eq0; case: ifP => _ //; rewrite oner_neq0.
      by rewrite rank_pid_mx.
    exact: mxrankM_maxl.
  rewrite EW -diag_const_mx -raddfD unitmxE det_diag unitfE; apply/prodf_neq0 => i _.
  rewrite !mxE; case: ifP => _; last by rewrite addr0 oner_neq0.
  by rewrite gt_eqF // ltr_paddr // ?ltr01 //; case: ifP => _; rewrite ?ltW ?ltr01.
rewrite ltnS => hT1.
have hd' i j : `|W i j - Z i j| <= thresh.
  rewrite -(@ler_pexpn2r _ 2) ?nnegrE //; apply: le_trans (hd i j) _.
  by rewrite (_ : (mT == 2%N) = false) //; case: (mT) hT1 => [|[]].
have Z0 : Z 0 0 = 1 by rewrite /Z !mxE /= !mulr1.
have Z1 : Z 1 1 = x by rewrite /Z !mxE /= !mulr1.
have W2 j : W (2%:R : 'I_3) j = 0 by apply: e4.
have d0 := hd' 0 0; have d1 := hd' 1 1; rewrite Z0 in d0; rewrite Z1 in d1.
have hrk : (\rank W <= 1)%N by exact: leq_trans e3 hT1.
have w00 : W 0 0 != 0.
  apply/eqP => e; move: d0; rewrite e sub0r normrN normr1 => h.
  by move: (lt_le_trans t1 h); rewrite ltxx.
have bound c : 1 <= c -> c + (W 0 0 - 1) + W 1 1 != 0.
  move=> hc; apply/eqP => e.
  have e' : c = - ((W 0 0 - 1) + W 1 1) by apply/eqP; rewrite -addr_eq0 addrA e.
  have h1 : `|W 1 1| <= thresh + thresh.
    rewrite -[W 1 1](subrK x); apply: le_trans (ler_norm_add _ _) _.
    by rewrite ler_add // gtr0_norm.
  have : c <= thresh * 3%:R.
    rewrite -[c]ger0_norm ?(le_trans ler01 hc) // e' normrN.
    apply: le_trans (ler_norm_add _ _) _.
    by rewrite mulr_natr mulrS mulr2n ler_add.
  move=> h; move: (le_lt_trans (le_trans hc h) ht); by rewrite ltxx.
have hm0 : mT = 1%N.
  case: (mT) hT1 e3 => [|[]] // _; rewrite leqn0 mxrank_eq0 => /eqP e.
  by move: w00; rewrite e mxE eqxx.
split.
  apply: e2; rewrite hm0; apply/eqP; rewrite eqn_leq (leq_trans (mxrankM_maxl _ _) hrk) /=.
  rewrite lt0n mxrank_eq0; apply/eqP => e.
  have := congr1 (fun X : 'M[C]_3 => X 0 0) e; rewrite !mxE sum3 W2 mulr0 addr0.
  rewrite (rank1_minor 0 1 1 0 hrk) -mulrDr => /eqP; rewrite mulf_eq0 (negPf w00) /=.
  by have := bound 1 (lexx _); rewrite addrC [1 + _]addrC subrK addrC => /negPf ->.
rewrite unitmxE rank1_det // unitfE /mxtrace sum3 W2 addr0.
have E2 : 2%:R + (W 0 0 - 1) = 1 + W 0 0 by rewrite addrCA mulr2n addrK addrC.
have h2 : (1 : C) <= 2%:R by rewrite (ler_nat C 1 2).
by have := bound 2%:R h2; rewrite E2 addrA.
Qed.
End Order.
