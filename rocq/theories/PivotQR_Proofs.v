(* Every matrix has a QR factorisation with column pivoting: the assumption made about
   scipy.linalg.qr(pivoting=True) can be met for all shapes. *)

From Verif Require Import Base.
Set Warnings "-notation-overridden,-ambiguous-paths".
From mathcomp Require Import all_ssreflect all_fingroup all_algebra.
From Verif Require Import Ortho_Spec Ortho_Proofs TGreen_Model TGreen_Proofs LowRank_Spec.

Set Implicit Arguments.
Unset Strict Implicit.
Unset Printing Implicit Defensive.

Import Order.TTheory GRing.Theory Num.Theory.
Local Open Scope ring_scope.

Section QR.
Variable C : numClosedFieldType.

Lemma orth1 m : orthonormal (1%:M : 'M[C]_m).
Proof. by rewrite /orthonormal /adj map_mx1 trmx1 mulmx1. Qed.

Lemma orth_adj m (U : 'M[C]_m) : orthonormal U -> orthonormal (adj U).
Proof. by move=> h; rewrite /orthonormal adjK unitaryV. Qed.

Lemma adj_ent p q (A : 'M[C]_(p, q)) i j : adj A i j = (A j i)^*.
Proof. by rewrite !mxE. Qed.

(* length of a column *)
Lemma col_sq m k (A : 'M[C]_(m, k)) j : (adj A *m A) j j = \sum_i `|A i j| ^+ 2.
Proof. by rewrite mxE; apply: eq_bigr => i _; rewrite !mxE mulrC normCK. Qed.

Lemma col_sq_orth m k (U : 'M[C]_m) (A : 'M[C]_(m, k)) j : orthonormal U ->
  \sum_i `|(U *m A) i j| ^+ 2 = \sum_i `|A i j| ^+ 2.
Proof.
by move=> h; rewrite -!col_sq adjM mulmxA -(mulmxA (adj A)) h mulmx1.
Qed.

(* A reflection. *)
Definition refl m (u : 'cV[C]_m) : 'M[C]_m :=
  1%:M - (2%:R / \sum_i `|u i 0| ^+ 2) *: (u *m adj u).

Lemma adj_scale p q (a : C) (A : 'M[C]_(p, q)) : adj (a *: A) = a^* *: adj A.
Proof. by apply/matrixP => i j; rewrite !mxE rmorphM. Qed.

Lemma adjB p q (A B : 'M[C]_(p, q)) : adj (A - B) = adj A - adj B.
Proof. by apply/matrixP => i j; rewrite !mxE rmorphB. Qed.

Lemma inner1 m (u v : 'cV[C]_m) : adj u *m v = (\sum_i (u i 0)^* * v i 0)%:M.
Proof.
apply/matrixP => i j; rewrite !ord1 !mxE eqxx mulr1n.
by apply: eq_bigr => l _; rewrite !mxE.
Qed.

Lemma sq_real m (u : 'cV[C]_m) : 0 <= \sum_i `|u i 0| ^+ 2.
Proof. by apply: sumr_ge0 => i _; rewrite exprn_ge0. Qed.

Lemma refl_orth m (u : 'cV[C]_m) : \sum_i `|u i 0| ^+ 2 != 0 -> orthonormal (refl u).
Proof.
move=> h0; set N := \sum_i _ in h0; set t := 2%:R / N.
have ht : t^* = t.
  rewrite /t rmorphM fmorphV /= rmorph_nat; congr (_ * _^-1).
  by apply/CrealP/ger0_real; exact: sq_real.
have hh : adj (refl u) = refl u.
  by rewrite /refl adjB (_ : adj 1%:M = 1%:M) ?adj_scale ?adjM ?adjK ?ht // /adj map_mx1 trmx1.
rewrite /orthonormal hh /refl -/N -/t.
have hu : adj u *m u = N%:M.
  by rewrite inner1; congr (_%:M); apply: eq_bigr => i _; rewrite normCK mulrC.
rewrite mulmxBl mul1mx mulmxBr mulmx1 -!scalemxAl -!scalemxAr.
rewrite -mulmxA (mulmxA (adj u)) hu mul_scalar_mx -scalemxAr.
rewrite !scalerA (_ : t * (t * N) = t + t).
  by rewrite scalerDl opprB addrK subrK.
by rewrite (_ : t * N = 2%:R) ?mulr_natr ?mulr2n // /t divfK.
Qed.

(* A unit vector can be turned onto the first axis. *)
Lemma turn m (v : 'cV[C]_m.+1) : \sum_i `|v i 0| ^+ 2 = 1 ->
  exists2 H : 'M[C]_m.+1, orthonormal H & H *m v = delta_mx 0 0.
Proof.
move=> hv.
pose c := if v 0 0 == 0 then 1 else (v 0 0)^* / `|v 0 0|.
have hc : `|c| = 1.
  rewrite /c; case: ifP => h; first by rewrite normr1.
  by rewrite normrM normfV norm_conjC normr_id divff // normr_eq0 h.
have cc : c^* * c = 1 by rewrite mulrC -normCK hc expr1n.
pose w := c *: v.
have hw : \sum_i `|w i 0| ^+ 2 = 1.
  by rewrite -hv; apply: eq_bigr => i _; rewrite mxE normrM hc mul1r.
have w0 : w 0 0 = `|v 0 0|.
  rewrite mxE /c; case: ifP => [/eqP ->|h]; first by rewrite mulr0 normr0.
  by rewrite mulrAC [_^* * _]mulrC -normCK expr2 mulfK // normr_eq0 h.
have hco : orthonormal (c%:M : 'M[C]_m.+1).
  rewrite /orthonormal (_ : adj _ = (c^*)%:M); last by rewrite /adj map_scalar_mx tr_scalar_mx.
  by rewrite -scalar_mxM cc.
have hcv : (c%:M : 'M[C]_m.+1) *m v = w by rewrite mul_scalar_mx.
pose e : 'cV[C]_m.+1 := delta_mx 0 0.
pose u := w - e.
case: (eqVneq (\sum_i `|u i 0| ^+ 2) 0) => hu.
  exists c%:M => //; rewrite hcv; apply/subr0_eq/matrixP => i j; rewrite [j]ord1 [RHS]mxE.
  have hp l : true -> 0 <= `|u l 0| ^+ 2 by move=> _; rewrite exprn_ge0.
  by have /eqP := psumr_eq0P (P := xpredT) hp hu (i := i) isT; rewrite sqrf_eq0 normr_eq0 => /eqP.
exists (refl u *m c%:M); first by apply: orthM => //; exact: refl_orth.
rewrite -mulmxA hcv /refl mulmxBl mul1mx -scalemxAl -mulmxA inner1 mul_mx_scalar scalerA.
suff -> : 2%:R / (\sum_i `|u i 0| ^+ 2) * (\sum_i (u i 0)^* * w i 0) = 1.
  by rewrite scale1r /u opprB addrC subrK.
have ue i : u i 0 = w i 0 - (i == 0)%:R by rewrite !mxE andbT.
have hd (f : 'I_m.+1 -> C) : \sum_i (i == 0)%:R * f i = f 0.
  rewrite (bigD1 0) //= mul1r big1 ?addr0 // => i hi.
  by rewrite (negPf hi) mul0r.
have hr : (w 0 0)^* = w 0 0 by rewrite w0; apply/CrealP; exact: normr_real.
have E1 : \sum_i (u i 0)^* * w i 0 = 1 - w 0 0.
  rewrite -hw -(hd (fun i => w i 0)) -sumrB; apply: eq_bigr => i _.
  by rewrite ue rmorphB /= rmorph_nat mulrBl normCK [w i 0 * _]mulrC.
have E2 : \sum_i `|u i 0| ^+ 2 = 2%:R * (1 - w 0 0).
  rewrite (eq_bigr (fun i => (u i 0)^* * w i 0 - (i == 0)%:R * (u i 0)^*)); last first.
    by move=> i _; rewrite normCK mulrC {2}ue mulrBr [_ * (_ == _)%:R]mulrC.
  rewrite sumrB E1 (hd (fun i => (u i 0)^*)) ue eqxx rmorphB rmorph1 /= hr.
  by rewrite opprB mulr_natl mulr2n.
rewrite E1 E2 in hu *.
have h1 : 1 - w 0 0 != 0 by apply: contraNneq hu => ->; rewrite mulr0.
by rewrite invfM mulrA divff ?pnatr_eq0 // mul1r mulVf.
Qed.

Lemma turn_col m (a : 'cV[C]_m.+1) :
  exists2 H : 'M[C]_m.+1, orthonormal H
    & exists2 r : C, r \is Num.real /\ `|r| ^+ 2 = \sum_i `|a i 0| ^+ 2
                     & forall i, (H *m a) i 0 = (if i == 0 then r else 0).
Proof.
set N := \sum_i _; have hN : 0 <= N by exact: sq_real.
pose r := sqrtC N.
have r0 : 0 <= r by rewrite sqrtC_ge0.
have rr : `|r| ^+ 2 = N by rewrite ger0_norm // sqrtCK.
case: (eqVneq N 0) => h0.
  have ha : a = 0.
    apply/matrixP => i j; rewrite [j]ord1 [RHS]mxE.
    have hp l : true -> 0 <= `|a l 0| ^+ 2 by move=> _; rewrite exprn_ge0.
    by have /eqP := psumr_eq0P (P := xpredT) hp h0 (i := i) isT;
       rewrite sqrf_eq0 normr_eq0 => /eqP.
  exists 1%:M; first exact: orth1.
  exists 0; first by rewrite h0 normr0 expr0n rpred0.
  by move=> i; rewrite ha mulmx0 mxE if_same.
have rn : r != 0 by rewrite sqrtC_eq0.
have [|H hH hv] := @turn m (r^-1 *: a).
  rewrite (eq_bigr (fun i => `|a i 0| ^+ 2 / N)); last first.
    by move=> i _; rewrite mxE normrM normfV exprMn exprVn rr mulrC.
  by rewrite -mulr_suml divff.
exists H => //; exists r; first by split=> //; exact: ger0_real.
move=> i; have -> : a = r *: (r^-1 *: a) by rewrite scalerA divff // scale1r.
rewrite -scalemxAr hv !mxE andbT; case: eqP => _; by rewrite ?mulr1 ?mulr0.
Qed.

Lemma big_col m k (A : 'M[C]_(m, k.+1)) :
  exists j0, forall j, \sum_i `|A i j| ^+ 2 <= \sum_i `|A i j0| ^+ 2.
Proof.
pose F (j : 'I_k.+1) := \sum_i `|A i j| ^+ 2.
have hF j : F j \is Num.real by apply/ger0_real/sumr_ge0 => i _; rewrite exprn_ge0.
have := @real_arg_maxP _ _ (ord0 : 'I_k.+1) xpredT F isT (fun j _ => hF j).
by case=> j0 _ h; exists j0 => j; exact: h.
Qed.

Lemma perm_col m k (A : 'M[C]_(m, k)) (P : 'S_k) (U : 'M[C]_m) :
  U *m col_perm P A = col_perm P (U *m A).
Proof. by rewrite !col_permE mulmxA. Qed.

(* the same with the unitary factor on the other side *)
Lemma pivot_exists m : forall k (A : 'M[C]_(m, k)),
  exists U : 'M[C]_m, exists P : 'S_k, let R := U *m col_perm P A in
  [/\ orthonormal U,
      forall (i : 'I_m) (j : 'I_k), (j < i)%N -> R i j = 0,
      forall (i : 'I_m) (j : 'I_k), i = j :> nat -> R i j \is Num.real
    & forall (i : 'I_m) (j j' : 'I_k), i = j :> nat -> (j <= j')%N ->
        \sum_(l : 'I_m | (i <= l)%N) `|R l j'| ^+ 2 <= `|R i j| ^+ 2].
Proof.
elim: m => [|m IH] k A.
  by exists 1%:M, 1%g; split; [exact: orth1 | case..].
case: k A => [|k] A.
  by exists 1%:M, 1%g; split; [exact: orth1 | move=> i []..].
have [j0 hj0] := big_col A.
pose A1 := col_perm (tperm 0 j0) A.
have [H hH [r [hr hrr] hc]] := turn_col (col 0 A1).
pose A2 := H *m A1.
have h20 i : A2 i 0 = if i == 0 then r else 0.
  by rewrite -hc /A2 !mxE; apply: eq_bigr => l _; rewrite !mxE.
pose A' : 'M[C]_(m, k) := \matrix_(i, j) A2 (lift 0 i) (lift 0 j).
have [U' [P' [hU' hup hre hpi]]] := IH k A'.
pose V : 'M[C]_m.+1 := \matrix_(i, j)
  match unlift 0 i, unlift 0 j with
  | Some i', Some j' => U' i' j' | None, None => 1 | _, _ => 0 end.
have V00 : V 0 0 = 1 by rewrite mxE unlift_none.
have V0l j : V 0 (lift 0 j) = 0 by rewrite mxE unlift_none liftK.
have Vl0 j : V (lift 0 j) 0 = 0 by rewrite mxE unlift_none liftK.
have Vll i j : V (lift 0 i) (lift 0 j) = U' i j by rewrite mxE !liftK.
have hV : orthonormal V.
  apply/matrixP => i j; rewrite [LHS]mxE big_ord_recl adj_ent [in RHS]mxE.
  case: (unliftP 0 i) => [i'|] ->; case: (unliftP 0 j) => [j'|] ->;
    rewrite ?V00 ?V0l ?Vl0 ?conjC0 ?conjC1 ?mul0r ?mulr0 ?mul1r ?add0r.
  - rewrite (eq_bigr (fun l => (adj U') i' l * U' l j')); last first.
      by move=> l _; rewrite !adj_ent !Vll.
    have := congr1 (fun M : 'M[C]_m => M i' j') hU'; rewrite mxE => ->.
    by rewrite mxE (inj_eq lift_inj).
  - by rewrite big1 // => l _; rewrite Vl0 mulr0.
  - by rewrite big1 ?addr0 // => l _; rewrite adj_ent Vl0 conjC0 mul0r.
  - by rewrite big1 ?addr0 // => l _; rewrite Vl0 mulr0.
pose P := (lift_perm 0 0 P' * tperm 0 j0)%g.
have EP : col_perm P A = col_perm (lift_perm 0 0 P') A1.
  by apply/matrixP => i j; rewrite !mxE permM.
pose R := V *m H *m col_perm P A.
have ER : R = V *m col_perm (lift_perm 0 0 P') A2.
  by rewrite /R EP -mulmxA [H *m _]perm_col.
have R0 j : R 0 j = A2 0 (lift_perm 0 0 P' j).
  rewrite ER mxE big_ord_recl V00 mul1r mxE big1 ?addr0 // => l _.
  by rewrite V0l mul0r.
have Rl0 i : R (lift 0 i) 0 = 0.
  rewrite ER mxE big_ord_recl Vl0 mul0r add0r big1 // => l _.
  by rewrite [col_perm _ _ _ _]mxE lift_perm_id h20 mulr0.
have Rll i j : R (lift 0 i) (lift 0 j) = (U' *m col_perm P' A') i j.
  rewrite ER mxE big_ord_recl Vl0 mul0r add0r [RHS]mxE; apply: eq_bigr => l _.
  by rewrite Vll !mxE lift_perm_lift.
have hVH : orthonormal (V *m H) by exact: orthM.
exists (V *m H), P; rewrite -/R; split=> //.
- move=> i j; case: (unliftP 0 i) => [i'|] -> //; case: (unliftP 0 j) => [j'|] ->.
    by rewrite !lift0 ltnS Rll; exact: hup.
  by rewrite Rl0.
- move=> i j; case: (unliftP 0 i) => [i'|] ->; case: (unliftP 0 j) => [j'|] ->.
  + by rewrite !lift0 => -[] h; rewrite Rll; exact: hre.
  + by rewrite Rl0 rpred0.
  + by [].
  + by rewrite R0 lift_perm_id h20 eqxx.
- move=> i j j'; case: (unliftP 0 i) => [i'|] ->; case: (unliftP 0 j) => [j1|] -> //.
  + rewrite !lift0 => -[] h; case: (unliftP 0 j') => [j2|] -> //.
    rewrite lift0 ltnS => h2; rewrite big_mkcond big_ord_recl /= add0r -big_mkcond /=.
    rewrite Rll; apply: le_trans (hpi _ _ _ h h2); rewrite le_eqVlt; apply/orP; left; apply/eqP.
    by apply: eq_big => [l|l _]; rewrite ?lift0 // Rll.
  + move=> _ _; rewrite R0 lift_perm_id h20 eqxx hrr.
    rewrite (eq_bigl xpredT) // /R col_sq_orth //.
    rewrite (eq_bigr (fun l => `|A l (P j')| ^+ 2)); last by move=> l _; rewrite mxE.
    apply: le_trans (hj0 _) _; rewrite le_eqVlt; apply/orP; left; apply/eqP.
    by apply: eq_bigr => l _; rewrite !mxE tpermL.
Qed.

Lemma is_pivoted_exists m k (A : 'M[C]_(m, k)) :
  exists x : 'M[C]_m * 'M[C]_(m, k) * 'S_k, is_pivoted A x.1.1 x.1.2 x.2.
Proof.
have [U [P [hU h1 h2 h3]]] := pivot_exists A.
exists (adj U, U *m col_perm P A, P); split=> //=; last exact: orth_adj.
by rewrite mulmxA hU mul1mx.
Qed.

Definition is_pivotedb m k (A : 'M[C]_(m, k)) (x : 'M[C]_m * 'M[C]_(m, k) * 'S_k) : bool :=
  let '(Q, R, P) := x in
  [&& col_perm P A == Q *m R, adj Q *m Q == 1%:M,
      [forall i : 'I_m, forall j : 'I_k, (j < i)%N ==> (R i j == 0)],
      [forall i : 'I_m, forall j : 'I_k, (i == j :> nat) ==> (R i j \is Num.real)]
    & [forall i : 'I_m, forall j : 'I_k, forall j' : 'I_k, (i == j :> nat) ==> (j <= j')%N ==>
        (\sum_(l : 'I_m | (i <= l)%N) `|R l j'| ^+ 2 <= `|R i j| ^+ 2)]].

Lemma is_pivotedP m k (A : 'M[C]_(m, k)) x :
  reflect (is_pivoted A x.1.1 x.1.2 x.2) (is_pivotedb A x).
Proof.
case: x => [[Q R] P] /=; apply: (iffP and5P) => [[/eqP h1 /eqP h2 h3 h4 h5]|[h1 h2 h3 h4 h5]].
- split=> //.
  + by move=> i j h; move/forallP/(_ i)/forallP/(_ j)/implyP/(_ h)/eqP: h3.
  + by move=> i j /eqP h; move/forallP/(_ i)/forallP/(_ j)/implyP/(_ h): h4.
  + move=> i j j' /eqP h h'.
    by move/forallP/(_ i)/forallP/(_ j)/forallP/(_ j')/implyP/(_ h)/implyP/(_ h'): h5.
- split; try exact/eqP.
  + by apply/forallP => i; apply/forallP => j; apply/implyP => h; apply/eqP; exact: h3.
  + by apply/forallP => i; apply/forallP => j; apply/implyP => /eqP h; exact: h4.
  + apply/forallP => i; apply/forallP => j; apply/forallP => j'; apply/implyP => /eqP h.
    by apply/implyP => h'; exact: h5.
Qed.

Lemma is_pivotedb_exists m k (A : 'M[C]_(m, k)) : exists x, is_pivotedb A x.
Proof. by have [x /is_pivotedP h] := is_pivoted_exists A; exists x. Qed.

Definition pivot_qr m k (A : 'M[C]_(m, k)) : 'M[C]_m * 'M[C]_(m, k) * 'S_k :=
  xchoose (is_pivotedb_exists A).

Lemma pivot_qr_right : pivoted pivot_qr.
Proof.
move=> m k A; have := xchooseP (is_pivotedb_exists A); rewrite -/(pivot_qr A).
by case: (pivot_qr A) => [[Q R] P] /is_pivotedP.
Qed.
End QR.
