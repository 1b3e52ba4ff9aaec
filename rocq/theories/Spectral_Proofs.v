(* Every Hermitian matrix has an orthonormal basis of eigenvectors, in increasing order of
   the eigenvalues: the assumption made about scipy.linalg.eigh can be met for all sizes. *)

From Verif Require Import Base.
Set Warnings "-notation-overridden,-ambiguous-paths".
From mathcomp Require Import all_ssreflect all_fingroup all_algebra.
From Verif Require Import Ortho_Spec Ortho_Proofs TGreen_Model TGreen_Proofs LowRank_Spec
  PivotQR_Proofs.

Set Implicit Arguments.
Unset Strict Implicit.
Unset Printing Implicit Defensive.

Import Order.TTheory GRing.Theory Num.Theory.
Local Open Scope ring_scope.

Section Spectral.
Variable C : numClosedFieldType.

Lemma adj_add p q (A B : 'M[C]_(p, q)) : adj (A + B) = adj A + adj B.
Proof. by apply/matrixP => i j; rewrite !mxE rmorphD. Qed.

Lemma sq_eq0 m (v : 'cV[C]_m) : \sum_i `|v i 0| ^+ 2 = 0 -> v = 0.
Proof.
move=> h0; apply/matrixP => i j; rewrite [j]ord1 [RHS]mxE.
have hp l : true -> 0 <= `|v l 0| ^+ 2 by move=> _; rewrite exprn_ge0.
by have /eqP := psumr_eq0P (P := xpredT) hp h0 (i := i) isT; rewrite sqrf_eq0 normr_eq0 => /eqP.
Qed.

Lemma eigen1 n (H : 'M[C]_n.+1) : adj H = H ->
  exists l, exists2 v : 'cV[C]_n.+1, \sum_i `|v i 0| ^+ 2 = 1 & H *m v = l *: v.
Proof.
move=> hH; have /closed_rootP [a] : size (char_poly H) != 1%N by rewrite size_char_poly.
rewrite -eigenvalue_root_char => /eigenvalueP [w hw w0].
pose u := adj w.
have hu : H *m u = a^* *: u by rewrite -{1}hH -adjM hw adj_scale.
pose N := \sum_i `|u i 0| ^+ 2.
have N0 : N != 0.
  apply: contra_neq w0 => /sq_eq0 e; apply/matrixP => i j; rewrite [i]ord1 [RHS]mxE.
  by have /matrixP /(_ j 0) := e; rewrite !mxE => /eqP; rewrite conjC_eq0 => /eqP.
have Np : 0 <= N by exact: sq_real.
exists a^*, ((sqrtC N)^-1 *: u); last by rewrite -scalemxAr hu scalerA mulrC -scalerA.
rewrite (eq_bigr (fun i => `|u i 0| ^+ 2 / N)); first by rewrite -mulr_suml divff.
move=> i _; rewrite !mxE normrM normfV exprMn exprVn mulrC.
by rewrite [`|sqrtC N|]ger0_norm ?sqrtC_ge0 // sqrtCK.
Qed.

Lemma spectral n (H : 'M[C]_n) : adj H = H ->
  exists2 U : 'M[C]_n, orthonormal U
    & exists2 d : 'rV[C]_n, (forall i, d 0 i \is Num.real) & H *m U = U *m diag_mx d.
Proof.
elim: n H => [|n IH] H hH.
  exists 0; first by rewrite /orthonormal; apply/matrixP; case.
  by exists 0; [case | apply/matrixP; case].
have [l [v hv hl]] := eigen1 hH.
have [U hU Uv] := turn hv.
have VU := unitaryV hU; rewrite /orthonormal in hU.
have Ue : adj U *m delta_mx 0 0 = v by rewrite -Uv mulmxA hU mul1mx.
have [K KD] : exists K : 'M[C]_(1 + n), K = U *m H *m adj U by eexists.
have hK : adj K = K by rewrite KD !adjM adjK hH mulmxA.
have K0 i : K i 0 = l * (i == 0)%:R.
  have : K *m delta_mx 0 0 = l *: delta_mx 0 (0 : 'I_1).
    by rewrite KD -!mulmxA Ue hl -scalemxAr Uv.
  move/matrixP/(_ i 0); rewrite [RHS]mxE [in RHS]mxE andbT => <-.
  rewrite [RHS]mxE (bigD1 0) //= big1 ?addr0; first by rewrite [delta_mx _ _ _ _]mxE !eqxx mulr1.
  by move=> j hj; rewrite [delta_mx _ _ _ _]mxE (negPf hj) mulr0.
have lr : l \is Num.real.
  apply/CrealP; have := K0 0; rewrite eqxx mulr1 => e.
  by rewrite -{2}e -hK adj_ent e.
have K0' j : K 0 j = l * (j == 0)%:R.
  by rewrite -hK adj_ent K0 rmorphM rmorph_nat /= (CrealP lr).
pose K1 := drsubmx K.
have hK1 : adj K1 = K1.
  by apply/matrixP => i j; rewrite adj_ent !mxE -[in RHS]hK adj_ent.
have [V hV [d dr hd]] := IH K1 hK1.
have KE : K = block_mx l%:M 0 0 K1.
  rewrite -[K]submxK; congr block_mx; apply/matrixP => i j; rewrite !mxE ?ord1.
  - by rewrite (_ : lshift n 0 = 0) ?K0 ?eqxx ?mulr1 //; apply/val_inj.
  - rewrite (_ : lshift n 0 = 0) ?K0'; last exact/val_inj.
    by rewrite (_ : (_ == _) = false) ?mulr0.
  - rewrite (_ : lshift n 0 = 0) ?K0; last exact/val_inj.
    by rewrite (_ : (_ == _) = false) ?mulr0.
pose W : 'M[C]_(1 + n) := block_mx 1%:M 0 0 V.
have aW : adj W = block_mx 1%:M 0 0 (adj V).
  by rewrite /adj /W map_block_mx tr_block_mx !map_mx0 !trmx0 map_mx1 trmx1.
have hW : orthonormal W.
  by rewrite /orthonormal aW mulmx_block !mulmx0 !mul0mx !addr0 !add0r mulmx1 hV -scalar_mx_block.
exists (adj U *m W); first by apply: orthM => //; exact: orth_adj.
exists (row_mx l%:M d).
  move=> i; rewrite mxE; case: splitP => j _; last exact: dr.
  by rewrite ord1 mxE eqxx.
have -> : diag_mx (row_mx l%:M d) = block_mx (l%:M : 'M[C]_1) 0 0 (diag_mx d).
  rewrite diag_mx_row; congr block_mx; apply/matrixP => i j.
  by rewrite !ord1 !mxE eqxx.
have -> : H *m (adj U *m W) = adj U *m (K *m W).
  by rewrite KD !mulmxA hU mul1mx.
rewrite -mulmxA; congr (_ *m _).
have RE : W *m (block_mx l%:M 0 0 (diag_mx d) : 'M[C]_(1 + n)) = block_mx l%:M 0 0 (V *m diag_mx d).
  by rewrite /W mulmx_block !mulmx0 !mul0mx mul1mx !addr0 !add0r.
apply: etrans (esym RE).
by rewrite KE /W mulmx_block !mulmx0 !mul0mx mulmx1 !addr0 !add0r hd.
Qed.

Lemma sort_perm n (f : 'I_n -> C) : (forall i, f i \is Num.real) ->
  exists s : 'S_n, forall i j : 'I_n, (i <= j)%N -> f (s i) <= f (s j).
Proof.
move=> hf; pose r := relpre f <=%O.
have rt : transitive r by move=> x y z; rewrite /r /=; exact: le_trans.
have rE i j : r i j = (f i <= f j) by [].
pose t := sort r (enum 'I_n).
have tp : perm_eq t (enum 'I_n) by rewrite perm_sort.
have tu : uniq t by rewrite (perm_uniq tp) enum_uniq.
have ts : size t = n by rewrite (perm_size tp) size_enum_ord.
have tt : sorted r t.
  apply: (@sort_sorted_in _ (fun _ => true)); last exact/allP.
  by move=> i j _ _; rewrite /r /=; exact: real_leVge.
case: n f hf r rt rE t tp tu ts tt => [|n] f hf r rt rE t tp tu ts tt; first by exists 1%g; case.
pose g (i : 'I_n.+1) := nth 0 t i.
have gi : injective g.
  by move=> i j /eqP; rewrite nth_uniq ?ts // => /eqP /val_inj.
exists (perm gi) => i j hij; rewrite !permE /g.
move: hij; rewrite leq_eqVlt => /orP [/eqP e|hij]; first by rewrite (val_inj e).
by rewrite -rE; apply: (sorted_ltn_nth rt 0 tt) => //; rewrite inE ts.
Qed.

End Spectral.
