(* Proofs about finite-temperature Green's functions. *)

From Verif Require Import Base.
Set Warnings "-notation-overridden,-ambiguous-paths".
From mathcomp Require Import all_ssreflect all_fingroup all_algebra.
From Verif Require Import PropStack_Model Rank1_Spec Ortho_Model Ortho_Spec.
From Verif Require Import Rank1_Proofs Ortho_Proofs TGreen_Model TGreen_Spec.

Set Implicit Arguments.
Unset Strict Implicit.
Unset Printing Implicit Defensive.

Import Order.TTheory GRing.Theory Num.Theory.
Local Open Scope ring_scope.

Section Facts.
Variable C : numClosedFieldType.
Variable n : nat.
Notation M := 'M[C]_n.

Lemma dagE p m (A : 'M[C]_(p, m)) : dag A = adj A.
Proof. by []. Qed.

Lemma adjK p m (A : 'M[C]_(p, m)) : adj (adj A) = A.
Proof. by apply/matrixP => i j; rewrite !mxE conjCK. Qed.

Lemma unitaryV (U : M) : orthonormal U -> U *m adj U = 1%:M.
Proof. exact: mulmx1C. Qed.

Lemma orth_unit (U : M) : orthonormal U -> U \in unitmx.
Proof. by move=> h; case: (mulmx1_unit h). Qed.

Lemma orthM (U V : M) : orthonormal U -> orthonormal V -> orthonormal (U *m V).
Proof.
move=> hU hV; rewrite /orthonormal adjM mulmxA -(mulmxA _ (adj U)) hU mulmx1.
exact: hV.
Qed.

Lemma inv_left (G A : M) : G *m A = 1%:M -> G = invmx A.
Proof.
move=> h; have [_ hA] := mulmx1_unit h.
by rewrite -[G]mulmx1 -(mulmxV hA) mulmxA h mul1mx.
Qed.

Lemma diag_unit m (d : 'rV[C]_m) :
  diag_mx d \in unitmx -> forall i, d 0 i != 0.
Proof.
rewrite unitmxE det_diag unitfE => /prodf_neq0 h i; exact: h.
Qed.

Lemma diag_inv m (d : 'rV[C]_m) :
  (forall i, d 0 i != 0) -> diag_mx (inv_row d) *m diag_mx d = 1%:M.
Proof.
move=> h; rewrite mulmx_diag -diag_const_mx; congr diag_mx.
by apply/rowP => i; rewrite !mxE mulVf.
Qed.

(* SVD *)
Section SVD.
Variable svd : M -> M * 'rV[C]_n * M.
Hypothesis Hsvd : svd_right svd.

Lemma svd_green (U1 V1 : M) (S1 : 'rV[C]_n) :
  orthonormal U1 -> orthonormal V1 ->
  let A := U1 *m diag_mx S1 *m V1 in
  exists S2 : 'rV[C]_n, exists2 UV : M * M,
  [/\ orthonormal UV.1, orthonormal UV.2,
      1%:M + A = UV.1 *m diag_mx S2 *m UV.2
    & forall i, S2 0 i \is Num.real] &
  forall f, green_of_svd svd f U1 S1 V1
  = adj UV.2 *m diag_mx (f S2) *m adj UV.1.
Proof.
move=> hU hV A; rewrite /green_of_svd.
have := Hsvd (dag U1 *m dag V1 + diag_mx S1).
case: (svd _) => [[U2 S2] V2] [E hU2 hV2 hS].
exists S2, (U1 *m U2, V2 *m V1) => //; split=> //=; try exact: orthM.
have -> : U1 *m U2 *m diag_mx S2 *m (V2 *m V1)
          = U1 *m (U2 *m diag_mx S2 *m V2) *m V1 by rewrite !mulmxA.
rewrite -E mulmxDr mulmxDl; congr (_ + _).
by rewrite mulmxA unitaryV // mul1mx.
Qed.

Lemma svd_inv (U V : M) (S : 'rV[C]_n) (A : M) :
  orthonormal U -> orthonormal V -> A \in unitmx ->
  A = U *m diag_mx S *m V ->
  adj V *m diag_mx (inv_row S) *m adj U = invmx A.
Proof.
move=> hU hV hA E; apply: inv_left.
have hS : forall i, S 0 i != 0.
  apply: diag_unit; move: hA.
  by rewrite E !unitmx_mul (orth_unit hU) (orth_unit hV) andbT.
rewrite E -!mulmxA [adj U *m _]mulmxA hU mul1mx (mulmxA (diag_mx _)).
by rewrite diag_inv // mul1mx.
Qed.

Lemma greens_function_right A :
  1%:M + A \in unitmx -> greens_function svd A = invmx (1%:M + A).
Proof.
move=> hA; rewrite /greens_function.
have := Hsvd A; case: (svd A) => [[U S] V] [E hU hV hS].
have [S2 [[U3 V3] /= [h1 h2 h3 _] ->]] := svd_green S hU hV.
by apply: svd_inv; rewrite // E.
Qed.

Lemma inverse_right A :
  inverse_greens_function svd A = adj (1%:M + A).
Proof.
rewrite /inverse_greens_function.
have := Hsvd A; case: (svd A) => [[U S] V] [E hU hV hS].
have [S2 [[U3 V3] /= [h1 h2 h3 h4] ->]] := svd_green S hU hV.
rewrite E h3 !adjM -mulmxA; congr (_ *m (_ *m _)).
rewrite /adj map_diag_mx tr_diag_mx; congr diag_mx.
by apply/rowP => i; rewrite mxE conj_Creal.
Qed.

Lemma inverse_iff A :
  inverse_greens_function svd A = 1%:M + A <-> adj A = A.
Proof.
have E1 : adj (1%:M : M) = 1%:M by rewrite /adj map_mx1 trmx1.
rewrite inverse_right /adj map_mxD linearD /= -!/(adj _) E1.
by split=> [/addrI|->].
Qed.

End SVD.

(* The loop over the bins. *)
Section Walk.
Variable T : Type.
Variables (start : M -> T) (step : M -> T -> T) (R : T -> M -> Prop).
Hypothesis Hstart : forall A, R (start A) A.
Hypothesis Hstep : forall B s A, R s A -> R (step B s) (B *m A).

Lemma walk_fold (g : nat -> res M) l s (A A' : M) :
  R s A ->
  rfold (fun (A : M) i => rbind (g i) (fun B => Ok (B *m A))) A l = Ok A' ->
  exists2 s', rfold (fun s i => rbind (g i) (fun B => Ok (step B s))) s l
              = Ok s' & R s' A'.
Proof.
elim: l s A => [|i l IH] s A h /=.
  by case=> <-; exists s.
case: (g i) => [B|e] //= E; exact: (IH _ _ (Hstep B h) E).
Qed.

Lemma walk_right (p : pstack C n) slice_ix A :
  path_product p slice_ix = Ok A ->
  exists2 s, walk start step p slice_ix = Ok s & R s A.
Proof.
rewrite /path_product /walk; case: eqP => // _; case: eqP => // _.
case: (item _ _) => [A0|e] //= E; exact: (walk_fold (Hstart A0) E).
Qed.

Lemma walk_fold_err (g : nat -> res M) l (s : T) (A : M) e :
  rfold (fun (A : M) i => rbind (g i) (fun B => Ok (B *m A))) A l = Err e ->
  rfold (fun s i => rbind (g i) (fun B => Ok (step B s))) s l = Err e.
Proof.
elim: l s A => [|i l IH] s A //=.
case: (g i) => [B|e'] /= E; [exact: IH E|by case: E => ->].
Qed.

Lemma walk_err (p : pstack C n) slice_ix e :
  path_product p slice_ix = Err e -> walk start step p slice_ix = Err e.
Proof.
rewrite /path_product /walk; case: eqP => [_ [->]|_] //.
case: eqP => [_ [->]|_] //.
case: (item _ _) => [A0|e'] /= E; [exact: walk_fold_err E|by case: E => ->].
Qed.

End Walk.

Section SVDloop.
Variable svd : M -> M * 'rV[C]_n * M.
Hypothesis Hsvd : svd_right svd.

Lemma svd_loop p slice_ix A :
  path_product p slice_ix = Ok A -> 1%:M + A \in unitmx ->
  greens_function_svd svd p slice_ix = Ok (invmx (1%:M + A)).
Proof.
move=> E hA; rewrite /greens_function_svd.
have [||[[U S] V] -> [EA hU hV]] :=
  @walk_right _ svd (svd_step svd)
    (fun s A => let '(U, Sv, V) := s in
       [/\ A = U *m diag_mx Sv *m V, orthonormal U & orthonormal V])
    _ _ p slice_ix A E.
- by move=> B; have := Hsvd B; case: (svd B) => [[? ?] ?] [].
- move=> B [[U S] V] A' [-> hU hV]; rewrite /svd_step.
  have := Hsvd (B *m U *m diag_mx S); case: (svd _) => [[U' S'] V'] [E' h1 h2 _].
  split=> //; last exact: orthM.
  by rewrite !mulmxA -E'.
- rewrite /=; congr Ok.
  have [S2 [[U3 V3] /= [h1 h2 h3 _] ->]] := svd_green Hsvd S hU hV.
  by apply: svd_inv; rewrite // EA.
Qed.

End SVDloop.

(* QR without pivoting. *)
Section QR.
Variable qr : M -> M * M.
Hypothesis Hqr : qr_right qr.

Lemma upper_triu (V : M) : upper V -> triu V = V.
Proof.
move=> h; apply/matrixP => i j; rewrite mxE; case: leqP => // hij.
by rewrite h.
Qed.

Lemma upperM (V W : M) : upper V -> upper W -> upper (V *m W).
Proof.
move=> hV hW i j hij; rewrite mxE big1 // => k _.
case: (ltnP k i) => h; first by rewrite hV ?mul0r.
by rewrite hW ?mulr0 // (leq_trans hij).
Qed.

Definition qr_inv (s : M * M) (A : M) : Prop :=
  [/\ A = s.1 *m s.2, orthonormal s.1 & upper s.2].

Lemma qr_start A : qr_inv (qr A) A.
Proof. by have := Hqr A; case: (qr A) => Q R []. Qed.

Lemma qr_extend B s A : qr_inv s A -> qr_inv (qr_step qr B s) (B *m A).
Proof.
case: s => U V [/= -> hU hV]; rewrite /qr_step.
have := Hqr (B *m U); case: (qr _) => U' V' [E h1 h2].
split=> //=; last exact: upperM.
by rewrite !mulmxA -E.
Qed.

Lemma qr_final s A : A \in unitmx -> qr_inv s A ->
  let '(U2, V2) := qr (dag s.1 *m tri_inv s.2 + 1%:M) in
  [/\ 1%:M + A = (s.1 *m U2) *m (V2 *m s.2), orthonormal (s.1 *m U2)
    & upper (V2 *m s.2)].
Proof.
case: s => U V hA [/= EA hU hV].
have hVu : V \in unitmx by move: hA; rewrite EA unitmx_mul => /andP [].
have := Hqr (dag U *m tri_inv V + 1%:M); case: (qr _) => U2 V2 [E h1 h2].
split; [|exact: orthM|exact: upperM].
have -> : U *m U2 *m (V2 *m V) = U *m (U2 *m V2) *m V by rewrite !mulmxA.
rewrite -E mulmxDr mulmxDl mulmx1 -EA; congr (_ + _).
by rewrite mulmxA unitaryV // mul1mx /tri_inv upper_triu // mulVmx.
Qed.

Lemma inverse_qr_right A : A \in unitmx ->
  inverse_greens_function_qr qr A = 1%:M + A.
Proof.
move=> hA; have := qr_final hA (qr_start A).
rewrite /inverse_greens_function_qr; case: (qr A) => U V /=.
by case: (qr _) => U2 V2 [-> _ _].
Qed.

Lemma green_of_qr_right s A : A \in unitmx -> 1%:M + A \in unitmx ->
  qr_inv s A -> green_of_qr qr s = invmx (1%:M + A).
Proof.
move=> hA hA1 hs; have := qr_final hA hs.
rewrite /green_of_qr; case: s hs => U V _ /=.
case: (qr _) => U2 V2 [E hU hV]; apply: inv_left.
have hu : V2 *m V \in unitmx by move: hA1; rewrite E unitmx_mul => /andP [].
rewrite E /tri_inv upper_triu // -mulmxA (mulmxA (dag _)) dagE hU mul1mx.
exact: mulVmx.
Qed.

Lemma qr_loop p slice_ix A :
  path_product p slice_ix = Ok A -> A \in unitmx -> 1%:M + A \in unitmx ->
  greens_function_qr qr p slice_ix = Ok (invmx (1%:M + A)).
Proof.
move=> E hA hA1; rewrite /greens_function_qr.
have [s -> hs] := walk_right qr_start qr_extend E.
by rewrite /= (green_of_qr_right hA hA1 hs).
Qed.

End QR.

(* Stratification. *)
Lemma assemble_right (s : strat C n) (Db Ds : 'rV[C]_n) :
  orthonormal (sQ s) -> sT s \in unitmx -> (forall i, Db 0 i != 0) ->
  (forall i, Ds 0 i = Db 0 i * sD s 0 i) ->
  let A := sQ s *m diag_mx (sD s) *m sT s in
  1%:M + A \in unitmx -> assemble s Db Ds = invmx (1%:M + A).
Proof.
move=> hQ hT hb hs A hA; rewrite /assemble.
set X := diag_mx Db *m dag (sQ s).
have hX : X \in unitmx.
  rewrite unitmx_mul; apply/andP; split; last exact: adj_unit (orth_unit hQ).
  rewrite unitmxE det_diag unitfE; apply/prodf_neq0 => i _; exact: hb.
have -> : X *m invmx (sT s) + diag_mx Ds = X *m (1%:M + A) *m invmx (sT s).
  rewrite mulmxDr mulmxDl mulmx1; congr (_ + _).
  rewrite /A !mulmxA mulmxK // /X -[_ *m dag _ *m _]mulmxA hQ mulmx1.
  rewrite mulmx_diag; congr diag_mx; by apply/rowP => i; rewrite mxE.
have hXA : X *m (1%:M + A) \in unitmx by rewrite unitmx_mul hX hA.
have hTi : invmx (sT s) \in unitmx by rewrite unitmx_inv.
rewrite (invmx_mul hXA hTi) (invmx_mul hX hA) invmxK.
by rewrite mulKmx // mulmxKV.
Qed.

Section Strat.
Variable qrp : M -> M * M * 'S_n.
Hypothesis Hqrp : qrp_right qrp.

(* what the stratified loop maintains, for invertible products *)
Definition strat_inv (s : strat C n) (A : M) : Prop :=
  A \in unitmx ->
  [/\ A = sQ s *m diag_mx (sD s) *m sT s, orthonormal (sQ s),
      sT s \in unitmx & forall i, sD s 0 i \is Num.real].

Lemma strat_start_right A : strat_inv (strat_start qrp A) A.
Proof.
move=> hA; rewrite /strat_start.
have := Hqrp A; case: (qrp A) => [[Q R] P] [E hQ hR hr].
have hRu : R \in unitmx.
  have : col_perm P A \in unitmx by rewrite col_permE unitmx_mul hA unitmx_perm.
  by rewrite E unitmx_mul => /andP [].
have hd : forall i, R i i != 0.
  move=> i; move: hRu; rewrite unitmxE unitfE.
  rewrite -det_tr det_trig; last by apply/is_trig_mxP => a b ab; rewrite mxE hR.
  by move/prodf_neq0 => /(_ i isT); rewrite mxE.
have ET : diag_mx (\row_i R i i) *m unpivot R P = R *m perm_mx P.
  apply/matrixP => i j; rewrite mul_diag_mx !mxE mulrA mulfV // mul1r.
  rewrite (bigD1 ((P^-1)%g j)) //= big1 ?addr0.
    by rewrite !mxE permKV eqxx mulr1.
  move=> k hk; rewrite !mxE; case: eqP => [e|]; last by rewrite mulr0.
  by move: hk; rewrite -e permK eqxx.
have hT : unpivot R P \in unitmx.
  have : R *m perm_mx P \in unitmx by rewrite unitmx_mul hRu unitmx_perm.
  by rewrite -ET unitmx_mul => /andP [].
split=> //=; last by move=> i; rewrite mxE.
rewrite -mulmxA ET mulmxA -E col_permE -mulmxA -perm_mxM mulVg perm_mx1 mulmx1.
by [].
Qed.

Lemma strat_step_right B s A :
  strat_inv s A -> strat_inv (strat_step qrp B s) (B *m A).
Proof.
move=> hs; rewrite /strat_inv unitmx_mul => /andP [hB hA].
have [EA hQ hT hr] := hs hA.
have hC : B *m sQ s *m diag_mx (sD s) \in unitmx.
  move: hA; rewrite EA !unitmx_mul hB => /andP [/andP [h1 h2] _].
  by rewrite h1 h2.
have := strat_start_right hC; rewrite /strat_start /strat_step.
case: (qrp _) => [[Q R] P] /= [E hQ' hT' hr'].
split=> //; last by rewrite unitmx_mul hT' hT.
by rewrite mulmxA -E EA !mulmxA.
Qed.

Lemma green_of_strat_right s A :
  A \in unitmx -> 1%:M + A \in unitmx -> strat_inv s A ->
  green_of_strat s = invmx (1%:M + A).
Proof.
move=> hA hA1 hs; have [EA hQ hT hr] := hs hA.
rewrite /green_of_strat /split_b /split_s normr0 ltr10.
rewrite (assemble_right hQ hT) -?EA //.
- by move=> i; rewrite mxE oner_neq0.
- by move=> i; rewrite !mxE mul1r.
Qed.

Lemma strat_loop p slice_ix A :
  path_product p slice_ix = Ok A -> A \in unitmx -> 1%:M + A \in unitmx ->
  greens_function_qr_strat qrp p slice_ix = Ok (invmx (1%:M + A)).
Proof.
move=> E hA hA1; rewrite /greens_function_qr_strat.
have [s -> hs] := walk_right strat_start_right strat_step_right E.
by rewrite /= (green_of_strat_right hA hA1 hs).
Qed.

Lemma strat_iter BT k :
  strat_inv (iter k (strat_step qrp BT) (strat_start qrp BT)) (mxpow BT k.+1).
Proof.
elim: k => [|k IH] /=; first by rewrite mulmx1; exact: strat_start_right.
exact: strat_step_right IH.
Qed.

Lemma rdm_G (A : M) : 1%:M + A \in unitmx ->
  one_rdm_from_G (invmx (1%:M + A)) = thermal_rdm A.
Proof.
move=> h; rewrite /one_rdm_from_G /thermal_rdm -{1}trmx1 -linearB /=.
congr (_^T); rewrite -{1}(mulmxV h) mulmxDl mul1mx addrC addKr.
by [].
Qed.

Lemma rdm_stable_right BT k :
  mxpow BT k.+1 \in unitmx -> 1%:M + mxpow BT k.+1 \in unitmx ->
  one_rdm_stable qrp BT k.+1 = thermal_rdm (mxpow BT k.+1).
Proof.
move=> h1 h2; rewrite /one_rdm_stable /= (green_of_strat_right h1 h2) ?rdm_G //.
exact: strat_iter.
Qed.

(* left, centre, right *)
Lemma split_b_neq0 (x : C) : split_b x != 0.
Proof.
rewrite /split_b; case: ifP => [h|_]; last exact: oner_neq0.
by rewrite mul1r invr_eq0 gt_eqF // (lt_trans ltr01 h).
Qed.

Lemma split_mul (x : C) : x \is Num.real -> split_s x x = split_b x * x.
Proof.
move=> hx; rewrite /split_s /split_b; case: ifP => h; last by rewrite mul1r.
have h0 : `|x| != 0 by rewrite gt_eqF // (lt_trans ltr01 h).
have x0 : x != 0 by rewrite -normr_eq0.
have E : npsign x * `|x| = x by rewrite -(npsign_mul hx) mulrA npsign_sq // mul1r.
rewrite mul1r mulrC; exact: (canRL (mulfK h0) E).
Qed.

Lemma right_fold s A (tl : list M) :
  strat_inv s A ->
  strat_inv (List.fold_left (fun s B => strat_step qrp B s) tl s)
            (prod_mx tl *m A).
Proof.
elim: tl s A => [|B tl IH] s A h /=; first by rewrite mul1mx.
rewrite -mulmxA; apply: IH; exact: strat_step_right.
Qed.

Lemma right_some (Bs : list M) s :
  compute_right qrp Bs = Some s -> strat_inv s (prod_mx Bs).
Proof.
case: Bs => [|B tl] //= [<-]; apply: right_fold; exact: strat_start_right.
Qed.

Lemma diag_is (B : M) : is_diag B -> B = diag_mx (\row_i B i i).
Proof.
move=> h; apply/matrixP => i j; rewrite !mxE.
by case: eqP => [->|/eqP e]; rewrite ?mulr1n // mulr0n h.
Qed.

Lemma left_fold (D : 'rV[C]_n) (tl : list M) :
  (forall B, List.In B tl -> is_diag B) ->
  diag_mx (List.fold_left (fun (D : 'rV[C]_n) (B : M) => \row_i (B i i * D 0 i))
             tl D)
  = prod_mx tl *m diag_mx D.
Proof.
elim: tl D => [|B tl IH] D h /=; first by rewrite mul1mx.
rewrite IH; last by move=> B' hB; apply: h; right.
rewrite -mulmxA; congr (_ *m _).
rewrite {2}(diag_is (h B (or_introl erefl))) mulmx_diag; congr diag_mx.
by apply/rowP => i; rewrite !mxE.
Qed.

Lemma left_some (Bs : list M) D :
  (forall B, List.In B Bs -> is_diag B) ->
  compute_left Bs = Some D -> diag_mx D = prod_mx Bs.
Proof.
case: Bs => [|B tl] //= h [<-]; rewrite left_fold.
  by rewrite -(diag_is (h B (or_introl erefl))).
by move=> B' hB; apply: h; right.
Qed.

Lemma left_right_right (Rs Ls : list M) (Bc : M) :
  (forall B, List.In B Ls -> is_diag B) ->
  let A := prod_mx Ls *m (Bc *m prod_mx Rs) in
  A \in unitmx -> 1%:M + A \in unitmx ->
  left_right qrp (compute_right qrp Rs) (compute_left Ls) Bc
  = invmx (1%:M + A).
Proof.
move=> hd A hA hA1; rewrite /left_right.
set s1 := match compute_right qrp Rs with Some _ => _ | None => _ end.
have h1 : strat_inv s1 (Bc *m prod_mx Rs).
  rewrite /s1; case E: (compute_right qrp Rs) => [r|].
  - exact: strat_step_right (right_some E).
  - case: Rs E {A hA hA1 s1} => [|? ?] //= _; rewrite mulmx1.
    exact: strat_start_right.
set s2 := match compute_left Ls with Some _ => _ | None => _ end.
have h2 : strat_inv s2 A.
  rewrite /s2 /A; case E: (compute_left Ls) => [l|].
  - rewrite -(left_some hd E); exact: strat_step_right.
  - case: Ls E {A hA hA1 s2 hd} => [|? ?] //= _; by rewrite mul1mx.
have [EA hQ hT hr] := h2 hA.
rewrite (assemble_right hQ hT) -?EA //.
- by move=> i; rewrite mxE split_b_neq0.
- by move=> i; rewrite !mxE split_mul.
Qed.

End Strat.

(* Woodbury. *)
Lemma woodbury_right m (Q : 'M[C]_(n, m)) (D : 'rV[C]_m) (T : 'M[C]_(m, n)) :
  (forall i, D 0 i \is Num.real) ->
  T *m Q \in unitmx ->
  let A := Q *m diag_mx D *m T in
  1%:M + A \in unitmx -> woodbury Q D T = invmx (1%:M + A).
Proof.
move=> hr hTQ A hA; rewrite /woodbury.
set db := \row_i _; set ds := \row_i _.
have hb : diag_mx db \in unitmx.
  rewrite unitmxE det_diag unitfE; apply/prodf_neq0 => i _.
  by rewrite mxE split_b_neq0.
set Z := 1%:M + T *m Q *m diag_mx D.
have hZ : Z \in unitmx.
  rewrite unitmxE /Z -mulmxA.
  have -> : \det (1%:M + T *m (Q *m diag_mx D)) = \det (1%:M + A).
    by rewrite det_1pMM /A.
  by rewrite -unitmxE.
have -> : invmx (T *m Q) *m diag_mx db + diag_mx ds
          = invmx (T *m Q) *m Z *m diag_mx db.
  rewrite /Z mulmxDr mulmx1 mulmxDl mulmxA mulVmx // mul1mx; congr (_ + _).
  rewrite mulmx_diag; congr diag_mx; apply/rowP => i.
  by rewrite !mxE split_mul // mulrC.
have hTi : invmx (T *m Q) \in unitmx by rewrite unitmx_inv.
have hTZ : invmx (T *m Q) *m Z \in unitmx by rewrite unitmx_mul hTi hZ.
rewrite (invmx_mul hTZ hb) (invmx_mul hTi hZ) invmxK.
have -> : diag_mx db *m (invmx (diag_mx db) *m (invmx Z *m (T *m Q))
            *m invmx (T *m Q)) = invmx Z.
  by rewrite -[X in _ *m X]mulmxA mulKVmx // mulmxK.
apply: inv_left; rewrite mulmxBl mul1mx.
set QD := Q *m diag_mx D.
have -> : QD *m invmx Z *m T *m (1%:M + A)
          = QD *m (invmx Z *m Z) *m T.
  rewrite /Z /A mulmxDr !mulmxDr !mulmx1 mulmxDl; congr (_ + _).
  by rewrite !mulmxA.
by rewrite mulVmx // mulmx1 /A /QD addrK.
Qed.

(* The density matrix and the particle number. *)
Lemma one_rdm_right svd (A : M) :
  svd_right svd -> 1%:M + A \in unitmx -> one_rdm svd A = thermal_rdm A.
Proof. by move=> h hA; rewrite /one_rdm greens_function_right // rdm_G. Qed.

Lemma number_right (A B : M) :
  1%:M + A \in unitmx -> 1%:M + B \in unitmx ->
  particle_number (thermal_rdm A, thermal_rdm B)
  = n%:R + n%:R - \tr (invmx (1%:M + A)) - \tr (invmx (1%:M + B)).
Proof.
move=> hA hB; rewrite /particle_number /= -!rdm_G // /one_rdm_from_G.
by rewrite !raddfB /= !mxtrace1 !mxtrace_tr addrACA addrA.
Qed.

End Facts.

(* Factorisations of all one by one matrices. *)
Section One.
Variable C : numClosedFieldType.

Definition ph (A : 'M[C]_1) : 'M[C]_1 := (polar (A 0 0)).2%:M.
Definition ab (A : 'M[C]_1) : 'M[C]_1 := `|A 0 0|%:M.
Definition svd1 (A : 'M[C]_1) : 'M[C]_1 * 'rV[C]_1 * 'M[C]_1 :=
  (ph A, \row_i `|A 0 0|, 1%:M).
Definition qr1 (A : 'M[C]_1) : 'M[C]_1 * 'M[C]_1 := (ph A, ab A).
Definition qrp1 (A : 'M[C]_1) : 'M[C]_1 * 'M[C]_1 * 'S_1 :=
  (ph A, ab A, 1%g).

Lemma ph_ab A : A = ph A *m ab A.
Proof.
rewrite /ph /ab mul_scalar_mx scale_scalar_mx; apply/matrixP => i j.
by rewrite !ord1 !mxE eqxx mulr1n mulrC polar_mul.
Qed.

Lemma ph_orth A : orthonormal (ph A).
Proof.
rewrite /orthonormal /adj /ph map_scalar_mx tr_scalar_mx mul_scalar_mx.
rewrite scale_scalar_mx mulrC; congr (_%:M).
by have := normCK (polar (A 0 0)).2; rewrite polar_phase expr1n => <-.
Qed.

Lemma svd1_right : svd_right svd1.
Proof.
move=> A /=; split.
- rewrite mulmx1 [LHS]ph_ab; congr (_ *m _).
  by apply/matrixP => i j; rewrite !ord1 !mxE eqxx.
- exact: ph_orth.
- by rewrite /orthonormal /adj map_mx1 trmx1 mulmx1.
- by move=> i; rewrite mxE normr_real.
Qed.

Lemma qr1_right : qr_right qr1.
Proof.
move=> A /=; split; [exact: ph_ab|exact: ph_orth|].
by move=> i j; rewrite !ord1.
Qed.

Lemma qrp1_right : qrp_right qrp1.
Proof.
move=> A /=; split; [|exact: ph_orth| |].
- by rewrite col_perm1 -ph_ab.
- by move=> i j; rewrite !ord1.
- by move=> i; rewrite !ord1 mxE eqxx mulr1n normr_real.
Qed.

Lemma inverse_refuted :
  inverse_greens_function svd1 ('i%:M : 'M[C]_1) <> 1%:M + 'i%:M.
Proof.
move/(inverse_iff svd1_right) => /matrixP /(_ 0 0).
rewrite !mxE !eqxx !mulr1n conjCi => /eqP.
rewrite eq_sym -addr_eq0 -mulr2n -mulr_natl mulf_eq0 pnatr_eq0 /=.
by rewrite (negbTE (neq0Ci C)).
Qed.

End One.
