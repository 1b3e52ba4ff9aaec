(* C67: the low-rank propagator stack. *)

From Verif Require Import Base BaseFacts.
Set Warnings "-notation-overridden,-ambiguous-paths".
From mathcomp Require Import all_ssreflect all_fingroup all_algebra all_field.
From Verif Require Import Ortho_Spec PropStack_Spec.
From Verif Require Import LowRank_Model LowRank_Spec PivotQR_Proofs LowRank_Proofs.

Set Implicit Arguments.
Unset Strict Implicit.
Unset Printing Implicit Defensive.

Import Order.TTheory GRing.Theory Num.Theory.
Local Open Scope ring_scope.

Section C67.
Variable C : numClosedFieldType.
Variable qrp : forall m k, 'M[C]_(m, k) -> 'M[C]_m * 'M[C]_(m, k) * 'S_k.
Hypothesis hq : pivoted qrp.
Variable n : nat.
Notation M := 'M[C]_n.

(* One step, with any threshold: the right factors are multiplied by the new matrix after the
   scales beyond the count are dropped; the Green's function and the weight are those of one
   plus a matrix W Tr whose W differs, column by column, by at most the threshold from the left
   scales (those beyond the count dropped) times the right factors. *)
Theorem C67_step (thresh : C) (BTinv : 'rV[C]_n) (s s' : lowrank C n) (B : M) :
  0 <= thresh -> update_low_rank qrp thresh BTinv s B = Ok s' ->
  let mR := larger thresh (lDr s) in
  let mL := larger thresh (lDl s') in
  (forall i : 'I_n, (i < mR)%N -> lDr s' 0 i != 0) ->
  [/\ lDl s' = \row_i (lDl s 0 i * BTinv 0 i),
      lQr s' *m diag_mx (lDr s') *m lTr s'
        = B *m lQr s *m diag_mx (first_entries mR (lDr s)) *m lTr s
    & exists W : M,
      [/\ 1%:M + W *m lTr s' \in unitmx,
          lG s' = invmx (1%:M + W *m lTr s'),
          lovlp s' = \det (1%:M + W *m lTr s')
        & forall j, col_dist W (diag_mx (first_entries mL (lDl s')) *m lQr s' *m diag_mx (lDr s')) j
            <= if lmT s' == minn mL mR then 0 else thresh ^+ 2]].
Proof.
move=> hth /(update_ok hq hth) [_ _ h1 h2 [W [w1 w2 w3 _ w5]]] mR mL hD.
by split=> //; [exact: h2 | exists W].
Qed.

(* Orbitals numbered beyond the count of large left scales have an identity row: they are
   empty, whatever their own scale is. *)
Theorem C67_rows (thresh : C) (BTinv : 'rV[C]_n) (s s' : lowrank C n) (B : M) :
  0 <= thresh -> update_low_rank qrp thresh BTinv s B = Ok s' ->
  forall i j : 'I_n, (larger thresh (lDl s') <= i)%N -> lG s' i j = (i == j)%:R.
Proof. move=> hth; exact: dropped_rows. Qed.

(* A whole path along which nothing is dropped. *)
Theorem C67_exact_partial (thresh : C) (BT BTinv : 'rV[C]_n) (size slices : nat) (Bs : seq M)
    (s0 s : lowrank C n) :
  0 <= thresh -> (forall i, BT 0 i * BTinv 0 i = 1) ->
  low_new BT size slices = Ok s0 -> low_run qrp thresh BTinv s0 Bs = Ok s ->
  (forall k sk, (k <= seq.size Bs)%N -> low_run qrp thresh BTinv s0 (take k Bs) = Ok sk ->
     [/\ larger thresh (lDr sk) = n, larger thresh (lDl sk) = n & lmT sk = n]) ->
  let path := PropStack_Spec.slices slices (diag_mx BT) Bs in
  [/\ lQr s *m diag_mx (lDr s) *m lTr s = ordered Bs,
      lG s = invmx (1%:M + ordered path) & lovlp s = weight path].
Proof. move=> hth hB h1 h2 h3; exact: (run_exact hq hth hB h1 h2 h3). Qed.

(* With threshold zero every path works, for every number of slices between orthogonalisations. *)
Theorem C67_zero (BT BTinv : 'rV[C]_n) (size slices : nat) (Bs : seq M) (s0 : lowrank C n) :
  (forall i, BT 0 i * BTinv 0 i = 1) ->
  low_new BT size slices = Ok s0 -> (seq.size Bs <= slices)%N ->
  all (fun B : M => B \in unitmx) Bs ->
  (forall k, (0 < k <= seq.size Bs)%N ->
     1%:M + ordered (PropStack_Spec.slices slices (diag_mx BT) (take k Bs)) \in unitmx) ->
  let path := PropStack_Spec.slices slices (diag_mx BT) Bs in
  exists s, [/\ low_run qrp 0 BTinv s0 Bs = Ok s,
                lQr s *m diag_mx (lDr s) *m lTr s = ordered Bs,
                lG s = invmx (1%:M + ordered path), lovlp s = weight path & lmT s = n].
Proof.
move=> hB h1 h2 h3 h4; have [s [e1 [e2 e3 e4] [_ e5]]] := run_zero hq hB h1 h2 h3 h4.
by exists s.
Qed.

(* A path cannot be longer than the number of slices. *)
Theorem C67_length (thresh : C) (BT BTinv : 'rV[C]_n) (size slices : nat) (Bs : seq M)
    (s0 s : lowrank C n) :
  0 <= thresh -> (forall i, BT 0 i * BTinv 0 i = 1) ->
  low_new BT size slices = Ok s0 -> low_run qrp thresh BTinv s0 Bs = Ok s ->
  [/\ (seq.size Bs <= slices)%N, lslice s = seq.size Bs,
      lblock s = (seq.size Bs %/ size)%N, lcounter s = (seq.size Bs %% size)%N
    & lDl s = \row_i BT 0 i ^+ (slices - seq.size Bs)].
Proof. by move=> hth hB h1 h2; have [h3 [[]]] := run_at hq hth hB h1 h2. Qed.

(* Starting the next path keeps the Green's function and the weight of the last one. *)
Theorem C67_reset (BT : 'rV[C]_n) (size slices : nat) (s0 s : lowrank C n) :
  low_new BT size slices = Ok s0 ->
  lsize s = lsize s0 -> lbins s = lbins s0 -> lcounter s = 0%N ->
  let s1 := low_reset BT s in
  [/\ lslice s1 = lslice s0, lblock s1 = lblock s0, lcounter s1 = lcounter s0,
      [/\ lQr s1 = lQr s0, lDr s1 = lDr s0, lTr s1 = lTr s0 & lDl s1 = lDl s0]
    & lG s1 = lG s /\ lovlp s1 = lovlp s].
Proof.
rewrite /low_new; case: eqP => // _; case: ltnP => // _; case: eqP => // _ [<-] /= h1 h2 h3.
by rewrite /low_reset h1 h2 h3.
Qed.
End C67.

(* Such a factorisation exists for all matrices of all shapes. *)
Theorem C67_qr_exists (C : numClosedFieldType) : pivoted (@pivot_qr C).
Proof. exact: pivot_qr_right. Qed.

(* The count of large left scales is used as an index: a trial whose scales are 1, x, 1 with x
   below the threshold gets an empty third orbital, which should be half filled. *)
Theorem C67_order_refuted (C : numClosedFieldType)
    (qrp : forall m k, 'M[C]_(m, k) -> 'M[C]_m * 'M[C]_(m, k) * 'S_k) (thresh x : C) :
  pivoted qrp -> 0 < x -> x <= thresh -> thresh * 3%:R < 1 ->
  let BT := \row_(i < 3) (if i == 1 then x else 1) in
  let BTinv := \row_(i < 3) (if i == 1 then x^-1 else 1) in
  exists s0 s, [/\ low_new BT 2 2 = Ok s0, low_run qrp thresh BTinv s0 [:: 1%:M] = Ok s,
    lG s 2%:R 2%:R = 1
    & invmx (1%:M + ordered (PropStack_Spec.slices 2 (diag_mx BT) [:: 1%:M])) 2%:R 2%:R
      = 2%:R^-1].
Proof.
move=> hq hx hxt ht BT BTinv.
have hth : 0 <= thresh by exact: le_trans (ltW hx) hxt.
have [s0 h0] : exists s0, low_new BT 2 2 = Ok s0 by rewrite /low_new /=; eexists.
have [s hs] := dip_runs hq hx hxt ht h0.
exists s0, s; split=> //.
  have hs' := hs; rewrite /= in hs'; case E : update_low_rank hs' => [s1|] //= [e]; rewrite -e.
  apply/eqP; rewrite (dropped_rows hq hth E) ?eqxx //.
  have [_ [_ hl]] := run_at hq hth (dip_inv hx) h0 hs; rewrite -e in hl; rewrite hl.
  by rewrite (_ : \row_i _ = dip x) ?(dip_larger hx hxt ht) //; apply/rowP => i; rewrite !mxE.
rewrite ordered_slices /= (_ : ordered [:: 1%:M] = 1%:M) ?mulmx1; last by rewrite /ordered /= mulmx1.
rewrite -diag_const_mx -raddfD /=.
set d := _ + _.
have hd i : d 0 i != 0.
  rewrite !mxE expr1 gt_eqF // ltr_paddr // ?ltr01 //; by case: ifP => _; rewrite ?ltW ?ltr01.
have -> : invmx (diag_mx d) = diag_mx (\row_i (d 0 i)^-1).
  symmetry; apply: TGreen_Proofs.inv_left; exact: (TGreen_Proofs.diag_inv hd).
by rewrite !mxE eqxx mulr1n expr1 /=.
Qed.

(* The next path starts from the Green's function and the weight of the last one. *)
Theorem C67_reset_refuted (C : numClosedFieldType)
    (qrp : forall m k, 'M[C]_(m, k) -> 'M[C]_m * 'M[C]_(m, k) * 'S_k) :
  pivoted qrp ->
  exists s0 s, [/\ low_new (const_mx 1 : 'rV[C]_1) 1 1 = Ok s0,
    low_run qrp 0 (const_mx 1) s0 [:: 2%:R%:M] = Ok s,
    lG s0 = (2%:R^-1)%:M /\ lovlp s0 = 2%:R
    & lG (low_reset (const_mx 1) s) = (3%:R^-1)%:M /\ lovlp (low_reset (const_mx 1) s) = 3%:R].
Proof.
move=> hq.
have [s0 h0] : exists s0, low_new (const_mx 1 : 'rV[C]_1) 1 1 = Ok s0.
  by rewrite /low_new /=; eexists.
have hB (i : 'I_1) : (const_mx 1 : 'rV[C]_1) 0 i * (const_mx 1 : 'rV[C]_1) 0 i = 1.
  by rewrite !mxE mulr1.
have inv1 (a : C) : a != 0 -> invmx (a%:M : 'M[C]_1) = (a^-1)%:M by move=> ha; rewrite invmx_scalar.
have nz k : (k.+1%:R : C) != 0 by rewrite pnatr_eq0.
have hpath : 1%:M + ordered (PropStack_Spec.slices 1 (diag_mx (const_mx 1 : 'rV[C]_1)) [:: 2%:R%:M])
    = 3%:R%:M.
  rewrite ordered_slices /= subnn (_ : diag_mx _ = 1%:M).
    by rewrite mul1mx /ordered /= mulmx1 [in RHS](natrD C 1 2) [RHS]raddfD.
  by rewrite -diag_const_mx; congr diag_mx; apply/rowP => i; rewrite !mxE expr0.
have [||k|s [h1 h2 h3 h4 _]] := C67_zero hq (Bs := [:: 2%:R%:M]) hB h0 _ _ _ => //.
- by rewrite /= andbT unitmxE det_scalar1 unitfE nz.
- case: k => [|[|k]] //= _; rewrite hpath unitmxE det_scalar1 unitfE nz //.
exists s0, s; split=> //.
- have [_ _ [_ e0] _ [-> ->]] := new_spec h0.
  have -> : 1%:M + diag_mx (lDl s0) = 2%:R%:M.
    rewrite e0 (_ : diag_mx _ = 1%:M); first by rewrite -raddfD.
    by rewrite -diag_const_mx; congr diag_mx; apply/rowP => i; rewrite !mxE expr1n.
  by rewrite inv1 // det_scalar1.
- by rewrite /= h3 h4 /weight hpath inv1 // det_scalar1.
Qed.

(* Two orbitals, four slices in bins of two, invertible matrices: the hypotheses of the theorems
   hold together. *)
Example low_path :
  let BT : 'rV[algC]_2 := const_mx 2%:R in
  exists s0 s, [/\ low_new BT 2 4 = Ok s0,
    low_run (@pivot_qr [numClosedFieldType of algC]) 0 (const_mx 2%:R^-1) s0
      [:: 1%:M; 3%:R%:M; 1%:M] = Ok s, lG s = (7%:R^-1)%:M & lmT s = 2%N].
Proof.
move=> BT.
have [s0 h0] : exists s0, low_new BT 2 4 = Ok s0 by rewrite /low_new /=; eexists.
have hB (i : 'I_2) : BT 0 i * (const_mx 2%:R^-1 : 'rV[algC]_2) 0 i = 1.
  by rewrite !mxE divff // pnatr_eq0.
have nz k : (k.+1%:R : algC) != 0 by rewrite pnatr_eq0.
have us (a : algC) : a != 0 -> (a%:M : 'M[algC]_2) \in unitmx.
  by move=> ha; rewrite unitmxE det_scalar unitfE expf_neq0.
have dg k : diag_mx (\row_i BT 0 i ^+ k) = ((2 ^ k)%:R)%:M :> 'M[algC]_2.
  rewrite -diag_const_mx; congr diag_mx; apply/rowP => i; by rewrite !mxE natrX.
have P1 : ordered [:: 1%:M] = 1%:M :> 'M[algC]_2 by rewrite /ordered /= mulmx1.
have P2 : ordered [:: 1%:M; 3%:R%:M] = 3%:R%:M :> 'M[algC]_2 by rewrite /ordered /= !mulmx1.
have P3 : ordered [:: 1%:M; 3%:R%:M; 1%:M] = 3%:R%:M :> 'M[algC]_2.
  by rewrite /ordered /= !mulmx1 mul1mx.
have np a b : 1%:M + (a%:R)%:M *m (b%:R)%:M = ((1 + a * b)%:R)%:M :> 'M[algC]_2.
  by rewrite -scalar_mxM -raddfD -natrM natrD.
have [||k|s [h1 h2 h3 h4 h5]] :=
  C67_zero (@pivot_qr_right [numClosedFieldType of algC])
    (Bs := [:: 1%:M; 3%:R%:M; 1%:M]) hB h0 _ _ _ => //.
- by rewrite /= unitmx1 us.
- case: k => [|[|[|[|k]]]] //= _; rewrite ordered_slices /= dg ?P1 ?P2 ?P3.
  + by rewrite -[X in _ *m X]/((1%:R)%:M) np us.
  + by rewrite np us.
  + by rewrite np us.
exists s0, s; split=> //; rewrite h3 ordered_slices /= dg P3 np.
by rewrite invmx_scalar.
Qed.

Print Assumptions C67_step.
Print Assumptions C67_rows.
Print Assumptions C67_exact_partial.
Print Assumptions C67_zero.
Print Assumptions C67_length.
Print Assumptions C67_reset.
Print Assumptions C67_qr_exists.
Print Assumptions C67_order_refuted.
Print Assumptions C67_reset_refuted.
