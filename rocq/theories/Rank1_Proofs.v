From Verif Require Import Base BaseFacts.
Set Warnings "-notation-overridden,-ambiguous-paths".
From mathcomp Require Import all_ssreflect all_algebra.
From Verif Require Import Rank1_Model Rank1_Spec.

Set Implicit Arguments.
Unset Strict Implicit.
Unset Printing Implicit Defensive.

Import Order.TTheory GRing.Theory Num.Theory.
Local Open Scope ring_scope.

Section Det.
Variable K : fieldType.

Lemma det_1pMM m n (A : 'M[K]_(m, n)) (B : 'M[K]_(n, m)) :
  \det (1%:M + A *m B) = \det (1%:M + B *m A).
Proof.
have detL : \det (block_mx 1%:M A 0 1%:M : 'M[K]_(m + n)) = 1.
  by rewrite det_ublock !det1 mulr1.
have E1 : \det (block_mx 1%:M (- A) B 1%:M : 'M[K]_(m + n))
          = \det (1%:M + B *m A).
  transitivity (\det ((block_mx 1%:M (- A) B 1%:M : 'M[K]_(m + n))
                      *m block_mx 1%:M A 0 1%:M)).
    by rewrite det_mulmx detL mulr1.
  rewrite mulmx_block !mulmx1 !mul1mx !mulmx0 !addr0 addrN.
  by rewrite det_lblock det1 mul1r addrC.
rewrite -E1.
transitivity (\det ((block_mx 1%:M A 0 1%:M : 'M[K]_(m + n))
                    *m block_mx 1%:M (- A) B 1%:M)).
  rewrite mulmx_block !mulmx1 !mul1mx !mul0mx !add0r addNr.
  by rewrite det_lblock det1 mulr1.
by rewrite det_mulmx detL mul1r.
Qed.

Lemma det_mx22 (M : 'M[K]_2) :
  \det M = M 0 0 * M 1 1 - M 0 1 * M 1 0.
Proof.
rewrite (expand_det_row _ 0) !big_ord_recl big_ord0 addr0.
rewrite /cofactor !det_mx11 !mxE /= addn0 expr0 expr1 mul1r mulN1r mulrN.
congr (M _ _ * M _ _ - M _ _ * M _ _); by apply/val_inj.
Qed.

Lemma det_rank1 n (A : 'M[K]_n) (u v : 'rV[K]_n) :
  A \in unitmx ->
  \det (A + u^T *m v) = (1 + (v *m invmx A *m u^T) 0 0) * \det A.
Proof.
move=> uA.
have -> : A + u^T *m v = A *m (1%:M + (invmx A *m u^T) *m v).
  by rewrite mulmxDr mulmx1 !mulmxA mulmxV // mul1mx.
rewrite det_mulmx det_1pMM mulrC; congr (_ * _).
by rewrite det_mx11 [LHS]mxE [X in X + _]mxE eqxx mulmxA.
Qed.

Lemma sm_correct n (A : 'M[K]_n) (u v : 'rV[K]_n) :
  A \in unitmx -> 1 + (v *m invmx A *m u^T) 0 0 != 0 ->
  (A + u^T *m v \in unitmx) /\
  sherman_morrison (invmx A) u v = invmx (A + u^T *m v).
Proof.
move=> uA nz.
have uB : A + u^T *m v \in unitmx.
  by rewrite unitmxE det_rank1 // unitfE mulf_neq0 // -unitfE -unitmxE.
split=> //.
rewrite -[LHS]mulmx1 -(mulmxV uB) mulmxA -[RHS]mul1mx; congr (_ *m _).
rewrite /sherman_morrison; set c := 1 + _ in nz *.
have Ev : v *m invmx A *m u^T = (c - 1)%:M.
  rewrite [LHS]mx11_scalar; congr (_%:M).
  by rewrite /c [1 + _]addrC addrK.
rewrite mulmxBl mulmxDr mulVmx // -scalemxAl mulmxDr.
rewrite -[X in c^-1 *: (X + _)]mulmxA mulVmx // mulmx1.
have -> : invmx A *m (u^T *m v) *m invmx A *m (u^T *m v)
          = (c - 1) *: (invmx A *m (u^T *m v)).
  have -> : invmx A *m (u^T *m v) *m invmx A *m (u^T *m v)
            = invmx A *m u^T *m (v *m invmx A *m u^T) *m v.
    by rewrite !mulmxA.
  by rewrite Ev mul_mx_scalar -scalemxAl !mulmxA.
rewrite -[X in _ *: (X + _)]scale1r -scalerDl [1 + _]addrC subrK scalerA mulVf //.
by rewrite scale1r addrK.
Qed.

Variable cj : K -> K.

Lemma ovlp_add_row n m (psi phi : 'M[K]_(n, m)) i (v : 'rV[K]_m) :
  ovlp_mx cj psi (add_row phi i v)
  = ovlp_mx cj psi phi + (map_mx cj (row i psi))^T *m v.
Proof.
apply/matrixP=> a b; rewrite !mxE big_ord_recl big_ord0 addr0 !mxE.
under eq_bigr do rewrite !mxE mulrDr.
rewrite big_split /=; congr (_ + _).
  by apply: eq_bigr => k _; rewrite !mxE.
rewrite (bigD1 i) //= eqxx big1 ?addr0 // => k /negPf ->.
by rewrite mulr0.
Qed.

Lemma green_tr n m (psi phi : 'M[K]_(n, m)) :
  greens_function cj psi phi = green cj psi phi.
Proof.
rewrite /greens_function /green /ovlp_mx !trmx_mul trmxK.
rewrite trmx_inv trmx_mul trmxK.
by [].
Qed.

Lemma fast_gii_green n m (psi phi : 'M[K]_(n, m)) i :
  fast_gii cj psi phi (inverse_overlap cj psi phi) i
  = greens_function cj psi phi i i.
Proof.
rewrite /fast_gii /inverse_overlap /greens_function.
rewrite trmx_inv trmx_mul trmxK map_row.
have -> : row i (map_mx cj psi) *m
  (invmx (phi^T *m map_mx cj psi) *m (row i phi)^T)
  = row i (map_mx cj psi *m invmx (phi^T *m map_mx cj psi)) *m (row i phi)^T.
  by rewrite row_mul mulmxA.
rewrite mulmxA !mxE; apply: eq_bigr => a _.
by rewrite !mxE.
Qed.

Lemma scale_row_add n m (phi : 'M[K]_(n, m)) i d :
  add_row phi i (d *: row i phi) = scale_row phi i (1 + d).
Proof.
apply/matrixP=> k a; rewrite !mxE.
case: eqP => [->|_]; last by rewrite addr0.
by rewrite mulrDl mul1r.
Qed.

(* 1 + v A^-1 u for the update of row i by d times itself *)
Lemma update_denominator n m (psi phi : 'M[K]_(n, m)) i d :
  1 + ((d *: row i phi) *m inverse_overlap cj psi phi
        *m (map_mx cj (row i psi))^T) 0 0
  = 1 + d * fast_gii cj psi phi (inverse_overlap cj psi phi) i.
Proof.
rewrite /fast_gii -!scalemxAl; rewrite [in LHS]mxE; congr (_ + _ * _).
rewrite -[in RHS](trmxK (_ *m _)) [in RHS]mxE.
by rewrite !trmx_mul !trmxK -mulmxA.
Qed.

Lemma overlap_scale n m (psi phi : 'M[K]_(n, m)) i d :
  ovlp_mx cj psi phi \in unitmx ->
  overlap cj psi (scale_row phi i (1 + d))
  = (1 + d * fast_gii cj psi phi (inverse_overlap cj psi phi) i)
    * overlap cj psi phi.
Proof.
move=> uO; rewrite /overlap -scale_row_add ovlp_add_row det_rank1 //.
by rewrite -update_denominator.
Qed.

Lemma inverse_overlap_update n m (psi phi : 'M[K]_(n, m)) i (v : 'rV[K]_m) :
  ovlp_mx cj psi phi \in unitmx ->
  1 + (v *m inverse_overlap cj psi phi *m (map_mx cj (row i psi))^T) 0 0 != 0 ->
  (ovlp_mx cj psi (add_row phi i v) \in unitmx) /\
  update_inverse_overlap cj psi (inverse_overlap cj psi phi) v i
  = inverse_overlap cj psi (add_row phi i v).
Proof.
move=> uO nz; have [uN E] := sm_correct uO nz.
by rewrite -ovlp_add_row in uN E.
Qed.

(* The two-row change of the generalised (GHF) walkers. *)
Lemma ratio_ghf_correct n m (psi phi : 'M[K]_(n + n, m)) (i : 'I_n) du dd :
  ovlp_mx cj psi phi \in unitmx ->
  overlap cj psi (scale_row (scale_row phi (lshift n i) (1 + du))
                            (rshift n i) (1 + dd))
  = ratio_ghf (greens_function cj psi phi) i du dd * overlap cj psi phi.
Proof.
move=> uO.
set U := (col_mx (du *: row (lshift n i) phi) (dd *: row (rshift n i) phi)
          : 'M[K]_(1 + 1, m)).
set P := (col_mx (map_mx cj (row (lshift n i) psi))
                 (map_mx cj (row (rshift n i) psi)) : 'M[K]_(1 + 1, m)).
have ne : lshift n i != rshift n i by rewrite eq_lrshift.
have E : ovlp_mx cj psi (scale_row (scale_row phi (lshift n i) (1 + du))
                            (rshift n i) (1 + dd))
         = ovlp_mx cj psi phi + P^T *m U.
  rewrite -!scale_row_add !ovlp_add_row -addrA /P /U tr_col_mx mul_row_col.
  congr (_ + (_ + _ *m (_ *: _))).
  apply/rowP=> a; rewrite !mxE.
  by rewrite eq_sym (negPf ne) addr0.
rewrite /overlap E.
have -> : ovlp_mx cj psi phi + P^T *m U
  = ovlp_mx cj psi phi *m (1%:M + (invmx (ovlp_mx cj psi phi) *m P^T) *m U).
  by rewrite mulmxDr mulmx1 !mulmxA mulmxV // mul1mx.
rewrite det_mulmx det_1pMM mulrC; congr (_ * _).
set G := greens_function cj psi phi.
have GE : forall a b, G a b
    = (row b phi *m invmx (ovlp_mx cj psi phi)
        *m (map_mx cj (row a psi))^T) 0 0.
  move=> a b; rewrite /G green_tr /green mxE.
  rewrite -row_mul !mxE; apply: eq_bigr => c _.
  by rewrite !mxE.
have entry (a b : 'I_(1 + 1)) :
  (U *m (invmx (ovlp_mx cj psi phi) *m P^T)) a b
  = (if a == 0 then du else dd) *
    G (if b == 0 then lshift n i else rshift n i)
      (if a == 0 then lshift n i else rshift n i).
  rewrite GE mulmxA /U mul_col_mx tr_col_mx mul_col_row -!scalemxAl.
  case: (splitP a) => a' Ea; case: (splitP b) => b' Eb.
  - have -> : a = lshift 1 a' by apply/val_inj.
    have -> : b = lshift 1 b' by apply/val_inj.
    by rewrite block_mxEul !ord1 /= [LHS]mxE.
  - have -> : a = lshift 1 a' by apply/val_inj.
    have -> : b = rshift 1 b' by apply/val_inj.
    by rewrite block_mxEur !ord1 /= [LHS]mxE.
  - have -> : a = rshift 1 a' by apply/val_inj.
    have -> : b = lshift 1 b' by apply/val_inj.
    by rewrite block_mxEdl !ord1 /= [LHS]mxE.
  - have -> : a = rshift 1 a' by apply/val_inj.
    have -> : b = rshift 1 b' by apply/val_inj.
    by rewrite block_mxEdr !ord1 /= [LHS]mxE.
rewrite det_mx22 /ratio_ghf.
have oneE (M : 'M[K]_(1 + 1)) (a b : 'I_(1 + 1)) :
  (1%:M + M) a b = (a == b)%:R + M a b by rewrite !mxE.
rewrite !oneE !entry /= !add0r -!mulrA; congr (_ - _ * _).
by rewrite mulrCA [in RHS]mulrCA; congr (_ * _); rewrite mulrC.
Qed.



Lemma ratio_multi_det_correct n mu md N (psiu : 'I_N -> 'M[K]_(n, mu))
    (psid : 'I_N -> 'M[K]_(n, md)) (phiu : 'M[K]_(n, mu)) (phid : 'M[K]_(n, md))
    (c : 'I_N -> K) i du dd :
  (forall x, ovlp_mx cj (psiu x) phiu \in unitmx) ->
  (forall x, ovlp_mx cj (psid x) phid \in unitmx) ->
  ratio_multi_det c (fun x => overlap cj (psiu x) phiu)
    (fun x => overlap cj (psid x) phid)
    (fun x => greens_function cj (psiu x) phiu i i)
    (fun x => greens_function cj (psid x) phid i i)
    (\sum_x c x * (overlap cj (psiu x) phiu * overlap cj (psid x) phid)) du dd
  = 2%:R^-1 *
    ((\sum_x c x * (overlap cj (psiu x) (scale_row phiu i (1 + du))
                    * overlap cj (psid x) (scale_row phid i (1 + dd))))
     / (\sum_x c x * (overlap cj (psiu x) phiu * overlap cj (psid x) phid))).
Proof.
move=> uU uD; rewrite /ratio_multi_det; congr (_ * (_ / _)).
apply: eq_bigr => x _; congr (_ * _).
by rewrite !overlap_scale // !fast_gii_green.
Qed.

Lemma ratio_multi_ghf_correct n m N (psi : 'I_N -> 'M[K]_(n + n, m))
    (phi : 'M[K]_(n + n, m)) (c : 'I_N -> K) (i : 'I_n) du dd :
  (forall x, ovlp_mx cj (psi x) phi \in unitmx) ->
  ratio_multi_ghf c (fun x => overlap cj (psi x) phi)
    (fun x => greens_function cj (psi x) phi)
    (\sum_x c x * overlap cj (psi x) phi) i du dd
  = 2%:R^-1 *
    ((\sum_x c x * overlap cj (psi x)
         (scale_row (scale_row phi (lshift n i) (1 + du)) (rshift n i) (1 + dd)))
     / (\sum_x c x * overlap cj (psi x) phi)).
Proof.
move=> uO; rewrite /ratio_multi_ghf; congr (_ * (_ / _)).
apply: eq_bigr => x _.
by rewrite ratio_ghf_correct // mulrA.
Qed.

(* ---- thermal ---- *)

Lemma thermal_scaled n (A : 'M[K]_n) (i : 'I_n) d :
  1%:M + scale_row A i (1 + d)
  = (1%:M + A) + (delta_mx 0 i : 'rV[K]_n)^T *m (d *: row i A).
Proof.
rewrite -addrA; congr (_ + _); apply/matrixP=> k a.
rewrite !mxE big_ord_recl big_ord0 addr0 !mxE eqxx /=.
case: eqP => [->|_]; last by rewrite mul0r addr0.
by rewrite mul1r mulrDl mul1r.
Qed.

Lemma gbar_row n (A : 'M[K]_n) (i : 'I_n) :
  1%:M + A \in unitmx ->
  delta_mx 0 i - row i (tgreen A) = row i A *m tgreen A.
Proof.
move=> uA; rewrite -row1 -raddfB /= -row_mul; congr row.
rewrite /tgreen -[X in X - _](mulmxV uA) -[X in _ - X]mul1mx -mulmxBl.
by rewrite addrC addKr.
Qed.

Lemma thermal_denominator n (A : 'M[K]_n) (i : 'I_n) d :
  1%:M + A \in unitmx ->
  1 + ((d *: row i A) *m invmx (1%:M + A) *m (delta_mx 0 i : 'rV[K]_n)^T) 0 0
  = 1 + (1 - tgreen A i i) * d.
Proof.
move=> uA; rewrite -!scalemxAl -/(tgreen A) -gbar_row // trmx_delta -colE.
by rewrite !mxE !eqxx /= mulrC.
Qed.

Lemma thermal_update_correct n (A : 'M[K]_n) (i : 'I_n) d :
  1%:M + A \in unitmx -> 1 + (1 - tgreen A i i) * d != 0 ->
  (1%:M + scale_row A i (1 + d) \in unitmx) /\
  thermal_update (tgreen A) i d = tgreen (scale_row A i (1 + d)).
Proof.
move=> uA nz; rewrite -(thermal_denominator _ _ uA) in nz.
have [uN E] := sm_correct uA nz; rewrite -thermal_scaled in uN E.
split=> //; rewrite [RHS]/tgreen -E /sherman_morrison thermal_denominator //.
rewrite /thermal_update gbar_row //; congr (_ - _).
rewrite -/(tgreen A) -scalemxAr -scalemxAr -scalemxAl scalerA.
rewrite [d / _]mulrC; congr (_ *: _).
by rewrite !mulmxA trmx_delta -colE.
Qed.

Lemma zpart_scaled n (A : 'M[K]_n) (i : 'I_n) d :
  1%:M + A \in unitmx ->
  zpart (scale_row A i (1 + d)) = (1 + (1 - tgreen A i i) * d) * zpart A.
Proof.
by move=> uA; rewrite /zpart thermal_scaled det_rank1 // thermal_denominator.
Qed.

(* ---- overlaps from the stored inverses and from the orbitals ---- *)

Lemma calc_otrial_correct n mu md (psiu phiu : 'M[K]_(n, mu))
    (psid phid : 'M[K]_(n, md)) s :
  ovlp_mx cj psiu phiu \in unitmx -> ovlp_mx cj psid phid \in unitmx ->
  calc_otrial (inverse_overlap cj psiu phiu) (inverse_overlap cj psid phid) s
  = overlap cj psiu phiu * overlap cj psid phid / s.
Proof.
move=> uU uD; rewrite /calc_otrial.
have -> : (if (md == 0)%N then 1 else \det (inverse_overlap cj psid phid))
          = \det (inverse_overlap cj psid phid).
  case: eqP => // E; move: (inverse_overlap cj psid phid).
  by rewrite E => M; rewrite det_mx00.
rewrite /inverse_overlap -!/(ovlp_mx _ _ _) !det_inv -!/(overlap _ _ _).
by rewrite div1r !invfM !invrK.
Qed.

Lemma calc_overlap_correct n m (psi phi : 'M[K]_(n, m + m)) s :
  calc_overlap cj psi phi s
  = overlap cj (lsubmx psi) (lsubmx phi)
    * overlap cj (rsubmx psi) (rsubmx phi) * s.
Proof.
rewrite /calc_overlap (eq_axiomK (addnC m m)) /= !castmx_id.
congr (_ * _ * _); rewrite /overlap /ovlp_mx.
case: eqP => // E.
move: ((map_mx cj (rsubmx psi))^T *m rsubmx phi).
by rewrite E => M; rewrite det_mx00.
Qed.

End Det.

(* ------------------------------------------------------------------ *)
Section SweepProofs.
Variable K : fieldType.
Variable cj : K -> K.
Variable R : realFieldType.
Variable re : K -> R.
Variables n nu nd : nat.
Variables (psiu : 'M[K]_(n, nu)) (psid : 'M[K]_(n, nd)).
Variable dl : bool -> bool -> K.
Variable wfac : bool -> K.

Hypothesis two : 2%:R != 0 :> K.
Hypothesis re0 : re 0 = 0.

Lemma choose_pos (p : bool -> K) (r norm : R) xi :
  0 <= r < 1 -> choose re p r = Some (norm, xi) ->
  (0 < re (p xi)) /\ norm = Num.max (re (p false)) 0 + Num.max (re (p true)) 0.
Proof.
case/andP=> r0 r1; rewrite /choose.
set p0 := Num.max _ _; set p1 := Num.max _ _.
case: ifP => // np [En Ex].
split; last by rewrite -En.
have maxP x : (0 < Num.max x 0) -> 0 < x :> R.
  by rewrite lt_maxr ltxx orbF.
case: xi Ex => [|/negbFE] H; apply: maxP.
  rewrite -leNgt in H.
  have := le_lt_trans H r1; rewrite ltr_pdivr_mulr // mul1r.
  by rewrite -[X in X < _]addr0 ltr_add2l.
have := le_lt_trans r0 H.
by rewrite pmulr_lgt0 ?invr_gt0.
Qed.

Lemma choose_neq0 (p : bool -> K) (r norm : R) xi :
  0 <= r < 1 -> choose re p r = Some (norm, xi) -> p xi != 0.
Proof.
move=> r01 /(choose_pos r01) [pos _]; apply/eqP=> E.
by rewrite E re0 ltxx in pos.
Qed.

(* The stored inverses are the true inverses, and the stored overlap is the
   true overlap times x. *)
Definition consistent (x : K) (w : walker K R n nu nd) : Prop :=
  stored_right cj psiu (phiu w) psid (phid w) (invu w) (invd w) (ot w) x.

Lemma apply_field_consistent w i norm xi x :
  consistent x w ->
  probs cj psiu psid dl wfac w i xi != 0 ->
  consistent (x * wfac xi)
    (apply_field cj psiu psid dl w i (probs cj psiu psid dl wfac w i) norm xi)
  /\ phiu (apply_field cj psiu psid dl w i (probs cj psiu psid dl wfac w i)
             norm xi) = scale_row (phiu w) i (1 + dl xi false)
  /\ phid (apply_field cj psiu psid dl w i (probs cj psiu psid dl wfac w i)
             norm xi) = scale_row (phid w) i (1 + dl xi true).
Proof.
case: w => pu pd iu id o we fs [/= uU [uD [-> [-> ->]]]].
rewrite /probs /ratio_single_det /=.
set g1 := 1 + dl xi false * _; set g2 := 1 + dl xi true * _ => nz.
have g1n : g1 != 0 by apply: contraNneq nz => ->; rewrite mul0r mulr0 mul0r.
have g2n : g2 != 0 by apply: contraNneq nz => ->; rewrite !mulr0 mul0r.
have E1 := update_denominator cj psiu pu i (dl xi false).
have E2 := update_denominator cj psid pd i (dl xi true).
have [uU' IU] := @inverse_overlap_update K cj n nu psiu pu i
  (dl xi false *: row i pu) uU ltac:(by rewrite E1).
have [uD' ID] := @inverse_overlap_update K cj n nd psid pd i
  (dl xi true *: row i pd) uD ltac:(by rewrite E2).
split; last by rewrite !scale_row_add.
split=> //; split=> //; split=> //; split=> //=.
rewrite !scale_row_add !overlap_scale //.
rewrite -/(inverse_overlap cj psiu pu) -/(inverse_overlap cj psid pd).
rewrite -/g1 -/g2.
set A := overlap _ _ _; set B := overlap _ _ _.
rewrite -[2%:R^-1 * _ * _]mulrA [2%:R * _ * _]mulrACA mulfV // mul1r.
by rewrite [A * B * x * _]mulrACA [A * B * _]mulrC [g1 * A * _]mulrACA.
Qed.

Lemma sweep_consistent sites : forall rs w w' x,
  List.Forall (fun r => is_true (0 <= r < 1)) rs ->
  consistent x w ->
  sweep cj re psiu psid dl wfac sites rs w = Ok w' ->
  exists xs, fields w' = (xs ++ fields w)%list /\
    consistent (x * \prod_(xi <- xs) wfac xi) w'.
Proof.
elim: sites => [|i sites IH] rs w w' x Hrs C /=.
  move=> E; apply Ok_inj in E; subst w'; exists [::].
  by rewrite big_nil mulr1.
case: rs Hrs => [//|r rs] Hrs.
have r01 : 0 <= r < 1 by inversion Hrs.
have {}Hrs : List.Forall (fun r => is_true (0 <= r < 1)) rs by inversion Hrs.
case: ifP => // _.
case E : (choose _ _ _) => [[norm xi]|]; last first.
  move=> E'; apply Ok_inj in E'; subst w'; exists [::].
  by rewrite big_nil mulr1.
have nz := choose_neq0 r01 E.
have [C' _] := apply_field_consistent norm C nz.
move=> /(IH _ _ _ _ Hrs C') [xs [Ef C'']].
exists (xs ++ [:: xi])%list; split; first by rewrite Ef -List.app_assoc.
have -> : (xs ++ [:: xi])%list = (xs ++ [:: xi])%SEQ by [].
by rewrite big_cat big_seq1 /= [_ * wfac xi]mulrC mulrA.
Qed.


Lemma sweep_one i r rs w norm xi :
  ~~ ((nd == 0) && (nu != 0))%N ->
  choose re (probs cj psiu psid dl wfac w i) r = Some (norm, xi) ->
  sweep cj re psiu psid dl wfac [:: i] (r :: rs) w
  = Ok (apply_field cj psiu psid dl w i (probs cj psiu psid dl wfac w i) norm xi).
Proof. by move=> /negPf E C; rewrite /= E C. Qed.

(* The orbitals after a sweep: one factor per visited site. *)
Definition scaled_rows m (spin : bool) (phi : 'M[K]_(n, m))
    (steps : seq ('I_n * bool)) : 'M[K]_(n, m) :=
  foldl (fun p st => scale_row p st.1 (1 + dl st.2 spin)) phi steps.

Lemma sweep_orbitals sites : forall rs w w',
  sweep cj re psiu psid dl wfac sites rs w = Ok w' ->
  exists xs, [/\ fields w' = (List.rev xs ++ fields w)%list,
    (size xs <= size sites)%N,
    (size xs < size sites)%N -> wt w' = 0,
    phiu w' = scaled_rows false (phiu w) (zip sites xs) &
    phid w' = scaled_rows true (phid w) (zip sites xs)].
Proof.
elim: sites => [|i sites IH] rs w w' /=.
  by move=> E; apply Ok_inj in E; subst w'; exists [::].
case: rs => [//|r rs].
case: ifP => // _.
case E : (choose _ _ _) => [[norm xi]|]; last first.
  move=> E'; apply Ok_inj in E'; subst w'; exists [::].
  by split.
move=> /IH [xs [Ef Es Ew Eu Ed]]; exists (xi :: xs); split=> //=.
- by rewrite Ef -List.app_assoc.
- by rewrite Eu /= scale_row_add.
- by rewrite Ed /= scale_row_add.
Qed.

Lemma scaled_rows_notin m spin (phi : 'M[K]_(n, m)) steps k a :
  k \notin [seq st.1 | st <- steps] ->
  scaled_rows spin phi steps k a = phi k a.
Proof.
elim: steps phi => [//|[i xi] steps IH] phi /=.
rewrite inE negb_or => /andP [/negPf ki kn].
by rewrite IH // mxE ki.
Qed.

Lemma scaled_rows_at m spin (phi : 'M[K]_(n, m)) sites xs j i0 a :
  uniq sites -> size xs = size sites -> (j < size sites)%N ->
  scaled_rows spin phi (zip sites xs) (nth i0 sites j) a
  = (1 + dl (nth false xs j) spin) * phi (nth i0 sites j) a.
Proof.
elim: sites phi xs j => [//|i sites IH] phi [//|x xs] [|j] /= /andP [ni us].
  move=> [Es] _; rewrite -/(scaled_rows spin _ (zip sites xs)).
  rewrite scaled_rows_notin; first by rewrite mxE eqxx.
  by rewrite -/unzip1 unzip1_zip // Es.
move=> [Es] lt; rewrite -/(scaled_rows spin _ (zip sites xs)) IH // mxE.
case: eqP => // E; move: ni; rewrite -E => /negP []; exact: mem_nth.
Qed.

Lemma sweep_full_orbitals rs w w' :
  two_body_single_site cj re psiu psid dl wfac rs w = Ok w' ->
  wt w' = 0 \/
  exists xs : 'I_n -> bool,
    [/\ fields w' = (List.rev (map xs (enum 'I_n)) ++ fields w)%list,
     forall k a, phiu w' k a = (1 + dl (xs k) false) * phiu w k a &
     forall k a, phid w' k a = (1 + dl (xs k) true) * phid w k a].
Proof.
move=> /sweep_orbitals [xs [Ef Es Ew Eu Ed]].
case: (ltngtP (size xs) (size (enum 'I_n))) Es => // [lt _|Esz _].
  by left; apply: Ew.
right; exists (fun k => nth false xs k).
have szn : size xs = n by rewrite Esz size_enum_ord.
have Exs : map (fun k : 'I_n => nth false xs k) (enum 'I_n) = xs.
  apply: (@eq_from_nth _ false); first by rewrite size_map.
  move=> j lt; rewrite size_map size_enum_ord in lt.
  rewrite (nth_map (Ordinal lt)) ?size_enum_ord //.
  by rewrite nth_enum_ord.
have at_k (k : 'I_n) : nth k (enum 'I_n) k = k by rewrite nth_ord_enum.
split; first by rewrite Exs.
  move=> k a; rewrite -{1}(at_k k) Eu.
  by rewrite scaled_rows_at ?enum_uniq ?size_enum_ord // at_k.
move=> k a; rewrite -{1}(at_k k) Ed.
by rewrite scaled_rows_at ?enum_uniq ?size_enum_ord // at_k.
Qed.

Variable keep : K -> bool.
Variables (btu btd : 'M[K]_n).

Lemma kinetic_consistent w :
  wt (kinetic_importance_sampling cj re psiu psid keep 1 btu btd w) = 0 \/
  consistent 1 (kinetic_importance_sampling cj re psiu psid keep 1 btu btd w).
Proof.
rewrite /kinetic_importance_sampling; set iu := inverse_overlap _ _ _.
set id := inverse_overlap _ _ _.
case: ifP => _ /=; last by left.
have bad m (M : 'M[K]_m) : M \notin unitmx -> \det (invmx M) = 0.
  move=> nM; rewrite /invmx (negPf nM).
  by apply/eqP; rewrite -[_ == 0]negbK -unitfE -unitmxE.
have dn : (if (nd == 0)%N then 1 else \det id) = \det id.
  case: eqP => // E; move: id.
  by rewrite E => M; rewrite det_mx00.
have [uU|nU] := boolP (ovlp_mx cj psiu (btu *m phiu w) \in unitmx); last first.
  left; rewrite /calc_otrial /iu /inverse_overlap.
  by rewrite -/(ovlp_mx _ _ _) (bad _ _ nU) !mul0r invr0 !mulr0 mul0r re0 mulr0.
have [uD|nD] := boolP (ovlp_mx cj psid (btd *m phid w) \in unitmx); last first.
  left; rewrite /calc_otrial dn /id /inverse_overlap.
  by rewrite -/(ovlp_mx _ _ _) (bad _ _ nD) !mulr0 mul0r invr0 !mulr0 mul0r re0 mulr0.
right; split=> //; split=> //; split=> //; split=> //.
by rewrite /= calc_otrial_correct // invr1 mulr1.
Qed.

Variable es : R.

Lemma step_consistent rs w w' :
  (forall xi, wfac xi = 1) ->
  List.Forall (fun r => is_true (0 <= r < 1)) rs ->
  consistent 1 w ->
  propagate_walker_constrained cj re psiu psid dl wfac keep 1 btu btd es rs w
    = Ok w' ->
  wt w' = 0 \/ consistent 1 w'.
Proof.
move=> wf1 Hrs C; rewrite /propagate_walker_constrained.
set w1 := if wt w == 0 then w else _.
have C1 : wt w1 = 0 \/ consistent 1 w1.
  rewrite /w1; case: ifP => _; first by right.
  exact: kinetic_consistent.
case E2 : (if _ then _ else _) => [w2|//] /=.
have C2 : wt w2 = 0 \/ consistent 1 w2.
  case: (boolP (wt w1 == 0)) E2 => [/eqP z|nz].
    by move=> E; apply Ok_inj in E; subst w2; left.
  case: C1 => [z|C1]; first by rewrite z eqxx in nz.
  move=> /(sweep_consistent Hrs C1) [xs [_ C2]]; right.
  by rewrite big1 ?mulr1 // in C2.
set w3 := if wt w2 == 0 then w2 else _.
have C3 : wt w3 = 0 \/ consistent 1 w3.
  rewrite /w3; case: (boolP (wt w2 == 0)) => [/eqP z|nz]; first by left.
  exact: kinetic_consistent.
move=> E; apply Ok_inj in E; subst w'.
case: C3 => [z|C3]; first by left; rewrite /= z mul0r.
by right.
Qed.

End SweepProofs.

(* ------------------------------------------------------------------ *)
Section ThermalProofs.
Variable K : fieldType.
Variable R : realFieldType.
Variable re : K -> R.
Variable n : nat.
Variable dl : bool -> bool -> K.
Hypothesis re0 : re 0 = 0.

(* The rows of A multiplied by v. *)
Definition diag_times (v : 'rV[K]_n) (A : 'M[K]_n) : 'M[K]_n := diag_mx v *m A.

Definition masked (sites : seq 'I_n) (v : 'rV[K]_n) : 'rV[K]_n :=
  \row_k (if k \in sites then v 0 k else 1).

Lemma diag_times_E v A i j : diag_times v A i j = v 0 i * A i j.
Proof. by rewrite /diag_times mul_diag_mx mxE. Qed.

Lemma thermal_sweep_zero sites : forall rs (w : twalker K R n),
  twt w = 0 -> twt (thermal_sweep re dl sites rs w) = 0.
Proof.
elim: sites => [//|i sites IH] [//|r rs] w z /=.
apply: IH; rewrite /thermal_site.
by case: (choose _ _ _) => [[norm xi]|] //=; rewrite z mul0r.
Qed.

Lemma thermal_sweep_correct (A Ad : 'M[K]_n) sites : forall done rs
    (w : twalker K R n),
  List.Forall (fun r => is_true (0 <= r < 1)) rs ->
  size rs = size sites ->
  uniq (done ++ sites)%SEQ ->
  1%:M + diag_times (masked done (bvu w)) A \in unitmx ->
  1%:M + diag_times (masked done (bvd w)) Ad \in unitmx ->
  gu w = tgreen (diag_times (masked done (bvu w)) A) ->
  gd w = tgreen (diag_times (masked done (bvd w)) Ad) ->
  let w' := thermal_sweep re dl sites rs w in
  twt w' != 0 ->
  [/\ 1%:M + diag_times (masked (done ++ sites)%SEQ (bvu w')) A \in unitmx,
      1%:M + diag_times (masked (done ++ sites)%SEQ (bvd w')) Ad \in unitmx,
      gu w' = tgreen (diag_times (masked (done ++ sites)%SEQ (bvu w')) A) &
      gd w' = tgreen (diag_times (masked (done ++ sites)%SEQ (bvd w')) Ad)].
Proof.
elim: sites => [|i sites IH] done [|r rs] w //= Hrs Sz U uU uD Eu Ed.
  by rewrite cats0.
have r01 : 0 <= r < 1 by inversion Hrs.
have {}Hrs : List.Forall (fun r => is_true (0 <= r < 1)) rs by inversion Hrs.
case: Sz => Sz.
have nidone : i \notin done.
  move: U; rewrite cat_uniq /= negb_or => /and3P [_ /andP [ni _] _].
  exact: ni.
rewrite /thermal_site.
case E : (choose _ _ _) => [[norm xi]|]; last first.
  by move=> /eqP []; apply: thermal_sweep_zero.
have nz := choose_neq0 re0 r01 E.
rewrite /thermal_ratio in nz.
have g1n : 1 + (1 - gu w i i) * dl xi false != 0.
  by apply: contraNneq nz => ->; rewrite mul0r mulr0.
have g2n : 1 + (1 - gd w i i) * dl xi true != 0.
  by apply: contraNneq nz => ->; rewrite !mulr0.
rewrite Eu in g1n; rewrite Ed in g2n.
have [uU' EU'] := thermal_update_correct uU g1n.
have [uD' ED'] := thermal_update_correct uD g2n.
have step (v : 'rV[K]_n) B spin :
  scale_row (diag_times (masked done v) B) i (1 + dl xi spin)
  = diag_times (masked (rcons done i) (set_entry v i (dl xi spin + 1))) B.
  apply/matrixP=> k a; rewrite mxE !diag_times_E !mxE mem_rcons inE.
  case: (k =P i) => [->|_] /=; last by [].
  by rewrite (negPf nidone) mul1r addrC.
rewrite !step in uU' EU' uD' ED'.
rewrite -cat_rcons.
apply: (IH (rcons done i) rs (TWalker _ _ _ _ _)) => //=.
- by rewrite cat_rcons.
- by rewrite Eu EU'.
- by rewrite Ed ED'.
Qed.

Lemma masked_nil v : masked [::] v = const_mx 1.
Proof. by apply/rowP=> k; rewrite !mxE. Qed.

Lemma masked_enum v : masked (enum 'I_n) v = v.
Proof. by apply/rowP=> k; rewrite !mxE mem_enum. Qed.

Lemma thermal_full_sweep (A Ad : 'M[K]_n) rs (w : twalker K R n) :
  List.Forall (fun r => is_true (0 <= r < 1)) rs ->
  size rs = n ->
  1%:M + A \in unitmx -> 1%:M + Ad \in unitmx ->
  gu w = tgreen A -> gd w = tgreen Ad ->
  let w' := thermal_sweep re dl (enum 'I_n) rs w in
  twt w' != 0 ->
  [/\ 1%:M + diag_mx (bvu w') *m A \in unitmx,
      1%:M + diag_mx (bvd w') *m Ad \in unitmx,
      gu w' = tgreen (diag_mx (bvu w') *m A) &
      gd w' = tgreen (diag_mx (bvd w') *m Ad)].
Proof.
move=> Hrs Sz uU uD Eu Ed w' nz.
have E1 (B : 'M[K]_n) v : diag_times (masked [::] v) B = B.
  by apply/matrixP=> k a; rewrite diag_times_E masked_nil mxE mul1r.
have := @thermal_sweep_correct A Ad (enum 'I_n) [::] rs w Hrs.
rewrite size_enum_ord !E1 /= => /(_ Sz (enum_uniq _) uU uD Eu Ed nz).
by rewrite !masked_enum.
Qed.

End ThermalProofs.

(* ------------------------------------------------------------------ *)
(* Identity orbitals, used by the examples and the counterexample. *)
Section Identity.

Lemma ovlp_id (K : fieldType) n :
  ovlp_mx (@id K) (1%:M : 'M[K]_n) 1%:M = 1%:M.
Proof. by rewrite /ovlp_mx map_mx_id // trmx1 mulmx1. Qed.

Lemma fast_gii_id (K : fieldType) n i :
  fast_gii (@id K) (1%:M : 'M[K]_n) 1%:M 1%:M i = 1.
Proof.
rewrite /fast_gii map_mx_id // trmx1 mul1mx row1 trmx_delta -rowE.
by rewrite !mxE !eqxx.
Qed.

Definition unit_walker (n : nat) : walker [fieldType of rat] [realFieldType of rat] n n n :=
  Walker 1%:M 1%:M 1%:M 1%:M 1 1 [::].

Lemma unit_walker_consistent n :
  stored_right (@id rat) 1%:M (phiu (unit_walker n)) 1%:M (phid (unit_walker n))
    (invu (unit_walker n)) (invd (unit_walker n)) (ot (unit_walker n)) 1.
Proof.
rewrite /stored_right /= /overlap ovlp_id unitmx1 invmx1 det1.
by [].
Qed.


Lemma identity_example n (i : 'I_n) (d : rat) : 1 + d != 0 ->
  ovlp_mx (@id rat) (1%:M : 'M[rat]_n) 1%:M \in unitmx /\
  1 + ((d *: row i 1%:M) *m inverse_overlap (@id rat) 1%:M 1%:M
        *m (map_mx (@id rat) (row i (1%:M : 'M[rat]_n)))^T) 0 0 != 0.
Proof.
move=> nz; rewrite ovlp_id unitmx1; split=> //.
rewrite update_denominator /inverse_overlap -/(ovlp_mx _ _ _) ovlp_id invmx1.
by rewrite fast_gii_id mulr1.
Qed.

Lemma thermal_example n (i : 'I_n) :
  1%:M + (1%:M : 'M[rat]_n) \in unitmx /\
  1 + (1 - tgreen (1%:M : 'M[rat]_n) i i) * 1 != 0.
Proof.
have E : 1%:M + (1%:M : 'M[rat]_n) = 2%:R%:M.
  by apply/matrixP=> a b; rewrite !mxE -mulr2n -mulrnA mulnC mulrnA.
have u : 1%:M + (1%:M : 'M[rat]_n) \in unitmx.
  by rewrite E unitmxE det_scalar unitfE expf_neq0.
split=> //; rewrite /tgreen E invmx_scalar mxE eqxx mulr1n mulr1.
by [].
Qed.

Lemma charge_refuted :
  exists (eg eu : rat) (dl : bool -> bool -> rat) (wfac : bool -> rat)
    (w w' : walker [fieldType of rat] [realFieldType of rat] 1 1 1) rs,
  (eg + eg^-1) / 2%:R = eu /\
  (forall xi s, dl xi s = (if xi then eg^-1 else eg) * eu - 1) /\
  (forall xi, wfac xi = eu^-1 * (if xi then eg else eg^-1)) /\
  List.Forall (fun r : rat => is_true (0 <= r < 1)) rs /\
  stored_right id 1%:M (phiu w) 1%:M (phid w) (invu w) (invd w) (ot w) 1 /\
  two_body_single_site id id 1%:M 1%:M dl wfac rs w = Ok w' /\
  wt w' != 0 /\
  ot w' <> overlap id 1%:M (phiu w') * overlap id 1%:M (phid w').
Proof.
pose eg : rat := 2%:R; pose eu : rat := 5%:R / 4%:R.
pose dl := fun xi (s : bool) => (if xi then eg^-1 else eg) * eu - 1 : rat.
pose wfac := fun xi : bool => eu^-1 * (if xi then eg else eg^-1) : rat.
pose w := unit_walker 1.
pose p := probs id 1%:M 1%:M dl wfac w ord0.
have pE xi : p xi = 2%:R^-1 * ((1 + dl xi false) * (1 + dl xi true)) * wfac xi.
  by rewrite /p /probs /ratio_single_det /= !fast_gii_id !mulr1.
have p0 : p false = 5%:R / 4%:R by rewrite pE; apply/eqP; vm_compute.
have p1 : p true = 5%:R / 16%:R by rewrite pE; apply/eqP; vm_compute.
have [norm [nn ch]] : exists norm : rat,
    norm != 0 /\ choose id p 0 = Some (norm, false).
  exists (5%:R / 4%:R + 5%:R / 16%:R).
  split; first by [].
  rewrite /choose p0 p1.
  have -> : Num.max (5%:R / 4%:R : rat) 0 = 5%:R / 4%:R.
    by apply/eqP; vm_compute.
  have -> : Num.max (5%:R / 16%:R : rat) 0 = 5%:R / 16%:R.
    by apply/eqP; vm_compute.
  by [].
have f01 : List.Forall (fun r : rat => is_true (0 <= r < 1)) [:: 0].
  by constructor=> //; rewrite lexx ltr01.
have wf : wfac false != 1 by vm_compute.
have e1 : (eg + eg^-1) / 2%:R = eu by apply/eqP; vm_compute.
have two : 2%:R != 0 :> rat by [].
have d1 : forall xi s, dl xi s = (if xi then eg^-1 else eg) * eu - 1 by [].
have d2 : forall xi, wfac xi = eu^-1 * (if xi then eg else eg^-1) by [].
move: ch; rewrite /p; clear p pE p0 p1 => ch.
move: wf d1 d2 e1 ch; clearbody wfac; clearbody dl; clearbody eu; clearbody eg.
move: wfac dl eg eu => wf0 dl0 eg0 eu0 wfn d1 d2 e1 ch.
have sw : two_body_single_site id id 1%:M 1%:M dl0 wf0 [:: 0] w
   = Ok (apply_field id 1%:M 1%:M dl0 w ord0
           (probs id 1%:M 1%:M dl0 wf0 w ord0) norm false).
  rewrite /two_body_single_site.
  have -> : enum 'I_1 = [:: ord0].
    by apply: (inj_map val_inj); rewrite val_enum_ord.
  exact: (sweep_one [::] _ ch).
have wn : wt (apply_field id 1%:M 1%:M dl0 w ord0
                (probs id 1%:M 1%:M dl0 wf0 w ord0) norm false) != 0.
  by rewrite /apply_field [wt _]/= mul1r.
have fl : fields (apply_field id 1%:M 1%:M dl0 w ord0
                (probs id 1%:M 1%:M dl0 wf0 w ord0) norm false) = [:: false] by [].
have cw : stored_right (@id rat) 1%:M (phiu w) 1%:M (phid w)
    (invu w) (invd w) (ot w) 1 := unit_walker_consistent 1.
have fw : fields w = [::] by [].
exists eg0, eu0, dl0, wf0, w.
move: sw wn fl; move: (apply_field _ _ _ _ _ _ _ _ _) => w'.
move: cw fw ch; clearbody w => cw fw ch sw wn fl.
exists w', [:: 0].
split; first exact: e1.
split; first exact: d1.
split; first exact: d2.
split; first exact: f01.
split; first exact: cw.
split; first exact: sw.
split; first exact: wn.
have := @sweep_consistent _ id [realFieldType of rat] id 1 1 1 1%:M 1%:M dl0 wf0 two
  (erefl _) _ _ _ _ 1 f01 cw sw.
case=> xs [Ef [uU [uD [_ [_ ->]]]]].
have Exs : xs = [:: false].
  by move: Ef; rewrite fl fw List.app_nil_r => <-.
rewrite Exs big_seq1 mul1r => /eqP.
have ab : overlap id 1%:M (phiu w') * overlap id 1%:M (phid w') != 0.
  by rewrite mulf_neq0 // -unitfE -unitmxE.
by rewrite -[X in _ == X]mulr1 (inj_eq (mulfI ab)) (negPf wfn).
Qed.

Lemma calc_overlap_refuted :
  exists psi phi : 'M[rat]_(1, 1 + 0),
  ovlp_mx id (lsubmx psi) (lsubmx phi) \in unitmx /\
  calc_overlap id psi phi 1
  <> overlap id (lsubmx psi) (lsubmx phi)
     * overlap id (rsubmx psi) (rsubmx phi).
Proof.
exists (row_mx 1%:M 0), (row_mx 2%:R%:M 0).
rewrite !row_mxKl !row_mxKr.
have E : ovlp_mx id (1%:M : 'M[rat]_1) 2%:R%:M = 2%:R%:M.
  by rewrite /ovlp_mx map_mx_id // trmx1 mul1mx.
rewrite E; split; first by rewrite unitmxE det_scalar1 unitfE.
rewrite /calc_overlap /= det_mx00 /overlap E det_scalar1 det_mx00.
by move/eqP.
Qed.

End Identity.

Section More.
Variable K : fieldType.
Variable cj : K -> K.

Lemma thermal_ratio_correct n (A Ad : 'M[K]_n) (i : 'I_n) du dd :
  1%:M + A \in unitmx -> 1%:M + Ad \in unitmx ->
  thermal_ratio (tgreen A) (tgreen Ad) i du dd
  = 2%:R^-1 * ((zpart (scale_row A i (1 + du)) / zpart A)
               * (zpart (scale_row Ad i (1 + dd)) / zpart Ad)).
Proof.
move=> uU uD; rewrite /thermal_ratio !zpart_scaled //.
by rewrite !mulfK // /zpart -unitfE -unitmxE.
Qed.

Lemma sweep_spin (R : realFieldType) (re : K -> R)
    n nu nd (psiu : 'M[K]_(n, nu)) (psid : 'M[K]_(n, nd))
    (dl : bool -> bool -> K) (wfac : bool -> K) :
  2%:R != 0 :> K -> re 0 = 0 -> (forall xi, wfac xi = 1) ->
  forall rs (w w' : walker K R n nu nd),
  List.Forall (fun r => is_true (0 <= r < 1)) rs ->
  stored_right cj psiu (phiu w) psid (phid w) (invu w) (invd w) (ot w) 1 ->
  two_body_single_site cj re psiu psid dl wfac rs w = Ok w' ->
  stored_right cj psiu (phiu w') psid (phid w') (invu w') (invd w') (ot w') 1.
Proof.
move=> two re0 wf rs w w' Hrs C E.
have [xs [_]] := sweep_consistent two re0 Hrs C E.
by rewrite /consistent big1 ?mulr1.
Qed.

Lemma polarised (R : realFieldType) (re : K -> R)
    n nu (psiu : 'M[K]_(n.+1, nu.+1)) (psid : 'M[K]_(n.+1, 0))
    (dl : bool -> bool -> K) (wfac : bool -> K) r rs w :
  two_body_single_site cj re psiu psid dl wfac (r :: rs) w = Err ValueError.
Proof.
rewrite /two_body_single_site.
case E : (enum 'I_n.+1) => [|i l] //=.
by have := congr1 size E; rewrite size_enum_ord.
Qed.

Lemma log_shift_iff n m (psi phi : 'M[K]_(n, m + m)) s :
  ovlp_mx cj (lsubmx psi) (lsubmx phi) \in unitmx ->
  ovlp_mx cj (rsubmx psi) (rsubmx phi) \in unitmx -> s != 0 ->
  (calc_otrial (inverse_overlap cj (lsubmx psi) (lsubmx phi))
     (inverse_overlap cj (rsubmx psi) (rsubmx phi)) s
   = calc_overlap cj psi phi s) <-> s ^+ 2 = 1.
Proof.
move=> uU uD sn; rewrite calc_otrial_correct // calc_overlap_correct.
have nz : overlap cj (lsubmx psi) (lsubmx phi)
          * overlap cj (rsubmx psi) (rsubmx phi) != 0.
  by rewrite mulf_neq0 // -unitfE -unitmxE.
split=> [/(mulfI nz) E|E].
  by rewrite expr2 -{1}E mulVf.
congr (_ * _); apply: (mulIf sn).
by rewrite mulVf // -expr2.
Qed.

End More.
