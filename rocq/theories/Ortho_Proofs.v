(* Proofs about re-orthogonalisation and mixed Green's functions. *)

From Verif Require Import Base.
Set Warnings "-notation-overridden,-ambiguous-paths".
From mathcomp Require Import all_ssreflect all_algebra.
From Verif Require Import Rank1_Spec Rank1_Proofs Ortho_Model Ortho_Spec.

Set Implicit Arguments.
Unset Strict Implicit.
Unset Printing Implicit Defensive.

Import Order.TTheory GRing.Theory Num.Theory.
Local Open Scope ring_scope.

Section Facts.
Variable C : numClosedFieldType.

Local Notation "A ^c" := (map_mx (@conjC C) A) (at level 2, format "A ^c").
Local Notation cj := (@conjC C).

Lemma adjM n m p (A : 'M[C]_(n, m)) (B : 'M[C]_(m, p)) :
  adj (A *m B) = adj B *m adj A.
Proof. by rewrite /adj map_mxM trmx_mul. Qed.

Lemma adj_unit m (X : 'M[C]_m) : X \in unitmx -> adj X \in unitmx.
Proof. by move=> hX; rewrite /adj unitmx_tr map_unitmx. Qed.

Lemma overlapE n m (psi phi : 'M[C]_(n, m)) :
  overlap cj psi phi = \det (adj psi *m phi).
Proof. by []. Qed.

Lemma ovlpE n m (psi phi : 'M[C]_(n, m)) :
  ovlp_mx cj psi phi = adj psi *m phi.
Proof. by []. Qed.

Lemma greenE n m (psi phi : 'M[C]_(n, m)) :
  green cj psi phi = (phi *m invmx (adj psi *m phi) *m adj psi)^T.
Proof. by []. Qed.

Lemma halfE n m (psi phi : 'M[C]_(n, m)) :
  green_half psi phi = (phi *m invmx (adj psi *m phi))^T.
Proof. by []. Qed.

(* numpy.sign on the reals *)
Lemma npsign_real (x : C) : x \is Num.real -> npsign x = Num.sg x.
Proof.
move=> hx; rewrite /npsign (Creal_ReP _ hx) (Creal_ImP _ hx).
case: eqP => //= ->; by rewrite sgr0.
Qed.

Lemma npsign_mul (x : C) : x \is Num.real -> npsign x * x = `|x|.
Proof.
move=> hx; rewrite npsign_real //.
have [->|h0] := eqVneq x 0; first by rewrite mulr0 normr0.
move: hx; rewrite realE => /orP [h|h].
- have h' : 0 < x by rewrite lt_def h0.
  by rewrite gtr0_sg // mul1r ger0_norm.
- have h' : x < 0 by rewrite lt_def eq_sym h0.
  by rewrite ltr0_sg // mulN1r ler0_norm.
Qed.

Lemma npsign_sq (x : C) : x \is Num.real -> x != 0 -> npsign x * npsign x = 1.
Proof.
move=> hx h0; rewrite npsign_real //.
move: hx; rewrite realE => /orP [h|h].
- have h' : 0 < x by rewrite lt_def h0.
  by rewrite gtr0_sg // mulr1.
- have h' : x < 0 by rewrite lt_def eq_sym h0.
  by rewrite ltr0_sg // mulrNN mulr1.
Qed.

Lemma npsign_conj (x : C) : x \is Num.real -> (npsign x)^* = npsign x.
Proof.
move=> hx; rewrite npsign_real //.
have [->|h0] := eqVneq x 0; first by rewrite sgr0 conjC0.
move: hx; rewrite realE => /orP [h|h].
- have h' : 0 < x by rewrite lt_def h0.
  by rewrite gtr0_sg // conjC1.
- have h' : x < 0 by rewrite lt_def eq_sym h0.
  by rewrite ltr0_sg // conjCN1.
Qed.

Section OneQR.
Variables (n m : nat) (A Q : 'M[C]_(n, m)) (R : 'M[C]_m).
Hypothesis Hqr : is_qr A Q R.
Hypothesis Hfull : full_rank A.

Lemma qr_det : \det R = \prod_i R i i.
Proof.
case: Hqr => _ _ hU _.
rewrite -det_tr det_trig; first by apply: eq_bigr => i _; rewrite mxE.
by apply/is_trig_mxP => i j hij; rewrite mxE hU.
Qed.

Lemma qr_unit : R \in unitmx.
Proof.
case: Hqr => hA _ _ _.
rewrite -row_full_unit /row_full eqn_leq rank_leq_row /= -{1}Hfull hA.
exact: mxrankM_maxr.
Qed.

Lemma qr_diag_neq0 i : R i i != 0.
Proof.
have := qr_unit; rewrite unitmxE unitfE qr_det => h.
by move/prodf_neq0: h => /(_ i isT).
Qed.

Lemma signs_sq : signs R *m signs R = 1%:M.
Proof.
case: Hqr => _ _ _ hR.
rewrite /signs mulmx_diag -diag_const_mx; congr diag_mx.
by apply/rowP => i; rewrite !mxE npsign_sq ?qr_diag_neq0.
Qed.

Lemma signs_unit : signs R \in unitmx.
Proof. by case: (mulmx1_unit signs_sq). Qed.

Lemma signs_adj : adj (signs R) = signs R.
Proof.
case: Hqr => _ _ _ hR.
rewrite /adj /signs map_diag_mx tr_diag_mx; congr diag_mx.
by apply/rowP => i; rewrite !mxE npsign_conj.
Qed.

Lemma signs_det : \det (signs R *m R) = abs_prod R.
Proof.
case: Hqr => _ _ _ hR.
rewrite det_mulmx det_diag qr_det -big_split; apply: eq_bigr => i _ /=.
by rewrite !mxE npsign_mul.
Qed.

Lemma abs_prod_gt0 : 0 < abs_prod R.
Proof. by apply: prodr_gt0 => i _; rewrite normr_gt0 qr_diag_neq0. Qed.

Lemma qr_new : A = (Q *m signs R) *m (signs R *m R).
Proof.
case: Hqr => hA _ _ _.
by rewrite mulmxA -(mulmxA Q) signs_sq mulmx1.
Qed.

Lemma qr_new_unit : signs R *m R \in unitmx.
Proof. by rewrite unitmx_mul signs_unit qr_unit. Qed.

Lemma qr_orthonormal : orthonormal (Q *m signs R).
Proof.
case: Hqr => _ hQ _ _.
by rewrite /orthonormal adjM mulmxA -(mulmxA _ (adj Q)) hQ mulmx1 signs_adj
           signs_sq.
Qed.

Lemma qr_span : same_span A (Q *m signs R).
Proof. by exists (signs R *m R); [exact: qr_new_unit|exact: qr_new]. Qed.

Lemma qr_overlap (psi : 'M[C]_(n, m)) :
  overlap cj psi A = overlap cj psi (Q *m signs R) * abs_prod R.
Proof.
by rewrite {1}qr_new !overlapE mulmxA det_mulmx signs_det.
Qed.

End OneQR.

(* Green's functions do not depend on the basis of either span. *)
Lemma ovlp_right n m (psi phi : 'M[C]_(n, m)) X :
  ovlp_mx cj psi (phi *m X) = ovlp_mx cj psi phi *m X.
Proof. by rewrite /ovlp_mx mulmxA. Qed.

Lemma ovlp_left n m (psi phi : 'M[C]_(n, m)) X :
  ovlp_mx cj (psi *m X) phi = adj X *m ovlp_mx cj psi phi.
Proof. by rewrite /ovlp_mx map_mxM trmx_mul mulmxA. Qed.

Lemma invmx_mul m (X Y : 'M[C]_m) :
  X \in unitmx -> Y \in unitmx -> invmx (X *m Y) = invmx Y *m invmx X.
Proof.
move=> hX hY.
have hXY : X *m Y \in unitmx by rewrite unitmx_mul hX hY.
apply: (can_inj (mulKmx hXY)).
by rewrite mulmxV // -mulmxA (mulmxA Y) mulmxV // mul1mx mulmxV.
Qed.

Lemma half_right n m (psi phi : 'M[C]_(n, m)) X :
  ovlp_mx cj psi phi \in unitmx -> X \in unitmx ->
  green_half psi (phi *m X) = green_half psi phi.
Proof.
move=> ho hX; rewrite /green_half ovlp_right invmx_mul //; congr (_^T).
by rewrite -mulmxA (mulmxA X) mulmxV // mul1mx.
Qed.

Lemma green_from_half n m (psi phi : 'M[C]_(n, m)) :
  green cj psi phi = psi^c *m green_half psi phi.
Proof. by rewrite /green /green_half trmx_mul trmxK. Qed.

Lemma green_right n m (psi phi : 'M[C]_(n, m)) X :
  ovlp_mx cj psi phi \in unitmx -> X \in unitmx ->
  green cj psi (phi *m X) = green cj psi phi.
Proof. by move=> ho hX; rewrite !green_from_half half_right. Qed.

Lemma green_left n m (psi phi : 'M[C]_(n, m)) X :
  ovlp_mx cj psi phi \in unitmx -> X \in unitmx ->
  green cj (psi *m X) phi = green cj psi phi.
Proof.
move=> ho hX; have hX' := adj_unit hX.
rewrite /green ovlp_left invmx_mul //; congr (_^T).
rewrite map_mxM trmx_mul -!mulmxA; congr (_ *m (_ *m _)).
by rewrite mulmxA mulVmx // mul1mx.
Qed.

Lemma unit_right n m (psi phi : 'M[C]_(n, m)) X :
  X \in unitmx ->
  (ovlp_mx cj psi (phi *m X) \in unitmx) = (ovlp_mx cj psi phi \in unitmx).
Proof. by move=> hX; rewrite ovlp_right unitmx_mul hX andbT. Qed.

Lemma green_same n m (psi A B : 'M[C]_(n, m)) X :
  X \in unitmx -> A = B *m X -> ovlp_mx cj psi A \in unitmx ->
  green cj psi B = green cj psi A /\ green_half psi B = green_half psi A.
Proof.
move=> hX -> ho; rewrite unit_right // in ho.
by split; [rewrite green_right|rewrite half_right].
Qed.

(* The model's Green's functions. *)
Lemma green_ovlp_tr n m (psi phi : 'M[C]_(n, m)) :
  phi^T *m psi^c = (adj psi *m phi)^T.
Proof. by rewrite /adj trmx_mul trmxK. Qed.

Lemma model_half n m (psi phi : 'M[C]_(n, m)) :
  invmx (phi^T *m psi^c) *m phi^T = green_half psi phi.
Proof. by rewrite green_ovlp_tr halfE -trmx_inv -trmx_mul. Qed.

Lemma gab_mod_green n m (A B : 'M[C]_(n, m)) :
  gab_mod A B = (green cj A B, green_half A B).
Proof. by rewrite /gab_mod model_half green_from_half. Qed.

Lemma gab_mod_ovlp_green n m (A B : 'M[C]_(n, m)) :
  gab_mod_ovlp A B
  = (green cj A B, green_half A B, (invmx (ovlp_mx cj A B))^T).
Proof.
by rewrite /gab_mod_ovlp model_half green_from_half green_ovlp_tr trmx_inv ovlpE.
Qed.

Lemma gab_green n m (A B : 'M[C]_(n, m)) : gab A B = (green cj A B)^T.
Proof. by rewrite /gab /green trmxK mulmxA. Qed.

Lemma green_single_green n m (psi phi : 'M[C]_(n, m)) :
  green_single psi phi
  = (green cj psi phi, green_half psi phi, overlap cj psi phi).
Proof.
by rewrite /green_single model_half green_from_half green_ovlp_tr det_tr.
Qed.

Lemma green_walker_overlap n nu nd s (psiu : 'M[C]_(n, nu))
    (psid : 'M[C]_(n, nd)) (w : walker C n nu nd) :
  (green_walker s psiu psid w).2 = overlap2 psiu (w_up w) psid (w_dn w) * s.
Proof.
rewrite /green_walker !green_single_green /overlap2 /=.
case: eqP => [E|_] //=.
have -> : overlap cj psid (w_dn w) = 1; last by rewrite mulr1.
case: w => [wu wd ? ?] /=.
by move: wd psid; rewrite E => wd psid; rewrite /overlap det_mx00.
Qed.

(* Projector. *)
Lemma gabE n m (A B : 'M[C]_(n, m)) :
  gab A B = B *m (invmx (adj A *m B) *m adj A).
Proof. by []. Qed.

Lemma gab_fix n m (A B : 'M[C]_(n, m)) :
  ovlp_mx cj A B \in unitmx -> gab A B *m B = B.
Proof.
rewrite ovlpE => ho; rewrite gabE.
by rewrite -mulmxA -[X in _ *m X]mulmxA mulVmx // mulmx1.
Qed.

Lemma gab_fix_left n m (A B : 'M[C]_(n, m)) :
  ovlp_mx cj A B \in unitmx -> adj A *m gab A B = adj A.
Proof. by rewrite ovlpE => ho; rewrite gabE !mulmxA mulmxV // mul1mx. Qed.

Lemma gab_proj n m (A B : 'M[C]_(n, m)) :
  ovlp_mx cj A B \in unitmx -> gab A B *m gab A B = gab A B.
Proof. by move=> ho; rewrite {2}gabE mulmxA gab_fix. Qed.

Lemma gab_trace n m (A B : 'M[C]_(n, m)) :
  ovlp_mx cj A B \in unitmx -> \tr (gab A B) = m%:R.
Proof.
rewrite ovlpE => ho; rewrite gabE mxtrace_mulC -mulmxA mulVmx //.
by rewrite mxtrace1.
Qed.

Lemma green_proj n m (A B : 'M[C]_(n, m)) :
  ovlp_mx cj A B \in unitmx ->
  green cj A B *m green cj A B = green cj A B.
Proof.
move=> ho; have h := gab_proj ho; rewrite gab_green in h.
by apply: trmx_inj; rewrite trmx_mul.
Qed.

Lemma green_trace n m (A B : 'M[C]_(n, m)) :
  ovlp_mx cj A B \in unitmx -> \tr (green cj A B) = m%:R.
Proof. by move=> ho; rewrite -mxtrace_tr -gab_green gab_trace. Qed.

Lemma gab_rank n m (A B : 'M[C]_(n, m)) :
  ovlp_mx cj A B \in unitmx -> \rank (gab A B) = m.
Proof.
move=> ho.
have hB : \rank B = m.
  apply/eqP; rewrite eqn_leq rank_leq_col /=.
  have h : (\rank (ovlp_mx cj A B) <= \rank B)%N by exact: mxrankM_maxr.
  by move: h; rewrite mxrank_unit.
apply/eqP; rewrite eqn_leq; apply/andP; split.
- by rewrite -{2}hB; apply: mxrankM_maxl.
- by rewrite -{1}hB -{1}(gab_fix ho); apply: mxrankM_maxl.
Qed.

Lemma dot_tr n m (A B : 'M[C]_(n, m)) : dot_mx A B = \tr (A *m B^T).
Proof.
rewrite /dot_mx /mxtrace; apply: eq_bigr => i _.
by rewrite mxE; apply: eq_bigr => j _; rewrite mxE.
Qed.

(* Half-rotated and full forms of a contraction. *)
Lemma half_contract n m (h : 'M[C]_n) (psi phi : 'M[C]_(n, m)) :
  dot_mx h (green cj psi phi) = dot_mx (adj psi *m h) (green_half psi phi).
Proof.
rewrite !dot_tr green_from_half trmx_mul mulmxA mxtrace_mulC.
by rewrite -/(adj psi) mulmxA.
Qed.

(* Single-determinant walkers. *)
Section Walkers.
Variable qr : forall n m, 'M[C]_(n, m) -> 'M[C]_(n, m) * 'M[C]_m.

(* qr did its job on the orbitals of w *)
Definition qr_on n nu nd (w : walker C n nu nd) : Prop :=
  is_qr (w_up w) (qr (w_up w)).1 (qr (w_up w)).2 /\
  is_qr (w_dn w) (qr (w_dn w)).1 (qr (w_dn w)).2.

Definition full2 n nu nd (w : walker C n nu nd) : Prop :=
  full_rank (w_up w) /\ full_rank (w_dn w).

(* What both reortho routines do to the orbitals. *)
Definition new_up n nu nd (w : walker C n nu nd) : 'M[C]_(n, nu) :=
  (qr (w_up w)).1 *m signs (qr (w_up w)).2.

Definition new_dn n nu nd (w : walker C n nu nd) : 'M[C]_(n, nd) :=
  (qr (w_dn w)).1 *m signs (qr (w_dn w)).2.

Definition factor n nu nd (w : walker C n nu nd) : C :=
  abs_prod (qr (w_up w)).2 * abs_prod (qr (w_dn w)).2.

Lemma nd0_mx n (A B : 'M[C]_(n, 0)) : A = B.
Proof. by apply/matrixP => i []. Qed.

Lemma abs_prod0 (R : 'M[C]_0) : abs_prod R = 1.
Proof. by rewrite /abs_prod big_ord0. Qed.

Lemma reortho_single_eq n nu nd s (w : walker C n nu nd) :
  reortho_single qr s w
  = (MkWalker (new_up w) (new_dn w) (w_ot w / (factor w * s))
       (w_ot w / (factor w * s)) (w_weight w) (w_phase w) (factor w * s),
     factor w * s).
Proof.
rewrite /reortho_single /factor /new_up /new_dn.
case Eu : (qr (w_up w)) => [Qu Ru] /=.
case: eqP => [E|_].
- move: w Eu; rewrite E => w Eu.
  by rewrite !abs_prod0 (nd0_mx (_ *m signs (qr (w_dn w)).2) (w_dn w)).
- by case Ed : (qr (w_dn w)) => [Qd Rd].
Qed.

Lemma reortho_eq n m (A : 'M[C]_(n, m)) :
  is_qr A (qr A).1 (qr A).2 -> 
  reortho qr A = ((qr A).1 *m signs (qr A).2, abs_prod (qr A).2).
Proof.
move=> h; rewrite /reortho -(signs_det h).
by case: (qr A).
Qed.

Lemma reortho_multi_eq n nu nd (w : walker C n nu nd) :
  qr_on w ->
  reortho_multi qr w
  = (MkWalker (new_up w) (new_dn w) (w_ot w / factor w)
       (w_ovlp w) (w_weight w) (w_phase w) (w_detR w), factor w).
Proof.
case=> hu hd; rewrite /reortho_multi (reortho_eq hu) /factor.
case: eqP => [E|_]; last by rewrite (reortho_eq hd).
move: w hu hd; rewrite E => w hu hd.
by rewrite !abs_prod0 mulr1 (nd0_mx (new_dn w) (w_dn w)).
Qed.

Lemma factor_gt0 n nu nd (w : walker C n nu nd) :
  qr_on w -> full2 w -> 0 < factor w.
Proof.
by case=> hu hd [fu fd]; rewrite mulr_gt0 ?(abs_prod_gt0 hu) ?(abs_prod_gt0 hd).
Qed.

Lemma new_overlap n nu nd (psiu : 'M[C]_(n, nu)) (psid : 'M[C]_(n, nd))
    (w : walker C n nu nd) :
  qr_on w -> full2 w ->
  overlap2 psiu (w_up w) psid (w_dn w)
  = overlap2 psiu (new_up w) psid (new_dn w) * factor w.
Proof.
case=> hu hd [fu fd]; rewrite /overlap2 (qr_overlap hu fu) (qr_overlap hd fd).
by rewrite mulrACA.
Qed.

Lemma new_green_up n nu nd (psi : 'M[C]_(n, nu)) (w : walker C n nu nd) :
  qr_on w -> full2 w -> ovlp_mx cj psi (w_up w) \in unitmx ->
  green cj psi (new_up w) = green cj psi (w_up w) /\
  green_half psi (new_up w) = green_half psi (w_up w).
Proof.
case=> hu _ [fu _] ho.
exact: (green_same (qr_new_unit hu fu) (qr_new hu fu) ho).
Qed.

Lemma new_green_dn n nu nd (psi : 'M[C]_(n, nd)) (w : walker C n nu nd) :
  qr_on w -> full2 w -> ovlp_mx cj psi (w_dn w) \in unitmx ->
  green cj psi (new_dn w) = green cj psi (w_dn w) /\
  green_half psi (new_dn w) = green_half psi (w_dn w).
Proof.
case=> _ hd [_ fd] ho.
exact: (green_same (qr_new_unit hd fd) (qr_new hd fd) ho).
Qed.


(* Results of the two routines as seen from outside. *)
Lemma single_orbitals n nu nd s (w : walker C n nu nd) :
  qr_on w -> full2 w ->
  let w' := (reortho_single qr s w).1 in
  [/\ orthonormal (w_up w'), orthonormal (w_dn w'),
      same_span (w_up w) (w_up w') & same_span (w_dn w) (w_dn w')].
Proof.
case=> hu hd [fu fd]; rewrite reortho_single_eq /=; split.
- exact: qr_orthonormal hu fu.
- exact: qr_orthonormal hd fd.
- exact: qr_span hu fu.
- exact: qr_span hd fd.
Qed.

Lemma single_green n nu nd s (psiu : 'M[C]_(n, nu)) (psid : 'M[C]_(n, nd))
    (w : walker C n nu nd) :
  qr_on w -> full2 w ->
  ovlp_mx cj psiu (w_up w) \in unitmx -> ovlp_mx cj psid (w_dn w) \in unitmx ->
  let w' := (reortho_single qr s w).1 in
  (green_walker 1 psiu psid w').1 = (green_walker 1 psiu psid w).1.
Proof.
move=> h f hu hd; rewrite reortho_single_eq /=.
have [e1 e2] := new_green_up h f hu; have [e3 e4] := new_green_dn h f hd.
rewrite /green_walker !green_single_green /=.
by case: eqP => _ /=; rewrite e1 e2 ?e3 ?e4.
Qed.

Lemma multi_green n nu nd (psiu : 'M[C]_(n, nu)) (psid : 'M[C]_(n, nd))
    (w : walker C n nu nd) :
  qr_on w -> full2 w ->
  ovlp_mx cj psiu (w_up w) \in unitmx -> ovlp_mx cj psid (w_dn w) \in unitmx ->
  let w' := (reortho_multi qr w).1 in
  (green_walker 1 psiu psid w').1 = (green_walker 1 psiu psid w).1.
Proof.
move=> h f hu hd; rewrite reortho_multi_eq //=.
have [e1 e2] := new_green_up h f hu; have [e3 e4] := new_green_dn h f hd.
rewrite /green_walker !green_single_green /=.
by case: eqP => _ /=; rewrite e1 e2 ?e3 ?e4.
Qed.

Lemma single_overlap n nu nd s (psiu : 'M[C]_(n, nu)) (psid : 'M[C]_(n, nd))
    (w : walker C n nu nd) :
  s != 0 -> qr_on w -> full2 w ->
  let (w', d) := reortho_single qr s w in
  [/\ d != 0,
      overlap2 psiu (w_up w) psid (w_dn w) * s
      = overlap2 psiu (w_up w') psid (w_dn w') * d,
      w_ot w = w_ot w' * d & w_ovlp w' = w_ot w'].
Proof.
move=> s0 h f; rewrite reortho_single_eq.
have f0 : factor w != 0 by rewrite gt_eqF // factor_gt0.
have d0 : factor w * s != 0 by rewrite mulf_neq0.
split=> //=; first by rewrite (new_overlap _ _ h f) mulrA.
by rewrite divfK.
Qed.

Lemma single_consistent n nu nd s t (psiu : 'M[C]_(n, nu))
    (psid : 'M[C]_(n, nd)) (w : walker C n nu nd) :
  s != 0 -> qr_on w -> full2 w ->
  w_ot w = overlap2 psiu (w_up w) psid (w_dn w) * t ->
  let w' := (reortho_single qr s w).1 in
  w_ot w' = overlap2 psiu (w_up w') psid (w_dn w') * (t / s).
Proof.
move=> s0 h f E; rewrite reortho_single_eq /=.
have f0 : factor w != 0 by rewrite gt_eqF // factor_gt0.
rewrite E (new_overlap _ _ h f) invfM.
move: (overlap2 _ _ _ _) => o.
by rewrite [o * _ * t]mulrAC [LHS]mulrA mulfK // mulrA.
Qed.

Lemma multi_overlap n nu nd (psiu : 'M[C]_(n, nu)) (psid : 'M[C]_(n, nd))
    (w : walker C n nu nd) :
  qr_on w -> full2 w ->
  let (w', d) := reortho_multi qr w in
  [/\ 0 < d,
      overlap2 psiu (w_up w) psid (w_dn w)
      = overlap2 psiu (w_up w') psid (w_dn w') * d,
      w_ot w = w_ot w' * d &
      [/\ orthonormal (w_up w'), orthonormal (w_dn w'),
          same_span (w_up w) (w_up w') & same_span (w_dn w) (w_dn w')]].
Proof.
move=> h f; rewrite reortho_multi_eq //=.
have f0 : 0 < factor w by exact: factor_gt0.
split=> //=; first by rewrite (new_overlap _ _ h f).
- by rewrite divfK // gt_eqF.
- case: (h) (f) => hu hd [fu fd]; split.
  + exact: qr_orthonormal hu fu.
  + exact: qr_orthonormal hd fd.
  + exact: qr_span hu fu.
  + exact: qr_span hd fd.
Qed.

Lemma overlap_sum_scale n nu nd
    (trial : list (C * 'M[C]_(n, nu) * 'M[C]_(n, nd)))
    (w : walker C n nu nd) :
  qr_on w -> full2 w ->
  let (w', d) := reortho_multi qr w in
  overlap_sum trial (w_up w) (w_dn w)
  = overlap_sum trial (w_up w') (w_dn w') * d.
Proof.
move=> h f; rewrite reortho_multi_eq //= /overlap_sum mulr_suml.
apply: eq_bigr => t _; by rewrite (new_overlap _ _ h f) mulrA.
Qed.

(* Free projection. *)
Lemma polar_mul (z : C) : (polar z).1 * (polar z).2 = z.
Proof.
rewrite /polar /=; case: eqP => [->|/eqP h]; first by rewrite normr0 mul0r.
by rewrite mulrC divfK // normr_eq0.
Qed.

Lemma polar_phase (z : C) : `|(polar z).2| = 1.
Proof.
rewrite /polar /=; case: eqP => [_|/eqP h]; first by rewrite normr1.
by rewrite normrM normfV normr_id mulfV // normr_eq0.
Qed.

(* w' is w with new orbitals: the product weight phase overlap and the product
   weight phase ot are the same. *)
Definition free_ok n nu nd s (psiu : 'M[C]_(n, nu)) (psid : 'M[C]_(n, nd))
    (w w' : walker C n nu nd) : Prop :=
  [/\ w_weight w' * w_phase w' * w_ot w' = w_weight w * w_phase w * w_ot w,
      w_weight w' * w_phase w' * overlap2 psiu (w_up w') psid (w_dn w')
      = w_weight w * w_phase w
        * (overlap2 psiu (w_up w) psid (w_dn w) * s),
      `|w_phase w'| = `|w_phase w| &
      0 <= w_weight w -> 0 <= w_weight w'].

Lemma shuffle (a b c x y : C) : a * x * (b * y) * c = a * b * (c * (x * y)).
Proof. by rewrite [a * x * _]mulrACA -[LHS]mulrA [x * y * c]mulrC. Qed.

Lemma free1 n nu nd s (psiu : 'M[C]_(n, nu)) (psid : 'M[C]_(n, nd))
    (w : walker C n nu nd) :
  s != 0 -> qr_on w -> full2 w ->
  exists2 w', orthogonalise1 true (reo_single qr s w) = Ok w'
            & free_ok s psiu psid w w'.
Proof.
move=> s0 h f; have := single_overlap psiu psid s0 h f.
rewrite /reo_single /orthogonalise1; move: (reortho_single_eq s w).
case: (reortho_single qr s w) => w1 d E [d0 Eo Et _].
have Ew : w_weight w1 = w_weight w by case: E => ->.
have Ep : w_phase w1 = w_phase w by case: E => ->.
eexists; first by rewrite [polar d]surjective_pairing.
split=> /=.
- by rewrite Et Ew Ep -[in RHS](polar_mul d) shuffle.
- by rewrite Eo Ew Ep -[in RHS](polar_mul d) shuffle.
- by rewrite normrM polar_phase mulr1 Ep.
- by rewrite Ew => hw; rewrite mulr_ge0 // /polar /= normr_ge0.
Qed.

Lemma free_all n nu nd s (psiu : 'M[C]_(n, nu)) (psid : 'M[C]_(n, nd))
    (ws : list (walker C n nu nd)) :
  s != 0 -> (forall w, List.In w ws -> qr_on w /\ full2 w) ->
  exists2 ws', orthogonalise true (reo_single qr s) ws = Ok ws'
             & List.Forall2 (free_ok s psiu psid) ws ws'.
Proof.
move=> s0; elim: ws => [|w ws IH] H; first by exists nil.
have [h f] := H w (or_introl erefl).
have [w' E1 F1] := free1 psiu psid s0 h f.
have [ws' E2 F2] := IH (fun v hv => H v (or_intror hv)).
by exists (w' :: ws')%SEQ; [rewrite /= E1 E2|constructor].
Qed.

Lemma constrained_all n nu nd
    (reo : walker C n nu nd -> walker C n nu nd * option C) ws :
  orthogonalise false reo ws = Ok (List.map (fun w => (reo w).1) ws).
Proof.
elim: ws => //= w ws ->; by case: (reo w).
Qed.

Lemma ghf_free n nu nd otrial (w : walker C n nu nd) ws :
  orthogonalise true (reo_ghf qr otrial) (w :: ws)%SEQ = Err TypeError.
Proof.
rewrite /= /reo_ghf.
by case: (reortho qr _) => ? ?; case: (reortho qr _).
Qed.

(* The determinants of a multi-determinant trial. *)
Definition above n nu nd (eps : C) (phiu : 'M[C]_(n, nu))
    (phid : 'M[C]_(n, nd)) (t : C * 'M[C]_(n, nu) * 'M[C]_(n, nd)) : Prop :=
  eps <= `|overlap cj t.1.2 phiu| /\ eps <= `|overlap2 t.1.2 phiu t.2 phid|.

Lemma green_det_eq n nu nd (eps c : C) (psiu phiu : 'M[C]_(n, nu))
    (psid phid : 'M[C]_(n, nd)) st tot :
  above eps phiu phid (c, psiu, psid) ->
  green_det eps c psiu phiu psid phid st tot
  = (MkDet (green cj psiu phiu) (green cj psid phid)
       (overlap2 psiu phiu psid phid)
       (c^* * overlap2 psiu phiu psid phid),
     tot + c^* * overlap2 psiu phiu psid phid).
Proof.
case=> /= h1 h2; rewrite /green_det !green_ovlp_tr !det_tr -!overlapE.
by rewrite (le_gtF h1) (le_gtF h2) -!green_ovlp_tr !model_half
           -!green_from_half.
Qed.

Lemma green_dets_eq n nu nd (eps : C)
    (trial : list (C * 'M[C]_(n, nu) * 'M[C]_(n, nd)))
    (phiu : 'M[C]_(n, nu)) (phid : 'M[C]_(n, nd)) sts tot :
  (forall t, List.In t trial -> above eps phiu phid t) ->
  length sts = length trial ->
  green_dets eps trial phiu phid sts tot
  = (List.map (fun t => 
       MkDet (green cj t.1.2 phiu) (green cj t.2 phid)
         (overlap2 t.1.2 phiu t.2 phid)
         ((t.1.1)^* * overlap2 t.1.2 phiu t.2 phid)) trial,
     tot + overlap_sum trial phiu phid).
Proof.
elim: trial sts tot => [|[[c pu] pd] trial IH] [|st sts] tot H //=.
- by rewrite /overlap_sum big_nil addr0.
case=> hl; rewrite green_det_eq; last by apply: H; left.
rewrite IH //; last by move=> t ht; apply: H; right.
by rewrite /overlap_sum big_cons addrA.
Qed.

Lemma over_units n nu nd (eps : C) (psiu phiu : 'M[C]_(n, nu))
    (psid phid : 'M[C]_(n, nd)) :
  0 < eps -> eps <= `|overlap cj psiu phiu| ->
  eps <= `|overlap2 psiu phiu psid phid| ->
  ovlp_mx cj psiu phiu \in unitmx /\ ovlp_mx cj psid phid \in unitmx.
Proof.
move=> e0 h1 h2; have hu := lt_le_trans e0 h1; have hd := lt_le_trans e0 h2.
rewrite normr_gt0 in hu; rewrite normr_gt0 mulf_eq0 negb_or in hd.
by split; rewrite unitmxE unitfE //; case/andP: hd.
Qed.

Lemma multi_dets n nu nd (eps : C)
    (trial : list (C * 'M[C]_(n, nu) * 'M[C]_(n, nd)))
    (w : walker C n nu nd) sts sts' :
  qr_on w -> full2 w -> 0 < eps ->
  length sts = length trial -> length sts' = length trial ->
  let (w', d) := reortho_multi qr w in
  (forall t, List.In t trial ->
     above eps (w_up w) (w_dn w) t /\ above eps (w_up w') (w_dn w') t) ->
  let r := green_dets eps trial (w_up w) (w_dn w) sts 0 in
  let r' := green_dets eps trial (w_up w') (w_dn w') sts' 0 in
  r.2 = r'.2 * d /\
  List.Forall2 (fun x y =>
    [/\ d_Gup x = d_Gup y, d_Gdn x = d_Gdn y & d_weight x = d_weight y * d])
    r.1 r'.1.
Proof.
move=> h f e0 l l'; have := overlap_sum_scale trial h f.
rewrite reortho_multi_eq //= => Es H.
rewrite !green_dets_eq //=; try by move=> t /H [].
rewrite !add0r Es; split=> //.
elim: trial {l l' Es} H => [|t trial IH] H /=; first by constructor.
constructor; last by apply: IH => u hu; apply: H; right.
have [[a1 a2] _] := H t (or_introl erefl).
have [b1 b2] := over_units e0 a1 a2.
have [-> _] := new_green_up h f b1; have [-> _] := new_green_dn h f b2.
by split=> //=; rewrite (new_overlap _ _ h f) mulrA.
Qed.


Lemma ghf_constrained n nu nd (psiu : 'M[C]_(n, nu)) (psid : 'M[C]_(n, nd))
    otrial (w : walker C n nu nd) :
  qr_on w -> full2 w ->
  let w' := (reo_ghf qr otrial w).1 in
  [/\ orthonormal (w_up w'), orthonormal (w_dn w'),
      same_span (w_up w) (w_up w'), same_span (w_dn w) (w_dn w')
    & w_ot w' = otrial (w_up w') (w_dn w')].
Proof.
case=> hu hd [fu fd]; rewrite /reo_ghf (reortho_eq hu) (reortho_eq hd) /=.
split=> //.
- exact: qr_orthonormal hu fu.
- exact: qr_orthonormal hd fd.
- exact: qr_span hu fu.
- exact: qr_span hd fd.
Qed.

End Walkers.

(* The Green's function is the response of the overlap to mixing orbital
   rows. *)
Lemma thouless n m (psi phi : 'M[C]_(n, m)) (e : C) i j :
  ovlp_mx cj psi phi \in unitmx ->
  overlap cj psi ((1%:M + e *: delta_mx i j) *m phi)
  = overlap cj psi phi * (1 + e * green cj psi phi i j).
Proof.
rewrite ovlpE => ho; rewrite !overlapE.
have -> : adj psi *m ((1%:M + e *: delta_mx i j) *m phi)
          = adj psi *m phi + (e *: row i psi^c)^T *m row j phi.
  rewrite mulmxDl mul1mx mulmxDr; congr (_ + _).
  apply/matrixP => a b; rewrite !mxE big_ord_recl big_ord0 addr0 !mxE.
  rewrite (bigD1 i) //= big1 ?addr0; last first.
    move=> k /negbTE hk; rewrite [X in _ * X]mxE big1 ?mulr0 // => l _.
    by rewrite !mxE hk /= mulr0 mul0r.
  rewrite !mxE (bigD1 j) //= big1 ?addr0; last first.
    by move=> l /negbTE hl; rewrite !mxE eqxx hl /= mulr0 mul0r.
  by rewrite !mxE !eqxx /= mulr1 mulrA [e * _]mulrC.
rewrite det_rank1 // mulrC; congr (_ * (1 + _)).
rewrite greenE [X in e * X]mxE linearZ /= -scalemxAr [LHS]mxE.
congr (_ * _); rewrite -row_mul [LHS]mxE [RHS]mxE.
by apply: eq_bigr => k _; rewrite !mxE.
Qed.

Lemma half_left n m (psi phi : 'M[C]_(n, m)) X :
  ovlp_mx cj psi phi \in unitmx -> X \in unitmx ->
  green_half (psi *m X) phi = invmx X^c *m green_half psi phi.
Proof.
rewrite ovlpE => ho hX; have hX' := adj_unit hX.
rewrite !halfE adjM -mulmxA invmx_mul // mulmxA trmx_mul; congr (_ *m _).
by rewrite trmx_inv /adj trmxK.
Qed.

Lemma gab_spin_ok n na nb (A B : 'M[C]_(n, na + nb)) :
  (0 < nb)%N ->
  gab_spin A B
  = Ok (green cj (lsubmx A) (lsubmx B), green cj (rsubmx A) (rsubmx B),
        (green_half (lsubmx A) (lsubmx B), green_half (rsubmx A) (rsubmx B))).
Proof. by move=> h; rewrite /gab_spin !gab_mod_green h. Qed.

Lemma gab_spin_nb0 n na (A B : 'M[C]_(n, na + 0)) :
  gab_spin A B = Err UnboundLocalError.
Proof. by rewrite /gab_spin; case: (gab_mod _ _). Qed.

(* The threshold of the multi-determinant Green's function. *)
Definition one_qr n m (A : 'M[C]_(n, m)) : 'M[C]_(n, m) * 'M[C]_m :=
  let d := \sum_i \sum_j `|A i j| in (d^-1 *: A, d%:M).

Lemma one_qr_val (d : C) : 0 < d ->
  one_qr (d%:M : 'M[C]_1) = (1%:M, d%:M).
Proof.
move=> h; have d0 : d != 0 by rewrite gt_eqF.
rewrite /one_qr !big_ord_recl !big_ord0 !addr0 mxE eqxx mulr1n gtr0_norm //.
by rewrite scale_scalar_mx mulVf.
Qed.

Lemma one_qr_ok (d : C) : 0 < d ->
  is_qr (d%:M : 'M[C]_1) (one_qr (d%:M : 'M[C]_1)).1
    (one_qr (d%:M : 'M[C]_1)).2.
Proof.
move=> h; rewrite one_qr_val //; split=> /=.
- by rewrite mul1mx.
- by rewrite /orthonormal /adj map_mx1 trmx1 mulmx1.
- by move=> i j; rewrite !ord1.
- by move=> i; rewrite !ord1 mxE eqxx mulr1n gtr0_real.
Qed.

Lemma one_full (d : C) : 0 < d -> full_rank (d%:M : 'M[C]_1).
Proof.
move=> h; rewrite /full_rank mxrank_unit // unitmxE det_scalar expr1 unitfE.
by rewrite gt_eqF.
Qed.

Lemma one_new (d : C) : 0 < d ->
  (one_qr (d%:M : 'M[C]_1)).1 *m signs (one_qr (d%:M : 'M[C]_1)).2 = 1%:M.
Proof.
move=> h; rewrite one_qr_val //= mul1mx /signs.
apply/matrixP => i j; rewrite !mxE !ord1 eqxx !mulr1n.
by rewrite npsign_real ?gtr0_real // gtr0_sg.
Qed.

Lemma one_overlap (d : C) :
  overlap cj (1%:M : 'M[C]_1) (d%:M : 'M[C]_1) = d.
Proof. by rewrite overlapE /adj map_mx1 trmx1 mul1mx det_scalar expr1. Qed.

Lemma one_green (d : C) : d != 0 ->
  green cj (1%:M : 'M[C]_1) (d%:M : 'M[C]_1) = 1%:M.
Proof.
move=> h; rewrite greenE /adj map_mx1 trmx1 mul1mx mulmx1 mulmxV ?trmx1 //.
by rewrite unitmxE det_scalar expr1 unitfE.
Qed.

Lemma threshold (eps : C) : 0 < eps -> eps <= 1 ->
  exists (qr : forall n m, 'M[C]_(n, m) -> 'M[C]_(n, m) * 'M[C]_m)
         (w : walker C 1 1 1),
  let trial := [:: (1, 1%:M, 1%:M) : C * 'M[C]_1 * 'M[C]_1] in
  let sts := [:: MkDet 0 0 0 0] in
  let w' := (reortho_multi qr w).1 in
  [/\ qr_on qr w, full2 w, overlap_sum trial (w_up w) (w_dn w) != 0,
      green_dets eps trial (w_up w) (w_dn w) sts 0 = (sts, 0) &
      green_dets eps trial (w_up w') (w_dn w') sts 0
      = ([:: MkDet 1%:M 1%:M 1 1], 1)].
Proof.
move=> e0 e1; pose d := eps / 2%:R.
have d0 : 0 < d by rewrite divr_gt0 // ltr0n.
have d1 : d < eps by rewrite ltr_pdivr_mulr ?ltr0n // ltr_pmulr // ltr1n.
have h10 : 0 < (1 : C) by exact: ltr01.
exists one_qr, (MkWalker d%:M 1%:M d 0 1 1 1).
have hq : qr_on one_qr (MkWalker d%:M 1%:M d 0 1 1 1 : walker C 1 1 1).
  by split; [exact: one_qr_ok|exact: one_qr_ok].
have hf : full2 (MkWalker d%:M 1%:M d 0 1 1 1 : walker C 1 1 1).
  by split; [exact: one_full|exact: one_full].
split=> //.
- rewrite /overlap_sum big_cons big_nil addr0 /= conjC1 mul1r /overlap2 /=.
  by rewrite !one_overlap mulr1 gt_eqF.
- rewrite /= /green_det green_ovlp_tr det_tr -overlapE one_overlap.
  by rewrite gtr0_norm // d1.
- rewrite reortho_multi_eq //= /new_up /new_dn /= !one_new // green_det_eq.
    by rewrite /overlap2 !one_overlap one_green ?oner_neq0 // conjC1 !mulr1
               add0r.
  by split; rewrite /= /overlap2 !one_overlap ?mulr1 normr1.
Qed.

End Facts.

(* A factorisation with a negative diagonal, as LAPACK returns it. *)
Section Case.
Variable C : numClosedFieldType.

Definition v34 : 'M[C]_(2, 1) := \col_(i < 2) (if i == 0 then 3%:R else 4%:R).
Definition q34 : 'M[C]_(2, 1) := (- (5%:R)^-1) *: v34.

Lemma v34_qr : is_qr v34 q34 (- 5%:R)%:M.
Proof.
have h5 : (5%:R : C) != 0 by rewrite pnatr_eq0.
split.
- by rewrite mul_mx_scalar scalerA mulrNN mulfV // scale1r.
- apply/matrixP => i j; rewrite !mxE !big_ord_recl big_ord0 !ord1 /= addr0.
  rewrite !mxE /= !rmorphM rmorphN fmorphV !rmorph_nat /=.
  rewrite !mulNr !mulrN !opprK ![_^-1 * _]mulrC.
  rewrite !mulf_div -!natrM -mulrDl -natrD divff //.
  by rewrite pnatr_eq0.
- by move=> i j; rewrite !ord1.
- by move=> i; rewrite mxE ord1 eqxx mulr1n realN realn.
Qed.

Lemma v34_full : full_rank v34.
Proof.
rewrite /full_rank; apply/eqP; rewrite eqn_leq rank_leq_col lt0n mxrank_eq0 /=.
apply/eqP => /matrixP /(_ 0 0); rewrite !mxE /= => /eqP.
by rewrite pnatr_eq0.
Qed.

Lemma v34_new : signs ((- 5%:R)%:M : 'M[C]_1) = (-1)%:M.
Proof.
apply/matrixP => i j; rewrite !mxE !ord1 eqxx !mulr1n npsign_real ?realN ?realn //.
by rewrite ltr0_sg // oppr_lt0 ltr0n.
Qed.

End Case.
