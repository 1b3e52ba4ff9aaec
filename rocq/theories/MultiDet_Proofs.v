(* Proofs about multi-determinant contractions. *)

From Verif Require Import Base.
Set Warnings "-notation-overridden,-ambiguous-paths".
From mathcomp Require Import all_ssreflect all_algebra.
From Verif Require Import Rank1_Spec Ortho_Model Ortho_Spec Ortho_Proofs
  MultiDet_Model MultiDet_Spec.

Set Implicit Arguments.
Unset Strict Implicit.
Unset Printing Implicit Defensive.

Import Order.TTheory GRing.Theory Num.Theory.
Local Open Scope ring_scope.

Section Proofs.
Variable C : numClosedFieldType.
Local Notation "A ^c" := (map_mx (@conjC C) A) (at level 2, format "A ^c").
Local Notation cj := (@conjC C).

(* One-body operators *)
Lemma det_with_col m (O B : 'M[C]_m) (k : 'I_m) :
  \det (with_col O B k) = \sum_i B i k * cofactor O i k.
Proof.
rewrite (expand_det_col _ k); apply: eq_bigr => i _.
rewrite mxE eqxx; congr (_ * (_ * \det _)).
apply/matrixP => a b; rewrite !mxE.
by rewrite eq_sym (negbTE (neq_lift k b)).
Qed.

Lemma sum_det_with_col m (O B : 'M[C]_m) :
  \sum_k \det (with_col O B k) = \tr (\adj O *m B).
Proof.
rewrite /mxtrace; apply: eq_bigr => k _; rewrite det_with_col mxE.
by apply: eq_bigr => i _; rewrite mxE mulrC.
Qed.

Lemma adjugate_inv m (O : 'M[C]_m) : O \in unitmx -> \adj O = \det O *: invmx O.
Proof.
move=> uO; rewrite /invmx uO scalerA divrr ?scale1r //.
Qed.

Lemma ovlp_with_col n m (psi phi X : 'M[C]_(n, m)) k :
  ovlp_mx cj psi (with_col phi X k) = with_col (ovlp_mx cj psi phi) (ovlp_mx cj psi X) k.
Proof.
apply/matrixP => i j; rewrite !mxE; case: eqP => [->|ne].
- by apply: eq_bigr => a _; rewrite !mxE eqxx.
- by apply: eq_bigr => a _; rewrite !mxE; case: eqP ne.
Qed.

Lemma one_body_tr n m (t : 'M[C]_n) (psi phi : 'M[C]_(n, m)) :
  one_body t psi phi = \tr (\adj (ovlp_mx cj psi phi) *m (adj psi *m (t *m phi))).
Proof.
rewrite /one_body -sum_det_with_col; apply: eq_bigr => k _.
by rewrite /overlap ovlp_with_col.
Qed.

Lemma one_body_green n m (t : 'M[C]_n) (psi phi : 'M[C]_(n, m)) :
  ovlp_mx cj psi phi \in unitmx ->
  one_body t psi phi = overlap cj psi phi * dot_mx t (green cj psi phi).
Proof.
move=> uO; rewrite one_body_tr adjugate_inv // -scalemxAl mxtraceZ; congr (_ * _).
rewrite dot_tr greenE trmxK ovlpE [LHS]mxtrace_mulC [in RHS]mulmxA [RHS]mxtrace_mulC.
by rewrite !mulmxA.
Qed.

Lemma ravel_dotE n (A B : 'M[C]_n) : ravel_dot A B = dot_mx A B.
Proof. by []. Qed.

Lemma dotC n (A B : 'M[C]_n) : dot_mx A B = dot_mx B A.
Proof. by rewrite /dot_mx; apply: eq_bigr => i _; apply: eq_bigr => j _; rewrite mulrC. Qed.

Lemma dotDr n (A B D : 'M[C]_n) : dot_mx A (B + D) = dot_mx A B + dot_mx A D.
Proof.
rewrite /dot_mx -big_split; apply: eq_bigr => i _; rewrite -big_split.
by apply: eq_bigr => j _; rewrite !mxE mulrDr.
Qed.

Lemma dot0r n (A : 'M[C]_n) : dot_mx A 0 = 0.
Proof.
by rewrite /dot_mx big1 // => i _; rewrite big1 // => j _; rewrite mxE mulr0.
Qed.

Lemma one_body2_green n nu nd (t : 'M[C]_n) (psiu phiu : 'M[C]_(n, nu))
    (psid phid : 'M[C]_(n, nd)) :
  ovlp_mx cj psiu phiu \in unitmx -> ovlp_mx cj psid phid \in unitmx ->
  one_body2 t psiu phiu psid phid
  = overlap2 psiu phiu psid phid
    * dot_mx t (green cj psiu phiu + green cj psid phid).
Proof.
move=> uu ud; rewrite /one_body2 !one_body_green // dotDr /overlap2 mulrDr.
by rewrite mulrAC mulrA.
Qed.

(* The walker *)
Section Walker.
Variables n nu nd : nat.
Implicit Types (trial : list (det_t C n nu nd)) (phiu : 'M[C]_(n, nu)) (phid : 'M[C]_(n, nd)).

Lemma det_overlapE (t : det_t C n nu nd) phiu phid :
  det_overlap t phiu phid = overlap2 t.1.2 phiu t.2 phid.
Proof. by []. Qed.

Lemma direct_sum trial phiu phid :
  (overlap_direct trial phiu phid).2 = overlap_sum trial phiu phid.
Proof.
rewrite /overlap_direct /overlap_sum /=.
by elim: trial => [|t l IH] /=; rewrite ?big_nil // !big_cons IH.
Qed.

Lemma calc_overlap_sum trial phiu phid sts : length sts = length trial ->
  (calc_overlap trial phiu phid sts).2 = overlap_sum trial phiu phid.
Proof.
rewrite /calc_overlap /overlap_sum /=.
elim: trial sts => [|t l IH] [|s sts] //= => [|[hl]]; rewrite ?big_nil // !big_cons.
by rewrite IH.
Qed.


Lemma green_det_zero (eps c : C) (psiu phiu : 'M[C]_(n, nu))
    (psid phid : 'M[C]_(n, nd)) st tot :
  0 < eps -> overlap2 psiu phiu psid phid = 0 ->
  exists Gup, green_det eps c psiu phiu psid phid st tot
    = (MkDet Gup (d_Gdn st) (d_ovlp st) (d_weight st), tot).
Proof.
move=> e0 z; rewrite /green_det !green_ovlp_tr !det_tr -!overlapE.
rewrite -/(overlap2 psiu phiu psid phid) z normr0 e0.
by case: ifP => _; [exists (d_Gup st); case: st | eexists].
Qed.

Definition store_ok phiu phid (t : det_t C n nu nd) (s : detstore C n) : Prop :=
  d_ovlp s = overlap2 t.1.2 phiu t.2 phid /\
  (d_ovlp s != 0 -> d_Gup s = green cj t.1.2 phiu /\ d_Gdn s = green cj t.2 phid) /\
  d_weight s = (t.1.1)^* * d_ovlp s.

Lemma green_dets_clear eps trial phiu phid sts tot : 0 < eps ->
  (forall t, List.In t trial -> clear eps phiu phid t) ->
  List.Forall2 (fun t s => d_ovlp s = overlap2 t.1.2 phiu t.2 phid /\
                   d_weight s = (t.1.1)^* * d_ovlp s) trial sts ->
  List.Forall2 (store_ok phiu phid) trial (green_dets eps trial phiu phid sts tot).1 /\
  (green_dets eps trial phiu phid sts tot).2 = tot + overlap_sum trial phiu phid.
Proof.
move=> e0; elim: trial sts tot => [|[[c pu] pd] trial IH] sts tot H F.
- by inversion F; subst; rewrite /= /overlap_sum big_nil addr0; split=> //; constructor.
inversion F as [|? s ? sts' [Fo Fw] F' E1 E2]; subst.
have H' : forall t, List.In t trial -> clear eps phiu phid t by move=> t ht; apply: H; right.
have Es : overlap_sum ((c, pu, pd) :: trial)%SEQ phiu phid
  = c^* * overlap2 pu phiu pd phid + overlap_sum trial phiu phid.
  by rewrite /overlap_sum big_cons.
rewrite Es /=.
case: (H (c, pu, pd) (or_introl erefl)) => [A|Z].
- rewrite green_det_eq //.
  have [] := IH sts' (tot + c^* * overlap2 pu phiu pd phid) H' F'.
  case: (green_dets _ _ _ _ _ _) => r1 r2 /= K1 K2; split; last by rewrite K2 addrA.
  by constructor=> //; split=> //=.
- rewrite /= in Z Fo Fw; have [Gup ->] := green_det_zero c s tot e0 Z.
  have [] := IH sts' tot H' F'.
  case: (green_dets _ _ _ _ _ _) => r1 r2 /= K1 K2; split; last by rewrite K2 Z mulr0 add0r.
  constructor=> //; split=> //=; split=> //; by rewrite Fo Z eqxx.
Qed.

Lemma direct_stores trial phiu phid :
  List.Forall2 (fun t s => d_ovlp s = overlap2 t.1.2 phiu t.2 phid /\
                   d_weight s = (t.1.1)^* * d_ovlp s) trial (overlap_direct trial phiu phid).1.
Proof. by rewrite /=; elim: trial => [|t l IH] /=; constructor. Qed.

Lemma calc_stores trial phiu phid sts : length sts = length trial ->
  List.Forall2 (fun t s => d_ovlp s = overlap2 t.1.2 phiu t.2 phid /\
                   d_weight s = (t.1.1)^* * d_ovlp s) trial (calc_overlap trial phiu phid sts).1.
Proof.
rewrite /=; elim: trial sts => [|t l IH] [|s sts] //= [hl]; constructor=> //.
exact: IH.
Qed.

Lemma units_of_overlap (psiu phiu : 'M[C]_(n, nu)) (psid phid : 'M[C]_(n, nd)) :
  overlap2 psiu phiu psid phid != 0 ->
  ovlp_mx cj psiu phiu \in unitmx /\ ovlp_mx cj psid phid \in unitmx.
Proof. by rewrite mulf_eq0 negb_or !unitmxE !unitfE => /andP[]. Qed.

Lemma contract_stores t trial phiu phid sts :
  List.Forall2 (store_ok phiu phid) trial sts ->
  overlap_sum trial phiu phid != 0 ->
  contract_walker t trial sts
  = Some (mixed_sum t (List.filter (keeps phiu phid) trial) phiu phid
          / overlap_sum trial phiu phid).
Proof.
move=> F nz; rewrite /contract_walker /quotient.
have D : \sum_(p <- List.combine trial sts) (p.1.1.1)^* * d_ovlp p.2
       = overlap_sum trial phiu phid.
  rewrite /overlap_sum; elim: F => [|u s l l' [h1 _] _ IH] /=; rewrite ?big_nil // !big_cons.
  by rewrite IH h1.
rewrite D (negbTE nz); congr (Some (_ / _)).
rewrite /mixed_sum; elim: F {nz D} => [|u s l l' [h1 [h2 _]] _ IH] /=; first by rewrite !big_nil.
rewrite !big_cons IH /= /keeps; case: (altP eqP) => [z|nz].
- by rewrite h1 z mulr0 mul0r add0r.
- rewrite big_cons; congr (_ + _).
  have [uu ud] := units_of_overlap nz.
  rewrite one_body2_green // ravel_dotE dotC h1 mulrA.
  by rewrite -h1 in nz; have [-> ->] := h2 nz.
Qed.

Lemma mixed_all trial phiu phid :
  (forall d, List.In d trial -> keeps phiu phid d) ->
  List.filter (keeps phiu phid) trial = trial.
Proof.
move=> H; elim: trial H => [//|d l IH] H /=; rewrite H; last by left.
by rewrite IH // => e he; apply: H; right.
Qed.

Lemma above_keeps eps phiu phid d : 0 < eps -> above eps phiu phid d -> keeps phiu phid d.
Proof.
move=> e0 [_ h]; rewrite /keeps -normr_gt0; exact: lt_le_trans e0 h.
Qed.
End Walker.

(* The trial with itself *)
Section Trial.
Variable N : nat.
Variable c : 'I_N -> C.

Lemma sesq_conj (F : 'I_N -> 'I_N -> C) :
  \sum_i \sum_j (c i)^* * (c j)^* * F i j = sesq F c (fun j => (c j)^*).
Proof. by []. Qed.

Lemma sesq_delta (a b : 'I_N -> C) : sesq (@delta C N) a b = \sum_i (a i)^* * b i.
Proof.
rewrite /sesq; apply: eq_bigr => i _; rewrite (bigD1 i) //= /delta eqxx mulr1 big1 ?addr0 //.
by move=> j ne; rewrite eq_sym (negbTE ne) mulr0.
Qed.

Lemma ortho_denom : \sum_i \sum_j (if i == j then (c i)^* * (c i)^* else 0)
  = sesq (@delta C N) c (fun j => (c j)^*).
Proof.
rewrite sesq_delta; apply: eq_bigr => i _; rewrite (bigD1 i) //= eqxx big1 ?addr0 // => j ne.
by rewrite eq_sym (negbTE ne).
Qed.

Lemma phase_conj : common_phase c ->
  exists2 u : C, u != 0 & forall i, (c i)^* = u * c i.
Proof.
case=> z z0 H; exists (z^* / z); first by rewrite mulf_neq0 ?invr_eq0 ?conjC_eq0.
move=> i; have /CrealP := H i; rewrite rmorphM fmorphV => E.
have nz : z^* != 0 by rewrite conjC_eq0.
by rewrite -[LHS](divfK nz) E mulrC mulrCA mulrC.
Qed.

Lemma sesq_scale (F : 'I_N -> 'I_N -> C) a b u :
  sesq F a (fun j => u * b j) = u * sesq F a b.
Proof.
rewrite /sesq mulr_sumr; apply: eq_bigr => i _; rewrite mulr_sumr; apply: eq_bigr => j _.
by rewrite !mulrA [_^* * u]mulrC.
Qed.

Lemma sesq_eqr (F : 'I_N -> 'I_N -> C) a b b' : b =1 b' -> sesq F a b = sesq F a b'.
Proof. by move=> E; apply: eq_bigr => i _; apply: eq_bigr => j _; rewrite E. Qed.

Lemma quotient_phase (F S : 'I_N -> 'I_N -> C) : common_phase c -> sesq S c c != 0 ->
  quotient (sesq F c (fun j => (c j)^*)) (sesq S c (fun j => (c j)^*))
  = Some (expectation F S c).
Proof.
move=> /phase_conj [u u0 E] S0.
rewrite !(@sesq_eqr _ _ _ (fun j => u * c j)) // !sesq_scale /quotient.
by rewrite mulf_eq0 (negbTE u0) (negbTE S0) /= -mulf_div divff // mul1r.
Qed.

Section General.
Variables n nu nd : nat.
Variable psiu : 'I_N -> 'M[C]_(n, nu).
Variable psid : 'I_N -> 'M[C]_(n, nd).

Local Notation S_el := (pair_overlap psiu psid).

Lemma tr_ovlp m (A B : 'M[C]_(n, m)) : B^T *m A^c = (ovlp_mx cj A B)^T.
Proof. by rewrite /ovlp_mx trmx_mul trmxK. Qed.

Lemma invertibleP : invertible psiu psid = [forall i, forall j, S_el i j != 0].
Proof.
apply: eq_forallb => i; apply: eq_forallb => j.
by rewrite !tr_ovlp !unitmx_tr !unitmxE !unitfE /pair_overlap mulf_eq0 negb_or.
Qed.

Lemma units_pair : (forall i j, S_el i j != 0) -> forall i j,
  ovlp_mx cj (psiu i) (psiu j) \in unitmx /\ ovlp_mx cj (psid i) (psid j) \in unitmx.
Proof. by move=> H i j; exact: units_of_overlap (H i j). Qed.

Lemma pair_ovlpE i j : pair_ovlp psiu psid i j = S_el i j.
Proof.
by rewrite /pair_ovlp /= !tr_ovlp !det_inv !det_tr -invfM div1r invrK.
Qed.

Lemma pair_green m (A B : 'M[C]_(n, m)) : (gab_mod_ovlp A B).1.1 = green cj A B.
Proof. by rewrite gab_mod_ovlp_green. Qed.

Lemma general_ok (t : 'M[C]_n) : (forall i j, S_el i j != 0) ->
  contract_general c psiu psid t
  = Ok (quotient (sesq (fun i j => one_body2 t (psiu i) (psiu j) (psid i) (psid j))
                    c (fun j => (c j)^*))
                 (sesq S_el c (fun j => (c j)^*))).
Proof.
move=> H; rewrite /contract_general invertibleP.
have -> : [forall i, forall j, S_el i j != 0] by apply/forallP => i; apply/forallP.
congr (Ok (quotient _ _)); apply: eq_bigr => i _; apply: eq_bigr => j _.
- have [uu ud] := units_pair H i j.
  by rewrite pair_ovlpE !pair_green one_body2_green // mulrA.
- by rewrite pair_ovlpE.
Qed.

Lemma general_singular (t : 'M[C]_n) i j : S_el i j = 0 ->
  contract_general c psiu psid t = Err ValueError.
Proof.
move=> z; rewrite /contract_general invertibleP.
case: ifP => // /forallP/(_ i)/forallP/(_ j); by rewrite z eqxx.
Qed.

Lemma variational_ok le : (forall i j, S_el i j != 0) -> sesq S_el c c != 0 ->
  variational_multi c psiu psid le
  = Ok (Some (expectation (fun i j => S_el i j * le (green cj (psiu i) (psiu j))
                                                   (green cj (psid i) (psid j))) S_el c)).
Proof.
move=> H S0; rewrite /variational_multi invertibleP.
have -> : [forall i, forall j, S_el i j != 0] by apply/forallP => i; apply/forallP.
rewrite /quotient; have -> : \sum_i \sum_j (c i)^* * c j * pair_ovlp psiu psid i j = sesq S_el c c.
  by apply: eq_bigr => i _; apply: eq_bigr => j _; rewrite pair_ovlpE.
rewrite (negbTE S0); congr (Ok (Some (_ / _))).
by apply: eq_bigr => i _; apply: eq_bigr => j _; rewrite pair_ovlpE !pair_green mulrA.
Qed.

Lemma variational_singular le i j : S_el i j = 0 ->
  variational_multi c psiu psid le = Err ValueError.
Proof.
move=> z; rewrite /variational_multi invertibleP.
case: ifP => // /forallP/(_ i)/forallP/(_ j); by rewrite z eqxx.
Qed.
End General.

(* Orthogonal expansions: the energy *)
Lemma norm_sum : \sum_i (c i)^* * c i = \sum_i `|c i| ^+ 2.
Proof. by apply: eq_bigr => i _; rewrite normCK mulrC. Qed.

Lemma split_sum (f : 'I_N -> 'I_N -> C) :
  \sum_i \sum_j f i j = \sum_i f i i + \sum_(i < N) \sum_(j < N | (j < i)%N) (f i j + f j i).
Proof.
have -> : \sum_(i < N) \sum_(j < N | (j < i)%N) (f i j + f j i)
  = \sum_(i < N) \sum_(j < N | (j < i)%N) f i j + \sum_(i < N) \sum_(j < N | (i < j)%N) f i j.
  rewrite [X in _ + X](exchange_big_dep xpredT) //= -big_split; apply: eq_bigr => i _.
  by rewrite big_split.
rewrite -!big_split; apply: eq_bigr => i _ /=.
rewrite (bigD1 i) //=; congr (_ + _).
rewrite (bigID (fun j : 'I_N => (j < i)%N)) /=; congr (_ + _); apply: eq_bigl => j.
- by rewrite -val_eqE neq_ltn; case: ltngtP.
- by rewrite -val_eqE neq_ltn; case: ltngtP.
Qed.

Lemma ortho_sum (f : 'I_N -> 'I_N -> C) :
  \sum_(i < N) \sum_(j < N | (j <= i)%N) (f i j + (if (j < i)%N then f i j else 0))
  = \sum_i f i i + \sum_(i < N) \sum_(j < N | (j < i)%N) (f i j + f i j).
Proof.
rewrite -big_split; apply: eq_bigr => i _ /=.
rewrite (bigD1 i) //= ltnn addr0; congr (_ + _).
rewrite (eq_bigl (fun j : 'I_N => (j < i)%N)); last first.
  by move=> j; rewrite ltn_neqAle andbC.
by apply: eq_bigr => j ->.
Qed.

Section Hermitian.
Variable H : 'I_N -> 'I_N -> C.
Hypothesis Hh : forall i j, H j i = (H i j)^*.
Let f i j := (c i)^* * c j * H i j.

Lemma f_conj i j : f j i = (f i j)^*.
Proof. by rewrite /f (Hh i j) !rmorphM /= conjCK [c i * _]mulrC. Qed.

Lemma f_diag i : f i i \is Num.real.
Proof. by apply/CrealP; rewrite -f_conj. Qed.

Lemma conj_excess (x : C) : x = x^* + ('i * 'Im x) *+ 2.
Proof.
have E : x^* = 'Re x - 'i * 'Im x.
  rewrite {1}[x]Crect rmorphD rmorphM /= conjCi (CrealP (Creal_Re _)) (CrealP (Creal_Im _)).
  by rewrite mulNr.
by rewrite E mulr2n addrA subrK -Crect.
Qed.

Lemma upper_excess :
  \sum_(i < N) \sum_(j < N | (j <= i)%N) (f i j + (if (j < i)%N then f i j else 0))
  = sesq H c c + \sum_(i < N) \sum_(j < N | (j < i)%N) ('i * 'Im (f i j)) *+ 2.
Proof.
rewrite ortho_sum /sesq split_sum -addrA; congr (_ + _).
rewrite -big_split /=; apply: eq_bigr => i _.
rewrite -big_split /=; apply: eq_bigr => j _.
by rewrite -/(f i j) -/(f j i) (f_conj i j) -addrA -conj_excess.
Qed.

Lemma sesq_herm_real : sesq H c c \is Num.real.
Proof.
rewrite /sesq split_sum; apply: rpredD; first by apply: rpred_sum => i _; exact: f_diag.
apply: rpred_sum => i _; apply: rpred_sum => j _.
by apply/CrealP; rewrite -/(f i j) -/(f j i) rmorphD -f_conj -f_conj addrC.
Qed.
End Hermitian.

Lemma norm_real : \sum_i (c i)^* * c i \is Num.real.
Proof. by rewrite norm_sum; apply: rpred_sum => i _; rewrite realX ?normr_real. Qed.
End Trial.


Lemma quotient_some (x d : C) : d != 0 -> quotient x d = Some (x / d).
Proof. by rewrite /quotient => /negbTE ->. Qed.

Section OrthoEnergy.
Variables (N : nat) (c : 'I_N -> C) (Det : Type) (h : Det -> Det -> C) (occs : 'I_N -> Det).
Hypothesis Hh : forall a b, h b a = (h a b)^*.
Hypothesis nz : \sum_i (c i)^* * c i != 0.

Local Notation odd_part := (odd_part (fun i j => h (occs i) (occs j)) c).

Lemma odd_real : odd_part \is Num.real.
Proof. rewrite /MultiDet_Spec.odd_part; by apply: rpred_sum => i _; apply: rpred_sum => j _; apply: Creal_Im. Qed.

Lemma ortho_energy : variational_ortho c h occs
  = Some (expectation (fun i j => h (occs i) (occs j)) (@delta C N) c
          + 'i * (odd_part *+ 2 / \sum_i (c i)^* * c i)).
Proof.
rewrite /variational_ortho quotient_some // /expectation sesq_delta; congr Some.
rewrite (@upper_excess N c (fun i j => h (occs i) (occs j))) //.
rewrite mulrDl mulrA; congr (_ + _ / _).
rewrite /MultiDet_Spec.odd_part -sumrMnl mulr_sumr; apply: eq_bigr => i _.
by rewrite -sumrMnl mulr_sumr; apply: eq_bigr => j _; rewrite mulrnAr.
Qed.

Lemma expectation_real :
  expectation (fun i j => h (occs i) (occs j)) (@delta C N) c \is Num.real.
Proof.
rewrite /expectation sesq_delta rpred_div ?norm_real //.
by apply: sesq_herm_real => i j.
Qed.

Lemma ortho_energy_re z : variational_ortho c h occs = Some z ->
  'Re z = expectation (fun i j => h (occs i) (occs j)) (@delta C N) c.
Proof.
rewrite ortho_energy => -[<-]; rewrite Re_rect ?expectation_real //.
by rewrite rpred_div ?norm_real // rpredMn // odd_real.
Qed.

Lemma ortho_energy_iff :
  variational_ortho c h occs = Some (expectation (fun i j => h (occs i) (occs j)) (@delta C N) c)
  <-> odd_part = 0.
Proof.
rewrite ortho_energy; split=> [[E]|->]; last by rewrite mul0rn mul0r mulr0 addr0.
have : 'i * (odd_part *+ 2 / \sum_i (c i)^* * c i) == 0.
  by rewrite -(can_eq (addKr (expectation (fun i j => h (occs i) (occs j)) (@delta C N) c))) E addr0.
by rewrite !mulf_eq0 (negbTE (neq0Ci _)) invr_eq0 (negbTE nz) orbF /= mulrn_eq0 => /eqP.
Qed.
End OrthoEnergy.

(* The local energy trial *)
Lemma argmax_from_spec (l : list C) i best x :
  (forall y, List.In y l -> y \is Num.real) -> x \is Num.real ->
  let r := argmax_from i best x l in
  (r = best /\ (forall y, List.In y l -> y <= x)) \/
  exists k y, [/\ r = (i + k)%N, List.nth_error l k = Some y, x < y
                 & forall z, List.In z l -> z <= y].
Proof.
elim: l i best x => [|y l IH] i best x R Rx /=; first by left.
have Ry : y \is Num.real by apply: R; left.
have Rl : forall z, List.In z l -> z \is Num.real by move=> z hz; apply: R; right.
case: ifP => h.
- right; case: (IH i.+1 i y Rl Ry) => [[-> H]|[k [z [-> E lt H]]]].
  + exists 0%N, y; split=> //; [by rewrite addn0|].
    by move=> z [<-|hz]; [exact: lexx | exact: H].
  + exists k.+1, z; split=> //; [by rewrite addnS | exact: lt_trans h lt |].
    by move=> u [<-|hu]; [exact: ltW | exact: H].
- have h' : y <= x by rewrite real_leNgt // h.
  case: (IH i.+1 best x Rl Rx) => [[-> H]|[k [z [-> E lt H]]]].
  + by left; split=> // z [<-|hz] //; exact: H.
  + right; exists k.+1, z; split=> //; [by rewrite addnS |].
    by move=> u [<-|hu]; [exact: le_trans h' (ltW lt) | exact: H].
Qed.

Lemma argmax_spec (x0 : C) (l : list C) : (forall y, List.In y (cons x0 l) -> y \is Num.real) ->
  exists y, List.nth_error (cons x0 l) (argmax (cons x0 l)) = Some y /\
    forall z, List.In z (cons x0 l) -> z <= y.
Proof.
move=> R; have Rl : forall z, List.In z l -> z \is Num.real by move=> z hz; apply: R; right.
have Rx : x0 \is Num.real by apply: R; left.
case: (argmax_from_spec 1 0 Rl Rx) => [[E H]|[k [y [E E' lt H]]]].
- exists x0; rewrite /argmax E; split=> // z [<-|hz]; [exact: lexx | exact: H].
- exists y; rewrite /argmax E add1n; split=> // z [<-|hz]; [exact: ltW | exact: H].
Qed.

Section Split.
Variables n nu nd : nat.
Implicit Types (trial : list (det_t C n nu nd)) (phiu : 'M[C]_(n, nu)) (phid : 'M[C]_(n, nd)).

Lemma split_right (le : 'M[C]_n -> 'M[C]_n -> C) eps trial phiu phid s0 sts :
  trial <> nil -> 0 < eps ->
  exists d, [/\ List.In d trial,
    (forall t, List.In t trial -> `|t.1.1| <= `|d.1.1|)
   & (above eps phiu phid d -> 
      let w := (d.1.1)^* * d_ovlp s0 in
      split_energy le eps trial phiu phid (cons s0 sts)
      = Ok (Some (w, if w == 0 then None
                     else Some (le (green cj d.1.2 phiu) (green cj d.2 phid)))))].
Proof.
case: trial => [//|t0 l] _ e0.
have R : forall y, List.In y (List.map (fun t : det_t C n nu nd => `|t.1.1|) (cons t0 l)) ->
  y \is Num.real.
  by move=> y /List.in_map_iff [t [<- _]]; exact: normr_real.
have [y [E H]] : exists y,
  let L := List.map (fun t : det_t C n nu nd => `|t.1.1|) (cons t0 l) in
  List.nth_error L (argmax L) = Some y /\ forall z, List.In z L -> z <= y := argmax_spec R.
have [d [Ed Ey]] : exists d, List.nth_error (cons t0 l) (argmax (List.map (fun t : det_t C n nu nd => `|t.1.1|) (cons t0 l))) = Some d /\ y = `|d.1.1|.
  move: E; set k := argmax _; rewrite List.nth_error_map.
  by case: (List.nth_error _ k) => // d [<-]; exists d.
exists d; split.
- exact: List.nth_error_In Ed.
- move=> t ht; rewrite -Ey; apply: H; exact: (List.in_map (fun t : det_t C n nu nd => `|t.1.1|)).
- move=> [a1 a2]; rewrite /split_energy Ed.
  move: a1 a2; case: d Ed Ey => [[c pu] pd] Ed Ey /= a1 a2.
  rewrite !green_ovlp_tr !det_tr -!overlapE (le_gtF a1) (le_gtF a2) -!green_ovlp_tr !model_half
           -!green_from_half /multi_energy !big_cons !big_nil !addr0 /quotient /=.
  by case: ifP => // nz; rewrite mulrAC divff ?nz // mul1r.
Qed.
End Split.

Lemma ghf_right n m N (c : 'I_N -> C) (psi : 'I_N -> 'M[C]_(n, m)) (phi : 'M[C]_(n, m)) :
  ghf_otrial (fun i => (c i)^*) psi phi = \sum_i (c i)^* * overlap cj (psi i) phi.
Proof.
by apply: eq_bigr => i _; rewrite det_inv div1r invrK.
Qed.

(* Witnesses *)
Definition e2 (k : 'I_2) : 'M[C]_(2, 1) := delta_mx k 0.
Definition none2 : 'M[C]_(2, 0) := 0.

Lemma one_body1 n (t : 'M[C]_n) (psi phi : 'M[C]_(n, 1)) :
  one_body t psi phi = (adj psi *m (t *m phi)) 0 0.
Proof.
rewrite /one_body big_ord1.
have -> : with_col phi (t *m phi) 0 = t *m phi.
  by apply/matrixP => i j; rewrite mxE ord1 eqxx.
by rewrite /overlap det_mx11.
Qed.

Lemma one_body0 n (t : 'M[C]_n) (psi phi : 'M[C]_(n, 0)) : one_body t psi phi = 0.
Proof. by rewrite /one_body big_ord0. Qed.

Lemma overlap0 n (psi phi : 'M[C]_(n, 0)) : overlap cj psi phi = 1.
Proof. by rewrite /overlap det_mx00. Qed.

Lemma overlap_e2 i j : overlap cj (e2 i) (e2 j) = (i == j)%:R.
Proof.
rewrite /overlap det_mx11 /ovlp_mx map_delta_mx trmx_delta mul_delta_mx_cond.
by rewrite mulmxnE mxE eqxx.
Qed.

Lemma one_body_e2 i j a b : one_body (delta_mx a b) (e2 i) (e2 j) = ((i == a) && (b == j))%:R.
Proof.
rewrite one_body1 /adj map_delta_mx trmx_delta mul_delta_mx_cond.
case: (b == j); rewrite ?mulr1n ?mulr0n ?mulmx0 ?andbF ?andbT; last by rewrite mxE.
by rewrite mul_delta_mx_cond mulmxnE mxE eqxx.
Qed.
End Proofs.
