From Coq Require Import Reals List Lra Lia.
From Verif Require Import Base Phaseless_Model Phaseless_Spec.
Set Warnings "-ambiguous-paths".
From Coquelicot Require Import Complex.
Import ListNotations.
Open Scope R_scope.

Lemma Cmod2 (z : C) : Cmod z * Cmod z = fst z * fst z + snd z * snd z.
Proof.
  unfold Cmod. rewrite sqrt_sqrt; [ring|].
  pose proof (pow2_ge_0 (fst z)); pose proof (pow2_ge_0 (snd z)); lra.
Qed.

Lemma dir_bound z : Cmod z <> 0 -> -1 <= fst z / Cmod z <= 1.
Proof.
  intros H. pose proof (Cmod_ge_0 z) as G. pose proof (Cmod2 z) as E.
  assert (P : 0 < Cmod z) by lra.
  pose proof (Rle_0_sqr (snd z)) as Q. unfold Rsqr in Q.
  assert (Hx : - Cmod z <= fst z <= Cmod z) by (split; nra).
  split; apply (Rmult_le_reg_r (Cmod z)); auto; unfold Rdiv;
    rewrite Rmult_assoc, Rinv_l, Rmult_1_r by lra; lra.
Qed.

Lemma cos_arg z : Cmod z <> 0 -> cos (arg z) = fst z / Cmod z.
Proof.
  intros H. unfold arg. destruct (Req_EM_T (Cmod z) 0); [contradiction|].
  destruct (Rle_dec 0 (snd z)); rewrite ?cos_neg; apply cos_acos, dir_bound, H.
Qed.

Lemma sin_arg z : Cmod z <> 0 -> sin (arg z) = snd z / Cmod z.
Proof.
  intros H. unfold arg. destruct (Req_EM_T (Cmod z) 0); [contradiction|].
  pose proof (Cmod_ge_0 z) as G. assert (P : 0 < Cmod z) by lra.
  assert (E : sqrt (1 - Rsqr (fst z / Cmod z)) = Rabs (snd z) / Cmod z).
  { apply Rsqr_inj; [apply sqrt_pos| |].
    - apply Rmult_le_pos; [apply Rabs_pos|left; now apply Rinv_0_lt_compat].
    - rewrite Rsqr_sqrt.
      + unfold Rdiv. rewrite !Rsqr_mult, <- Rsqr_abs, Rsqr_inv' by lra.
        unfold Rsqr. pose proof (Cmod2 z) as E. field_simplify; try lra.
        f_equal. nra.
      + pose proof (dir_bound z H) as D. unfold Rsqr. nra. }
  destruct (Rle_dec 0 (snd z)) as [L|L].
  - rewrite sin_acos by (apply dir_bound, H). rewrite E, Rabs_right; [reflexivity|lra].
  - rewrite sin_neg, sin_acos by (apply dir_bound, H). rewrite E, Rabs_left; [|lra].
    field. lra.
Qed.

Lemma arg_range z : - PI <= arg z <= PI.
Proof.
  unfold arg. pose proof PI_RGT_0 as P. destruct (Req_EM_T (Cmod z) 0); [lra|].
  pose proof (acos_bound (fst z / Cmod z)) as A.
  destruct (Rle_dec 0 (snd z)); lra.
Qed.

Lemma cexp_mod z : Cmod (cexp z) = exp (fst z).
Proof.
  unfold cexp, Cmod; simpl fst; simpl snd.
  replace ((exp (fst z) * cos (snd z)) ^ 2 + (exp (fst z) * sin (snd z)) ^ 2)
    with (exp (fst z) * exp (fst z) * (Rsqr (sin (snd z)) + Rsqr (cos (snd z))))
    by (unfold Rsqr; ring).
  rewrite sin2_cos2, Rmult_1_r. apply sqrt_square. left; apply exp_pos.
Qed.

(* cos (arg r + Im c) is the direction of r e^c *)
Lemma cos_dir r c : Cmod r <> 0 -> cos (arg r + snd c) = direction (Cmult r (cexp c)).
Proof.
  intros H. unfold direction. rewrite Cmod_mult, cexp_mod, cos_plus, cos_arg, sin_arg by assumption.
  unfold Cmult, cexp; simpl fst; simpl snd. pose proof (exp_pos (fst c)).
  field. split; [lra|assumption].
Qed.

(* ---- the bounds ---- *)

Lemma nearest_within x c b : 0 <= b -> within (nearest x c b) c b.
Proof. intros H. unfold within, nearest, Rmin, Rmax. destruct (Rle_dec (c-b) x); destruct (Rle_dec _ _); lra. Qed.

Lemma nearest_id x c b : within x c b -> nearest x c b = x.
Proof. intros [H G]. unfold nearest. rewrite Rmax_right, Rmin_right; lra. Qed.

Lemma bound_hybrid_spec b e s : 0 <= b -> / 10 ^ 10 <= Cmod s ->
  fst (bound_hybrid b e s) = (nearest (fst e) (fst s) b, snd e)
  /\ (snd (bound_hybrid b e s) = if Rle_dec (Rabs (fst e - fst s)) b then 0%nat else 1%nat).
Proof.
  intros Hb Hs. unfold bound_hybrid, nearest.
  destruct (Rlt_dec (Cmod s) (/ 10 ^ 10)); [lra|].
  destruct (Rlt_dec (fst s + b) (fst e)) as [H1|H1]; simpl fst; simpl snd.
  - split; [f_equal; rewrite Rmax_right, Rmin_left; lra|].
    destruct (Rle_dec (Rabs (fst e - fst s)) b) as [L|L]; [|reflexivity].
    rewrite Rabs_right in L; lra.
  - destruct (Rlt_dec (fst e) (fst s - b)) as [H2|H2]; simpl fst; simpl snd.
    + split; [f_equal; rewrite Rmax_left, Rmin_right; lra|].
      destruct (Rle_dec (Rabs (fst e - fst s)) b) as [L|L]; [|reflexivity].
      rewrite Rabs_left in L; lra.
    + split; [destruct e; simpl in *; f_equal; rewrite Rmax_right, Rmin_right; lra|].
      destruct (Rle_dec (Rabs (fst e - fst s)) b) as [L|L]; [reflexivity|].
      exfalso; apply L, Rabs_le; lra.
Qed.

Lemma bound_pw_spec b e s : 0 <= b ->
  fst (bound_pw b e s) = (nearest (fst e) (fst s) b, snd e)
  /\ (snd (bound_pw b e s) = if Rle_dec (Rabs (fst e - fst s)) b then 0%nat else 1%nat).
Proof.
  intros Hb. unfold bound_pw, nearest.
  destruct (Rlt_dec (fst s + b) (fst e)) as [H1|H1]; simpl fst; simpl snd.
  - split; [f_equal; rewrite Rmax_right, Rmin_left; lra|].
    destruct (Rle_dec (Rabs (fst e - fst s)) b) as [L|L]; [|reflexivity].
    rewrite Rabs_right in L; lra.
  - destruct (Rlt_dec (fst e) (fst s - b)) as [H2|H2]; simpl fst; simpl snd.
    + split; [f_equal; rewrite Rmax_left, Rmin_right; lra|].
      destruct (Rle_dec (Rabs (fst e - fst s)) b) as [L|L]; [|reflexivity].
      rewrite Rabs_left in L; lra.
    + split; [destruct e; simpl in *; f_equal; rewrite Rmax_right, Rmin_right; lra|].
      destruct (Rle_dec (Rabs (fst e - fst s)) b) as [L|L]; [reflexivity|].
      exfalso; apply L, Rabs_le; lra.
Qed.

Lemma bound_local_re b e s : 0 <= b -> / 10 ^ 10 <= Cmod s ->
  fst (fst (bound_local b e s)) = nearest (fst e) (fst s) b
  /\ (within (fst e) (fst s) b -> fst (bound_local b e s) = e).
Proof.
  intros Hb Hs. unfold bound_local, nearest, within.
  destruct (Rlt_dec (Cmod s) (/ 10 ^ 10)); [lra|].
  destruct (Rlt_dec (fst s + b) (fst e)) as [H1|H1]; simpl fst; simpl snd.
  - split; [rewrite Rmax_right, Rmin_left; lra|lra].
  - destruct (Rlt_dec (fst e) (fst s - b)) as [H2|H2]; simpl fst; simpl snd.
    + split; [rewrite Rmax_left, Rmin_right; lra|lra].
    + split; [rewrite Rmax_right, Rmin_right; lra|reflexivity].
Qed.

Lemma small_shift b e s : Cmod s < / 10 ^ 10 ->
  bound_hybrid b e s = (e, 0%nat) /\ bound_local b e s = (e, 0%nat).
Proof.
  intros H; unfold bound_hybrid, bound_local.
  destruct (Rlt_dec (Cmod s) (/ 10 ^ 10)); [now split|contradiction].
Qed.

Lemma local_energy_bound_spec e m t : 0 <= t -> local_energy_bound e m t = nearest e m t.
Proof.
  intros H; unfold local_energy_bound, nearest, Rmin, Rmax.
  destruct (Rle_dec (m + t) e); destruct (Rle_dec (m - t) e); try lra;
    destruct (Rlt_dec e (m - t)); try lra; destruct (Rle_dec (m + t) _); lra.
Qed.

(* ---- the updates ---- *)

Lemma im_bound_hybrid b e s : snd (fst (bound_hybrid b e s)) = snd e.
Proof.
  unfold bound_hybrid. destruct (Rlt_dec _ _); [reflexivity|].
  destruct (Rlt_dec _ _); [reflexivity|]. destruct (Rlt_dec _ _); reflexivity.
Qed.

Lemma im_bound_pw b e s : snd (fst (bound_pw b e s)) = snd e.
Proof. unfold bound_pw. destruct (Rlt_dec _ _); [reflexivity|]. destruct (Rlt_dec _ _); reflexivity. Qed.

Lemma im_neg_div (z : C) dt : dt <> 0 -> - dt * snd (Cdiv (Copp z) (RtoC dt)) = snd z.
Proof. intros H. unfold Cdiv, Cmult, Cinv, RtoC; simpl. field. auto. Qed.

Lemma re_neg_div (z : C) dt : dt <> 0 -> fst (Cdiv (Copp z) (RtoC dt)) = - (fst z / dt).
Proof. intros H. unfold Cdiv, Cmult, Cinv, RtoC; simpl. field. auto. Qed.

Lemma neg_div (z : C) dt : dt <> 0 -> Cdiv (Copp z) (RtoC dt) = (- (fst z / dt), - (snd z / dt)).
Proof. intros H. unfold Cdiv, Cmult, Cinv, RtoC; simpl. f_equal; field; auto. Qed.

Section Hybrid.
Variables (big dt : R) (bound : C -> C -> C * nat).
Hypothesis Hdt : 0 < dt.
Hypothesis Him : forall e s, snd (fst (bound e s)) = snd e.

Lemma hybrid_formula w ovlp ovlp_new cfb cmf eshift w' t :
  update_hybrid big dt bound w ovlp ovlp_new cfb cmf eshift = Ok (w', t) ->
  let r := Cdiv ovlp_new ovlp in
  let h : C := (- ((ln (Cmod r) + fst cfb + fst cmf) / dt), - ((arg r + snd cfb + snd cmf) / dt)) in
  hyb w' = fst (bound h eshift) /\
  weight w' = weight w *
    (exp (- dt * (/ 2 * (fst (hyb w') + fst (hyb w)) - fst eshift))
     * Rmax 0 (direction (Cmult r (cexp cmf))))
  /\ exp (- dt * (/ 2 * (fst (hyb w') + fst (hyb w)) - fst eshift)) <= big
  /\ ot w' = ovlp_new /\ eloc w' = eloc w /\ t = snd (bound h eshift)
  /\ Cmod ovlp <> 0 /\ Cmod r <> 0.
Proof.
  unfold update_hybrid. destruct (Req_EM_T (Cmod ovlp) 0) as [|Ho]; [discriminate|].
  set (r := Cdiv ovlp_new ovlp). destruct (Req_EM_T (Cmod r) 0) as [|Hr]; [discriminate|].
  set (z0 := Cplus (Cplus (ln (Cmod r), arg r) cfb) cmf).
  set (z := Cdiv (Copp z0) (RtoC dt)). pose proof (Him z eshift) as Hi.
  destruct (bound z eshift) as [h' tr] eqn:E. change (snd h' = snd z) in Hi.
  set (ex := Cmult _ _).
  assert (Eex : fst ex = - dt * (/ 2 * (fst h' + fst (hyb w)) - fst eshift)).
  { unfold ex; destruct h', (hyb w), eshift; simpl. ring. }
  destruct (Rlt_dec big (exp (fst ex))) as [|Hb]; [discriminate|].
  intros H. apply (f_equal (fun x => match x with Ok p => p | Err _ => (w, 0%nat) end)) in H.
  assert (Hw : w' = fst (w', t)) by reflexivity. assert (Ht : t = snd (w', t)) by reflexivity.
  rewrite <- H in Hw, Ht. clear H. subst w' t. simpl.
  change (- ((ln (Cmod r) + fst cfb + fst cmf) / dt), - ((arg r + snd cfb + snd cmf) / dt))
    with (- (fst z0 / dt), - (snd z0 / dt)).
  rewrite <- neg_div by lra. fold z. rewrite E. simpl. rewrite <- Eex.
  repeat split; auto; try lra.
  f_equal. f_equal. f_equal. rewrite <- cos_dir by exact Hr. f_equal.
  rewrite Hi. transitivity (- dt * snd z - snd cfb); [ring|].
  unfold z. rewrite im_neg_div by lra. unfold z0; simpl. ring.
Qed.
End Hybrid.

Lemma re_direction z : Cmod z <> 0 ->
  (fst z <= 0 -> Rmax 0 (direction z) = 0) /\ (0 < fst z -> 0 < Rmax 0 (direction z) <= 1).
Proof.
  intros H. pose proof (Cmod_ge_0 z) as G. assert (P : 0 < / Cmod z) by (apply Rinv_0_lt_compat; lra).
  unfold direction, Rdiv. split; intros L.
  - apply Rmax_left. nra.
  - pose proof (dir_bound z H) as D. unfold Rdiv in D.
    assert (0 < fst z * / Cmod z) by nra. rewrite Rmax_right; lra.
Qed.

Lemma dir_le1 z : Cmod z <> 0 -> 0 <= Rmax 0 (direction z) <= 1.
Proof.
  intros H. split; [apply Rmax_l|]. apply Rmax_lub; [lra|]. apply dir_bound, H.
Qed.

Lemma rot_nonzero r c : Cmod r <> 0 -> Cmod (Cmult r (cexp c)) <> 0.
Proof.
  intros H. rewrite Cmod_mult, cexp_mod. pose proof (exp_pos (fst c)).
  apply Rmult_integral_contrapositive; split; lra.
Qed.

Section Hybrid2.
Variables (big dt : R) (bound : C -> C -> C * nat).
Hypothesis Hdt : 0 < dt.
Hypothesis Him : forall e s, snd (fst (bound e s)) = snd e.

Lemma hybrid_nonneg w ovlp ovlp_new cfb cmf eshift w' t :
  update_hybrid big dt bound w ovlp ovlp_new cfb cmf eshift = Ok (w', t) ->
  0 <= weight w -> 0 <= weight w'.
Proof.
  intros H Hw. destruct (hybrid_formula big dt bound Hdt Him _ _ _ _ _ _ _ _ H) as (_ & E & _).
  rewrite E. apply Rmult_le_pos; [exact Hw|]. apply Rmult_le_pos; [left; apply exp_pos|apply Rmax_l].
Qed.

Lemma hybrid_rejected w ovlp ovlp_new cfb cmf eshift w' t :
  update_hybrid big dt bound w ovlp ovlp_new cfb cmf eshift = Ok (w', t) ->
  0 < weight w ->
  (weight w' = 0 <-> fst (Cmult (Cdiv ovlp_new ovlp) (cexp cmf)) <= 0).
Proof.
  intros H Hw. destruct (hybrid_formula big dt bound Hdt Him _ _ _ _ _ _ _ _ H) as (_ & E & _ & _ & _ & _ & Ho & Hr).
  destruct (re_direction _ (rot_nonzero _ cmf Hr)) as [D0 D1].
  split; intros L.
  - destruct (Rle_dec (fst (Cmult (Cdiv ovlp_new ovlp) (cexp cmf))) 0) as [|N]; [assumption|exfalso].
    assert (N' : 0 < fst (Cmult (Cdiv ovlp_new ovlp) (cexp cmf))) by lra.
    destruct (D1 N') as [D _].
    set (ex := exp _) in E. assert (0 < ex) by apply exp_pos. rewrite L in E.
    assert (0 < weight w * (ex * Rmax 0 (direction (Cmult (Cdiv ovlp_new ovlp) (cexp cmf)))))
      by (repeat apply Rmult_lt_0_compat; assumption). lra.
  - rewrite E, (D0 L). ring.
Qed.

Lemma run_nonneg steps : forall w w',
  run_hybrid big dt bound steps w = Ok w' -> 0 <= weight w -> 0 <= weight w'.
Proof.
  induction steps as [|[[[[o o'] cfb] cmf] s] rest IH]; intros w w' H Hw; simpl in H.
  - apply Base_inj in H || (injection H as <-); exact Hw.
  - destruct (update_hybrid big dt bound w o o' cfb cmf s) as [[w1 t]|e] eqn:E; [|discriminate].
    eapply IH; [exact H|]. eapply hybrid_nonneg; eassumption.
Qed.

Lemma run_zero steps : forall w w',
  run_hybrid big dt bound steps w = Ok w' -> weight w = 0 -> weight w' = 0.
Proof.
  induction steps as [|[[[[o o'] cfb] cmf] s] rest IH]; intros w w' H Hw; simpl in H.
  - injection H as <-; exact Hw.
  - destruct (update_hybrid big dt bound w o o' cfb cmf s) as [[w1 t]|e] eqn:E; [|discriminate].
    eapply IH; [exact H|].
    destruct (hybrid_formula big dt bound Hdt Him _ _ _ _ _ _ _ _ E) as (_ & Ew & _). rewrite Ew, Hw. ring.
Qed.

Variable eb : R.
Hypothesis Heb : 0 <= eb.
Variable ok : C -> Prop.
Hypothesis Hwin : forall e s, ok s -> within (fst (fst (bound e s))) (fst s) eb.

Lemma hybrid_growth w ovlp ovlp_new cfb cmf eshift w' t s0 :
  update_hybrid big dt bound w ovlp ovlp_new cfb cmf eshift = Ok (w', t) ->
  ok eshift -> within (fst (hyb w)) s0 eb -> 0 <= weight w ->
  within (fst (hyb w')) (fst eshift) eb /\
  weight w' <= weight w * exp (dt * eb + dt * / 2 * Rabs (fst eshift - s0)).
Proof.
  intros H Hk Hh Hw. destruct (hybrid_formula big dt bound Hdt Him _ _ _ _ _ _ _ _ H) as (Eh & E & _ & _ & _ & _ & Ho & Hr).
  assert (Hh' : within (fst (hyb w')) (fst eshift) eb) by (rewrite Eh; apply Hwin, Hk).
  split; [exact Hh'|]. rewrite E. apply Rmult_le_compat_l; [exact Hw|].
  destruct (dir_le1 _ (rot_nonzero _ cmf Hr)) as [D0 D1].
  set (x := - dt * (/ 2 * (fst (hyb w') + fst (hyb w)) - fst eshift)).
  set (y := dt * eb + dt * / 2 * Rabs (fst eshift - s0)).
  assert (Hxy : x <= y).
  { pose proof (Rle_abs (fst eshift - s0)) as A. unfold within in *.
    replace x with (dt * (/ 2 * (fst eshift - fst (hyb w')) + / 2 * (fst eshift - s0) + / 2 * (s0 - fst (hyb w))))
      by (unfold x; field).
    replace y with (dt * (/ 2 * eb + / 2 * Rabs (fst eshift - s0) + / 2 * eb)) by (unfold y; field).
    apply Rmult_le_compat_l; lra. }
  apply Rle_trans with (exp x * 1); [apply Rmult_le_compat_l; [left; apply exp_pos|exact D1]|].
  rewrite Rmult_1_r. destruct (Rle_lt_or_eq_dec _ _ Hxy) as [L|L]; [left; now apply exp_increasing|rewrite L; lra].
Qed.

Lemma run_growth steps : forall w w' s0,
  run_hybrid big dt bound steps w = Ok w' ->
  (forall st, In st steps -> ok (snd st)) ->
  within (fst (hyb w)) s0 eb -> 0 <= weight w ->
  weight w' <= weight w * exp (INR (length steps) * (dt * eb)
                 + dt * / 2 * variation s0 (map (fun st => fst (snd st)) steps)).
Proof.
  induction steps as [|[[[[o o'] cfb] cmf] s] rest IH]; intros w w' s0 H Hk Hh Hw; cbn [run_hybrid] in H.
  - injection H as <-. simpl. rewrite Rmult_0_l, Rmult_0_r, Rplus_0_l, exp_0. lra.
  - destruct (update_hybrid big dt bound w o o' cfb cmf s) as [[w1 t]|e] eqn:E; [|discriminate].
    assert (Hs : ok s) by (apply (Hk _ (or_introl eq_refl))).
    destruct (hybrid_growth _ _ _ _ _ _ _ _ s0 E Hs Hh Hw) as [Hh1 G1].
    assert (Hw1 : 0 <= weight w1) by (eapply hybrid_nonneg; eassumption).
    specialize (IH w1 w' (fst s) H (fun st Hi => Hk st (or_intror Hi)) Hh1 Hw1).
    eapply Rle_trans; [exact IH|].
    eapply Rle_trans; [apply Rmult_le_compat_r; [left; apply exp_pos|exact G1]|].
    rewrite Rmult_assoc, <- exp_plus. apply Req_le. f_equal. f_equal.
    cbn [map snd variation length]. rewrite S_INR. ring.
Qed.
End Hybrid2.

Lemma bound_hybrid_within b : 0 <= b -> forall e s, / 10 ^ 10 <= Cmod s ->
  within (fst (fst (bound_hybrid b e s))) (fst s) b.
Proof. intros Hb e s Hs. destruct (bound_hybrid_spec b e s Hb Hs) as [-> _]. now apply nearest_within. Qed.

Lemma bound_pw_within b : 0 <= b -> forall e (s : C), True ->
  within (fst (fst (bound_pw b e s))) (fst s) b.
Proof. intros Hb e s _. destruct (bound_pw_spec b e s Hb) as [-> _]. now apply nearest_within. Qed.

Lemma dt_ebound dt : 0 < dt -> dt * sqrt (2 / dt) = sqrt (2 * dt).
Proof.
  intros H. apply Rsqr_inj.
  - apply Rmult_le_pos; [lra|apply sqrt_pos].
  - apply sqrt_pos.
  - assert (0 < / dt) by now apply Rinv_0_lt_compat.
    rewrite Rsqr_mult, !Rsqr_sqrt by (unfold Rdiv; nra).
    unfold Rsqr. field. lra.
Qed.

(* ---- local energy ---- *)

Lemma local_formula big dt eb w ovlp ovlp_new e s w' t :
  update_local big dt eb w ovlp ovlp_new e s = Ok (w', t) ->
  let r := Cdiv ovlp_new ovlp in
  weight w' = weight w *
    (exp (- / 2 * dt * (fst (fst (bound_local eb e s)) + fst (eloc w) - fst s)) * Rmax 0 (cos (arg r)))
  /\ eloc w' = e /\ hyb w' = hyb w /\ ot w' = ovlp_new
  /\ exp (- / 2 * dt * (fst (fst (bound_local eb e s)) + fst (eloc w) - fst s)) <= big /\ Cmod ovlp <> 0.
Proof.
  unfold update_local. destruct (Req_EM_T (Cmod ovlp) 0) as [|Ho]; [discriminate|].
  destruct (bound_local eb e s) as [re tr] eqn:E.
  destruct (Rlt_dec big _) as [|Hb]; [discriminate|].
  intros H. apply (f_equal (fun x => match x with Ok p => p | Err _ => (w, 0%nat) end)) in H.
  assert (Hw : w' = fst (w', t)) by reflexivity. rewrite <- H in Hw. clear H. subst w'.
  cbn [fst weight eloc hyb ot]. cbn [fst Cminus Cplus Copp] in Hb.
  repeat split; auto. apply Rnot_lt_le. exact Hb.
Qed.

Lemma cos_arg_sign r : Rmax 0 (cos (arg r)) = if Req_EM_T (Cmod r) 0 then 1 else Rmax 0 (direction r).
Proof.
  destruct (Req_EM_T (Cmod r) 0) as [E|E].
  - unfold arg. destruct (Req_EM_T (Cmod r) 0); [|contradiction]. rewrite cos_0. apply Rmax_right; lra.
  - rewrite cos_arg by exact E. reflexivity.
Qed.

Lemma local_nonneg big dt eb w ovlp ovlp_new e s w' t :
  update_local big dt eb w ovlp ovlp_new e s = Ok (w', t) -> 0 <= weight w -> 0 <= weight w'.
Proof.
  intros H Hw. destruct (local_formula _ _ _ _ _ _ _ _ _ _ H) as (E & _). rewrite E.
  apply Rmult_le_pos; [exact Hw|]. apply Rmult_le_pos; [left; apply exp_pos|apply Rmax_l].
Qed.

Lemma local_rejected big dt eb w ovlp ovlp_new e s w' t :
  update_local big dt eb w ovlp ovlp_new e s = Ok (w', t) -> 0 < weight w ->
  Cmod (Cdiv ovlp_new ovlp) <> 0 ->
  (weight w' = 0 <-> fst (Cdiv ovlp_new ovlp) <= 0).
Proof.
  intros H Hw Hr. destruct (local_formula _ _ _ _ _ _ _ _ _ _ H) as (E & _).
  rewrite cos_arg_sign in E. destruct (Req_EM_T (Cmod (Cdiv ovlp_new ovlp)) 0); [contradiction|].
  destruct (re_direction _ Hr) as [D0 D1]. split; intros L.
  - destruct (Rle_dec (fst (Cdiv ovlp_new ovlp)) 0) as [|N]; [assumption|exfalso].
    assert (N' : 0 < fst (Cdiv ovlp_new ovlp)) by lra. destruct (D1 N') as [D _].
    set (ex := exp _) in E. assert (0 < ex) by apply exp_pos. rewrite L in E.
    assert (0 < weight w * (ex * Rmax 0 (direction (Cdiv ovlp_new ovlp))))
      by (repeat apply Rmult_lt_0_compat; assumption). lra.
  - rewrite E, (D0 L). ring.
Qed.

(* An exactly zero new overlap keeps the walker: the phase of zero is zero. *)
Lemma local_zero_overlap big dt eb w ovlp e s w' t :
  update_local big dt eb w ovlp (RtoC 0) e s = Ok (w', t) -> 0 < weight w -> 0 < weight w'.
Proof.
  intros H Hw. destruct (local_formula _ _ _ _ _ _ _ _ _ _ H) as (E & _ & _ & _ & _ & Ho).
  rewrite cos_arg_sign in E.
  assert (Z : Cmod (Cdiv (RtoC 0) ovlp) = 0).
  { unfold Cdiv. rewrite Cmult_0_l. apply Cmod_0. }
  destruct (Req_EM_T (Cmod (Cdiv (RtoC 0) ovlp)) 0); [|contradiction].
  rewrite E. repeat apply Rmult_lt_0_compat; try lra. apply exp_pos.
Qed.

Lemma Cmod_R1 : Cmod (RtoC 1) = 1.
Proof. apply Cmod_1. Qed.

Lemma tiny10 : / 10 ^ 10 < 1.
Proof. rewrite <- Rinv_1 at 1. apply Rinv_lt_contravar; lra. Qed.

Lemma Cdiv11 : Cdiv (RtoC 1) (RtoC 1) = RtoC 1.
Proof. unfold Cdiv, Cmult, Cinv, RtoC; simpl. f_equal; field. Qed.

Lemma cos_arg1 : Rmax 0 (cos (arg (RtoC 1))) = 1.
Proof.
  rewrite cos_arg_sign, Cmod_R1. destruct (Req_EM_T 1 0); [lra|].
  unfold direction. rewrite Cmod_R1. simpl. rewrite Rmax_right; lra.
Qed.

Lemma local_ok big dt eb w ovlp ovlp_new e s :
  Cmod ovlp <> 0 ->
  exp (- / 2 * dt * (fst (fst (bound_local eb e s)) + fst (eloc w) - fst s)) <= big ->
  exists w' t, update_local big dt eb w ovlp ovlp_new e s = Ok (w', t).
Proof.
  intros Ho Hb. unfold update_local. destruct (Req_EM_T (Cmod ovlp) 0) as [|_]; [contradiction|].
  destruct (bound_local eb e s) as [re tr] eqn:E. cbn [fst Cminus Cplus Copp] in *.
  destruct (Rlt_dec big _) as [L|_]; [exact (False_ind _ (Rlt_not_le _ _ L Hb))|]. eauto.
Qed.

Lemma local_overflow big dt eb w ovlp ovlp_new e s :
  Cmod ovlp <> 0 ->
  big < exp (- / 2 * dt * (fst (fst (bound_local eb e s)) + fst (eloc w) - fst s)) ->
  update_local big dt eb w ovlp ovlp_new e s = Err NameError.
Proof.
  intros Ho Hb. unfold update_local. destruct (Req_EM_T (Cmod ovlp) 0) as [|_]; [contradiction|].
  destruct (bound_local eb e s) as [re tr] eqn:E. cbn [fst Cminus Cplus Copp] in *.
  destruct (Rlt_dec big _) as [L|L]; [reflexivity|exfalso; apply L, Hb].
Qed.

Definition w1 (e : C) : walker := W 1 (RtoC 0) e (RtoC 1) (RtoC 0, 0).

Lemma local_shift_refuted :
  ~ (forall big dt eb w ovlp s w' t, 0 < dt -> 0 <= eb ->
       eloc w = RtoC s -> update_local big dt eb w ovlp ovlp (RtoC s) (RtoC s) = Ok (w', t) ->
       weight w' = weight w).
Proof.
  intros H.
  assert (O : exists w' t, update_local 1 1 1 (w1 (RtoC 1)) (RtoC 1) (RtoC 1) (RtoC 1) (RtoC 1) = Ok (w', t)).
  { apply local_ok; [rewrite Cmod_R1; lra|].
    assert (N : fst (fst (bound_local 1 (RtoC 1) (RtoC 1))) = 1).
    { destruct (bound_local_re 1 (RtoC 1) (RtoC 1)) as [-> _]; [lra|rewrite Cmod_R1; pose proof tiny10; lra|].
      apply nearest_id; unfold within; simpl; lra. }
    rewrite N. simpl. apply Rle_trans with (exp 0); [left; apply exp_increasing; lra|rewrite exp_0; lra]. }
  destruct O as (w' & t & E).
  specialize (H 1 1 1 (w1 (RtoC 1)) (RtoC 1) 1 w' t ltac:(lra) ltac:(lra) eq_refl E).
  destruct (local_formula _ _ _ _ _ _ _ _ _ _ E) as (F & _).
  rewrite Cdiv11, cos_arg1 in F.
  assert (N : fst (fst (bound_local 1 (RtoC 1) (RtoC 1))) = 1).
  { destruct (bound_local_re 1 (RtoC 1) (RtoC 1)) as [-> _]; [lra|rewrite Cmod_R1; pose proof tiny10; lra|].
    apply nearest_id; unfold within; simpl; lra. }
  rewrite N, H in F. simpl in F.
  assert (L : exp (- / 2 * 1 * (1 + 1 - 1)) < exp 0) by (apply exp_increasing; lra).
  rewrite exp_0 in L. lra.
Qed.

(* No bound on the growth of the weight over two steps. *)
Lemma local_growth_refuted :
  forall B : R, exists big e1 w wa wb ta tb,
    update_local big 1 (sqrt 2) w (RtoC 1) (RtoC 1) e1 (RtoC 1) = Ok (wa, ta) /\
    update_local big 1 (sqrt 2) wa (RtoC 1) (RtoC 1) (RtoC 1) (RtoC 1) = Ok (wb, tb) /\
    weight w = 1 /\ within (fst (eloc w)) 1 (sqrt 2) /\ B < weight wb.
Proof.
  intros B. set (K := Rabs B + 1).
  assert (S2 : 0 < sqrt 2) by (apply sqrt_lt_R0; lra).
  assert (HS : / 10 ^ 10 <= Cmod (RtoC 1)) by (rewrite Cmod_R1; pose proof tiny10; lra).
  set (e1 := RtoC (- (2 * K))). set (w := w1 (RtoC 1)).
  set (x1 := - / 2 * 1 * (fst (fst (bound_local (sqrt 2) e1 (RtoC 1))) + fst (eloc w) - fst (RtoC 1))).
  set (big := Rmax (exp x1) (exp K)).
  assert (C1 : Cmod (RtoC 1) <> 0) by (rewrite Cmod_R1; lra).
  destruct (local_ok big 1 (sqrt 2) w (RtoC 1) (RtoC 1) e1 (RtoC 1) C1 (Rmax_l _ _)) as (wa & ta & Ea).
  destruct (local_formula _ _ _ _ _ _ _ _ _ _ Ea) as (Fa & Ga & _).
  assert (N1 : fst (fst (bound_local (sqrt 2) (RtoC 1) (RtoC 1))) = 1).
  { destruct (bound_local_re (sqrt 2) (RtoC 1) (RtoC 1)) as [-> _]; [lra|exact HS|].
    apply nearest_id; unfold within; simpl; lra. }
  assert (X2 : - / 2 * 1 * (fst (fst (bound_local (sqrt 2) (RtoC 1) (RtoC 1))) + fst (eloc wa) - fst (RtoC 1)) = K).
  { rewrite N1, Ga. unfold e1; simpl. field. }
  destruct (local_ok big 1 (sqrt 2) wa (RtoC 1) (RtoC 1) (RtoC 1) (RtoC 1) C1) as (wb & tb & Eb).
  { rewrite X2. apply Rmax_r. }
  destruct (local_formula _ _ _ _ _ _ _ _ _ _ Eb) as (Fb & _).
  exists big, e1, w, wa, wb, ta, tb.
  split; [exact Ea|]. split; [exact Eb|]. split; [reflexivity|]. split; [unfold within; simpl; lra|].
  rewrite Fb, X2, Cdiv11, cos_arg1, Rmult_1_r, Fa. fold x1. rewrite Cdiv11, cos_arg1, Rmult_1_r.
  change (weight w) with 1. rewrite Rmult_1_l.
  assert (P1 : 0 <= x1).
  { unfold x1. destruct (bound_local_re (sqrt 2) e1 (RtoC 1)) as [-> _]; [lra|exact HS|].
    unfold nearest, e1; simpl. assert (0 <= Rabs B) by apply Rabs_pos.
    assert (1 < sqrt 2) by (rewrite <- sqrt_1 at 1; apply sqrt_lt_1; lra).
    assert (Hm : Rmax (1 - sqrt 2) (- (2 * K)) <= 0) by (apply Rmax_lub; unfold K; lra).
    rewrite Rmin_right by lra. lra. }
  assert (P2 : 1 <= exp x1) by (pose proof (exp_ineq1_le x1); lra).
  assert (P3 : K < exp K) by (pose proof (exp_ineq1_le K); lra).
  assert (P4 : B < K) by (unfold K; pose proof (Rle_abs B); lra).
  assert (0 <= exp K) by (left; apply exp_pos). nra.
Qed.

(* ---- thermal ---- *)

Lemma thermal_formula big mf weight m0 mnew cfb cmf x :
  update_thermal big mf weight m0 mnew cfb cmf = Ok x ->
  Cmod mnew <> 0 -> Rabs mf * exp (ln (Cmod (Cdiv m0 mnew)) + fst cfb + fst cmf) <= big ->
  let r := Cdiv m0 mnew in
  x = weight * (Rabs mf * Cmod (Cmult r (cexp (Cplus cfb cmf))) * Rmax 0 (direction (Cmult r (cexp cmf)))).
Proof.
  intros H Hn Hb r. unfold update_thermal in H. destruct (Req_EM_T (Cmod mnew) 0) as [|_]; [contradiction|].
  fold r in H, Hb. destruct (Req_EM_T (Cmod r) 0) as [|Hr]; [discriminate|].
  cbn [fst snd Cplus Cminus Copp] in H.
  destruct (Rlt_dec big (exp _)) as [|_]; [discriminate|].
  destruct (Rlt_dec big (Rabs mf * _)) as [L|_]; [exfalso; lra|].
  apply (f_equal (fun x => match x with Ok p => p | Err _ => 0 end)) in H.
  change (weight * (Rabs mf * exp (ln (Cmod r) + fst cfb + fst cmf)
     * Rmax 0 (cos (arg r + snd cfb + snd cmf + - snd cfb))) = x) in H.
  rewrite <- H. f_equal. f_equal.
  - f_equal. rewrite Cmod_mult, cexp_mod. change (fst (Cplus cfb cmf)) with (fst cfb + fst cmf).
    rewrite Rplus_assoc, exp_plus, exp_ln; [reflexivity|]. pose proof (Cmod_ge_0 r); lra.
  - f_equal. rewrite <- cos_dir by exact Hr. f_equal. ring.
Qed.

Lemma thermal_nonneg big mf weight m0 mnew cfb cmf x :
  update_thermal big mf weight m0 mnew cfb cmf = Ok x -> 0 <= weight -> 0 <= x.
Proof.
  unfold update_thermal. intros H Hw.
  destruct (Req_EM_T (Cmod mnew) 0); [apply (f_equal (fun x => match x with Ok p => p | Err _ => 0 end)) in H; lra|].
  destruct (Req_EM_T (Cmod (Cdiv m0 mnew)) 0); [discriminate|].
  destruct (Rlt_dec big (exp _)); [discriminate|].
  destruct (Rlt_dec big (Rabs mf * _));
    apply (f_equal (fun x => match x with Ok p => p | Err _ => 0 end)) in H; [lra|].
  rewrite <- H. repeat apply Rmult_le_pos; try assumption; try apply Rabs_pos; try apply Rmax_l.
  left; apply exp_pos.
Qed.

(* ---- kinetic ---- *)

Lemma kinetic_spec w o o' x y :
  update_kinetic w o o' = Ok (x, y) ->
  let r := Cdiv o' o in
  (0 <= w -> 0 <= x) /\
  (Cmod r <> 0 -> (0 < fst r -> x = w * fst r /\ y = o') /\ (fst r <= 0 -> x = 0 /\ y = o)) /\
  (Cmod r = 0 -> x = 0).
Proof.
  intros H r. unfold update_kinetic in H. destruct (Req_EM_T (Cmod o) 0); [discriminate|]. fold r in H.
  assert (Hsgn : Cmod r <> 0 -> (0 < fst r <-> Rabs (arg r) < / 2 * PI)).
  { intros Hr. pose proof (cos_arg r Hr) as Hc. pose proof (arg_range r) as Ha. pose proof PI_RGT_0 as HP.
    pose proof (Cmod_ge_0 r) as G. assert (P : 0 < / Cmod r) by (apply Rinv_0_lt_compat; lra).
    unfold Rdiv in Hc. split.
    - intros L. assert (Hp : 0 < cos (arg r)) by (rewrite Hc; nra).
      apply Rabs_def1.
      + destruct (Rlt_dec (arg r) (/ 2 * PI)) as [|N]; [assumption|exfalso].
        assert (cos (arg r) <= 0) by (apply cos_le_0; lra). lra.
      + destruct (Rlt_dec (- (/ 2 * PI)) (arg r)) as [|N]; [lra|exfalso].
        assert (cos (- arg r) <= 0) by (apply cos_le_0; lra). rewrite cos_neg in *. lra.
    - intros L. apply Rabs_def2 in L. assert (0 < cos (arg r)) by (apply cos_gt_0; lra).
      destruct (Rle_dec (fst r) 0); [exfalso; nra|lra]. }
  assert (Hz : Cmod r = 0 -> fst r = 0).
  { intros E. apply Cmod_eq_0 in E. rewrite E. reflexivity. }
  destruct (Rlt_dec (Rabs (arg r)) (/ 2 * PI)) as [L|L].
  - assert (E1 : x = w * fst r) by congruence. assert (E2 : y = o') by congruence. clear H. rewrite E1, E2.
    split; [|split].
    + intros Hw. destruct (Req_EM_T (Cmod r) 0) as [E|E]; [rewrite (Hz E); lra|].
      apply Hsgn in L; [|exact E]. apply Rmult_le_pos; lra.
    + intros E. apply Hsgn in L; [|exact E]. split; [auto|lra].
    + intros E. rewrite (Hz E). ring.
  - assert (E1 : x = 0) by congruence. assert (E2 : y = o) by congruence. clear H. rewrite E1, E2.
    split; [|split]; [lra| |reflexivity].
    intros E. split; [intros F; apply Hsgn in F; tauto|auto].
Qed.

(* ---- the cap ---- *)

Lemma cap_length limit l : length (fst (cap limit l)) = length l.
Proof.
  induction l as [|x l IH]; simpl; [reflexivity|].
  destruct (cap limit l) as [r n]. simpl in *. destruct (Rlt_dec limit (Cmod x)); simpl; now rewrite IH.
Qed.

Lemma cap_nth limit l : forall i, nth_error (fst (cap limit l)) i
  = option_map (fun x => if Rlt_dec limit (Cmod x) then Cdiv x (RtoC (Cmod x)) else x) (nth_error l i).
Proof.
  induction l as [|x l IH]; intros [|i]; simpl; try reflexivity;
    destruct (cap limit l) as [r n]; simpl in IH; destruct (Rlt_dec limit (Cmod x)); simpl; auto.
Qed.

Lemma cap_count l : snd (cap 1 l) = large l.
Proof.
  induction l as [|x l IH]; simpl; [reflexivity|]. unfold large in *. simpl.
  destruct (cap 1 l) as [r n]. simpl in IH. destruct (Rlt_dec 1 (Cmod x)); simpl; congruence.
Qed.

Lemma scaled_mod x : Cmod x <> 0 ->
  Cmod (Cdiv x (RtoC (Cmod x))) = 1 /\ Cmult (RtoC (Cmod x)) (Cdiv x (RtoC (Cmod x))) = x.
Proof.
  intros H. assert (N : RtoC (Cmod x) <> RtoC 0).
  { intros E. apply H. apply (f_equal fst) in E. exact E. }
  split.
  - rewrite Cmod_div by exact N. rewrite Cmod_R, Rabs_right by (apply Rle_ge, Cmod_ge_0). field. exact H.
  - field. exact N.
Qed.

Lemma cap_mod l : Forall (fun x => Cmod x <= 1) (fst (cap 1 l)).
Proof.
  induction l as [|x l IH]; simpl; [constructor|].
  destruct (cap 1 l) as [r n]; simpl in *. destruct (Rlt_dec 1 (Cmod x)) as [L|L]; simpl; constructor; auto; [|lra].
  destruct (scaled_mod x) as [-> _]; lra.
Qed.

Lemma cap_small l : Forall (fun x => Cmod x <= 1) l -> cap 1 l = (l, 0%nat).
Proof.
  induction 1 as [|x l H HF IH]; simpl; [reflexivity|]. rewrite IH.
  destruct (Rlt_dec 1 (Cmod x)); [lra|reflexivity].
Qed.

Lemma cap_idem l : cap 1 (fst (cap 1 l)) = (fst (cap 1 l), 0%nat).
Proof. apply cap_small, cap_mod. Qed.

Lemma cap_calls_spec calls : forall n,
  cap_calls n calls = (map (fun x => fst (cap 1 x)) calls, (n + nsum (map large calls))%nat).
Proof.
  intros n. unfold cap_calls.
  assert (G : forall acc n, fold_left (fun st x => let (y, k) := cap 1 x in (fst st ++ [y], (snd st + k)%nat)) calls (acc, n)
     = (acc ++ map (fun x => fst (cap 1 x)) calls, (n + nsum (map large calls))%nat)).
  { induction calls as [|c cs IH]; intros acc m; simpl.
    - rewrite app_nil_r. f_equal. lia.
    - rewrite <- cap_count. destruct (cap 1 c) as [y k] eqn:E. simpl. rewrite IH, <- app_assoc. simpl.
      f_equal. lia. }
  apply G.
Qed.

Lemma cap_limit_refuted : ~ (forall limit x y n, 0 < limit -> cap limit [x] = ([y], n) -> Cmod y <= limit).
Proof.
  intros H. specialize (H (/ 2) (RtoC 1) (Cdiv (RtoC 1) (RtoC (Cmod (RtoC 1)))) 1%nat ltac:(lra)).
  assert (E : cap (/ 2) [RtoC 1] = ([Cdiv (RtoC 1) (RtoC (Cmod (RtoC 1)))], 1%nat)).
  { simpl. destruct (Rlt_dec (/ 2) (Cmod (RtoC 1))) as [|N]; [reflexivity|].
    exfalso; apply N. rewrite Cmod_R1. lra. }
  specialize (H E). destruct (scaled_mod (RtoC 1)) as [S1 _]; [rewrite Cmod_R1; lra|]. lra.
Qed.

(* With a limit below one a component can grow. *)
Lemma cap_limit_grows limit x : 0 <= limit -> limit < Cmod x < 1 ->
  exists y, cap limit [x] = ([y], 1%nat) /\ Cmod x < Cmod y.
Proof.
  intros H0 H. exists (Cdiv x (RtoC (Cmod x))). simpl.
  destruct (Rlt_dec limit (Cmod x)) as [|N]; [|exfalso; lra].
  split; [reflexivity|]. destruct (scaled_mod x) as [-> _]; lra.
Qed.

(* A step with ratio one. *)
Lemma hybrid_example : exists w' t,
  update_hybrid 10 1 (bound_hybrid (sqrt 2)) (w1 (RtoC 0)) (RtoC 1) (RtoC 1) (RtoC 0) (RtoC 0) (RtoC 1) = Ok (w', t).
Proof.
  unfold update_hybrid. rewrite Cmod_R1. destruct (Req_EM_T 1 0); [lra|].
  rewrite Cdiv11, Cmod_R1. destruct (Req_EM_T 1 0); [lra|].
  set (z := Cdiv _ _).
  assert (Hz : z = (0, - arg (RtoC 1))).
  { unfold z. rewrite neg_div by lra. rewrite ln_1. simpl. f_equal; field. }
  assert (Hs : / 10 ^ 10 <= Cmod (RtoC 1)) by (rewrite Cmod_R1; pose proof tiny10; lra).
  destruct (bound_hybrid_spec (sqrt 2) z (RtoC 1) (sqrt_pos _) Hs) as [E _].
  assert (S1 : 1 < sqrt 2) by (rewrite <- sqrt_1 at 1; apply sqrt_lt_1; lra).
  rewrite nearest_id in E by (rewrite Hz; unfold within; simpl; lra).
  destruct (bound_hybrid (sqrt 2) z (RtoC 1)) as [h t]. cbn [fst snd] in E. rewrite E.
  set (x := exp _). destruct (Rlt_dec 10 x) as [L|L]; [|eauto].
  exfalso. assert (Hx : x = exp 1). { unfold x. f_equal. rewrite Hz; simpl. lra. }
  pose proof exp_le_3. lra.
Qed.
