From Coq Require Import Reals List Lra Lia.
Set Warnings "-ambiguous-paths".
From Coquelicot Require Import Coquelicot.
From Verif Require Import Sample_Model Sample_Spec.
Import ListNotations.
Open Scope R_scope.

Lemma RInt_step (q A B : R) : 0 <= q <= 1 ->
  RInt (fun r => if Rlt_dec r q then A else B) 0 1 = q * A + (1 - q) * B.
Proof.
  intros [H0 H1].
  apply (is_RInt_unique (V := R_CompleteNormedModule)).
  assert (E : q * A + (1 - q) * B
              = plus (G := R_AbelianGroup) (scal (V := R_ModuleSpace) (q - 0) A) (scal (V := R_ModuleSpace) (1 - q) B))
    by (unfold plus, scal; simpl; unfold mult; simpl; ring).
  rewrite E.
  apply (is_RInt_Chasles (V := R_NormedModule)) with q.
  - apply is_RInt_ext with (fun _ => A).
    + intros x. rewrite Rmin_left, Rmax_right by lra. intros Hx.
      destruct (Rlt_dec x q); [reflexivity|lra].
    + apply (is_RInt_const (V := R_NormedModule)).
  - apply is_RInt_ext with (fun _ => B).
    + intros x. rewrite Rmin_left, Rmax_right by lra. intros Hx.
      destruct (Rlt_dec x q); [lra|reflexivity].
    + apply (is_RInt_const (V := R_NormedModule)).
Qed.

Lemma mean_ext n : forall F G, (forall rs, length rs = n -> F rs = G rs) -> mean n F = mean n G.
Proof.
  induction n as [|n IH]; intros F G H; simpl; [apply H; reflexivity|].
  apply RInt_ext. intros x _. apply IH. intros rs L; apply H; simpl; now rewrite L.
Qed.

Lemma mean_const n c : mean n (fun _ => c) = c.
Proof.
  induction n as [|n IH]; simpl; [reflexivity|].
  rewrite RInt_ext with (g := fun _ => c) by (intros; apply IH).
  rewrite RInt_const. unfold scal; simpl; unfold mult; simpl; ring.
Qed.

Section D.
Variable S : Type.
Variable apply : S -> nat -> bool -> S.
Variable ratio : S -> nat -> bool -> R.
Variable wfac : bool -> R.

Notation P := (probs S ratio wfac).

Notation tree := (constrained_sum apply ratio wfac).

Lemma single_site_tree F sites : forall w s,
  mean (length sites) (fun rs => value F (single_site S apply ratio wfac sites rs w s))
  = w * tree F sites s.
Proof.
  induction sites as [|i l IH]; intros w s; [reflexivity|].
  cbn [length mean constrained_sum].
  fold (P s i false) (P s i true).
  set (p0 := Rmax (P s i false) 0). set (p1 := Rmax (P s i true) 0).
  assert (H0 : 0 <= p0) by apply Rmax_r. assert (H1 : 0 <= p1) by apply Rmax_r.
  destruct (Rlt_dec 0 (p0 + p1)) as [N|N].
  - rewrite RInt_ext with (g := fun r => if Rlt_dec r (p0 / (p0 + p1))
        then w * (p0 + p1) * tree F l (apply s i false)
        else w * (p0 + p1) * tree F l (apply s i true)).
    + rewrite RInt_step.
      * field. lra.
      * split; [apply Rmult_le_pos; [exact H0|left; now apply Rinv_0_lt_compat]|].
        apply (Rmult_le_reg_r (p0 + p1)); [exact N|].
        unfold Rdiv. rewrite Rmult_assoc, Rinv_l, Rmult_1_r by lra. lra.
    + intros r _. cbn [single_site]. fold p0 p1.
      destruct (Rlt_dec 0 (p0 + p1)) as [_|n]; [|contradiction].
      destruct (Rlt_dec r (p0 / (p0 + p1))); apply IH.
  - assert (E0 : p0 = 0) by lra. assert (E1 : p1 = 0) by lra.
    rewrite E0, E1.
    rewrite RInt_ext with (g := fun _ => 0).
    + rewrite RInt_const. unfold scal; simpl; unfold mult; simpl; ring.
    + intros r _. cbn [single_site]. fold p0 p1.
      destruct (Rlt_dec 0 (p0 + p1)) as [n|_]; [contradiction|].
      unfold value; simpl. rewrite mean_ext with (G := fun _ => 0) by (intros; ring).
      apply mean_const.
Qed.

Variable ov : S -> R.

Lemma rsum_app l m : rsum (l ++ m) = rsum l + rsum m.
Proof. unfold rsum; induction l as [|x l IH]; simpl; [ring|rewrite IH; ring]. Qed.

Lemma rsum_scale (c : R) {A} (f : A -> R) l :
  rsum (map (fun x => c * f x) l) = c * rsum (map f l).
Proof. unfold rsum; induction l as [|x l IH]; simpl; [ring|rewrite IH; ring]. Qed.

Lemma uniform_cons F s i l :
  uniform_sum apply wfac F s (i :: l)
  = / 2 * (wfac false * uniform_sum apply wfac F (apply s i false) l
           + wfac true * uniform_sum apply wfac F (apply s i true) l).
Proof.
  unfold uniform_sum. cbn [length configs]. rewrite map_app, rsum_app, !map_map.
  cbn [map act rprod fold_right].
  assert (E : forall b, map (fun x => wfac b * fold_right Rmult 1 (map wfac x) * F (act apply (apply s i b) l x)) (configs (length l))
     = map (fun x => wfac b * (rprod (map wfac x) * F (act apply (apply s i b) l x))) (configs (length l))).
  { intros b; apply map_ext; intros x; unfold rprod; ring. }
  rewrite !E, !rsum_scale. simpl pow. ring.
Qed.

Lemma tree_uniform F sites : forall s,
  (forall s i x, ratio s i x = ov (apply s i x) / ov s) ->
  ov s <> 0 ->
  positive apply ratio wfac s sites ->
  tree (fun s' => F s' / ov s') sites s = uniform_sum apply wfac F s sites / ov s.
Proof.
  induction sites as [|i l IH]; intros s Hr Ho Hp.
  - unfold uniform_sum; simpl. unfold rsum; simpl. field. apply Ho.
  - cbn [constrained_sum]. rewrite uniform_cons.
    assert (Hx : forall x, ov (apply s i x) <> 0).
    { intros x E. destruct (Hp x) as [P0 _]. rewrite Hr, E in P0. unfold Rdiv in P0. lra. }
    destruct (Hp false) as [P0 Q0]. destruct (Hp true) as [P1 Q1].
    rewrite !IH by auto.
    rewrite !Rmax_left by (rewrite Rmult_assoc; lra).
    rewrite !Hr. field. repeat split; auto.
Qed.

Lemma single_site_uniform F sites w s :
  (forall s i x, ratio s i x = ov (apply s i x) / ov s) ->
  ov s <> 0 ->
  positive apply ratio wfac s sites ->
  mean (length sites) (fun rs => value (fun s' => F s' / ov s')
                                       (single_site S apply ratio wfac sites rs w s))
  = w * (uniform_sum apply wfac F s sites / ov s).
Proof. intros Hr Ho Hp. rewrite single_site_tree. f_equal. now apply tree_uniform. Qed.

Lemma free_uniform F sites : forall wf s,
  mean (length sites) (fun rs => value F (free S apply wfac sites rs wf s))
  = wf * uniform_sum apply wfac F s sites.
Proof.
  induction sites as [|i l IH]; intros wf s.
  - unfold uniform_sum, value, rsum, rprod; simpl. ring.
  - cbn [length mean]. rewrite uniform_cons.
    rewrite RInt_ext with (g := fun r => if Rlt_dec r (/ 2)
        then wf * wfac false * uniform_sum apply wfac F (apply s i false) l
        else wf * wfac true * uniform_sum apply wfac F (apply s i true) l).
    + rewrite RInt_step by lra. field.
    + intros r _. cbn [free]. destruct (Rlt_dec r (/ 2)); apply IH.
Qed.

(* two_body_direct *)
Variables ep em : nat -> R.

Fixpoint bias (sites : list nat) : R :=
  match sites with [] => 1 | i :: l => / 2 * (ep i * em i) * bias l end.

Lemma direct_fields_mean sites : forall fb (H : list bool -> R),
  (forall i, In i sites -> 0 < ep i + em i /\ 0 <= ep i /\ 0 <= em i) ->
  mean (length sites) (fun rs => snd (direct_fields ep em sites rs fb)
                                 * H (fst (direct_fields ep em sites rs fb)))
  = fb * (bias sites * ((/ 2) ^ length sites * rsum (map H (configs (length sites))))).
Proof.
  induction sites as [|i l IH]; intros fb H Hp.
  - simpl. unfold rsum; simpl. ring.
  - destruct (Hp i (or_introl eq_refl)) as (N & E0 & E1).
    assert (Hl : forall i, In i l -> 0 < ep i + em i /\ 0 <= ep i /\ 0 <= em i)
      by (intros j Hj; apply Hp; now right).
    cbn [length mean].
    set (pp := / 2 * ep i). set (pm := / 2 * em i).
    set (T := fun b => bias l * ((/ 2) ^ length l * rsum (map (fun xs => H (b :: xs)) (configs (length l))))).
    rewrite RInt_ext with (g := fun r => if Rlt_dec r (pp / (pp + pm))
        then fb * (/ 2 * (pp + pm) * em i) * T false
        else fb * (/ 2 * (pp + pm) * ep i) * T true).
    + assert (Np : 0 < pp + pm) by (unfold pp, pm; lra).
      rewrite RInt_step.
      * cbn [bias configs]. rewrite map_app, rsum_app, !map_map. unfold T. simpl pow.
        transitivity (fb * (/ 2 * (pp * em i * T false + pm * ep i * T true))).
        -- unfold T; field; lra.
        -- unfold T, pp, pm. field.
      * split; [apply Rmult_le_pos; [unfold pp; lra|left; now apply Rinv_0_lt_compat]|].
        apply (Rmult_le_reg_r (pp + pm)); [exact Np|].
        unfold Rdiv. rewrite Rmult_assoc, Rinv_l, Rmult_1_r by lra. unfold pm; lra.
    + intros r _. cbn [direct_fields]. fold pp pm.
      destruct (Rlt_dec r (pp / (pp + pm))); unfold T.
      * rewrite <- (IH (fb * (/ 2 * (pp + pm) * em i)) (fun xs => H (false :: xs)) Hl).
        apply mean_ext. intros rs _.
        destruct (direct_fields ep em l rs (fb * (/ 2 * (pp + pm) * em i))); reflexivity.
      * rewrite <- (IH (fb * (/ 2 * (pp + pm) * ep i)) (fun xs => H (true :: xs)) Hl).
        apply mean_ext. intros rs _.
        destruct (direct_fields ep em l rs (fb * (/ 2 * (pp + pm) * ep i))); reflexivity.
Qed.

Lemma apply_all_act s sites xs : apply_all S apply s sites xs = act apply s sites xs.
Proof. revert s xs; induction sites as [|i l IH]; intros s [|x xs]; simpl; auto. Qed.

Lemma fold_wfac xs a : fold_left (fun a x => a * wfac x) xs a = a * rprod (map wfac xs).
Proof.
  revert a; induction xs as [|x xs IH]; intros a; simpl; [unfold rprod; simpl; ring|].
  rewrite IH. unfold rprod; simpl. ring.
Qed.

Lemma direct_mean F sites w s :
  (forall i, In i sites -> 0 < ep i + em i /\ 0 <= ep i /\ 0 <= em i) ->
  0 < ov s -> (forall xs, 0 < ov (act apply s sites xs)) -> (forall x, 0 < wfac x) ->
  mean (length sites) (fun rs => value (fun s' => F s' / ov s')
          (direct S apply wfac ep em ov sites rs w s))
  = bias sites * (w * (uniform_sum apply wfac F s sites / ov s)).
Proof.
  intros He Ho Ho' Hw.
  assert (Hpos : forall xs, 0 < rprod (map wfac xs)).
  { induction xs as [|x xs IH]; unfold rprod; simpl; [lra|apply Rmult_lt_0_compat; auto]. }
  set (H := fun xs => w * (rprod (map wfac xs) * F (act apply s sites xs)) / ov s).
  rewrite mean_ext with (G := fun rs => snd (direct_fields ep em sites rs 1)
                                 * H (fst (direct_fields ep em sites rs 1))).
  - rewrite direct_fields_mean by exact He. unfold H, uniform_sum.
    rewrite map_ext with (g := fun xs => (w / ov s) * (rprod (map wfac xs) * F (act apply s sites xs)))
      by (intros; field; lra).
    rewrite rsum_scale. field. lra.
  - intros rs _. unfold direct. destruct (direct_fields ep em sites rs 1) as [xs fb].
    rewrite apply_all_act, fold_wfac, Rmult_1_l. simpl fst; simpl snd.
    pose proof (Ho' xs) as O2. pose proof (Hpos xs) as O3.
    destruct (Rle_dec 0 (rprod (map wfac xs) * ov (act apply s sites xs) / ov s)) as [L|L].
    + unfold value, H; simpl. field. lra.
    + exfalso; apply L. apply Rmult_le_pos; [apply Rmult_le_pos; lra|].
      left; now apply Rinv_0_lt_compat.
Qed.

Lemma bias_rprod sites : bias sites = rprod (map (fun i => / 2 * (ep i * em i)) sites).
Proof. induction sites as [|i l IH]; simpl; [reflexivity|]. rewrite IH. unfold rprod; simpl. ring. Qed.

Lemma direct_general F sites w s :
  (forall i, In i sites -> 0 < ep i + em i /\ 0 <= ep i /\ 0 <= em i) ->
  0 < ov s -> (forall xs, 0 < ov (act apply s sites xs)) -> (forall x, 0 < wfac x) ->
  mean (length sites) (fun rs => value (fun s' => F s' / ov s')
          (direct S apply wfac ep em ov sites rs w s))
  = rprod (map (fun i => / 2 * (ep i * em i)) sites) * (w * (uniform_sum apply wfac F s sites / ov s)).
Proof. intros; rewrite <- bias_rprod; now apply direct_mean. Qed.

End D.

(* ---- the Gaussian shift ---- *)

Lemma gauss_int_ext n : forall F G l, (forall xs, length xs = n -> F xs = G xs) ->
  gauss_int n F l -> gauss_int n G l.
Proof.
  induction n as [|n IH]; simpl; intros F G l E H; [rewrite H; apply E; reflexivity|].
  destruct H as (g & Hg & Hi). exists g; split; [|exact Hi].
  intros x. apply IH with (fun xs => F (x :: xs)); [|apply Hg].
  intros xs L; apply E; simpl; now rewrite L.
Qed.

Lemma is_RInt_gen_ext' (f g : R -> R) (l : R) : (forall x, f x = g x) ->
  is_RInt_gen f (Rbar_locally m_infty) (Rbar_locally p_infty) l ->
  is_RInt_gen g (Rbar_locally m_infty) (Rbar_locally p_infty) l.
Proof.
  intros E H. apply is_RInt_gen_ext with f; [|exact H].
  apply filter_forall. intros ab x _. apply E.
Qed.

Lemma gauss_int_scale n : forall c F l, gauss_int n F l -> gauss_int n (fun xs => c * F xs) (c * l).
Proof.
  induction n as [|n IH]; simpl; intros c F l H; [now rewrite H|].
  destruct H as (g & Hg & Hi). exists (fun x => c * g x); split.
  - intros x. now apply IH.
  - apply is_RInt_gen_ext' with (fun x => scal (V := R_ModuleSpace) c (gauss x * g x)).
    + intros x. unfold scal; simpl; unfold mult; simpl; ring.
    + exact (is_RInt_gen_scal (V := R_NormedModule) (fun x => gauss x * g x) c l Hi).
Qed.

Lemma is_RInt_gen_shift (f : R -> R) (v l : R) :
  is_RInt_gen f (Rbar_locally m_infty) (Rbar_locally p_infty) l ->
  is_RInt_gen (fun x => f (x - v)) (Rbar_locally m_infty) (Rbar_locally p_infty) l.
Proof.
  intros H Q HQ. destruct (H Q HQ) as [A B [M HA] [N HB] HAB].
  apply Filter_prod with (fun a => A (a - v)) (fun b => B (b - v)).
  - exists (M + v). intros x Hx. apply HA. lra.
  - exists (N + v). intros x Hx. apply HB. lra.
  - intros a b Ha Hb. destruct (HAB _ _ Ha Hb) as (y & Hy & Hq). simpl in Hy. exists y; split; [|exact Hq].
    simpl. apply is_RInt_ext with (fun y => scal 1 (f (1 * y + - v))).
    + intros x _. unfold scal; simpl; unfold mult; simpl. rewrite Rmult_1_l. f_equal; ring.
    + apply (is_RInt_comp_lin f 1 (- v)).
      replace (1 * a + - v) with (a - v) by ring. replace (1 * b + - v) with (b - v) by ring. exact Hy.
Qed.

Lemma gauss_shift x v : gauss (x - v) = gauss x * exp (x * v - / 2 * (v * v)).
Proof. unfold gauss. rewrite <- exp_plus. f_equal. field. Qed.

Lemma gauss_int_shift xbar : forall F l,
  gauss_int (length xbar) F l ->
  gauss_int (length xbar) (fun xi => exp (cfb xi xbar) * F (xshifted xi xbar)) l.
Proof.
  induction xbar as [|v xb IH]; intros F l H.
  - simpl in *. rewrite H. unfold cfb; simpl.
    replace (0 - / 2 * 0) with 0 by ring. rewrite exp_0; unfold xshifted; simpl; ring.
  - destruct H as (g & Hg & Hi). cbn [length gauss_int].
    exists (fun x => exp (x * v - / 2 * (v * v)) * g (x - v)). split.
    + intros x. apply gauss_int_ext with
        (fun xs => exp (x * v - / 2 * (v * v)) * (exp (cfb xs xb) * F ((x - v) :: xshifted xs xb))).
      * intros xs _. unfold xshifted; cbn [vminus]. rewrite <- Rmult_assoc, <- exp_plus.
        f_equal. f_equal. unfold cfb; cbn [dot]. ring.
      * apply gauss_int_scale. apply (IH (fun ys => F ((x - v) :: ys))). apply Hg.
    + apply is_RInt_gen_ext' with (fun x => gauss (x - v) * g (x - v)).
      * intros x. rewrite gauss_shift. ring.
      * apply (is_RInt_gen_shift (fun x => gauss x * g x)). exact Hi.
Qed.

(* Instances. *)
Lemma direct_real S apply wfac ov (g : R) (n : nat -> R) F sites w (s : S) :
  0 < ov s -> (forall xs, 0 < ov (act apply s sites xs)) -> (forall x, 0 < wfac x) ->
  mean (length sites) (fun rs => value (fun s' => F s' / ov s')
          (direct S apply wfac (fun i => exp (g * n i)) (fun i => exp (- g * n i)) ov sites rs w s))
  = (/ 2) ^ length sites * (w * (uniform_sum apply wfac F s sites / ov s)).
Proof.
  intros Ho Ho' Hw. rewrite direct_general; auto.
  - f_equal. clear. induction sites as [|i l IH]; [reflexivity|].
    unfold rprod in *; cbn [map fold_right length pow]. rewrite IH, <- exp_plus.
    replace (g * n i + - g * n i) with 0 by ring. rewrite exp_0. ring.
  - intros i _. pose proof (exp_pos (g * n i)). pose proof (exp_pos (- g * n i)). lra.
Qed.

Lemma direct_imaginary S apply wfac ov (g : R) (n : nat -> R) F sites w (s : S) :
  (forall i, In i sites -> 0 < cos (g * n i)) ->
  0 < ov s -> (forall xs, 0 < ov (act apply s sites xs)) -> (forall x, 0 < wfac x) ->
  mean (length sites) (fun rs => value (fun s' => F s' / ov s')
          (direct S apply wfac (fun i => cos (g * n i)) (fun i => cos (- g * n i)) ov sites rs w s))
  = rprod (map (fun i => / 2 * (cos (g * n i) * cos (g * n i))) sites)
    * (w * (uniform_sum apply wfac F s sites / ov s)).
Proof.
  intros Hc Ho Ho' Hw.
  assert (E : forall i, cos (- g * n i) = cos (g * n i)).
  { intros i. replace (- g * n i) with (- (g * n i)) by ring. apply cos_neg. }
  rewrite direct_general; auto.
  - f_equal. f_equal. apply map_ext. intros i. now rewrite E.
  - intros i Hi. rewrite E. specialize (Hc i Hi). lra.
Qed.

Lemma direct_refuted : ~ (forall S apply wfac ov (g : R) (n : nat -> R) F sites w (s : S),
  0 < ov s -> (forall xs, 0 < ov (act apply s sites xs)) -> (forall x, 0 < wfac x) ->
  mean (length sites) (fun rs => value (fun s' => F s' / ov s')
          (direct S apply wfac (fun i => exp (g * n i)) (fun i => exp (- g * n i)) ov sites rs w s))
  = w * (uniform_sum apply wfac F s sites / ov s)).
Proof.
  intros H.
  specialize (H unit (fun s _ _ => s) (fun _ => 1) (fun _ => 1) 1 (fun _ => 1) (fun _ => 1) [0%nat] 1 tt).
  assert (L : 0 < 1) by lra.
  specialize (H L (fun _ => L) (fun _ => L)).
  rewrite direct_real in H by (intros; exact L).
  unfold uniform_sum, rsum, rprod in H; simpl in H.
  field_simplify in H. lra.
Qed.

(* A determinant is represented by the logarithm of its overlap. *)
Definition ex_apply (s : R) (i : nat) (x : bool) : R := s + (if x then INR i else - INR i).

Lemma ex_positive s sites : positive ex_apply (fun s i x => exp (ex_apply s i x) / exp s) (fun _ => 1) s sites.
Proof.
  revert s; induction sites as [|i l IH]; intros s; simpl; [exact I|].
  intros x; split; [|apply IH]. rewrite Rmult_1_r.
  apply Rmult_lt_0_compat; [apply exp_pos|apply Rinv_0_lt_compat, exp_pos].
Qed.

(* The hypothesis of the shift theorem for one field and F = 1 needs the
   Gaussian integral; F = 0 outside [0, 1] gives a compact example. *)
Lemma gauss_int_example : exists l, gauss_int 1 (fun xs => match xs with
    | [x] => if Rlt_dec x 0 then 0 else if Rlt_dec 1 x then 0 else / gauss x | _ => 0 end) l /\ l <> 0.
Proof.
  exists 1. split; [|lra]. cbn [gauss_int].
  exists (fun x => if Rlt_dec x 0 then 0 else if Rlt_dec 1 x then 0 else / gauss x).
  split; [reflexivity|].
  assert (Hg : forall x, gauss x <> 0) by (intros; unfold gauss; apply Rgt_not_eq, exp_pos).
  intros Q HQ. apply Filter_prod with (fun a => a < 0) (fun b => 1 < b).
  - exists 0; intros; assumption.
  - exists 1; intros; assumption.
  - intros a b Ha Hb. exists 1. split; [|destruct HQ as [e He]; apply He, ball_center].
    simpl.
    assert (E : 1 = plus (G := R_AbelianGroup) (plus (G := R_AbelianGroup) (scal (V := R_ModuleSpace) (0 - a) 0)
                     (scal (V := R_ModuleSpace) (1 - 0) 1)) (scal (V := R_ModuleSpace) (b - 1) 0))
      by (unfold plus, scal; simpl; unfold mult; simpl; ring).
    rewrite E at 1.
    apply (is_RInt_Chasles (V := R_NormedModule)) with 1;
      [apply (is_RInt_Chasles (V := R_NormedModule)) with 0|].
    + apply is_RInt_ext with (fun _ => 0); [|apply (is_RInt_const (V := R_NormedModule))].
      intros x. rewrite Rmin_left, Rmax_right by lra. intros Hx.
      destruct (Rlt_dec x 0); [simpl; ring|lra].
    + apply is_RInt_ext with (fun _ => 1); [|apply (is_RInt_const (V := R_NormedModule))].
      intros x. rewrite Rmin_left, Rmax_right by lra. intros Hx.
      destruct (Rlt_dec x 0); [lra|]. destruct (Rlt_dec 1 x); [lra|]. now rewrite Rinv_r.
    + apply is_RInt_ext with (fun _ => 0); [|apply (is_RInt_const (V := R_NormedModule))].
      intros x. rewrite Rmin_left, Rmax_right by lra. intros Hx.
      destruct (Rlt_dec x 0); [lra|]. destruct (Rlt_dec 1 x); [simpl; ring|lra].
Qed.
