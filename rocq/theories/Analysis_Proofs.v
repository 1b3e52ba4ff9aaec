(* Proofs about the statistical analysis. *)

From Verif Require Import Base BaseFacts Cplx Analysis_Model Analysis_Spec.
From Coq Require Import Setoid Morphisms Qfield.
Open Scope Q_scope.

(** * Sums *)
Lemma Qsum_cons : forall x l, Qsum (x :: l) == x + Qsum l.
Proof. intros; reflexivity. Qed.

Lemma Qsum_add : forall A (f g : A -> Q) l,
  Qsum (map (fun x => f x + g x) l) == Qsum (map f l) + Qsum (map g l).
Proof. intros A f g l; induction l as [|x l IH]; simpl; [reflexivity | rewrite IH; ring]. Qed.

Lemma Qsum_scale : forall A (f : A -> Q) c l,
  Qsum (map (fun x => c * f x) l) == c * Qsum (map f l).
Proof. intros A f c l; induction l as [|x l IH]; simpl; [ring | rewrite IH; ring]. Qed.

Lemma Qsum_const : forall A (c : Q) (l : list A),
  Qsum (map (fun _ => c) l) == q_of_nat (length l) * c.
Proof.
  intros A c l; induction l as [|x l IH]; cbn [map length Qsum fold_right];
    [ unfold q_of_nat; simpl; ring |].
  change (fold_right Qplus 0 (map (fun _ => c) l)) with (Qsum (map (fun _ : A => c) l)).
  rewrite IH, q_of_nat_S. ring.
Qed.

Lemma Qsum_ext : forall A (f g : A -> Q) l, (forall x, In x l -> f x == g x) ->
  Qsum (map f l) == Qsum (map g l).
Proof.
  intros A f g l H; induction l as [|x l IH]; simpl; [reflexivity|].
  rewrite H, IH; [reflexivity | intros; apply H; right; auto | left; auto].
Qed.

Lemma qlen_pos : forall A (l : list A), l <> [] -> 0 < q_of_nat (length l).
Proof.
  intros A l H. destruct l as [|x l]; [congruence|]. simpl length. rewrite q_of_nat_S.
  pose proof (q_of_nat_nonneg (length l)). lra.
Qed.

Lemma mean_average : forall l, mean l = average l.
Proof. reflexivity. Qed.

Lemma sum_average : forall l, l <> [] -> Qsum l == q_of_nat (length l) * average l.
Proof.
  intros l H. unfold average. pose proof (qlen_pos _ l H). field. lra.
Qed.

Lemma sum_id : forall l : list Q, Qsum (map (fun x => x) l) == Qsum l.
Proof. intro l; rewrite map_id; reflexivity. Qed.

(** * Ratios *)
Lemma Csum_re : forall l, re (Csum l) == Qsum (map re l).
Proof. intro l; induction l as [|x l IH]; simpl; [reflexivity | rewrite IH; reflexivity]. Qed.
Lemma Csum_im : forall l, im (Csum l) == Qsum (map im l).
Proof. intro l; induction l as [|x l IH]; simpl; [reflexivity | rewrite IH; reflexivity]. Qed.

Lemma Caverage_re : forall l, l <> [] -> re (Caverage l) == average (map re l).
Proof.
  intros l H. unfold Caverage, average. rewrite map_length, <- Csum_re.
  pose proof (qlen_pos _ l H) as P.
  unfold Cdiv, Cmul, Cinv, Cof, Cabs2; simpl. field. lra.
Qed.
Lemma Caverage_im : forall l, l <> [] -> im (Caverage l) == average (map im l).
Proof.
  intros l H. unfold Caverage, average. rewrite map_length, <- Csum_im.
  pose proof (qlen_pos _ l H) as P.
  unfold Cdiv, Cmul, Cinv, Cof, Cabs2; simpl. field. lra.
Qed.

Global Instance sq_comp : Proper (Qeq ==> Qeq) sq.
Proof. intros x y H; unfold sq; rewrite H; reflexivity. Qed.

Lemma ratio_real_part : forall data, data <> [] ->
  (mean (map (fun p => re (fst p)) data) * mean (map (fun p => re (snd p)) data)
   + mean (map (fun p => im (fst p)) data) * mean (map (fun p => im (snd p)) data))
  / (sq (mean (map (fun p => re (snd p)) data)) + sq (mean (map (fun p => im (snd p)) data)))
  == re (Cdiv (Caverage (map fst data)) (Caverage (map (@snd C C) data))).
Proof.
  intros data H.
  assert (H1 : map (@fst C C) data <> []) by (destruct data; simpl; congruence).
  assert (H2 : map (@snd C C) data <> []) by (destruct data; simpl; congruence).
  rewrite <- !(map_map fst re), <- !(map_map snd re), <- !(map_map fst im), <- !(map_map snd im).
  change mean with average.
  rewrite <- !Caverage_re, <- !Caverage_im by auto.
  unfold Cdiv, Cmul, Cinv, Cabs2, sq; simpl. unfold Qdiv. ring.
Qed.

Lemma average_ratio_mean : forall data, data <> [] ->
  fst (average_ratio data) == re (Cdiv (Caverage (map fst data)) (Caverage (map snd data))).
Proof. intros data H. apply ratio_real_part; auto. Qed.

(* Sums of squares for pairs. *)
Section Pairs.
Variable l : list (Q * Q).
Hypothesis Hl : l <> [].
Notation n := (q_of_nat (length l)).
Notation A := (average (map fst l)).
Notation B := (average (map snd l)).
Notation Saa := (Qsum (map (fun p => (fst p - A) * (fst p - A)) l)).
Notation Sbb := (Qsum (map (fun p => (snd p - B) * (snd p - B)) l)).
Notation Sab := (Qsum (map (fun p => (fst p - A) * (snd p - B)) l)).

Lemma residuals : ~ B == 0 ->
  Qsum (map (fun p => (fst p - ratio l * snd p) * (fst p - ratio l * snd p)) l)
  == Saa + ratio l * ratio l * Sbb - 2 * ratio l * Sab.
Proof.
  intro HB. set (r := ratio l).
  assert (E : A == r * B) by (unfold r, ratio; field; auto).
  rewrite <- (Qsum_scale _ _ (r * r)), <- (Qsum_scale _ _ (2 * r)).
  assert (M : Qsum (map (fun p => (fst p - A) * (fst p - A)
       + (r * r * ((snd p - B) * (snd p - B))
          + (-1) * (2 * r * ((fst p - A) * (snd p - B))))) l)
    == Saa + (Qsum (map (fun p => r * r * ((snd p - B) * (snd p - B))) l)
         + (-1) * Qsum (map (fun p => 2 * r * ((fst p - A) * (snd p - B))) l))).
  { rewrite Qsum_add, Qsum_add, (Qsum_scale _ (fun p => 2 * r * _)). reflexivity. }
  transitivity (Qsum (map (fun p => (fst p - A) * (fst p - A)
       + (r * r * ((snd p - B) * (snd p - B))
          + (-1) * (2 * r * ((fst p - A) * (snd p - B))))) l)).
  - apply Qsum_ext. intros p _.
    setoid_replace (fst p - r * snd p) with ((fst p - A) - r * (snd p - B)) by (rewrite E; ring).
    ring.
  - rewrite M. ring.
Qed.
End Pairs.

Lemma sum_sq_nonneg : forall A (f : A -> Q) l, 0 <= Qsum (map (fun x => f x * f x) l).
Proof.
  intros A f l; induction l as [|x l IH]; [apply Qle_refl|]. cbn [map]. rewrite Qsum_cons.
  assert (0 <= f x * f x) by nra. lra.
Qed.

Lemma real_error : forall l, (2 <= length l)%nat ->
  ~ average (map fst l) == 0 -> ~ average (map snd l) == 0 ->
  let m := average (map fst l) / average (map snd l) in
  sq m * (sem2 (map fst l) / sq (mean (map fst l)) + sem2 (map snd l) / sq (mean (map snd l))
          - 2 * cov l / (len (map fst l) * mean (map fst l) * mean (map snd l)))
  == ratio_err2 l.
Proof.
  intros l Hl HA HB m.
  assert (Hn : l <> []) by (destruct l; simpl in *; [lia|congruence]).
  assert (P1 : 1 < q_of_nat (length l)).
  { change 1 with (q_of_nat 1). apply q_of_nat_lt. lia. }
  unfold ratio_err2. rewrite residuals by auto.
  unfold sem2, cov, var, len. rewrite !map_length, !map_map. change mean with average.
  unfold sq, m, ratio.
  field. repeat split; auto; lra.
Qed.

Lemma real_error_sign : forall l, (2 <= length l)%nat ->
  ~ average (map fst l) == 0 -> ~ average (map snd l) == 0 ->
  0 <= sem2 (map fst l) / sq (mean (map fst l)) + sem2 (map snd l) / sq (mean (map snd l))
          - 2 * cov l / (len (map fst l) * mean (map fst l) * mean (map snd l)).
Proof.
  intros l Hl HA HB.
  pose proof (real_error l Hl HA HB) as E. cbv zeta in E.
  set (m := average (map fst l) / average (map snd l)) in *.
  set (x := sem2 _ / _ + _ - _) in *.
  assert (Pm : 0 < sq m).
  { assert (Hm : ~ m == 0).
    { intro Z. apply HA. unfold m in Z.
      setoid_replace (average (map fst l))
        with (average (map fst l) / average (map snd l) * average (map snd l)) by (field; auto).
      rewrite Z. ring. }
    unfold sq. destruct (Qlt_le_dec 0 m) as [L|L]; [nra|].
    assert (m < 0). { apply Qle_lteq in L as [L|L]; [auto|contradiction]. } nra. }
  assert (Pr : 0 <= ratio_err2 l).
  { unfold ratio_err2.
    assert (P1 : 1 < q_of_nat (length l)).
    { change 1 with (q_of_nat 1). apply q_of_nat_lt. lia. }
    apply Qle_shift_div_l.
    - destruct (Qlt_le_dec 0 (average (map snd l))) as [L|L]; [nra|].
      apply Qle_lteq in L as [L|L]; [nra|contradiction].
    - rewrite Qmult_0_l. apply Qle_shift_div_l; [nra|]. rewrite Qmult_0_l.
      apply sum_sq_nonneg. }
  rewrite <- E in Pr. nra.
Qed.

Lemma combine_re : forall (data : list (C * C)),
  combine (map (fun p => re (fst p)) data) (map (fun p => re (snd p)) data)
  = map (fun p => (re (fst p), re (snd p))) data.
Proof. intro data; induction data as [|p data IH]; simpl; [auto | rewrite IH; auto]. Qed.

Lemma average_zero : forall l : list Q, Forall (fun x => x == 0) l -> average l == 0.
Proof.
  intros l H. unfold average.
  assert (E : Qsum l == 0) by (induction H as [|x l H1 H2 IH]; simpl; [reflexivity|]; rewrite H1, IH; ring).
  rewrite E. unfold Qdiv. ring.
Qed.

Lemma Forall_im : forall (f : C * C -> C) data,
  (forall p, In p data -> im (fst p) == 0 /\ im (snd p) == 0) ->
  (f = fst \/ f = snd) -> Forall (fun x => x == 0) (map (fun p => im (f p)) data).
Proof.
  intros f data H D. apply Forall_forall. intros x I. apply in_map_iff in I as (p & <- & I).
  destruct (H p I); destruct D; subst f; auto.
Qed.

Global Instance scaled_mean : Proper (Qeq ==> eq ==> fun a b =>
  match a, b with Some x, Some y => x == y | None, None => True | _, _ => False end) scaled_root2.
Proof.
  intros m m' E x x' <-. unfold scaled_root2. destruct (Qltb x 0); auto. rewrite E. reflexivity.
Qed.

(* The error with n replaced by any count of samples in the last term. *)
Lemma error_real : forall data, (2 <= length data)%nat ->
  (forall p, In p data -> im (fst p) == 0 /\ im (snd p) == 0) ->
  ~ average (map fst (reals data)) == 0 -> ~ average (map snd (reals data)) == 0 ->
  let re_num := map (fun p => re (fst p)) data in
  let re_den := map (fun p => re (snd p)) data in
  let im_num := map (fun p => im (fst p)) data in
  let im_den := map (fun p => im (snd p)) data in
  let m := (mean re_num * mean re_den + mean im_num * mean im_den)
           / (sq (mean re_den) + sq (mean im_den)) in
  exists e, scaled_root2 m
     (sem2 re_num / sq (mean re_num) + sem2 re_den / sq (mean re_den)
         - 2 * cov (combine re_num re_den) / (len re_num * mean re_num * mean re_den)) = Some e
     /\ e == ratio_err2 (reals data).
Proof.
  intros data Hl Him HA HB re_num re_den im_num im_den m.
  assert (Ra : map fst (reals data) = re_num) by (unfold reals; rewrite map_map; reflexivity).
  assert (Rb : map snd (reals data) = re_den) by (unfold reals; rewrite map_map; reflexivity).
  assert (Ha : mean im_num == 0).
  { rewrite mean_average. apply average_zero. apply (Forall_im fst); auto. }
  assert (Hb : mean im_den == 0).
  { rewrite mean_average. apply average_zero. apply (Forall_im snd); auto. }
  assert (Hr : (2 <= length (reals data))%nat) by (unfold reals; rewrite map_length; auto).
  pose proof (real_error_sign _ Hr HA HB) as S. pose proof (real_error _ Hr HA HB) as E.
  cbv zeta in E. rewrite Ra, Rb in *.
  assert (Cb : combine re_num re_den = reals data) by apply combine_re. rewrite Cb.
  unfold scaled_root2.
  match goal with |- context [Qltb ?x 0] => assert (L : Qltb x 0 = false) by (apply Qltb_false; auto) end.
  rewrite L. eexists; split; [reflexivity|]. rewrite <- E.
  assert (Em : m == average re_num / average re_den).
  { unfold m. rewrite Ha, Hb. change mean with average. unfold sq. field. auto. }
  rewrite Em. reflexivity.
Qed.

Lemma average_ratio_error : forall data, (2 <= length data)%nat ->
  (forall p, In p data -> im (fst p) == 0 /\ im (snd p) == 0) ->
  ~ average (map fst (reals data)) == 0 -> ~ average (map snd (reals data)) == 0 ->
  exists e, snd (average_ratio data) = Some e /\ e == ratio_err2 (reals data).
Proof. intros data Hl Him HA HB. exact (error_real data Hl Him HA HB). Qed.

(** * Groups by iteration *)
Lemma insert_key_in : forall k l x, In x (insert_key k l) <-> x = k \/ In x l.
Proof.
  intros k l x; induction l as [|y l IH]; simpl; [intuition|].
  destruct (k =? y)%nat eqn:E; [apply Nat.eqb_eq in E; subst; simpl; intuition|].
  destruct (k <? y)%nat; simpl; [intuition|]. rewrite IH. intuition.
Qed.

Lemma insert_key_sorted : forall k l, StronglySorted lt l -> StronglySorted lt (insert_key k l).
Proof.
  intros k l H; induction H as [|y l H IH F]; simpl; [repeat constructor|].
  destruct (k =? y)%nat eqn:E; [constructor; auto|].
  apply Nat.eqb_neq in E. destruct (k <? y)%nat eqn:L.
  - apply Nat.ltb_lt in L. constructor; [constructor; auto|]. constructor; auto.
    eapply Forall_impl; [|exact F]. simpl; intros; lia.
  - apply Nat.ltb_ge in L. constructor; auto. apply Forall_forall. intros x I.
    apply insert_key_in in I as [->|I]; [lia|]. rewrite Forall_forall in F; auto.
Qed.

Lemma keys_sorted : forall rows, StronglySorted lt (keys rows).
Proof.
  intro rows; induction rows as [|r rows IH]; simpl; [constructor|].
  apply insert_key_sorted; auto.
Qed.

Lemma keys_in : forall rows k, In k (keys rows) <-> In k (map (fun r => fst (fst r)) rows).
Proof.
  intros rows k; induction rows as [|r rows IH]; simpl; [reflexivity|].
  rewrite insert_key_in. unfold keys in IH. rewrite IH. intuition.
Qed.

Lemma fp_keys : forall rows, map (fun p => fst (fst p)) (average_fp rows) = keys rows.
Proof. intro rows. unfold average_fp. rewrite map_map. simpl. apply map_id. Qed.

Lemma group_nonempty : forall rows k, In k (keys rows) -> group rows k <> [].
Proof.
  intros rows k I. apply keys_in in I. apply in_map_iff in I as (r & E & I).
  intro N. assert (J : In (snd (fst r), snd r) (group rows k)).
  { unfold group. apply in_map_iff. exists r; split; auto. apply filter_In; split; auto.
    apply Nat.eqb_eq; auto. }
  rewrite N in J. destruct J.
Qed.

Lemma fp_means : forall rows k e er, In (k, e, er) (average_fp rows) ->
  e == re (Cdiv (Caverage (map fst (at_iteration rows k)))
                (Caverage (map snd (at_iteration rows k)))).
Proof.
  intros rows k e er I. unfold average_fp in I. apply in_map_iff in I as (k' & E & I).
  injection E as -> <- <-. apply ratio_real_part. apply group_nonempty; auto.
Qed.

Lemma fp_error : forall rows k e er, In (k, e, er) (average_fp rows) ->
  length (keys rows) = length (at_iteration rows k) ->
  (2 <= length (at_iteration rows k))%nat ->
  (forall p, In p (at_iteration rows k) -> im (fst p) == 0 /\ im (snd p) == 0) ->
  ~ average (map fst (reals (at_iteration rows k))) == 0 ->
  ~ average (map snd (reals (at_iteration rows k))) == 0 ->
  exists e', er = Some e' /\ e' == ratio_err2 (reals (at_iteration rows k)).
Proof.
  intros rows k e er I Hn Hl Him HA HB. unfold average_fp in I.
  apply in_map_iff in I as (k' & E & I). injection E as -> _ <-.
  destruct (error_real _ Hl Him HA HB) as (e' & E1 & E2). exists e'; split; auto.
  rewrite <- E1. unfold len. rewrite Hn, map_length. reflexivity.
Qed.

(** * Averages *)
Lemma sem2_std : forall l, sem2 l == std_err2 l.
Proof.
  intro l. unfold sem2, std_err2, var, len, sq, Qdiv. change mean with average.
  rewrite Qinv_mult_distr. ring.
Qed.

Lemma rdm_mean : forall series skip, fst (average_rdm series skip) = average (skipn skip series).
Proof. reflexivity. Qed.

Lemma rdm_error : forall series skip, (skip < length series)%nat ->
  snd (average_rdm series skip) * q_of_nat (length series)
  == std_err2 (skipn skip series) * q_of_nat (length series - skip).
Proof.
  intros series skip L. cbn [average_rdm snd].
  rewrite <- sem2_std. unfold sem2, len. rewrite skipn_length.
  assert (P : 0 < q_of_nat (length series - skip)).
  { change 0 with (q_of_nat 0). apply q_of_nat_lt. lia. }
  assert (P' : 0 < q_of_nat (length series)).
  { change 0 with (q_of_nat 0). apply q_of_nat_lt. lia. }
  field. split; lra.
Qed.

(** * Equilibration *)
Lemma combine_seq_filter : forall (rows : list Q) (s m : nat) (f : nat * Q -> bool),
  (forall k x, f (k, x) = (s + m <=? k)%nat) ->
  map snd (filter f (combine (seq s (length rows)) rows)) = skipn m rows.
Proof.
  intros rows; induction rows as [|x rows IH]; intros s m f H; simpl; [destruct m; auto|].
  rewrite H. destruct m as [|m].
  - rewrite Nat.add_0_r, Nat.leb_refl. simpl. f_equal.
    rewrite filter_all; [|intros [k y] I; rewrite H; apply in_combine_l in I; apply in_seq in I; lia].
    clear. revert s; induction rows as [|y rows IH]; intro s; simpl; [auto|]. f_equal.
    rewrite <- seq_shift. specialize (IH (S s)). rewrite seq_shift. exact IH.
  - replace (s + S m <=? s)%nat with false by (symmetry; apply Nat.leb_gt; lia).
    simpl. apply IH. intros k y. rewrite H. f_equal. lia.
Qed.

Lemma floor_after : forall start T k, 0 <= start -> 0 < T ->
  Qltb start (q_of_nat k * T) = (Z.to_nat (Qfloor (start / T) + 1) <=? k)%nat.
Proof.
  intros start T k H0 HT.
  assert (P : 0 <= start / T) by (apply Qle_shift_div_l; [auto|]; rewrite Qmult_0_l; auto).
  assert (F0 : (0 <= Qfloor (start / T))%Z).
  { apply Qfloor_resp_le in P. exact P. }
  assert (E : start == start / T * T) by (field; lra).
  pose proof (Qfloor_le (start / T)) as L1. pose proof (Qlt_floor (start / T)) as L2.
  destruct (Nat.leb_spec (Z.to_nat (Qfloor (start / T) + 1)) k) as [L|L].
  - apply Qltb_spec.
    assert (L3 : (Qfloor (start / T) + 1 <= Z.of_nat k)%Z) by lia.
    assert (L4 : inject_Z (Qfloor (start / T) + 1) <= q_of_nat k).
    { unfold q_of_nat. rewrite <- Zle_Qle. exact L3. }
    assert (L5 : start / T < q_of_nat k) by lra.
    rewrite E. apply Qmult_lt_r; auto.
  - apply Qltb_false.
    assert (L3 : (Z.of_nat k <= Qfloor (start / T))%Z) by lia.
    assert (L4 : q_of_nat k <= inject_Z (Qfloor (start / T))).
    { unfold q_of_nat. rewrite <- Zle_Qle. exact L3. }
    rewrite E. apply Qmult_le_compat_r; [|lra]. lra.
Qed.

Lemma slice_floor : forall start T (rows : list Q), 0 <= start -> 0 < T ->
  slice_from (py_int (start / T) + 1) rows = skipn (Z.to_nat (Qfloor (start / T) + 1)) rows.
Proof.
  intros start T rows H0 HT.
  assert (P : 0 <= start / T) by (apply Qle_shift_div_l; [auto|]; rewrite Qmult_0_l; auto).
  assert (F0 : (0 <= Qfloor (start / T))%Z).
  { apply Qfloor_resp_le in P. exact P. }
  unfold py_int. replace (Qltb (start / T) 0) with false by (symmetry; apply Qltb_false; auto).
  unfold slice_from. replace (_ <? 0)%Z with false by lia. reflexivity.
Qed.

Lemma qdiv_ok : forall x y, 0 < y -> qdiv x y = Ok (x / y).
Proof.
  intros x y H. unfold qdiv. destruct (Qeq_bool y 0) eqn:E; auto.
  apply Qeq_bool_eq in E. lra.
Qed.

Lemma retained_right : forall Par (f : out Par) start, 0 <= start ->
  0 < o_nsteps _ f * o_dt _ f -> o_read_rs _ f = false ->
  retained _ start f = Ok (taken_after (o_nsteps _ f * o_dt _ f) 0 start (o_rows _ f)).
Proof.
  intros Par f start H0 HT HR. unfold retained. rewrite qdiv_ok by auto. cbn [rbind].
  rewrite HR, slice_floor by auto. f_equal. unfold taken_after. symmetry.
  apply combine_seq_filter. intros k x. cbn [fst]. rewrite floor_after by auto. reflexivity.
Qed.

Lemma retained_restart : forall Par (f : out Par) start,
  0 < o_nsteps _ f * o_dt _ f -> o_read_rs _ f = true ->
  retained _ start f = Ok (o_rows _ f).
Proof.
  intros Par f start HT HR. unfold retained. rewrite qdiv_ok by auto. cbn [rbind].
  rewrite HR. reflexivity.
Qed.

(* Without the zeroth row one sample too many is dropped, if there is one. *)
Lemma retained_late : forall Par (f : out Par) start, 0 <= start ->
  0 < o_nsteps _ f * o_dt _ f -> o_read_rs _ f = false ->
  exists d, retained _ start f = Ok d /\
    d = tl (taken_after (o_nsteps _ f * o_dt _ f) 1 start (o_rows _ f)).
Proof.
  intros Par f start H0 HT HR. unfold retained. rewrite qdiv_ok by auto. cbn [rbind].
  rewrite HR, slice_floor by auto. eexists; split; [reflexivity|].
  set (T := o_nsteps _ f * o_dt _ f) in *.
  assert (P : 0 <= start / T) by (apply Qle_shift_div_l; [auto|]; rewrite Qmult_0_l; auto).
  assert (F0 : (0 <= Qfloor (start / T))%Z).
  { apply Qfloor_resp_le in P. exact P. }
  unfold taken_after. rewrite (combine_seq_filter _ 0 (Z.to_nat (Qfloor (start / T)))).
  - replace (Z.to_nat (Qfloor (start / T) + 1)) with (S (Z.to_nat (Qfloor (start / T)))) by lia.
    generalize (Z.to_nat (Qfloor (start / T))) (o_rows _ f). intros n l. revert l.
    induction n as [|n IH]; intros [|x l]; simpl; auto. rewrite <- IH. destruct l; auto.
  - intros k x. cbn [fst]. rewrite floor_after by auto.
    apply Bool.eq_iff_eq_true. rewrite !Nat.leb_le. lia.
Qed.

(* A negative start time counts from the end. *)
Lemma retained_negative : forall Par (f : out Par) k, (2 <= k)%nat ->
  0 < o_nsteps _ f * o_dt _ f -> o_read_rs _ f = false ->
  retained _ (- (q_of_nat k * (o_nsteps _ f * o_dt _ f))) f
  = Ok (skipn (length (o_rows _ f) - (k - 1)) (o_rows _ f)).
Proof.
  intros Par f k Hk HT HR. unfold retained. rewrite qdiv_ok by auto. cbn [rbind].
  rewrite HR. f_equal.
  set (T := o_nsteps _ f * o_dt _ f) in *.
  assert (E : - (q_of_nat k * T) / T == inject_Z (- Z.of_nat k)).
  { rewrite inject_Z_opp. unfold q_of_nat. field. intro Z0. rewrite Z0 in HT. inversion HT. }
  unfold py_int.
  replace (Qltb (- (q_of_nat k * T) / T) 0) with true.
  2:{ symmetry. apply Qltb_spec. rewrite E. change 0 with (inject_Z 0). rewrite <- Zlt_Qlt. lia. }
  rewrite E, Qceiling_Z.
  unfold slice_from. replace (_ <? 0)%Z with true by lia. f_equal. lia.
Qed.

Lemma taken_negative : forall T (rows : list Q) start, 0 < T -> start < 0 ->
  taken_after T 0 start rows = rows.
Proof.
  intros T rows start HT H0. unfold taken_after.
  rewrite (combine_seq_filter _ 0 0); [reflexivity|].
  intros k x. cbn [fst]. replace (0 <=? k)%nat with true by lia. apply Qltb_spec.
  apply Qlt_le_trans with 0; auto. apply Qmult_le_0_compat; [|lra].
  unfold q_of_nat. change 0 with (inject_Z 0). rewrite <- Zle_Qle. lia.
Qed.

Lemma back_prop_start : forall f rows tbp start, 0 < tbp -> 0 <= start ->
  extract_data f Energies = Ok rows ->
  exists m e2, analyse_back_prop f tbp start = Ok (m, e2) /\
    m == average (tl rows) /\ e2 == std_err2 (tl rows).
Proof.
  intros f rows tbp start HT H0 HE. unfold analyse_back_prop.
  rewrite qdiv_ok by auto. cbn [rbind]. rewrite HE. cbn [rbind].
  assert (P : 0 <= start / tbp) by (apply Qle_shift_div_l; [auto|]; rewrite Qmult_0_l; auto).
  assert (F0 : (0 <= Qfloor (start / tbp))%Z).
  { apply Qfloor_resp_le in P. exact P. }
  assert (E : Z.min 1 (py_int (start / tbp) + 1) = 1%Z).
  { unfold py_int. replace (Qltb (start / tbp) 0) with false by (symmetry; apply Qltb_false; auto). lia. }
  rewrite E. do 2 eexists; split; [reflexivity|]. split.
  - destruct rows; reflexivity.
  - rewrite <- sem2_std. destruct rows; reflexivity.
Qed.

Lemma back_prop_missing : forall f tbp start, 0 < tbp ->
  (forall d rows, In (d, rows) f -> d <> Energies) ->
  analyse_back_prop f tbp start = Err KeyError.
Proof.
  intros f tbp start HT H. unfold analyse_back_prop. rewrite qdiv_ok by auto. cbn [rbind].
  unfold extract_data. destruct (find _ f) as [[d rows]|] eqn:F; auto.
  apply find_some in F as [I E]. simpl in E. exfalso. apply (H d rows I). destruct d; auto; discriminate.
Qed.

(** * Powers of two *)
Lemma pow_two_loop_spec : forall fuel j n, (n <= 2 ^ j + fuel)%nat ->
  (j = 0 \/ 2 ^ (j - 1) < n)%nat ->
  exists k, pow_two_loop fuel (2 ^ j) n = Ok (2 ^ k)%nat /\ (n <= 2 ^ k)%nat /\
    (k = 0 \/ 2 ^ (k - 1) < n)%nat.
Proof.
  intro fuel; induction fuel as [|fuel IH]; intros j n Hn Hj; cbn [pow_two_loop].
  - replace (2 ^ j <? n)%nat with false by (symmetry; apply Nat.ltb_ge; lia). exists j. split; auto. split; [lia|auto].
  - destruct (Nat.ltb_spec (2 ^ j) n) as [L|L]; [|exists j; auto].
    change (2 * 2 ^ j)%nat with (2 ^ S j)%nat. apply IH.
    + cbn [Nat.pow]. assert (1 <= 2 ^ j)%nat by (clear; induction j; simpl; lia). lia.
    + right. replace (S j - 1)%nat with j by lia. auto.
Qed.

Lemma next_pow_two_right : forall n, exists k, next_pow_two n = Ok (2 ^ k)%nat /\
  (n <= 2 ^ k)%nat /\ forall j, (n <= 2 ^ j)%nat -> (k <= j)%nat.
Proof.
  intro n. destruct (pow_two_loop_spec n 0 n) as (k & E & L & M); [simpl; lia | left; auto |].
  exists k; split; [exact E|]. split; auto. intros j J.
  destruct M as [->|M]; [lia|].
  destruct (le_lt_dec k j) as [|K]; auto.
  assert (2 ^ j <= 2 ^ (k - 1))%nat by (apply Nat.pow_le_mono_r; lia). lia.
Qed.

(** * Correlation times *)
Definition lag (x : list Q) (k : nat) : Q :=
  Qsum (map (fun p => fst p * snd p) (combine x (skipn k x))).

Lemma combine_map : forall A B A' B' (f : A -> A') (g : B -> B') l l',
  combine (map f l) (map g l') = map (fun p => (f (fst p), g (snd p))) (combine l l').
Proof.
  intros A B A' B' f g l; induction l as [|a l IH]; intros [|b l']; simpl; auto. rewrite IH; auto.
Qed.

Lemma lag_cons_0 : forall a x, lag (a :: x) 0 == a * a + lag x 0.
Proof. intros; reflexivity. Qed.

Lemma skipn_nth : forall (x : list Q) k,
  skipn k x = match nth_error x k with Some b => b :: skipn (S k) x | None => [] end.
Proof.
  intro x; induction x as [|a x IH]; intros [|k]; simpl; auto. rewrite IH. destruct (nth_error x k); auto.
Qed.

Lemma lag_beyond : forall x k, (length x <= k)%nat -> lag x k == 0.
Proof.
  intros x k L. unfold lag. rewrite skipn_all2 by auto. destruct x; reflexivity.
Qed.

Lemma lag_cons_S : forall a x k, lag (a :: x) (S k) == a * nth k x 0 + lag x (S k).
Proof.
  intros a x k. destruct (le_lt_dec (length x) k) as [L|L].
  - rewrite !lag_beyond by (simpl; lia). rewrite nth_overflow by auto. ring.
  - unfold lag. change (skipn (S k) (a :: x)) with (skipn k x). rewrite (skipn_nth x k).
    destruct (nth_error x k) as [b|] eqn:E.
    + apply (nth_error_nth _ _ 0) in E. rewrite E. reflexivity.
    + apply nth_error_None in E. lia.
Qed.

Lemma sum_nth : forall x : list Q, map (fun k => nth k x 0) (seq 0 (length x)) = x.
Proof.
  intro x; induction x as [|a x IH]; simpl; auto. f_equal. rewrite <- seq_shift, map_map. exact IH.
Qed.

Lemma lag_total : forall x,
  2 * Qsum (map (lag x) (seq 0 (length x))) - lag x 0 == Qsum x * Qsum x.
Proof.
  intro x; induction x as [|a x IH]; [reflexivity|].
  cbn [length seq map]. rewrite Qsum_cons, <- seq_shift, map_map, lag_cons_0.
  rewrite (Qsum_ext _ _ (fun k => a * nth k x 0 + lag x (S k))) by (intros; apply lag_cons_S).
  rewrite Qsum_add, (Qsum_scale _ (fun k => nth k x 0)), sum_nth.
  assert (E : Qsum (map (fun k => lag x (S k)) (seq 0 (length x)))
              == Qsum (map (lag x) (seq 0 (length x))) - lag x 0).
  { rewrite <- (map_map S (lag x)), seq_shift.
    assert (E : Qsum (map (lag x) (seq 0 (S (length x)))) == Qsum (map (lag x) (seq 0 (length x)))).
    { rewrite seq_S, map_app, Qsum_app. simpl map. rewrite Qsum_cons.
      rewrite (lag_beyond x (0 + length x)) by (simpl; lia). simpl. ring. }
    rewrite <- E. cbn [seq map]. rewrite Qsum_cons. ring. }
  rewrite E, Qsum_cons.
  setoid_replace (Qsum (map (lag x) (seq 0 (length x))))
    with ((Qsum x * Qsum x + lag x 0) / 2) by (rewrite <- IH; field).
  field.
Qed.

Lemma autocov_lag : forall y k, autocov y k = lag (centred y) k.
Proof. reflexivity. Qed.

Lemma autocov_lagged : forall y k, autocov y k = lagged y k.
Proof.
  intros y k. unfold autocov, lagged, centred. cbv zeta.
  rewrite skipn_map, combine_map, map_map. reflexivity.
Qed.

Lemma centred_sum : forall y, y <> [] -> Qsum (centred y) == 0.
Proof.
  intros y H. unfold centred.
  assert (E : Qsum (map (fun x => x + - mean y) y) == Qsum y + q_of_nat (length y) * - mean y).
  { rewrite (Qsum_add _ (fun x => x)), map_id, Qsum_const. reflexivity. }
  unfold Qminus. rewrite E, (sum_average y H). change mean with average. ring.
Qed.

Lemma lag0_zero : forall x, lag x 0 == 0 <-> Forall (fun a => a == 0) x.
Proof.
  intro x; induction x as [|a x IH]; [split; [constructor|reflexivity]|].
  rewrite lag_cons_0.
  assert (N : 0 <= lag x 0).
  { clear. induction x as [|a x IH]; [apply Qle_refl|]. rewrite lag_cons_0.
    assert (0 <= a * a) by nra. lra. }
  assert (N' : 0 <= a * a) by nra.
  split.
  - intro H. assert (Z1 : a * a == 0) by lra. assert (Z2 : lag x 0 == 0) by lra.
    constructor; [|apply IH; auto]. apply Qmult_integral in Z1. tauto.
  - intro H. inversion H as [|? ? H1 H2]; subst. apply IH in H2. rewrite H1, H2. reflexivity.
Qed.

Lemma autocov_constant : forall y, autocov y 0 == 0 <-> constant y.
Proof.
  intro y. rewrite autocov_lag, lag0_zero, Forall_forall. split.
  - intros H a b Ia Ib.
    assert (Ha : a - mean y == 0) by (apply H; unfold centred; apply in_map_iff; eauto).
    assert (Hb : b - mean y == 0) by (apply H; unfold centred; apply in_map_iff; eauto).
    lra.
  - intros H x I. unfold centred in I. apply in_map_iff in I as (a & <- & I).
    assert (E : Qsum y == q_of_nat (length y) * a).
    { rewrite <- (Qsum_const Q a y), <- (sum_id y). apply Qsum_ext. intros; apply H; auto. }
    assert (y <> []) by (destruct y; [destruct I|congruence]).
    pose proof (qlen_pos _ y H0). unfold mean, len. rewrite E. field. lra.
Qed.

Definition tau (y : list Q) (k : nat) : Q := 2 * Qsum (map (acf y) (seq 0 (S k))) - 1.

Lemma tau_correlation : forall y k, ~ autocov y 0 == 0 -> tau y k == correlation_time y k.
Proof.
  intros y k H. unfold tau, correlation_time. cbn [seq map]. rewrite Qsum_cons.
  unfold acf at 1. rewrite (Qsum_ext _ (acf y) (fun i => lagged y i / lagged y 0)).
  - setoid_replace (autocov y 0 / autocov y 0) with 1 by (field; auto). ring.
  - intros i _. unfold acf. rewrite !autocov_lagged. reflexivity.
Qed.

Lemma tau_last : forall y, y <> [] -> ~ autocov y 0 == 0 -> tau y (length y - 1) == 0.
Proof.
  intros y Hy H. unfold tau.
  replace (S (length y - 1)) with (length y) by (destruct y; simpl; [congruence|lia]).
  pose proof (lag_total (centred y)) as T. rewrite centred_sum in T by auto.
  unfold centred in T at 2. rewrite map_length in T.
  assert (E : Qsum (map (acf y) (seq 0 (length y)))
     == / autocov y 0 * Qsum (map (lag (centred y)) (seq 0 (length y)))).
  { rewrite <- Qsum_scale. apply Qsum_ext. intros i _. unfold acf. rewrite autocov_lag. unfold Qdiv. ring. }
  rewrite E. change (lag (centred y) 0) with (autocov y 0) in T.
  setoid_replace (Qsum (map (lag (centred y)) (seq 0 (length y)))) with (autocov y 0 / 2)
    by (setoid_replace (autocov y 0) with (2 * Qsum (map (lag (centred y)) (seq 0 (length y)))) by lra; field).
  field. auto.
Qed.

Lemma tau_0 : forall y, ~ autocov y 0 == 0 -> tau y 0 == 1.
Proof.
  intros y H. unfold tau, acf. simpl. field. auto.
Qed.

Lemma first_false_spec : forall m i,
  match first_false i m with
  | Some k => exists n, k = (i + n)%nat /\ nth_error m n = Some false /\
              forall j, (j < n)%nat -> nth_error m j = Some true
  | None => forall b, In b m -> b = true
  end.
Proof.
  intro m; induction m as [|b m IH]; intro i; simpl; [intros b []|].
  destruct b.
  - specialize (IH (S i)). destruct (first_false (S i) m) as [k|].
    + destruct IH as (n & -> & E & J). exists (S n). split; [lia|]. split; auto.
      intros [|j] L; simpl; auto. apply J; lia.
    + intros b [<-|I]; auto.
  - exists 0%nat. split; [lia|]. split; auto. intros; lia.
Qed.

Lemma below_nth : forall y c k, (k < length y)%nat ->
  nth_error (below (cumulated y) c) k = Some (Qltb (q_of_nat k) (c * tau y k)).
Proof.
  intros y c k L. unfold below, cumulated. rewrite map_length, seq_length.
  assert (E : combine (seq 0 (length y))
       (map (fun k0 => 2 * Qsum (map (acf y) (seq 0 (S k0))) - 1) (seq 0 (length y)))
     = map (fun k => (k, tau y k)) (seq 0 (length y))).
  { generalize (seq 0 (length y)). intro l; induction l as [|a l IH]; cbn [map combine]; auto. rewrite IH; auto. }
  rewrite E, map_map. rewrite nth_error_map, nth_error_seq by auto. reflexivity.
Qed.

Lemma below_length : forall y c, length (below (cumulated y) c) = length y.
Proof. intros. unfold below, cumulated. rewrite map_length, combine_length, !map_length, !seq_length. lia. Qed.

Lemma window_right : forall y c, ~ constant y -> 0 < c ->
  exists k t, autocorr_gw2010 y c = Some t /\ t == correlation_time y k /\ (1 <= k)%nat /\ first_window y c k.
Proof.
  intros y c H Hc.
  assert (A : ~ autocov y 0 == 0) by (rewrite autocov_constant; auto).
  assert (Hy : y <> []) by (intros ->; apply H; intros a b []).
  assert (L : (0 < length y)%nat) by (destruct y; simpl; [congruence|lia]).
  unfold autocorr_gw2010. destruct (Qeq_bool (autocov y 0) 0) eqn:E; [apply Qeq_bool_eq in E; contradiction|].
  pose proof (first_false_spec (below (cumulated y) c) 0) as F.
  destruct (first_false 0 (below (cumulated y) c)) as [k|] eqn:FF.
  - destruct F as (n & -> & N & J).
    assert (Ln : (n < length y)%nat).
    { rewrite <- (below_length y c). apply nth_error_Some. rewrite N. discriminate. }
    assert (W : auto_window (cumulated y) c = n).
    { unfold auto_window.
      replace (existsb (fun b => b) (below (cumulated y) c)) with true.
      - unfold argmin. rewrite FF. reflexivity.
      - symmetry. apply existsb_exists. exists true. split; auto.
        apply (nth_error_In _ 0). rewrite below_nth by auto. f_equal. apply Qltb_spec.
        rewrite tau_0 by auto. change (q_of_nat 0) with 0. lra. }
    rewrite W. exists n. eexists. split; [reflexivity|].
    assert (T : nth n (cumulated y) 0 = tau y n).
    { apply nth_error_nth. unfold cumulated. rewrite nth_error_map, nth_error_seq by auto. reflexivity. }
    rewrite T. rewrite below_nth in N by auto. injection N as N. apply Qltb_false in N.
    split; [apply tau_correlation; auto|].
    split.
    + destruct n as [|n]; [|lia]. rewrite tau_0 in N by auto. change (q_of_nat 0) with 0 in N. lra.
    + split; auto. rewrite <- tau_correlation by auto. split; auto.
      intros j Lj. specialize (J j Lj). rewrite below_nth in J by lia. injection J as J.
      apply Qltb_spec in J. rewrite tau_correlation in J; auto.
  - exfalso.
    assert (N : nth_error (below (cumulated y) c) (length y - 1) = Some (Qltb (q_of_nat (length y - 1)) (c * tau y (length y - 1))))
      by (apply below_nth; lia).
    apply nth_error_In in N. apply F in N. apply Qltb_spec in N. rewrite tau_last in N by auto.
    pose proof (q_of_nat_nonneg (length y - 1)). lra.
Qed.

Lemma constant_nan : forall y c, constant y -> autocorr_gw2010 y c = None.
Proof.
  intros y c H. apply autocov_constant in H. unfold autocorr_gw2010.
  apply Qeq_eq_bool in H. rewrite H. reflexivity.
Qed.

(** * Reblocking *)
Lemma tac_upper : forall y t, ~ constant y -> autocorr_gw2010 y 5 = Some t ->
  5 * t <= q_of_nat (length y) - 1.
Proof.
  intros y t H E. destruct (window_right y 5 H) as (k & t' & E' & T & _ & L & W & _); [reflexivity|].
  rewrite E in E'. injection E' as <-. rewrite T.
  assert (K : (S k <= length y)%nat) by lia. apply q_of_nat_le in K. rewrite q_of_nat_S in K. lra.
Qed.

Lemma square_nonneg : forall x : Q, 0 <= x * x.
Proof. intro; nra. Qed.

Lemma tac_short : forall y t, (length y = 2 \/ length y = 3)%nat -> ~ constant y ->
  autocorr_gw2010 y 5 = Some t -> -(1 # 3) <= t <= 2 # 5.
Proof.
  intros y t Hl H E. pose proof (tac_upper y t H E) as U.
  assert (A : ~ autocov y 0 == 0) by (rewrite autocov_constant; auto).
  assert (Hy : y <> []) by (intros ->; simpl in Hl; lia).
  pose proof (tau_last y Hy A) as TL.
  destruct (window_right y 5 H) as (k & t' & E' & T & K1 & L & W & J); [reflexivity|].
  rewrite E in E'. injection E' as <-.
  split.
  - destruct (Nat.eq_dec k (length y - 1)) as [->|N].
    + rewrite T, <- tau_correlation, TL by auto. discriminate.
    + destruct Hl as [Hl|Hl]; [lia|]. assert (k = 1)%nat by lia. subst k.
      rewrite T, <- tau_correlation by auto.
      pose proof (centred_sum y Hy) as CS.
      destruct y as [|p [|q [|r [|]]]]; try discriminate.
      unfold tau. cbn [seq map Qsum fold_right]. unfold acf. rewrite !autocov_lag in *. revert A CS.
      unfold centred. cbn [map]. generalize (p - mean [p; q; r]) (q - mean [p; q; r]) (r - mean [p; q; r]).
      intros x0 x1 x2 A CS.
      assert (S0 : lag [x0; x1; x2] 0 == x0 * x0 + x1 * x1 + x2 * x2) by (unfold lag; simpl; ring).
      assert (S1 : lag [x0; x1; x2] 1 == x0 * x1 + x1 * x2) by (unfold lag; simpl; ring).
      assert (CS' : x0 + x1 + x2 == 0) by (rewrite <- CS; simpl; ring).
      rewrite S0, S1. rewrite S0 in A.
      set (s := x0 * x0 + x1 * x1 + x2 * x2) in *.
      assert (P : 0 < s).
      { assert (0 <= x0 * x0) by nra. assert (0 <= x1 * x1) by nra. assert (0 <= x2 * x2) by nra.
        apply Qnot_le_lt. intro. apply A. unfold s in *. lra. }
      setoid_replace (2 * (s / s + ((x0 * x1 + x1 * x2) / s + 0)) - 1)
        with ((s + 2 * (x0 * x1 + x1 * x2)) / s) by (field; auto).
      apply Qle_shift_div_l; auto.
      assert (X : x0 == - x1 - x2) by lra. unfold s. rewrite X.
      pose proof (square_nonneg (x1 + 2 * x2)).
      assert (G : (- x1 - x2) * (- x1 - x2) + x1 * x1 + x2 * x2 + 2 * ((- x1 - x2) * x1 + x1 * x2)
              - (-(1#3)) * ((- x1 - x2) * (- x1 - x2) + x1 * x1 + x2 * x2)
              == (2#3) * ((x1 + 2 * x2) * (x1 + 2 * x2))) by ring.
      lra.
  - assert (q_of_nat (length y) <= 3).
    { change 3 with (q_of_nat 3). apply q_of_nat_le. lia. }
    lra.
Qed.

Lemma nanmax_spec : forall l, l <> [] ->
  (forall x, In x l -> x <> None) ->
  exists t, nanmax l = Ok (Some t) /\ In (Some t) l /\ forall u, In (Some u) l -> u <= t.
Proof.
  intros [|x l] H N; [congruence|]. cbn [nanmax].
  assert (Hx : x <> None) by (apply N; left; auto).
  destruct x as [t0|]; [|congruence]. clear H Hx.
  assert (Hl : forall y, In y l -> y <> None) by (intros; apply N; right; auto). clear N.
  revert t0. induction l as [|y l IH]; intro t0.
  - exists t0. split; auto. split; [left; auto|]. intros u [E|[]]. injection E as ->. apply Qle_refl.
  - destruct y as [v|]; [|exfalso; apply (Hl None); [left; auto|auto]]. cbn [fold_left].
    destruct (IH (fun y I => Hl y (or_intror I)) (qmax t0 v)) as (t & E & I & U).
    exists t. split; auto.
    assert (B : t0 <= qmax t0 v /\ v <= qmax t0 v /\ (qmax t0 v = t0 \/ qmax t0 v = v)).
    { unfold qmax. destruct (Qltb_reflect t0 v); repeat split; auto; lra. }
    destruct B as (B1 & B2 & B3).
    assert (Bt : qmax t0 v <= t) by (apply U; left; auto).
    split.
    + destruct I as [I|I]; [|right; right; auto].
      injection I as I. destruct B3 as [B3|B3]; rewrite B3 in I; subst t; [left|right; left]; auto.
    + intros u [E1|[E1|I1]].
      * injection E1 as <-. lra.
      * injection E1 as <-. lra.
      * apply U. right; auto.
Qed.

Lemma nanmax_none : forall l, In None l -> nanmax l = Ok None.
Proof.
  intros [|x l] I; [destruct I|]. cbn [nanmax]. f_equal.
  assert (K : forall l, fold_left (fun a b => match a, b with
                                | Some u, Some v => Some (qmax u v)
                                | _, _ => None
                                end) l None = None).
  { intro l'; induction l' as [|y l' IH]; simpl; auto. }
  destruct I as [->|I]; [apply K|].
  revert x. induction l as [|y l IH]; intro x; [destruct I|]. cbn [fold_left].
  destruct I as [->|I]; [destruct x; apply K|]. apply IH; auto.
Qed.

Lemma round_even_bounds : forall x, inject_Z (round_even x) - (1 # 2) <= x <= inject_Z (round_even x) + (1 # 2).
Proof.
  intro x. unfold round_even. pose proof (Qfloor_le x) as L. pose proof (Qlt_floor x) as U.
  rewrite inject_Z_plus in U. change (inject_Z 1) with 1 in U.
  destruct (Qltb_reflect (x - inject_Z (Qfloor x)) (1 # 2)); [lra|].
  destruct (Qltb_reflect (1 # 2) (x - inject_Z (Qfloor x))).
  - rewrite inject_Z_plus. change (inject_Z 1) with 1. lra.
  - destruct (Z.even (Qfloor x)); [lra|]. rewrite inject_Z_plus. change (inject_Z 1) with 1. lra.
Qed.

(* Prefixes looked at. *)
Definition prefixes (y : list Q) : list nat :=
  map (fun i => (length y / 2 ^ i)%nat) (seq 0 (Nat.log2 (length y))).

Lemma prefix_small : forall y k p, p = (length y / 2 ^ k)%nat -> (2 <= p < 4)%nat ->
  k = (Nat.log2 (length y) - 1)%nat /\ (1 <= Nat.log2 (length y))%nat /\ In p (prefixes y) /\
  forall n, In n (prefixes y) -> (p <= n <= length y)%nat.
Proof.
  intros y k p Hp Hb.
  assert (P2 : (0 < 2 ^ k)%nat) by (apply Nat.neq_0_lt_0, Nat.pow_nonzero; lia).
  assert (B : (2 ^ S k <= length y < 2 ^ S (S k))%nat).
  { cbn [Nat.pow]. pose proof (Nat.div_mod (length y) (2 ^ k)) as D.
    pose proof (Nat.mod_upper_bound (length y) (2 ^ k)) as M. rewrite <- Hp in D.
    assert (length y = 2 ^ k * p + length y mod 2 ^ k)%nat by (apply D; lia).
    assert (length y mod 2 ^ k < 2 ^ k)%nat by (apply M; lia).
    nia. }
  assert (Lg : Nat.log2 (length y) = S k) by (apply Nat.log2_unique; lia).
  rewrite Lg. split; [lia|]. split; [lia|]. split.
  - unfold prefixes. rewrite Lg. apply in_map_iff. exists k. split; auto. apply in_seq. lia.
  - intros n I. unfold prefixes in I. rewrite Lg in I. apply in_map_iff in I as (i & <- & I).
    apply in_seq in I. split.
    + rewrite Hp. apply Nat.div_le_compat_l. split; [|apply Nat.pow_le_mono_r; lia].
      apply Nat.neq_0_lt_0, Nat.pow_nonzero; lia.
    + apply Nat.div_le_upper_bound; [apply Nat.pow_nonzero; lia|].
      assert (1 <= 2 ^ i)%nat by (apply Nat.neq_0_lt_0, Nat.pow_nonzero; lia). nia.
Qed.

Lemma in_firstn_le : forall (y : list Q) m n x, (m <= n)%nat -> In x (firstn m y) -> In x (firstn n y).
Proof.
  intros y m n x L I. rewrite <- (firstn_skipn m (firstn n y)), firstn_firstn.
  replace (min m n) with m by lia. apply in_or_app; left; auto.
Qed.

Lemma firstn_constant : forall y m n, (m <= n)%nat -> constant (firstn n y) -> constant (firstn m y).
Proof.
  intros y m n L H a b Ia Ib. apply H; eapply in_firstn_le; eauto.
Qed.

Lemma blocks_sum : forall b nb (y : list Q), (nb * b <= length y)%nat -> (1 <= b)%nat ->
  Qsum (map (fun i => mean (firstn b (skipn (i * b) y))) (seq 0 nb)) * q_of_nat b
  == Qsum (firstn (nb * b) y).
Proof.
  intros b nb; induction nb as [|nb IH]; intros y L Hb; [reflexivity|].
  cbn [seq map]. rewrite Qsum_cons, <- seq_shift, map_map.
  assert (E : Qsum (map (fun i => mean (firstn b (skipn (S i * b) y))) (seq 0 nb))
            = Qsum (map (fun i => mean (firstn b (skipn (i * b) (skipn b y)))) (seq 0 nb))).
  { f_equal. apply map_ext. intro i. do 2 f_equal. rewrite <- (firstn_skipn b y) at 1.
    rewrite skipn_app. rewrite firstn_length. rewrite skipn_all2 by (rewrite firstn_length; simpl; lia).
    simpl. f_equal. simpl in L. lia. }
  rewrite E. rewrite Qmult_plus_distr_l, IH by (rewrite ?skipn_length; simpl in *; lia).
  change (skipn (0 * b) y) with y.
  replace (S nb * b)%nat with (b + nb * b)%nat by lia.
  assert (E2 : firstn (b + nb * b) y = firstn b y ++ firstn (nb * b) (skipn b y)).
  { rewrite <- (firstn_skipn b y) at 1.
    assert (Lb : length (firstn b y) = b) by (apply firstn_length_le; simpl in L; lia).
    rewrite <- Lb at 1. apply firstn_app_2. }
  rewrite E2, Qsum_app. unfold mean, len. rewrite firstn_length_le by (simpl in L; lia).
  assert (0 < q_of_nat b) by (change 0 with (q_of_nat 0); apply q_of_nat_lt; lia).
  field. lra.
Qed.

Definition tac_list (y : list Q) : list (option Q) := map (fun n => autocorr_gw2010 (firstn n y) 5) (prefixes y).

Lemma tac_list_in : forall y k p, p = (length y / 2 ^ k)%nat -> (2 <= p < 4)%nat ->
  ~ constant (firstn p y) ->
  exists t, nanmax (tac_list y) = Ok (Some t) /\ -(1 # 3) <= t /\
    5 * t <= q_of_nat (length y) - 1.
Proof.
  intros y k p Hp Hb H.
  destruct (prefix_small y k p Hp Hb) as (_ & _ & Ip & Bn).
  assert (NC : forall n, In n (prefixes y) -> ~ constant (firstn n y)).
  { intros n I C. apply H. eapply firstn_constant; [|exact C]. apply Bn; auto. }
  destruct (nanmax_spec (tac_list y)) as (t & E & I & U).
  - unfold tac_list. intro Z. apply map_eq_nil in Z. rewrite Z in Ip. destruct Ip.
  - intros x Ix. unfold tac_list in Ix. apply in_map_iff in Ix as (n & <- & In').
    destruct (window_right _ 5 (NC n In')) as (j & u & E & _); [reflexivity|]. rewrite E. discriminate.
  - exists t. split; auto. split.
    + destruct (window_right _ 5 (NC p Ip)) as (j & u & E' & _); [reflexivity|].
      assert (Iu : In (Some u) (tac_list y)).
      { unfold tac_list. rewrite <- E'. apply in_map with (f := fun n => autocorr_gw2010 (firstn n y) 5). auto. }
      apply U in Iu. destruct (Bn p Ip) as [_ Lp].
      assert (Hs : -(1 # 3) <= u <= 2 # 5).
      { apply (tac_short (firstn p y)); auto. rewrite firstn_length_le by auto. lia. }
      lra.
    + unfold tac_list in I. apply in_map_iff in I as (n & E' & I).
      pose proof (tac_upper _ _ (NC n I) E') as T. destruct (Bn n I) as [_ Ln].
      rewrite firstn_length_le in T by auto. apply q_of_nat_le in Ln. lra.
Qed.

Lemma div_blocks : forall n b, (1 <= b)%nat -> (n / b * b <= n < (n / b + 1) * b)%nat.
Proof.
  intros n b H. pose proof (Nat.div_mod n b) as D. pose proof (Nat.mod_upper_bound n b) as M.
  assert (n = b * (n / b) + n mod b)%nat by (apply D; lia). assert (n mod b < b)%nat by (apply M; lia). nia.
Qed.

Lemma reblock_spec : forall y k p, p = (length y / 2 ^ k)%nat -> (2 <= p < 4)%nat ->
  ~ constant (firstn p y) ->
  reblock_by_autocorr y = Err ZeroDivisionError \/
  exists r b nb, reblock_by_autocorr y = Ok r /\ r_size r = Z.of_nat b /\ r_nblocks r = Z.of_nat nb /\
    (1 <= b)%nat /\ (3 <= nb)%nat /\ (nb * b <= length y < (nb + 1) * b)%nat /\
    r_mean r == average (firstn (nb * b) y) /\
    r_err2 r * q_of_nat nb == std_err2 (block_means b y) * (q_of_nat nb - 1).
Proof.
  intros y k p Hp Hb H. destruct (tac_list_in y k p Hp Hb H) as (t & E & L & U).
  assert (Ly : (2 <= length y)%nat).
  { destruct (prefix_small y k p Hp Hb) as (_ & _ & Ip & Bn). apply Bn in Ip. lia. }
  unfold reblock_by_autocorr.
  destruct (Nat.eqb_spec (length y) 0) as [Z|_]; [lia|].
  fold (prefixes y). fold (tac_list y). cbv zeta. rewrite E. cbn [rbind].
  pose proof (round_even_bounds t) as [R1 R2].
  set (B := round_even t) in *.
  assert (B0 : (0 <= B)%Z).
  { assert (X : inject_Z (-1) < inject_Z B).
    { change (inject_Z (-1)) with (-1). lra. }
    rewrite <- Zlt_Qlt in X. lia. }
  destruct (Z.eqb_spec B 0) as [_|NZ]; [left; reflexivity|right].
  replace (B <? 0)%Z with false by lia.
  assert (B1 : (1 <= Z.to_nat B)%nat) by lia.
  assert (EB : inject_Z B = q_of_nat (Z.to_nat B)).
  { unfold q_of_nat. rewrite Z2Nat.id by lia. reflexivity. }
  set (b := Z.to_nat B) in *. set (nb := (length y / b)%nat).
  pose proof (div_blocks (length y) b B1) as D. fold nb in D.
  assert (N3 : (3 <= nb)%nat).
  { assert (X : (3 * b <= length y)%nat).
    { apply q_of_nat_le. rewrite q_of_nat_mult. change (q_of_nat 3) with 3. rewrite EB in R1, R2.
      assert (b1 : 1 <= q_of_nat b) by (change 1 with (q_of_nat 1); apply q_of_nat_le; lia).
      destruct (Nat.eq_dec (length y) 2) as [E2|N2].
      - rewrite E2 in U. change (q_of_nat 2) with 2 in U. lra.
      - assert (X : (3 <= length y)%nat) by lia. apply q_of_nat_le in X. change (q_of_nat 3) with 3 in X. lra. }
    unfold nb. apply Nat.div_le_lower_bound; lia. }
  eexists. exists b, nb. split; [reflexivity|]. cbn [r_size r_nblocks r_mean r_err2].
  split; [unfold b; lia|]. split; [reflexivity|]. split; auto. split; auto. split; auto.
  assert (Pn : 3 <= q_of_nat nb) by (change 3 with (q_of_nat 3); apply q_of_nat_le; lia).
  assert (Pb : 1 <= q_of_nat b) by (change 1 with (q_of_nat 1); apply q_of_nat_le; lia).
  split.
  - unfold mean at 1. unfold average, len. rewrite map_length, seq_length.
    rewrite firstn_length_le by lia. rewrite <- (blocks_sum b nb y) by lia. rewrite q_of_nat_mult.
    field. split; lra.
  - unfold block_means. fold nb.
    assert (EM : map (fun i => average (firstn b (skipn (i * b) y))) (seq 0 nb)
               = map (fun i => mean (firstn b (skipn (i * b) y))) (seq 0 nb)) by reflexivity.
    rewrite EM. set (l := map _ (seq 0 nb)).
    assert (Ll : length l = nb) by (unfold l; rewrite map_length, seq_length; auto).
    unfold var, std_err2, sq, len. change mean with average. rewrite Ll. field. split; lra.
Qed.

Lemma reblock_constant : forall y k p, p = (length y / 2 ^ k)%nat -> (2 <= p < 4)%nat ->
  constant (firstn p y) -> reblock_by_autocorr y = Err ValueError.
Proof.
  intros y k p Hp Hb H. destruct (prefix_small y k p Hp Hb) as (_ & _ & Ip & Bn).
  unfold reblock_by_autocorr.
  destruct (Nat.eqb_spec (length y) 0) as [Z|_]; [apply Bn in Ip; lia|].
  fold (prefixes y). fold (tac_list y). cbv zeta. rewrite nanmax_none; auto.
  unfold tac_list. rewrite <- (constant_nan (firstn p y) 5 H).
  apply in_map with (f := fun n => autocorr_gw2010 (firstn n y) 5). auto.
Qed.

Lemma reblock_short : forall y, (length y = 2 \/ length y = 3)%nat -> ~ constant y ->
  reblock_by_autocorr y = Err ZeroDivisionError.
Proof.
  intros y Hl H.
  assert (Lg : Nat.log2 (length y) = 1%nat) by (destruct Hl as [->| ->]; reflexivity).
  unfold reblock_by_autocorr. destruct (Nat.eqb_spec (length y) 0) as [Z|_]; [lia|].
  rewrite Lg. cbv zeta. cbn [seq map Nat.pow]. rewrite Nat.div_1_r, firstn_all.
  destruct (window_right y 5 H) as (k & t & E & _); [reflexivity|]. rewrite E. cbn [nanmax fold_left rbind].
  pose proof (tac_short y t Hl H E) as [L U]. pose proof (round_even_bounds t) as [R1 R2].
  assert (B : round_even t = 0%Z).
  { assert (X : inject_Z (-1) < inject_Z (round_even t)) by (change (inject_Z (-1)) with (-1); lra).
    assert (X' : inject_Z (round_even t) < inject_Z 1) by (change (inject_Z 1) with 1; lra).
    rewrite <- Zlt_Qlt in X, X'. lia. }
  rewrite B. reflexivity.
Qed.

Lemma reblock_single : forall x, reblock_by_autocorr [x] = Err ValueError.
Proof. reflexivity. Qed.

(** * Several files *)
Lemma retained_all_spec : forall Par start (files : list (out Par)), 0 <= start ->
  (forall f, In f files -> 0 < o_nsteps _ f * o_dt _ f /\ o_read_rs _ f = false) ->
  retained_all _ start files
  = Ok (map (fun f => (o_par _ f, taken_after (o_nsteps _ f * o_dt _ f) 0 start (o_rows _ f))) files).
Proof.
  intros Par start files H0; induction files as [|f files IH]; intro H; cbn [retained_all map]; auto.
  destruct (H f) as [HT HR]; [left; auto|].
  rewrite retained_right by auto. cbn [rbind]. rewrite IH by (intros; apply H; right; auto). reflexivity.
Qed.

Lemma estimates_one : forall Par par_eq start (files : list (out Par)) f, 0 <= start ->
  (forall g, In g (f :: files) -> 0 < o_nsteps _ g * o_dt _ g /\ o_read_rs _ g = false) ->
  (forall g, In g (f :: files) -> par_eq (o_par _ f) (o_par _ g) = true) ->
  analyse_estimates _ par_eq false start (f :: files)
  = reblock_by_autocorr (concat (map (fun g =>
      taken_after (o_nsteps _ g * o_dt _ g) 0 start (o_rows _ g)) (f :: files))).
Proof.
  intros Par par_eq start files f H0 H P. unfold analyse_estimates.
  rewrite retained_all_spec by auto. cbn [rbind map].
  replace (forallb _ _) with true.
  - rewrite map_map. reflexivity.
  - symmetry. apply forallb_forall. intros [p d] I. change ((o_par _ f, taken_after (o_nsteps _ f * o_dt _ f) 0 start (o_rows _ f))
      :: map (fun f0 => (o_par _ f0, taken_after (o_nsteps _ f0 * o_dt _ f0) 0 start (o_rows _ f0))) files)
      with (map (fun f0 => (o_par _ f0, taken_after (o_nsteps _ f0 * o_dt _ f0) 0 start (o_rows _ f0))) (f :: files)) in I.
    apply in_map_iff in I as (g & E & I). injection E as <- _. apply P; auto.
Qed.

Lemma estimates_several : forall Par par_eq start (files : list (out Par)) f g, 0 <= start ->
  (forall g, In g (f :: files) -> 0 < o_nsteps _ g * o_dt _ g /\ o_read_rs _ g = false) ->
  In g files -> par_eq (o_par _ f) (o_par _ g) = false ->
  analyse_estimates _ par_eq false start (f :: files) = Err ValueError.
Proof.
  intros Par par_eq start files f g H0 H I P. unfold analyse_estimates.
  rewrite retained_all_spec by auto. cbn [rbind map].
  replace (forallb _ _) with false; auto.
  symmetry. apply Bool.not_true_iff_false. intro F. rewrite forallb_forall in F.
  specialize (F (o_par _ g, taken_after (o_nsteps _ g * o_dt _ g) 0 start (o_rows _ g))).
  cbn [fst] in F. rewrite P in F. discriminate F. right.
  apply (in_map (fun f => (o_par _ f, taken_after (o_nsteps _ f * o_dt _ f) 0 start (o_rows _ f)))). auto.
Qed.

Lemma estimates_fp : forall Par par_eq start (files : list (out Par)), 0 <= start ->
  files <> [] ->
  (forall g, In g files -> 0 < o_nsteps _ g * o_dt _ g /\ o_read_rs _ g = false) ->
  analyse_estimates _ par_eq true start files = Err TypeError.
Proof.
  intros Par par_eq start [|f files] H0 N H; [congruence|]. unfold analyse_estimates.
  rewrite retained_all_spec by auto. reflexivity.
Qed.

Lemma auto_window_all : forall taus c, (forall k t, nth_error taus k = Some t -> q_of_nat k < c * t) ->
  auto_window taus c = 0%nat.
Proof.
  intros taus c H. unfold auto_window, argmin.
  pose proof (first_false_spec (below taus c) 0) as F.
  destruct (first_false 0 (below taus c)) as [k|].
  - exfalso. destruct F as (n & _ & N & _). unfold below in N. rewrite nth_error_map in N.
    destruct (nth_error (combine (seq 0 (length taus)) taus) n) as [[i t]|] eqn:E; [|discriminate].
    injection N as N. apply Qltb_false in N. cbn [fst snd] in N.
    assert (E2 : nth_error taus n = Some t /\ i = n).
    { clear - E. revert E. change n with (0 + n)%nat at 3. generalize 0%nat as s. revert n.
      induction taus as [|a taus IH]; intros [|n] s E; cbn [length seq combine nth_error] in E; try discriminate.
      - injection E as <- <-. split; [reflexivity|lia].
      - apply IH in E as [E1 E2]. split; [exact E1|lia]. }
    destruct E2 as [E2 ->]. apply H in E2. lra.
  - destruct (existsb _ _) eqn:X; auto.
    destruct taus as [|a taus]; auto. exfalso.
    assert (existsb (fun b => b) (below (a :: taus) c) = true); [|congruence].
    apply existsb_exists. exists true; split; auto.
    assert (I : In (Qltb (q_of_nat 0) (c * a)) (below (a :: taus) c)) by (left; reflexivity).
    rewrite (F _ I) in I. exact I.
Qed.
