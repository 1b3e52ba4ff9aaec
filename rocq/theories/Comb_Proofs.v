From Verif Require Import BaseFacts Comb_Model Comb_Spec.
Open Scope nat_scope.

(** ** Cumulative sums *)
Definition lo (w : list Q) (i : nat) : Q := Qsum (firstn i w).

Lemma cumsum_from_nth acc w i :
  i < length w -> exists c, nth_error (cumsum_from acc w) i = Some c /\ (c == acc + lo w (S i))%Q.
Proof.
  revert acc i; induction w as [|x w IH]; intros acc i H; simpl in H; [lia|].
  destruct i as [|i].
  - simpl. eexists; split; [reflexivity|]. unfold lo; simpl. lra.
  - simpl. destruct (IH (acc + x)%Q i) as [c [E C]]; [lia|].
    exists c; split; [exact E|]. rewrite C. unfold lo. simpl. destruct w; simpl; lra.
Qed.

Lemma cumsum_nth w i :
  i < length w -> exists c, nth_error (cumsum w) i = Some c /\ (c == lo w (S i))%Q.
Proof.
  intros H. destruct (cumsum_from_nth 0 w i H) as [c [E C]].
  exists c; split; [exact E|]. rewrite C. lra.
Qed.

Lemma lo_step w i : i < length w -> (lo w (S i) == lo w i + nth i w 0)%Q.
Proof.
  unfold lo. revert i; induction w as [|x w IH]; intros i H; simpl in H; [lia|].
  destruct i as [|i]; [simpl; lra|].
  change (firstn (S (S i)) (x :: w)) with (x :: firstn (S i) w).
  change (firstn (S i) (x :: w)) with (x :: firstn i w).
  change (Qsum (x :: firstn (S i) w)) with (x + Qsum (firstn (S i) w))%Q.
  change (Qsum (x :: firstn i w)) with (x + Qsum (firstn i w))%Q.
  rewrite IH by lia. simpl. lra.
Qed.

Lemma lo_mono w i j :
  Forall (fun x => 0 <= x)%Q w -> i <= j -> (lo w i <= lo w j)%Q.
Proof.
  intros Hw Hij. induction Hij as [|j Hij IH]; [lra|].
  destruct (Nat.lt_ge_cases j (length w)) as [L|L].
  - rewrite lo_step by assumption.
    assert (0 <= nth j w 0)%Q.
    { rewrite Forall_forall in Hw. apply Hw. apply nth_In. assumption. }
    lra.
  - unfold lo in *. rewrite (firstn_all2 (n := S j)) by lia. rewrite (firstn_all2 (n := j)) in IH by lia. exact IH.
Qed.

Lemma lo_0 w : lo w 0 = 0%Q. Proof. reflexivity. Qed.
Lemma lo_all w : lo w (length w) = Qsum w.
Proof. unfold lo. rewrite firstn_all. reflexivity. Qed.

(** ** Number of teeth in the interval of walker [i] *)
Definition in_iv (a b t : Q) : bool := Qle_bool a t && Qltb t b.
Definition cnt (a b : Q) (l : list Q) : nat := length (filter (in_iv a b) l).

Lemma in_iv_spec a b t : in_iv a b t = true <-> (a <= t)%Q /\ (t < b)%Q.
Proof. unfold in_iv. rewrite andb_true_iff, Qle_bool_iff, Qltb_spec. reflexivity. Qed.

Lemma incr_length i l : length (incr i l) = length l.
Proof. unfold incr. destruct (nth_error l i); [apply length_upd|reflexivity]. Qed.

Lemma incr_nth i l j : i < length l -> nth j (incr i l) 0 = nth j l 0 + (if Nat.eqb i j then 1 else 0).
Proof.
  intros H. unfold incr. destruct (nth_error l i) as [n|] eqn:E.
  2:{ apply nth_error_None in E. lia. }
  rewrite (nth_error_nth l i 0 E) || idtac.
  destruct (Nat.eqb_spec i j) as [->|D].
  - erewrite nth_error_nth by (apply nth_error_upd_eq; assumption).
    erewrite nth_error_nth by exact E. lia.
  - rewrite Nat.add_0_r. destruct (nth_error l j) as [m|] eqn:F.
    + erewrite nth_error_nth by (rewrite nth_error_upd_ne by assumption; exact F).
      symmetry. erewrite nth_error_nth by exact F. reflexivity.
    + assert (length l <= j) by (apply nth_error_None; assumption).
      rewrite !nth_overflow; rewrite ?length_upd; auto.
Qed.

Lemma skipn_nth_error {A} (l : list A) i x :
  nth_error l i = Some x -> skipn i l = x :: skipn (S i) l.
Proof.
  revert i; induction l as [|y l IH]; intros [|i] H; simpl in *; try discriminate.
  - congruence.
  - apply IH in H. exact H.
Qed.

Lemma comb_loop_spec w comb :
  Forall (fun x => 0 <= x)%Q w ->
  (forall i j t u, i <= j -> nth_error comb i = Some t -> nth_error comb j = Some u -> (t <= u)%Q) ->
  (forall j t, nth_error comb j = Some t -> (t < lo w (length w))%Q) ->
  forall fuel parent ic iw,
  (length comb - ic) + (length w - iw) <= fuel ->
  iw < length w \/ length comb <= ic ->
  length parent = length w ->
  (forall j t, ic <= j -> nth_error comb j = Some t -> (lo w iw <= t)%Q) ->
  exists out, comb_loop fuel comb (cumsum w) parent ic iw = Ok out
    /\ length out = length w
    /\ forall i, i < length w ->
         nth i out 0 = nth i parent 0 + cnt (lo w i) (lo w (S i)) (skipn ic comb).
Proof.
  intros Hw Hsort Htop. induction fuel as [|fuel IH]; intros parent ic iw Hf Hiw Hlen Hlo.
  - assert (length comb <= ic) by lia.
    exists parent. simpl. destruct (Nat.ltb_spec ic (length comb)); [lia|].
    split; [reflexivity|]. split; [assumption|]. intros i Hi.
    rewrite skipn_all2 by assumption. unfold cnt; simpl. lia.
  - simpl. destruct (Nat.ltb_spec ic (length comb)) as [Hic|Hic].
    2:{ exists parent. split; [reflexivity|]. split; [assumption|]. intros i Hi.
        rewrite skipn_all2 by assumption. unfold cnt; simpl. lia. }
    destruct Hiw as [Hiw|]; [|lia].
    destruct (nth_error comb ic) as [t|] eqn:Et.
    2:{ apply nth_error_None in Et. lia. }
    destruct (cumsum_nth w iw Hiw) as [c [Ec Hc]]. rewrite Ec.
    destruct (Qltb t c) eqn:Elt.
    + apply Qltb_spec in Elt.
      destruct (IH (incr iw parent) (S ic) iw) as [out [E [L N]]].
      * lia.
      * left; assumption.
      * rewrite incr_length; assumption.
      * intros j u Hj Hu. apply (Hlo j u); [lia|assumption].
      * exists out. split; [exact E|]. split; [exact L|]. intros i Hi.
        rewrite N by assumption. rewrite incr_nth by lia.
        rewrite (skipn_nth_error comb ic t Et). unfold cnt; cbn [filter].
        pose proof (Hlo ic t (Nat.le_refl _) Et) as Ht.
        destruct (Nat.eqb_spec iw i) as [->|D].
        -- assert (in_iv (lo w i) (lo w (S i)) t = true) as ->
             by (apply in_iv_spec; split; [assumption|lra]).
           simpl. lia.
        -- assert (in_iv (lo w i) (lo w (S i)) t = false) as ->.
           { apply not_true_iff_false. rewrite in_iv_spec. intros [A B].
             assert (i < iw \/ S iw <= i) as [C|C] by lia.
             - pose proof (lo_mono w (S i) iw Hw C). lra.
             - pose proof (lo_mono w (S iw) i Hw C). lra. }
           lia.
    + apply Qltb_false in Elt.
      assert (Hnext : S iw < length w).
      { assert (S iw <> length w); [|lia]. intros Eq.
        pose proof (Htop ic t Et) as B. rewrite <- Eq in B. lra. }
      destruct (IH parent ic (S iw)) as [out [E [L N]]].
      * lia.
      * left; assumption.
      * assumption.
      * intros j u Hj Hu. pose proof (Hsort ic j t u Hj Et Hu). lra.
      * exists out. auto.
Qed.

(** ** Counting grid points *)
Lemma filter_seq_length p lo0 hi0 N s :
  lo0 <= hi0 -> s <= lo0 -> hi0 <= s + N ->
  (forall j, s <= j < s + N -> p j = true <-> lo0 <= j < hi0) ->
  length (filter p (seq s N)) = hi0 - lo0.
Proof.
  revert s lo0. induction N as [|N IH]; intros s lo0 H1 H2 H3 H4; simpl; [lia|].
  destruct (Nat.eq_dec s lo0) as [->|D].
  - destruct (Nat.eq_dec lo0 hi0) as [->|D2].
    + assert (p hi0 = false) as -> by (apply not_true_iff_false; rewrite H4 by lia; lia).
      assert (forall l, (forall j, In j l -> p j = false) -> filter p l = []) as Hnil.
      { clear. induction l as [|x l IHl]; intros H; simpl; [reflexivity|].
        rewrite (H x) by (left; reflexivity). apply IHl. intros; apply H; right; assumption. }
      rewrite Hnil; [simpl; lia|]. intros j Hj. apply in_seq in Hj.
      apply not_true_iff_false. rewrite H4 by lia. lia.
    + assert (p lo0 = true) as -> by (apply H4; lia). simpl.
      rewrite (IH (S lo0) (S lo0)); [lia|lia|lia|lia|]. intros j Hj. rewrite H4 by lia. lia.
  - assert (p s = false) as -> by (apply not_true_iff_false; rewrite H4 by lia; lia).
    rewrite (IH (S s) lo0); [lia|lia|lia|lia|]. intros j Hj. apply H4. lia.
Qed.

Lemma Qceiling_le_iff (x : Q) (z : Z) : (Qceiling x <= z)%Z <-> (x <= inject_Z z)%Q.
Proof.
  split; intros H.
  - apply Qle_trans with (inject_Z (Qceiling x)); [apply Qle_ceiling|]. rewrite <- Zle_Qle. exact H.
  - rewrite <- (Qceiling_Z z). apply Qceiling_resp_le. exact H.
Qed.

Definition grid_count (a b r : Q) (N : nat) : nat :=
  length (filter (fun j => in_iv a b (q_of_nat j + r)%Q) (seq 0 N)).

Lemma grid_count_ceil a b r N :
  (0 <= a)%Q -> (a <= b)%Q -> (b <= q_of_nat N)%Q -> (0 <= r)%Q -> (r < 1)%Q ->
  Z.of_nat (grid_count a b r N) = (Qceiling (b - r) - Qceiling (a - r))%Z.
Proof.
  intros Ha Hab Hb Hr Hr1. unfold grid_count.
  assert (La : (0 <= Qceiling (a - r))%Z).
  { assert (~ (Qceiling (a - r) <= -1)%Z); [|lia]. rewrite Qceiling_le_iff.
    change (inject_Z (-1)) with (-(1))%Q. lra. }
  assert (Lab : (Qceiling (a - r) <= Qceiling (b - r))%Z) by (apply Qceiling_resp_le; lra).
  assert (Lb : (Qceiling (b - r) <= Z.of_nat N)%Z).
  { apply Qceiling_le_iff. unfold q_of_nat in Hb. lra. }
  rewrite (filter_seq_length _ (Z.to_nat (Qceiling (a - r))) (Z.to_nat (Qceiling (b - r))) N 0); try lia.
  intros j Hj. rewrite in_iv_spec. unfold q_of_nat.
  assert (E1 : (a <= inject_Z (Z.of_nat j) + r)%Q <-> (Qceiling (a - r) <= Z.of_nat j)%Z).
  { rewrite Qceiling_le_iff. split; intros; lra. }
  assert (E2 : (inject_Z (Z.of_nat j) + r < b)%Q <-> ~ (Qceiling (b - r) <= Z.of_nat j)%Z).
  { rewrite Qceiling_le_iff. split; intros; [intros ?|]; lra. }
  rewrite E1, E2. lia.
Qed.

Lemma ceil_diff_bounds (a b r : Q) :
  (Qfloor (b - a) <= Qceiling (b - r) - Qceiling (a - r) <= Qceiling (b - a))%Z.
Proof.
  pose proof (Qle_ceiling (b - r)) as B1. pose proof (Qceiling_lt (b - r)) as B2.
  pose proof (Qle_ceiling (a - r)) as A1. pose proof (Qceiling_lt (a - r)) as A2.
  set (cb := Qceiling (b - r)) in *. set (ca := Qceiling (a - r)) in *.
  pose proof (Qfloor_le (b - a)) as F1. pose proof (Qle_ceiling (b - a)) as C1.
  set (f := Qfloor (b - a)) in *. set (c := Qceiling (b - a)) in *.
  assert (E1 : (inject_Z (cb - 1) == inject_Z cb - 1)%Q)
    by (unfold Zminus; rewrite inject_Z_plus; reflexivity).
  assert (E2 : (inject_Z (ca - 1) == inject_Z ca - 1)%Q)
    by (unfold Zminus; rewrite inject_Z_plus; reflexivity).
  rewrite E1 in B2. rewrite E2 in A2.
  split.
  - assert (H : (inject_Z f < inject_Z (cb - ca + 1))%Q).
    { unfold Zminus. rewrite !inject_Z_plus, inject_Z_opp. change (inject_Z 1) with 1%Q. lra. }
    rewrite <- Zlt_Qlt in H. lia.
  - assert (H : (inject_Z (cb - ca) < inject_Z (c + 1))%Q).
    { unfold Zminus. rewrite !inject_Z_plus, inject_Z_opp. change (inject_Z 1) with 1%Q. lra. }
    rewrite <- Zlt_Qlt in H. lia.
Qed.

(** ** Teeth *)
Lemma teeth_nth r total target j :
  nth_error (teeth r total target) j =
  if j <? target then Some ((q_of_nat j + r) * (total / q_of_nat target))%Q else None.
Proof.
  unfold teeth. destruct (Nat.ltb_spec j target) as [H|H].
  - erewrite map_nth_error; [reflexivity|].
    rewrite nth_error_seq by assumption. reflexivity.
  - apply nth_error_None. rewrite map_length, seq_length. assumption.
Qed.

Lemma filter_ext_length {A} (p q : A -> bool) l :
  (forall x, In x l -> p x = q x) -> length (filter p l) = length (filter q l).
Proof. intros H. f_equal. apply filter_ext_in. exact H. Qed.

Lemma length_filter_map {A B} (p : B -> bool) (f : A -> B) l :
  length (filter p (map f l)) = length (filter (fun x => p (f x)) l).
Proof. induction l as [|x l IH]; simpl; [reflexivity|]. destruct (p (f x)); simpl; congruence. Qed.

Lemma cnt_teeth a b r total target :
  (0 < total)%Q -> 0 < target ->
  cnt a b (teeth r total target) =
  grid_count (a * q_of_nat target / total) (b * q_of_nat target / total) r target.
Proof.
  intros Ht Hn. unfold cnt, teeth, grid_count. rewrite length_filter_map.
  apply filter_ext_length. intros j _.
  assert (Hq : (0 < q_of_nat target)%Q) by (change 0%Q with (q_of_nat 0); apply q_of_nat_lt; lia).
  set (n := q_of_nat target) in *. set (x := (q_of_nat j + r)%Q).
  assert (Hs : (0 < total / n)%Q).
  { apply Qlt_shift_div_l; [assumption|]. lra. }
  assert (E : forall c, (c * n / total * (total / n) == c)%Q) by (intros c; field; split; lra).
  apply eq_true_iff_eq. rewrite !in_iv_spec.
  split; intros [H1 H2]; split.
  - apply (Qmult_le_r _ _ (total / n) Hs). rewrite E. exact H1.
  - apply (Qmult_lt_r _ _ (total / n) Hs). rewrite E. exact H2.
  - rewrite <- (E a). apply (Qmult_le_r _ _ (total / n) Hs). exact H1.
  - rewrite <- (E b). apply (Qmult_lt_r _ _ (total / n) Hs). exact H2.
Qed.

Section Main.
  Variables (w : list Q) (target : nat) (r : Q).
  Hypothesis Hadm : admissible w.
  Hypothesis Hr : (0 <= r < 1)%Q.

  Let total := Qsum w.

  Lemma counts_spec :
    exists out, comb_counts w target r = Ok out /\ length out = length w /\
      forall i, i < length w -> nth i out 0 = cnt (lo w i) (lo w (S i)) (teeth r total target).
  Proof.
    destruct Hadm as [Hnn Hpos]. unfold comb_counts.
    destruct (Nat.eq_dec target 0) as [->|Hn0].
    { exists (repeat 0 (length w)).
      assert (L : comb_loop (length w + 0) (teeth r (Qsum w) 0) (cumsum w) (repeat 0 (length w)) 0 0
                  = Ok (repeat 0 (length w))) by (destruct (length w + 0); reflexivity).
      split; [exact L|]. split; [apply repeat_length|]. intros i Hi.
      rewrite nth_repeat. reflexivity. }
    destruct (comb_loop_spec w (teeth r total target) Hnn) with
      (fuel := length w + target) (parent := repeat 0 (length w)) (ic := 0) (iw := 0)
      as [out [E [L N]]].
    - intros i j t u Hij Hi Hj. rewrite teeth_nth in Hi, Hj.
      destruct (Nat.ltb_spec i target); [|discriminate].
      destruct (Nat.ltb_spec j target); [|discriminate].
      injection Hi as <-. injection Hj as <-.
      apply Qmult_le_compat_r.
      + apply q_of_nat_le in Hij. lra.
      + apply Qle_shift_div_l; [change 0%Q with (q_of_nat 0); apply q_of_nat_lt; lia|]. unfold total; lra.
    - intros j t Hj. rewrite teeth_nth in Hj.
      destruct (Nat.ltb_spec j target) as [Hlt|]; [|discriminate]. injection Hj as <-.
      rewrite lo_all. fold total.
      assert (Hq : (0 < q_of_nat target)%Q) by (change 0%Q with (q_of_nat 0); apply q_of_nat_lt; lia).
      assert (E : (q_of_nat target * (total / q_of_nat target) == total)%Q) by (field; lra).
      rewrite <- E at 2.
      apply Qmult_lt_r.
      + apply Qlt_shift_div_l; [assumption|]. unfold total; lra.
      + assert (q_of_nat (S j) <= q_of_nat target)%Q by (apply q_of_nat_le; lia).
        rewrite q_of_nat_S in H. lra.
    - unfold teeth. rewrite map_length, seq_length. lia.
    - left. destruct w; [|simpl; lia]. simpl in Hpos. lra.
    - apply repeat_length.
    - intros j t _ Hj. rewrite teeth_nth in Hj.
      destruct (Nat.ltb_spec j target) as [Hlt|]; [|discriminate]. injection Hj as <-.
      rewrite lo_0. apply Qmult_le_0_compat.
      + pose proof (q_of_nat_nonneg j). lra.
      + apply Qle_shift_div_l; [change 0%Q with (q_of_nat 0); apply q_of_nat_lt; lia|]. unfold total; lra.
    - exists out. split; [exact E|]. split; [exact L|]. intros i Hi. rewrite N by assumption.
      rewrite nth_repeat. reflexivity.
  Qed.

  Definition edge i := (lo w i * q_of_nat target / total)%Q.

  Lemma edge_bounds i : (0 <= edge i)%Q /\ (edge i <= edge (S i))%Q /\ ((i <= length w)%nat -> (edge i <= q_of_nat target)%Q).
  Proof.
    destruct Hadm as [Hnn Hpos]. unfold edge. fold total in Hpos.
    pose proof (q_of_nat_nonneg target) as Hq.
    assert (Hl : (0 <= lo w i)%Q) by (rewrite <- (lo_0 w); apply lo_mono; [assumption|lia]).
    assert (Hm : (lo w i <= lo w (S i))%Q) by (apply lo_mono; [assumption|lia]).
    split; [|split].
    - apply Qle_shift_div_l; [assumption|].
      pose proof (Qmult_le_0_compat _ _ Hl Hq). lra.
    - unfold Qdiv. apply Qmult_le_compat_r; [|apply Qinv_le_0_compat; lra].
      apply Qmult_le_compat_r; assumption.
    - intros Hi. apply Qle_shift_div_r; [assumption|].
      assert (lo w i <= total)%Q by (unfold total; rewrite <- lo_all; apply lo_mono; assumption).
      rewrite (Qmult_comm (q_of_nat target)). apply Qmult_le_compat_r; assumption.
  Qed.

  Lemma edge_diff i : i < length w -> (edge (S i) - edge i == ideal_copies w target i)%Q.
  Proof.
    intros Hi. destruct Hadm as [_ Hpos]. unfold edge, ideal_copies. fold total. fold total in Hpos.
    rewrite lo_step by assumption. field. lra.
  Qed.

  Lemma count_ceil i : 0 < target -> i < length w ->
    Z.of_nat (cnt (lo w i) (lo w (S i)) (teeth r total target)) =
    (Qceiling (edge (S i) - r) - Qceiling (edge i - r))%Z.
  Proof.
    intros Hn Hi. destruct Hadm as [_ Hpos]. rewrite cnt_teeth by assumption.
    destruct (edge_bounds i) as [A [B _]]. destruct (edge_bounds (S i)) as [_ [_ C]].
    apply grid_count_ceil; try tauto; apply C; lia.
  Qed.

  Lemma count_floor_ceil i out :
    comb_counts w target r = Ok out -> i < length w ->
    (Qfloor (ideal_copies w target i) <= Z.of_nat (nth i out 0%nat) <= Qceiling (ideal_copies w target i))%Z.
  Proof.
    intros E Hi. destruct counts_spec as [out' [E' [L N]]]. rewrite E in E'. injection E' as <-.
    rewrite N by assumption.
    destruct (Nat.eq_dec target 0) as [->|Hn].
    - assert (Z0 : (ideal_copies w 0 i == 0)%Q).
      { destruct Hadm as [_ Hpos]. unfold ideal_copies. change (q_of_nat 0) with 0%Q. field. lra. }
      rewrite Z0. change (Qfloor 0) with 0%Z. change (Qceiling 0) with 0%Z. unfold cnt, teeth. simpl. lia.
    - rewrite count_ceil by lia. rewrite <- (edge_diff i Hi). apply ceil_diff_bounds.
  Qed.

  Lemma telescoping (f : nat -> Z) (g : nat -> nat) n :
    (forall i, i < n -> Z.of_nat (g i) = (f (S i) - f i)%Z) ->
    Z.of_nat (nsum (map g (seq 0 n))) = (f n - f 0%nat)%Z.
  Proof.
    induction n as [|n IH]; intros H; [simpl; lia|].
    rewrite seq_S, map_app, nsum_app. simpl. rewrite Nat.add_0_r, Nat2Z.inj_add, IH by (intros; apply H; lia).
    rewrite H by lia. lia.
  Qed.

  Lemma list_as_map (l : list nat) : l = map (fun i => nth i l 0) (seq 0 (length l)).
  Proof.
    apply nth_error_ext. intros i. destruct (Nat.lt_ge_cases i (length l)) as [H|H].
    - erewrite map_nth_error.
      + apply nth_error_nth'. assumption.
      + rewrite nth_error_seq by assumption. reflexivity.
    - rewrite (proj2 (nth_error_None l i) H). symmetry. apply nth_error_None.
      rewrite map_length, seq_length. assumption.
  Qed.

  Lemma counts_total : exists out, comb_counts w target r = Ok out /\ length out = length w /\ nsum out = target.
  Proof.
    destruct counts_spec as [out [E [L N]]]. exists out. split; [exact E|]. split; [exact L|].
    rewrite (list_as_map out), L.
    rewrite (map_ext_in _ (fun i => cnt (lo w i) (lo w (S i)) (teeth r total target))).
    2:{ intros i Hi. apply N. apply in_seq in Hi. lia. }
    destruct (Nat.eq_dec target 0) as [->|Hn].
    - clear. induction (seq 0 (length w)); simpl; auto.
    - apply Nat2Z.inj. rewrite (telescoping (fun i => Qceiling (edge i - r))).
      2:{ intros i Hi. apply count_ceil; lia. }
      destruct Hadm as [_ Hpos].
      assert (E0 : (edge 0 - r == - r)%Q).
      { unfold edge. rewrite lo_0. unfold total. field. lra. }
      assert (En : (edge (length w) - r == q_of_nat target - r)%Q).
      { unfold edge. rewrite lo_all. unfold total. field. lra. }
      rewrite E0, En. unfold q_of_nat.
      assert (C0 : Qceiling (- r) = 0%Z).
      { assert (Qceiling (- r) <= 0)%Z by (apply Qceiling_le_iff; change (inject_Z 0) with 0%Q; lra).
        assert (~ (Qceiling (- r) <= -1)%Z) by (rewrite Qceiling_le_iff; change (inject_Z (-1)) with (-(1))%Q; lra).
        lia. }
      assert (Cn : Qceiling (inject_Z (Z.of_nat target) - r) = Z.of_nat target).
      { assert (Qceiling (inject_Z (Z.of_nat target) - r) <= Z.of_nat target)%Z
          by (apply Qceiling_le_iff; lra).
        assert (~ (Qceiling (inject_Z (Z.of_nat target) - r) <= Z.of_nat target - 1)%Z).
        { rewrite Qceiling_le_iff. unfold Zminus. rewrite inject_Z_plus.
          change (inject_Z (-(1))) with (-(1))%Q. lra. }
        lia. }
      rewrite C0, Cn. lia.
  Qed.
End Main.

(** ** Averages over equispaced random offsets *)
Lemma Qceiling_comp' x y : (x == y)%Q -> Qceiling x = Qceiling y.
Proof. intros H. rewrite H. reflexivity. Qed.

(** Hermite-type identity: summing the ceiling over an equispaced grid. *)
Lemma hermite (x s : Q) m :
  0 < m -> (0 <= s < 1)%Q -> (0 <= x)%Q ->
  forall N, (x <= q_of_nat N)%Q ->
  nsum (map (fun k => grid_count 0 x ((q_of_nat k + s) / q_of_nat m) N) (seq 0 m))
  = grid_count 0 (q_of_nat m * x) s (N * m).
Proof.
  intros Hm Hs Hx N HN.
  assert (Hq : (0 < q_of_nat m)%Q) by (change 0%Q with (q_of_nat 0); apply q_of_nat_lt; lia).
  (* count of l = j*m + k *)
  unfold grid_count.
  assert (Hpt : forall j k, k < m ->
     in_iv 0 x (q_of_nat j + (q_of_nat k + s) / q_of_nat m) =
     in_iv 0 (q_of_nat m * x) (q_of_nat (j * m + k) + s)).
  { intros j k Hk. apply eq_true_iff_eq. rewrite !in_iv_spec.
    rewrite q_of_nat_plus, q_of_nat_mult.
    assert (E : (q_of_nat j + (q_of_nat k + s) / q_of_nat m
                 == (q_of_nat j * q_of_nat m + q_of_nat k + s) / q_of_nat m)%Q) by (field; lra).
    rewrite E. pose proof (q_of_nat_nonneg j) as Pj. pose proof (q_of_nat_nonneg k) as Pk.
    assert (0 <= q_of_nat j * q_of_nat m)%Q as Pjm by (apply Qmult_le_0_compat; lra).
    split; intros [H1 H2]; split.
    - lra.
    - apply (Qmult_lt_r _ _ (q_of_nat m) Hq) in H2.
      assert (E2 : ((q_of_nat j * q_of_nat m + q_of_nat k + s) / q_of_nat m * q_of_nat m
                == q_of_nat j * q_of_nat m + q_of_nat k + s)%Q) by (field; lra).
      rewrite E2 in H2. lra.
    - apply Qle_shift_div_l; [assumption|]. lra.
    - apply Qlt_shift_div_r; [assumption|]. lra. }
  clear HN. induction N as [|N IH].
  - simpl. induction (seq 0 m); simpl; auto.
  - assert (Hs1 : forall k, length (filter (fun j => in_iv 0 x (q_of_nat j + (q_of_nat k + s) / q_of_nat m)) (seq 0 (S N)))
       = length (filter (fun j => in_iv 0 x (q_of_nat j + (q_of_nat k + s) / q_of_nat m)) (seq 0 N))
         + (if in_iv 0 x (q_of_nat N + (q_of_nat k + s) / q_of_nat m) then 1 else 0)).
    { intros k. rewrite seq_S, filter_app, app_length. simpl.
      destruct (in_iv 0 x (q_of_nat N + (q_of_nat k + s) / q_of_nat m)); reflexivity. }
    rewrite (map_ext _ _ Hs1).
    assert (Hsum : forall (f g : nat -> nat) l, nsum (map (fun k => f k + g k) l) = nsum (map f l) + nsum (map g l)).
    { clear. induction l as [|a l IHl]; simpl; [reflexivity|]. rewrite IHl. lia. }
    rewrite Hsum, IH.
    replace (S N * m) with (N * m + m) by lia. rewrite seq_app, filter_app, app_length. f_equal.
    simpl.
    assert (Hgen : forall n, n <= m ->
       nsum (map (fun k => if in_iv 0 x (q_of_nat N + (q_of_nat k + s) / q_of_nat m) then 1 else 0) (seq 0 n))
       = length (filter (fun j => in_iv 0 (q_of_nat m * x) (q_of_nat j + s)) (seq (N * m) n))).
    { induction n as [|n IHn]; intros Hn; [reflexivity|].
      rewrite !seq_S, map_app, nsum_app, filter_app, app_length, IHn by lia.
      f_equal. simpl. rewrite Hpt by lia. 
      destruct (in_iv 0 (q_of_nat m * x) (q_of_nat (N * m + n) + s)); reflexivity. }
    apply Hgen. lia.
Qed.

Lemma grid0_ceil x s N : (0 <= x)%Q -> (x <= q_of_nat N)%Q -> (0 <= s < 1)%Q ->
  Z.of_nat (grid_count 0 x s N) = Qceiling (x - s).
Proof.
  intros H1 H2 [H3 H4]. rewrite grid_count_ceil by (try assumption; lra).
  assert (E : Qceiling (0 - s) = 0%Z); [|lia].
  assert (Qceiling (0 - s) <= 0)%Z by (apply Qceiling_le_iff; change (inject_Z 0) with 0%Q; lra).
  assert (~ (Qceiling (0 - s) <= -1)%Z) by (rewrite Qceiling_le_iff; change (inject_Z (-1)) with (-(1))%Q; lra).
  lia.
Qed.


Lemma offset_range m k s : k < m -> (0 <= s < 1)%Q -> (0 <= offset m k s < 1)%Q.
Proof.
  intros Hk Hs. unfold offset.
  assert (Hq : (0 < q_of_nat m)%Q) by (change 0%Q with (q_of_nat 0); apply q_of_nat_lt; lia).
  pose proof (q_of_nat_nonneg k).
  assert (q_of_nat (S k) <= q_of_nat m)%Q as B by (apply q_of_nat_le; lia). rewrite q_of_nat_S in B.
  split.
  - apply Qle_shift_div_l; [assumption|]. lra.
  - apply Qlt_shift_div_r; [assumption|]. lra.
Qed.

Lemma sum_ceil_grid (x s : Q) m N : 0 < m -> (0 <= s < 1)%Q -> (0 <= x)%Q -> (x <= q_of_nat N)%Q ->
  fold_right Z.add 0%Z (map (fun k => Qceiling (x - offset m k s)) (seq 0 m)) = Qceiling (q_of_nat m * x - s).
Proof.
  intros Hm Hs Hx HN.
  assert (Hq : (0 < q_of_nat m)%Q) by (change 0%Q with (q_of_nat 0); apply q_of_nat_lt; lia).
  assert (0 <= q_of_nat m * x)%Q by (apply Qmult_le_0_compat; lra).
  assert (q_of_nat m * x <= q_of_nat (N * m))%Q.
  { rewrite q_of_nat_mult, (Qmult_comm (q_of_nat m)). apply Qmult_le_compat_r; lra. }
  rewrite <- (grid0_ceil (q_of_nat m * x) s (N * m)) by assumption.
  rewrite <- (hermite x s m Hm Hs Hx N HN).
  assert (G : forall l, (forall k, In k l -> k < m) ->
     fold_right Z.add 0%Z (map (fun k => Qceiling (x - offset m k s)) l) =
     Z.of_nat (nsum (map (fun k => grid_count 0 x ((q_of_nat k + s) / q_of_nat m) N) l))).
  { induction l as [|k l IH]; intros Hl; simpl; [reflexivity|].
    rewrite IH by (intros; apply Hl; right; assumption).
    rewrite Nat2Z.inj_add. f_equal. symmetry. apply grid0_ceil; try assumption.
    apply offset_range; [apply Hl; left; reflexivity|assumption]. }
  apply G. intros k Hk. apply in_seq in Hk. lia.
Qed.


Lemma mean_copies w target i m s :
  admissible w -> i < length w -> 0 < m -> (0 <= s < 1)%Q ->
  let tot := fold_right Z.add 0%Z (map (fun k => copies_of w target i (offset m k s)) (seq 0 m)) in
  (q_of_nat m * ideal_copies w target i - 1 < inject_Z tot < q_of_nat m * ideal_copies w target i + 1)%Q.
Proof.
  intros Hadm Hi Hm Hs tot.
  destruct (Nat.eq_dec target 0) as [->|Hn].
  { assert (Z0 : (ideal_copies w 0 i == 0)%Q).
    { destruct Hadm as [_ Hpos]. unfold ideal_copies. change (q_of_nat 0) with 0%Q. field. lra. }
    assert (T0 : tot = 0%Z).
    { unfold tot. assert (G : forall l, (forall k, In k l -> k < m) -> fold_right Z.add 0%Z (map (fun k => copies_of w 0 i (offset m k s)) l) = 0%Z).
      { induction l as [|k l IH]; intros Hl; simpl; [reflexivity|].
        rewrite IH by (intros; apply Hl; right; assumption).
        unfold copies_of.
        destruct (counts_spec w 0 (offset m k s) Hadm) as [out [E [L N]]].
        - apply offset_range; [apply Hl; left; reflexivity|assumption].
        - rewrite E, N by assumption. reflexivity. }
      apply G. intros k Hk. apply in_seq in Hk. lia. }
    rewrite T0, Z0. change (inject_Z 0) with 0%Q. lra. }
  assert (Ht : tot = (Qceiling (q_of_nat m * edge w target (S i) - s) - Qceiling (q_of_nat m * edge w target i - s))%Z).
  { destruct (edge_bounds w target Hadm i) as [A [B C]].
    destruct (edge_bounds w target Hadm (S i)) as [A' [_ C']].
    rewrite <- (sum_ceil_grid (edge w target (S i)) s m target) by (try assumption; auto).
    rewrite <- (sum_ceil_grid (edge w target i) s m target) by (try assumption; apply C; lia).
    unfold tot.
    assert (G : forall l, (forall k, In k l -> k < m) ->
       fold_right Z.add 0%Z (map (fun k => copies_of w target i (offset m k s)) l) =
       (fold_right Z.add 0%Z (map (fun k => Qceiling (edge w target (S i) - offset m k s)) l)
        - fold_right Z.add 0%Z (map (fun k => Qceiling (edge w target i - offset m k s)) l))%Z).
    { induction l as [|k l IH]; intros Hl; simpl; [reflexivity|].
      rewrite IH by (intros; apply Hl; right; assumption).
      assert (Ho : (0 <= offset m k s < 1)%Q) by (apply offset_range; [apply Hl; left; reflexivity|assumption]).
      unfold copies_of.
      destruct (counts_spec w target (offset m k s) Hadm Ho) as [out [E [L N]]].
      rewrite E, N by assumption. rewrite count_ceil by (try assumption; lia). lia. }
    apply G. intros k Hk. apply in_seq in Hk. lia. }
  rewrite Ht. rewrite <- (edge_diff w target Hadm i Hi).
  set (x := (q_of_nat m * edge w target (S i))%Q). set (y := (q_of_nat m * edge w target i)%Q).
  assert (E : (q_of_nat m * (edge w target (S i) - edge w target i) == x - y)%Q) by (unfold x, y; ring).
  rewrite E.
  pose proof (Qle_ceiling (x - s)). pose proof (Qceiling_lt (x - s)) as B1.
  pose proof (Qle_ceiling (y - s)). pose proof (Qceiling_lt (y - s)) as B2.
  unfold Zminus in *. rewrite !inject_Z_plus in *. rewrite inject_Z_opp.
  change (inject_Z (-(1))) with (-(1))%Q in *. lra.
Qed.

(** ** Exchange of walkers *)
Lemma where_ix_spec p l i : In i (where_ix p l) <-> exists n, nth_error l i = Some n /\ p n = true.
Proof.
  unfold where_ix. rewrite filter_In, in_seq. split.
  - intros [H1 H2]. destruct (nth_error l i) as [n|]; [|discriminate]. eauto.
  - intros [n [E Hp]]. rewrite E. split; [|assumption].
    assert (i < length l) by (apply nth_error_Some; congruence). lia.
Qed.

Lemma where_ix_NoDup p l : NoDup (where_ix p l).
Proof. apply NoDup_filter, seq_NoDup. Qed.

Lemma map_upd {A B} (f : A -> B) i x l : map f (upd i x l) = upd i (f x) (map f l).
Proof. revert i; induction l as [|h t IH]; intros [|i]; simpl; auto. rewrite IH. reflexivity. Qed.

Lemma exchange_map {A B} (f : A -> B) ws pairs : exchange (map f ws) pairs = map f (exchange ws pairs).
Proof.
  unfold exchange. assert (G : forall acc,
    fold_left (fun acc ck => match nth_error (map f ws) (fst ck) with Some x => upd (snd ck) x acc | None => acc end) pairs (map f acc)
    = map f (fold_left (fun acc ck => match nth_error ws (fst ck) with Some x => upd (snd ck) x acc | None => acc end) pairs acc)).
  { induction pairs as [|[c k] pairs IH]; intros acc; simpl; [reflexivity|].
    rewrite nth_error_map. destruct (nth_error ws c); simpl; [rewrite <- map_upd|]; apply IH. }
  apply G.
Qed.

Lemma drawn_map {A B} (f : A -> B) ws counts : drawn (map f ws) counts = map f (drawn ws counts).
Proof.
  revert counts; induction ws as [|w ws IH]; intros [|n counts]; simpl; try reflexivity.
  rewrite map_app, IH. f_equal. clear. induction n; simpl; congruence.
Qed.

Lemma list_as_map_d {A} (d : A) (l : list A) : l = map (fun i => nth i l d) (seq 0 (length l)).
Proof.
  apply nth_error_ext. intros i. destruct (Nat.lt_ge_cases i (length l)) as [H|H].
  - erewrite map_nth_error.
    + apply nth_error_nth'. assumption.
    + rewrite nth_error_seq by assumption. reflexivity.
  - rewrite (proj2 (nth_error_None l i) H). symmetry. apply nth_error_None.
    rewrite map_length, seq_length. assumption.
Qed.

(** Source slot of slot [j]. *)
Definition src (pairs : list (nat * nat)) (j : nat) : nat :=
  match find (fun ck => snd ck =? j) pairs with Some (c, _) => c | None => j end.

Lemma exchange_seq pairs n :
  NoDup (map snd pairs) -> (forall c k, In (c, k) pairs -> c < n /\ k < n) ->
  exchange (seq 0 n) pairs = map (src pairs) (seq 0 n).
Proof.
  intros ND Hb. unfold exchange.
  assert (G : forall l1 acc, length acc = n -> incl l1 pairs -> NoDup (map snd l1) ->
     forall j, j < n ->
     nth_error (fold_left (fun acc ck => match nth_error (seq 0 n) (fst ck) with Some x => upd (snd ck) x acc | None => acc end) l1 acc) j
     = match find (fun ck => snd ck =? j) l1 with Some (c, _) => Some c | None => nth_error acc j end).
  { induction l1 as [|[c k] l1 IH]; intros acc L Hi Hnd j Hj; simpl; [reflexivity|].
    destruct (Hb c k) as [Hc Hk]; [apply Hi; left; reflexivity|].
    rewrite nth_error_seq by assumption. simpl.
    inversion Hnd as [|? ? Hni Hnd']; subst.
    rewrite IH; [|rewrite length_upd; reflexivity|intros x Hx; apply Hi; right; exact Hx|assumption|assumption].
    destruct (Nat.eqb_spec k j) as [->|D].
    - assert (find (fun ck => snd ck =? j) l1 = None) as ->.
      { destruct (find (fun ck => snd ck =? j) l1) as [[c' k']|] eqn:F; [|reflexivity].
        apply find_some in F. destruct F as [F1 F2]. simpl in F2. apply Nat.eqb_eq in F2. subst.
        exfalso. apply Hni. simpl. change j with (snd (c', j)). apply in_map. exact F1. }
      apply nth_error_upd_eq. lia.
    - destruct (find (fun ck => snd ck =? j) l1) as [[c' k']|]; [reflexivity|].
      apply nth_error_upd_ne. assumption. }
  assert (Lf : forall l1 (acc : list nat), length (fold_left (fun acc ck => match nth_error (seq 0 n) (fst ck) with Some x => upd (snd ck) x acc | None => acc end) l1 acc) = length acc).
  { induction l1 as [|[c k] l1 IH]; intros acc; simpl; [reflexivity|].
    rewrite IH. destruct (nth_error (seq 0 n) c); [apply length_upd|reflexivity]. }
  apply nth_error_ext. intros j. destruct (Nat.lt_ge_cases j n) as [H|H].
  - rewrite (G pairs); [|apply seq_length|apply incl_refl|assumption|assumption].
    rewrite nth_error_map. rewrite nth_error_seq by assumption. simpl. unfold src.
    destruct (find (fun ck => snd ck =? j) pairs) as [[c k]|]; reflexivity.
  - transitivity (@None nat); [|symmetry]; apply nth_error_None.
    + rewrite Lf, seq_length. assumption.
    + rewrite map_length, seq_length. assumption.
Qed.

Lemma filter_partition_perm {A} (p : A -> bool) l :
  Permutation l (filter p l ++ filter (fun x => negb (p x)) l).
Proof.
  induction l as [|x l IH]; simpl; [constructor|].
  destruct (p x); simpl.
  - constructor. exact IH.
  - etransitivity; [apply perm_skip, IH|]. apply Permutation_middle.
Qed.

Definition alive_list (parent_ix : list nat) : list nat := where_ix (fun n => negb (n =? 0)) parent_ix.

Lemma src_kill_gen c k :
  NoDup k -> map (src (combine c k)) k = firstn (length k) c ++ skipn (length c) k.
Proof.
  revert c; induction k as [|x k IH]; intros c ND; simpl.
  - destruct c; reflexivity.
  - inversion ND as [|? ? Hni ND']; subst. destruct c as [|a c]; simpl.
    + f_equal. rewrite <- (map_id k) at 2. apply map_ext_in. reflexivity.
    + unfold src at 1. simpl. rewrite Nat.eqb_refl. f_equal. rewrite <- IH by assumption.
      apply map_ext_in. intros j Hj. unfold src. simpl.
      destruct (Nat.eqb_spec x j) as [->|D]; [contradiction|reflexivity].
Qed.

Lemma exchange_indices counts :
  Permutation (comb_exchange (seq 0 (length counts)) counts)
    (alive_list counts ++ firstn (length (kill_list counts)) (clone_list counts)
      ++ skipn (length (clone_list counts)) (kill_list counts)).
Proof.
  set (n := length counts). unfold comb_exchange, transfer_pairs.
  assert (NDk : NoDup (kill_list counts)) by apply where_ix_NoDup.
  rewrite exchange_seq.
  - rewrite (filter_partition_perm (fun i => match nth_error counts i with Some m => negb (m =? 0) | None => false end) (seq 0 n)).
    rewrite map_app. apply Permutation_app.
    + change (filter _ (seq 0 n)) with (alive_list counts).
      rewrite map_ext_in with (g := fun j => j); [rewrite map_id; reflexivity|].
      intros j Hj. unfold src.
      destruct (find _ _) as [[c k]|] eqn:F; [|reflexivity]. exfalso.
      apply find_some in F. destruct F as [F1 F2]. simpl in F2. apply Nat.eqb_eq in F2. subst k.
      apply in_combine_r in F1. apply where_ix_spec in F1. destruct F1 as [m [E1 E2]].
      apply where_ix_spec in Hj. destruct Hj as [m' [E3 E4]]. rewrite E1 in E3. injection E3 as <-.
      rewrite E2 in E4. discriminate.
    + assert (E : filter (fun x => negb (match nth_error counts x with Some m => negb (m =? 0) | None => false end)) (seq 0 n) = kill_list counts).
      { unfold kill_list, where_ix. apply filter_ext_in. intros i Hi. apply in_seq in Hi.
        destruct (nth_error counts i) as [m|] eqn:E.
        - destruct (m =? 0); reflexivity.
        - apply nth_error_None in E. unfold n in Hi. lia. }
      rewrite E. rewrite src_kill_gen by assumption. reflexivity.
  - assert (G : forall (c k : list nat), NoDup k -> NoDup (map snd (combine c k))).
    { induction c as [|a c IH]; intros [|x k] ND; simpl; try constructor.
      - inversion ND; subst. intros H. apply in_map_iff in H. destruct H as [[y z] [E H]]. simpl in E. subst.
        apply in_combine_r in H. contradiction.
      - inversion ND; subst. apply IH. assumption. }
    apply G. assumption.
  - intros c k H. split.
    + apply in_combine_l in H. apply where_ix_spec in H. destruct H as [m [E _]].
      apply nth_error_Some. congruence.
    + apply in_combine_r in H. apply where_ix_spec in H. destruct H as [m [E _]].
      apply nth_error_Some. congruence.
Qed.

(** [where_ix] peels off the head. *)
Lemma where_ix_cons p x l :
  where_ix p (x :: l) = (if p x then [0] else []) ++ map S (where_ix p l).
Proof.
  unfold where_ix. simpl length. rewrite <- cons_seq. cbn [filter]. simpl nth_error at 1.
  rewrite <- seq_shift. 
  assert (E : forall l', filter (fun i => match nth_error (x :: l) i with Some n => p n | None => false end) (map S l')
    = map S (filter (fun i => match nth_error l i with Some n => p n | None => false end) l')).
  { induction l' as [|y l' IH]; simpl; [reflexivity|].
    destruct (nth_error l y) as [m|]; [destruct (p m)|]; simpl; rewrite IH; reflexivity. }
  rewrite E. destruct (p x); reflexivity.
Qed.

Lemma drawn_seq counts :
  Forall (fun n => n <= 2) counts ->
  Permutation (drawn (seq 0 (length counts)) counts) (alive_list counts ++ clone_list counts).
Proof.
  induction 1 as [|x l Hx _ IH]; [constructor|].
  simpl length. cbn [seq drawn]. rewrite <- seq_shift, drawn_map.
  unfold alive_list, clone_list in *. rewrite !where_ix_cons.
  rewrite IH, map_app.
  destruct x as [|[|[|]]]; simpl; try lia.
  - reflexivity.
  - reflexivity.
  - constructor. apply Permutation_middle.
Qed.

Lemma lists_lengths counts :
  Forall (fun n => n <= 2) counts ->
  nsum counts + length (kill_list counts) = length counts + length (clone_list counts).
Proof.
  induction 1 as [|x l Hx _ IH]; [reflexivity|].
  unfold kill_list, clone_list in *. rewrite !where_ix_cons, !app_length, !map_length. simpl.
  destruct x as [|[|[|]]]; simpl; lia.
Qed.

Lemma comb_exchange_perm {A} (ws : list A) counts :
  length ws = length counts -> nsum counts = length counts ->
  Forall (fun n => n <= 2) counts ->
  Permutation (comb_exchange ws counts) (drawn ws counts).
Proof.
  intros L S F. destruct ws as [|d ws'].
  { destruct counts; [constructor|discriminate]. }
  set (ws := d :: ws') in *.
  rewrite (list_as_map_d d ws). unfold comb_exchange. rewrite exchange_map, drawn_map.
  apply Permutation_map. rewrite L.
  fold (comb_exchange (seq 0 (length counts)) counts).
  rewrite exchange_indices, drawn_seq by assumption.
  pose proof (lists_lengths counts F) as E.
  rewrite firstn_all2 by lia. rewrite skipn_all2 by lia. rewrite app_nil_r. reflexivity.
Qed.

Lemma count_occ_map_S l i : count_occ Nat.eq_dec (map S l) (S i) = count_occ Nat.eq_dec l i.
Proof.
  induction l as [|x l IH]; simpl; [reflexivity|].
  destruct (Nat.eq_dec (S x) (S i)), (Nat.eq_dec x i); try lia; auto.
Qed.

(** Conversely a count of three or more is never realised. *)
Lemma count_occ_drawn n counts i :
  i < length counts -> n = length counts ->
  count_occ Nat.eq_dec (drawn (seq 0 n) counts) i = nth i counts 0.
Proof.
  intros Hi ->. revert i Hi. induction counts as [|x l IH]; intros i Hi; [simpl in Hi; lia|].
  simpl length. cbn [seq drawn]. rewrite <- seq_shift, drawn_map.
  assert (Ca : forall l1 l2, count_occ Nat.eq_dec (l1 ++ l2) i = count_occ Nat.eq_dec l1 i + count_occ Nat.eq_dec l2 i)
    by (intros; apply count_occ_app).
  rewrite Ca. destruct i as [|i].
  - rewrite count_occ_repeat_eq by reflexivity.
    assert (count_occ Nat.eq_dec (map S (drawn (seq 0 (length l)) l)) 0 = 0) as ->; [|simpl; lia].
    apply count_occ_not_In. intros H. apply in_map_iff in H. destruct H as [y [H _]]. discriminate.
  - rewrite count_occ_repeat_neq by lia.
    rewrite count_occ_map_S. simpl. apply IH. simpl in Hi. lia.
Qed.

Lemma NoDup_count_le (l : list nat) i : NoDup l -> count_occ Nat.eq_dec l i <= 1.
Proof. intros H. rewrite (NoDup_count_occ Nat.eq_dec) in H. apply H. Qed.

Lemma count_occ_perm (l1 l2 : list nat) i : Permutation l1 l2 -> count_occ Nat.eq_dec l1 i = count_occ Nat.eq_dec l2 i.
Proof. intros H. apply (Permutation_count_occ Nat.eq_dec). exact H. Qed.

Lemma count_occ_sub (l : list nat) i n m : count_occ Nat.eq_dec (firstn n (skipn m l)) i <= count_occ Nat.eq_dec l i.
Proof.
  rewrite <- (firstn_skipn m l) at 2. rewrite count_occ_app.
  rewrite <- (firstn_skipn n (skipn m l)) at 2. rewrite count_occ_app. lia.
Qed.

Lemma comb_exchange_max2 counts i :
  In i (alive_list counts) ->
  count_occ Nat.eq_dec (comb_exchange (seq 0 (length counts)) counts) i <= 2.
Proof.
  intros Hi. rewrite (count_occ_perm _ _ i (exchange_indices counts)), !count_occ_app.
  pose proof (NoDup_count_le (alive_list counts) i (where_ix_NoDup _ _)).
  pose proof (NoDup_count_le (clone_list counts) i (where_ix_NoDup _ _)).
  pose proof (count_occ_sub (clone_list counts) i (length (kill_list counts)) 0) as H1. simpl in H1.
  assert (count_occ Nat.eq_dec (skipn (length (clone_list counts)) (kill_list counts)) i = 0) as ->; [|lia].
  apply count_occ_not_In. intros H2.
  assert (In i (kill_list counts)) as H3.
  { rewrite <- (firstn_skipn (length (clone_list counts)) (kill_list counts)). apply in_or_app. right. exact H2. }
  apply where_ix_spec in Hi, H3. destruct Hi as [n [E1 E2]], H3 as [m [E3 E4]].
  rewrite E1 in E3. injection E3 as <-. rewrite E4 in E2. discriminate.
Qed.

Lemma comb_exchange_iff counts :
  nsum counts = length counts ->
  Permutation (comb_exchange (seq 0 (length counts)) counts) (drawn (seq 0 (length counts)) counts)
  <-> Forall (fun n => n <= 2) counts.
Proof.
  intros S. split.
  - intros P. apply Forall_forall. intros n Hn. apply In_nth_error in Hn. destruct Hn as [i Hi].
    assert (Li : i < length counts) by (apply nth_error_Some; congruence).
    destruct (Nat.le_gt_cases n 2) as [|Hgt]; [assumption|exfalso].
    pose proof (count_occ_perm _ _ i P) as E. rewrite count_occ_drawn in E by auto.
    rewrite (nth_error_nth _ _ 0 Hi) in E.
    assert (In i (alive_list counts)) as Ha.
    { apply where_ix_spec. exists n. split; [assumption|]. destruct n; [lia|reflexivity]. }
    pose proof (comb_exchange_max2 counts i Ha). lia.
  - intros F. apply comb_exchange_perm; auto. apply seq_length.
Qed.
