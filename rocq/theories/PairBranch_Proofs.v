From Verif Require Import BaseFacts Sort_Model Sort_Proofs MPI_Model MPI_Proofs Comb_Model CombMPI_Proofs PairBranch_Model.
From Coq Require Import Qabs.
Open Scope nat_scope.

(** ** The two-pointer loop *)
Definition Qsumf (f : row -> Q) (l : list row) : Q := Qsum (map f l).

Lemma Qsumf_upd f i x (l : list row) y : nth_error l i = Some y -> (Qsumf f (upd i x l) == Qsumf f l - f y + f x)%Q.
Proof.
  unfold Qsumf. revert i; induction l as [|h t IH]; intros [|i] H; simpl in *; try discriminate.
  - injection H as ->. lra.
  - rewrite (IH i H). lra.
Qed.

Section Loop.
  Variables (minw maxw : Q) (draws : nat -> Q) (rows0 : list row).
  Let n := length rows0.

  (** What holds when [K] pairs have been processed. *)
  Record LInv (K : nat) (rows : list row) : Prop := {
    li_len : length rows = n;
    li_K : 2 * K <= n;
    li_mid : forall i, K <= i < n - K -> nth_error rows i = nth_error rows0 i;
    li_pair : forall i a b, i < K -> nth_error rows0 i = Some a -> nth_error rows0 (n - 1 - i) = Some b ->
              nth_error rows i = Some (fst (branch_pair (draws i) a b)) /\
              nth_error rows (n - 1 - i) = Some (snd (branch_pair (draws i) a b)) /\
              (Qltb (r_w a) minw || Qltb maxw (r_w b)) = true
  }.

  Definition exit_ok (K : nat) : Prop :=
    n <= 2 * K + 1 \/ exists a b, nth_error rows0 K = Some a /\ nth_error rows0 (n - 1 - K) = Some b /\
       (minw <= r_w a)%Q /\ (r_w b <= maxw)%Q.

  Lemma pb_loop_spec fuel K rows : LInv K rows -> n <= 2 * K + fuel ->
    exists K' rows', K <= K' /\ pb_loop fuel minw maxw draws K rows K (n - 1 - K) = Ok rows' /\ LInv K' rows' /\ exit_ok K'.
  Proof.
    revert K rows; induction fuel as [|f IH]; intros K rows I Hf.
    - exists K, rows. split; [lia|]. destruct I as [I1 I2 I3 I4].
      split; [|split; [constructor; assumption|left; lia]]. simpl.
      destruct (Nat.ltb_spec K (n - 1 - K)); [lia|reflexivity].
    - pose proof I as [I1 I2 I3 I4]. simpl.
      destruct (Nat.ltb_spec K (n - 1 - K)) as [L|L].
      2:{ exists K, rows. split; [lia|]. split; [reflexivity|]. split; [assumption|]. left. lia. }
      rewrite (I3 K) by lia. rewrite (I3 (n - 1 - K)) by lia.
      destruct (nth_error rows0 K) as [a|] eqn:Ea.
      2:{ apply nth_error_None in Ea. unfold n in *. lia. }
      destruct (nth_error rows0 (n - 1 - K)) as [b|] eqn:Eb.
      2:{ apply nth_error_None in Eb. unfold n in *. lia. }
      destruct (Qltb (r_w a) minw || Qltb maxw (r_w b)) eqn:C.
      + replace (n - 1 - K - 1) with (n - 1 - S K) by lia.
        destruct (IH (S K) (upd (n - 1 - K) (snd (branch_pair (draws K) a b)) (upd K (fst (branch_pair (draws K) a b)) rows))) as [K' [rows' [L' R]]].
        * constructor.
          -- rewrite !length_upd. exact I1.
          -- lia.
          -- intros i Hi. rewrite !nth_error_upd_ne by lia. apply I3. lia.
          -- intros i a' b' Hi Ha' Hb'.
             destruct (Nat.eq_dec i K) as [->|D].
             ++ rewrite Ea in Ha'. rewrite Eb in Hb'. injection Ha' as <-. injection Hb' as <-.
                split; [|split; [|exact C]].
                ** rewrite nth_error_upd_ne by lia. apply nth_error_upd_eq. lia.
                ** apply nth_error_upd_eq. rewrite length_upd. lia.
             ++ destruct (I4 i a' b') as [E1 [E2 E3]]; [lia|assumption|assumption|].
                split; [|split; [|exact E3]].
                ** rewrite !nth_error_upd_ne by lia. exact E1.
                ** rewrite !nth_error_upd_ne by lia. exact E2.
        * lia.
        * exists K', rows'. split; [lia|exact R].
      + exists K, rows. split; [lia|]. split; [reflexivity|]. split; [assumption|].
        right. exists a, b. split; [exact Ea|]. split; [exact Eb|].
        apply orb_false_iff in C. destruct C as [C1 C2].
        apply Qltb_false in C1. apply Qltb_false in C2. split; assumption.
  Qed.

  Lemma pb_loop_run : exists K rows', pb_loop n minw maxw draws 0 rows0 0 (n - 1) = Ok rows' /\ LInv K rows' /\ exit_ok K.
  Proof.
    destruct (pb_loop_spec n 0 rows0) as [K [rows' [_ [E R]]]].
    - constructor; [reflexivity|lia|reflexivity|intros; lia].
    - lia.
    - exists K, rows'. rewrite Nat.sub_0_r in E. split; assumption.
  Qed.

  (** Additive quantities conserved by a pair are conserved by the loop. *)
  Lemma linv_sum (f : row -> Q) K rows :
    (forall u a b, In a rows0 -> In b rows0 -> (f (fst (branch_pair u a b)) + f (snd (branch_pair u a b)) == f a + f b)%Q) ->
    LInv K rows -> (Qsumf f rows == Qsumf f rows0)%Q.
  Proof.
    intros Hf I.
    (* go through the list built by undoing pairs *)
    assert (G : forall j cur, j <= K -> length cur = n ->
      (forall i, i < n -> nth_error cur i = if (i <? j) || (n - j <=? i) then nth_error rows0 i else nth_error rows i) ->
      (Qsumf f cur == Qsumf f rows)%Q).
    { destruct I as [I1 I2 I3 I4].
      induction j as [|j IH]; intros cur Hj Hl Hc.
      - assert (cur = rows) as ->; [|lra]. apply nth_error_ext. intros i.
        destruct (Nat.lt_ge_cases i n) as [L|L].
        + rewrite (Hc i L). destruct (Nat.leb_spec (n - 0) i); [lia|]. reflexivity.
        + rewrite (proj2 (nth_error_None _ _)) by lia. symmetry. apply nth_error_None. lia.
      - destruct (nth_error rows0 j) as [a|] eqn:Ea.
        2:{ apply nth_error_None in Ea. unfold n in *. lia. }
        destruct (nth_error rows0 (n - 1 - j)) as [b|] eqn:Eb.
        2:{ apply nth_error_None in Eb. unfold n in *. lia. }
        destruct (I4 j a b) as [E1 [E2 _]]; [lia|assumption|assumption|].
        set (cur' := upd (n - 1 - j) (snd (branch_pair (draws j) a b)) (upd j (fst (branch_pair (draws j) a b)) cur)).
        rewrite <- (IH cur').
        + assert (Cj : nth_error cur j = Some a).
          { rewrite Hc by lia. destruct (Nat.ltb_spec j (S j)); [exact Ea|lia]. }
          assert (Ce : nth_error (upd j (fst (branch_pair (draws j) a b)) cur) (n - 1 - j) = Some b).
          { rewrite nth_error_upd_ne by lia. rewrite Hc by lia.
            destruct (Nat.leb_spec (n - S j) (n - 1 - j)); [|lia]. rewrite orb_true_r. exact Eb. }
          unfold cur'. rewrite (Qsumf_upd f _ _ _ b Ce), (Qsumf_upd f _ _ _ a Cj).
          pose proof (Hf (draws j) a b (nth_error_In _ _ Ea) (nth_error_In _ _ Eb)). lra.
        + lia.
        + unfold cur'. rewrite !length_upd. exact Hl.
        + intros i Hi. unfold cur'.
          destruct (Nat.eq_dec i (n - 1 - j)) as [->|D1].
          * rewrite nth_error_upd_eq by (rewrite length_upd; lia).
            destruct (Nat.ltb_spec (n - 1 - j) j); [lia|]. destruct (Nat.leb_spec (n - j) (n - 1 - j)); [lia|].
            simpl. congruence.
          * rewrite nth_error_upd_ne by lia. destruct (Nat.eq_dec i j) as [->|D2].
            -- rewrite nth_error_upd_eq by lia.
               destruct (Nat.ltb_spec j j); [lia|]. destruct (Nat.leb_spec (n - j) j); [lia|]. simpl. congruence.
            -- rewrite nth_error_upd_ne by lia. rewrite Hc by lia.
               replace (i <? S j) with (i <? j) by lia. replace (n - S j <=? i) with (n - j <=? i) by lia. reflexivity. }
    rewrite <- (G K rows0); [lra|lia|reflexivity|].
    intros i Hi. destruct I as [I1 I2 I3 I4].
    destruct (Nat.ltb_spec i K); [reflexivity|]. destruct (Nat.leb_spec (n - K) i); [reflexivity|].
    simpl. rewrite I3 by lia. reflexivity.
  Qed.
End Loop.

(** ** From the sorted loop to the table in walker order *)
From Verif Require Import PairBranch_Spec.

Lemma branch_pair_cases u a b :
  let wab := (r_w a + r_w b)%Q in
  branch_pair u a b = (Row 0 0 (r_own a) (r_own b), Row ((1 # 2) * wab) 2 (r_own b) (r_own a)) \/
  branch_pair u a b = (Row ((1 # 2) * wab) 2 (r_own a) (r_own b), Row 0 0 (r_own b) (r_own a)).
Proof.
  simpl. unfold branch_pair. destruct (if Qeq_bool _ 0 then false else _); [left|right]; reflexivity.
Qed.

Lemma init_rows_length nw ws : length (init_rows nw ws) = length ws.
Proof. unfold init_rows. rewrite map_length, combine_length, seq_length. lia. Qed.

Lemma nth_error_combine_seq {A} (l : list A) s i :
  nth_error (combine (seq s (length l)) l) i = match nth_error l i with Some x => Some (s + i, x) | None => None end.
Proof.
  revert s i; induction l as [|x l IH]; intros s [|i]; simpl; try reflexivity.
  - rewrite Nat.add_0_r. reflexivity.
  - rewrite IH. destruct (nth_error l i); [|reflexivity]. f_equal. f_equal. lia.
Qed.

Lemma nth_error_init nw ws i : nth_error (init_rows nw ws) i =
  match nth_error ws i with Some w => Some (Row (Qabs w) 1 (i / nw) (i / nw)) | None => None end.
Proof.
  unfold init_rows. rewrite nth_error_map, nth_error_combine_seq.
  destruct (nth_error ws i); reflexivity.
Qed.
Lemma nth_init nw ws i : i < length ws -> nth i (init_rows nw ws) row0 = Row (absw ws i) 1 (i / nw) (i / nw).
Proof.
  intros H. apply nth_error_nth. rewrite nth_error_init.
  destruct (nth_error ws i) as [w|] eqn:E; [|apply nth_error_None in E; lia].
  unfold absw. rewrite (nth_error_nth _ _ _ E). reflexivity.
Qed.

Lemma Qle_bool_total x y : Qle_bool x y = true \/ Qle_bool y x = true.
Proof. rewrite !Qle_bool_iff. destruct (Qlt_le_dec x y); [left; lra|right; lra]. Qed.
Lemma Qle_bool_trans x y z : Qle_bool x y = true -> Qle_bool y z = true -> Qle_bool x z = true.
Proof. rewrite !Qle_bool_iff. intros. lra. Qed.

Lemma StronglySorted_nth {A} (R : A -> A -> Prop) (d : A) l i j :
  StronglySorted R l -> i < j -> j < length l -> R (nth i l d) (nth j l d).
Proof.
  intros H; revert i j; induction H as [|x l Hs IH Hx]; intros i j Hij Hj; simpl in Hj; [lia|].
  destruct j as [|j]; [lia|]. destruct i as [|i]; simpl.
  - rewrite Forall_forall in Hx. apply Hx, nth_In. lia.
  - apply IH; lia.
Qed.

Section Table.
  Variables (minw maxw : Q) (draws : nat -> Q) (nw : nat) (ws : list Q).
  Let n := length ws.
  Let rows := init_rows nw ws.
  Let sigma := pb_sort rows.
  Let rows0 := take row0 rows sigma.

  Lemma sigma_perm : Permutation sigma (seq 0 n).
  Proof.
    unfold sigma, pb_sort. rewrite argsort_perm, map_length. unfold rows. rewrite init_rows_length. reflexivity.
  Qed.
  Lemma sigma_length : length sigma = n.
  Proof. rewrite (Permutation_length sigma_perm), seq_length. reflexivity. Qed.
  Lemma sigma_lt i : i < n -> nth i sigma 0 < n.
  Proof.
    intros H. assert (In (nth i sigma 0) (seq 0 n)) as Hi.
    { eapply Permutation_in; [apply sigma_perm|]. apply nth_In. rewrite sigma_length. exact H. }
    apply in_seq in Hi. lia.
  Qed.
  Lemma rows0_length : length rows0 = n.
  Proof. unfold rows0. rewrite take_length. apply sigma_length. Qed.
  Lemma nth_rows0 i : i < n -> nth_error rows0 i = Some (Row (absw ws (nth i sigma 0)) 1 (nth i sigma 0 / nw) (nth i sigma 0 / nw)).
  Proof.
    intros H. rewrite nth_error_nth' with (d := row0) by (rewrite rows0_length; exact H).
    f_equal. unfold rows0. rewrite nth_take by (rewrite sigma_length; exact H).
    apply nth_init. apply sigma_lt, H.
  Qed.
  Lemma sigma_sorted i j : i <= j -> j < n -> (absw ws (nth i sigma 0%nat) <= absw ws (nth j sigma 0%nat))%Q.
  Proof.
    intros Hij Hj. destruct (Nat.eq_dec i j) as [->|D]; [lra|].
    pose proof (argsort_sorted Qle_bool Qle_bool_total Qle_bool_trans 0%Q (map r_w rows)) as S.
    fold (pb_sort rows) in S. fold sigma in S.
    apply (StronglySorted_nth _ 0%Q _ i j) in S; [|lia|rewrite take_length, sigma_length; exact Hj].
    apply Qle_bool_iff in S. rewrite !nth_take in S by (rewrite sigma_length; lia).
    assert (E : forall k, k < n -> nth k (map r_w rows) 0%Q = absw ws k).
    { intros k Hk. rewrite (nth_indep _ 0%Q (r_w row0)) by (rewrite map_length; unfold rows; rewrite init_rows_length; exact Hk).
      rewrite map_nth. unfold rows. rewrite nth_init by exact Hk. reflexivity. }
    rewrite !E in S by (apply sigma_lt; lia). exact S.
  Qed.

  Lemma table_run : exists table K out,
    pb_table minw maxw draws nw ws = Ok table /\ length table = n /\
    LInv minw maxw draws rows0 K out /\ exit_ok minw maxw rows0 K /\
    Permutation table out /\
    forall i, i < n -> nth_error table (nth i sigma 0) = nth_error out i.
  Proof.
    destruct (pb_loop_run minw maxw draws rows0) as [K [out [E [I X]]]].
    pose proof (li_len _ _ _ _ _ _ I) as Lo. rewrite rows0_length in *.
    exists (take row0 out (argsort Nat.leb sigma)), K, out.
    split; [|split; [|split; [exact I|split; [exact X|split]]]].
    - unfold pb_table. fold rows. fold sigma. fold rows0.
      assert (length rows = n) as -> by (unfold rows; apply init_rows_length).
      rewrite E. reflexivity.
    - rewrite take_length, argsort_length. apply sigma_length.
    - apply unsort_perm with n; [apply sigma_perm|exact Lo].
    - intros i Hi. rewrite nth_error_nth' with (d := row0).
      2:{ rewrite take_length, argsort_length, sigma_length. apply sigma_lt, Hi. }
      rewrite unsort_nth with (n := n); [|apply sigma_perm|exact Lo|exact Hi].
      symmetry. apply nth_error_nth'. lia.
  Qed.

  Lemma table_outcome : exists table K,
    pb_table minw maxw draws nw ws = Ok table /\ pb_outcome nw ws table sigma K /\
    (n <= 2 * K + 1 \/ forall i, K <= i -> i < n - K -> (minw <= absw ws (nth i sigma 0%nat) <= maxw)%Q).
  Proof.
    destruct table_run as [table [K [out [E [L [I [X [P N]]]]]]]].
    exists table, K. pose proof I as [I1 I2 I3 I4]. rewrite rows0_length in *.
    split; [exact E|]. split.
    - constructor.
      + exact L.
      + apply sigma_perm.
      + apply sigma_sorted.
      + exact I2.
      + intros i Hi s e. fold n in e.
        destruct (I4 i _ _ Hi (nth_rows0 i ltac:(lia)) (nth_rows0 (n - 1 - i) ltac:(lia))) as [E1 [E2 _]].
        rewrite <- (N i) in E1 by lia. rewrite <- (N (n - 1 - i)) in E2 by lia.
        fold s in E1, E2. fold e in E1, E2.
        match type of E1 with _ = Some (fst (branch_pair ?u ?a ?b)) =>
          destruct (branch_pair_cases u a b) as [B|B]; rewrite B in E1, E2; simpl in E1, E2 end.
        * right. unfold clone_kill. eexists. eexists. split; [exact E2|]. split; [exact E1|]. simpl.
          repeat split; lra.
        * left. unfold clone_kill. eexists. eexists. split; [exact E1|]. split; [exact E2|]. simpl.
          repeat split; lra.
      + intros i Hi1 Hi2 x. fold n in Hi2. unfold x. rewrite N by lia. rewrite I3 by lia. apply nth_rows0. lia.
    - unfold exit_ok in X. rewrite rows0_length in X.
      destruct X as [X|[a [b [Ea [Eb [Ha Hb]]]]]]; [left; exact X|].
      destruct (Nat.le_gt_cases n (2 * K + 1)) as [G|G]; [left; exact G|right].
      intros i Hi1 Hi2.
      rewrite nth_rows0 in Ea by lia. rewrite nth_rows0 in Eb by lia. injection Ea as <-. injection Eb as <-.
      simpl in Ha, Hb.
      pose proof (sigma_sorted K i Hi1 ltac:(lia)).
      pose proof (sigma_sorted i (n - 1 - K) ltac:(lia) ltac:(lia)). lra.
  Qed.
End Table.

(** C09 *)
Lemma branch_unbiased a b : (0 <= r_w a)%Q -> (0 <= r_w b)%Q -> (0 < r_w a + r_w b)%Q ->
  exists t, (0 <= t <= 1)%Q /\
    (forall u, ((u < t)%Q -> (carried (snd (branch_pair u a b)) == r_w a + r_w b /\ carried (fst (branch_pair u a b)) == 0)%Q) /\
               ((t <= u)%Q -> (carried (snd (branch_pair u a b)) == 0 /\ carried (fst (branch_pair u a b)) == r_w a + r_w b)%Q)) /\
    (mean_threshold t (r_w a + r_w b) 0 == r_w b)%Q /\ (mean_threshold t 0 (r_w a + r_w b) == r_w a)%Q.
Proof.
  intros Ha Hb Hab. exists (r_w b / (r_w a + r_w b))%Q.
  assert (Hne : ~ (r_w a + r_w b == 0)%Q) by lra.
  split; [split|split].
  - apply Qle_shift_div_l; [exact Hab|]. lra.
  - apply Qle_shift_div_r; [exact Hab|]. lra.
  - intros u. unfold branch_pair.
    assert (Qeq_bool (r_w a + r_w b) 0 = false) as ->.
    { destruct (Qeq_bool _ 0) eqn:E; [|reflexivity]. apply Qeq_bool_eq in E. contradiction. }
    split; intros Hu.
    + apply Qltb_spec in Hu. rewrite Hu. unfold carried. simpl. 
      change (q_of_nat 2) with 2%Q. change (q_of_nat 0) with 0%Q. split; lra.
    + apply Qltb_false in Hu. rewrite Hu. unfold carried. simpl.
      change (q_of_nat 2) with 2%Q. change (q_of_nat 0) with 0%Q. split; lra.
  - unfold mean_threshold. split; field; exact Hne.
Qed.
