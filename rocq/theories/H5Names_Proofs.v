From Coq Require Import Nnat NArith.
From Verif Require Import Base BaseFacts H5Names_Model Output_Spec.
Open Scope N_scope.

(** ** Decimal names *)

(** the k lowest decimal digits *)
Fixpoint fixed (k : nat) (n : N) : list N :=
  match k with O => [] | S k' => fixed k' (n / 10) ++ [n mod 10] end.

Lemma fixed_length k n : length (fixed k n) = k.
Proof. revert n; induction k as [|k IH]; intros n; cbn; [reflexivity|]. rewrite app_length, IH. cbn. lia. Qed.

Lemma fixed_zero k : fixed k 0 = repeat 0 k.
Proof.
  induction k as [|k IH]; [reflexivity|]. cbn [fixed]. change (0 / 10) with 0. rewrite IH.
  change (0 mod 10) with 0. rewrite <- repeat_cons. reflexivity.
Qed.

Lemma fixed_pad j k n : n < 10 ^ N.of_nat k -> repeat 0 j ++ fixed k n = fixed (j + k) n.
Proof.
  revert n; induction k as [|k IH]; intros n Hn.
  - cbn [fixed]. rewrite app_nil_r, Nat.add_0_r. change (10 ^ N.of_nat 0) with 1 in Hn.
    replace n with 0 by lia. symmetry. apply fixed_zero.
  - rewrite Nat.add_succ_r. cbn [fixed]. rewrite app_assoc, IH; [reflexivity|].
    rewrite Nat2N.inj_succ, N.pow_succ_r' in Hn.
    apply N.div_lt_upper_bound; [lia|exact Hn].
Qed.

Lemma dec_fixed k fuel n : (k <= fuel)%nat -> (1 <= k)%nat -> n < 10 ^ N.of_nat k ->
  (k = 1%nat \/ 10 ^ N.of_nat (k - 1) <= n) -> dec fuel n = fixed k n.
Proof.
  revert fuel n; induction k as [|k IH]; intros fuel n Hf Hk Hn Hlo; [lia|].
  destruct fuel as [|fuel]; [lia|]. cbn [dec fixed].
  destruct (N.ltb_spec n 10) as [Hlt|Hge].
  - destruct k as [|k].
    + cbn [fixed]. rewrite N.mod_small by exact Hlt. reflexivity.
    + destruct Hlo as [Hlo|Hlo]; [discriminate|]. exfalso.
      replace (S (S k) - 1)%nat with (S k) in Hlo by lia.
      rewrite Nat2N.inj_succ, N.pow_succ_r' in Hlo. pose proof (N.pow_nonzero 10 (N.of_nat k)). lia.
  - destruct k as [|k]; [change (10 ^ N.of_nat 1) with 10 in Hn; lia|].
    rewrite (IH fuel (n / 10)); [reflexivity|lia|lia| |].
    + rewrite Nat2N.inj_succ, N.pow_succ_r' in Hn. apply N.div_lt_upper_bound; [lia|exact Hn].
    + destruct Hlo as [Hlo|Hlo]; [discriminate|]. destruct k as [|k]; [left; reflexivity|right].
      replace (S (S (S k)) - 1)%nat with (S (S k)) in Hlo by lia. replace (S (S k) - 1)%nat with (S k) by lia.
      rewrite Nat2N.inj_succ, N.pow_succ_r' in Hlo. apply N.div_le_lower_bound; [lia|exact Hlo].
Qed.

(** every number has a decimal length *)
Lemma decimal_length n : exists k, (1 <= k)%nat /\ n < 10 ^ N.of_nat k /\ (k = 1%nat \/ 10 ^ N.of_nat (k - 1) <= n) /\
  (k <= S (N.to_nat (N.log2 n)))%nat.
Proof.
  assert (H : forall m, n < 10 ^ N.of_nat m -> exists k, (1 <= k)%nat /\ n < 10 ^ N.of_nat k /\
             (k = 1%nat \/ 10 ^ N.of_nat (k - 1) <= n)).
  { induction m as [|m IH]; intros Hm.
    - exists 1%nat. split; [lia|]. split; [|left; reflexivity]. change (10 ^ N.of_nat 0) with 1 in Hm.
      change (10 ^ N.of_nat 1) with 10. lia.
    - destruct (N.lt_ge_cases n (10 ^ N.of_nat m)) as [Hlt|Hge]; [exact (IH Hlt)|].
      exists (S m). split; [lia|]. split; [exact Hm|]. right. replace (S m - 1)%nat with m by lia. exact Hge. }
  assert (Hlog : n < 10 ^ N.of_nat (S (N.to_nat (N.log2 n)))).
  { destruct (N.eq_dec n 0) as [->|Hn]; [reflexivity|].
    rewrite Nat2N.inj_succ, N2Nat.id. destruct (N.log2_spec n ltac:(lia)) as [_ Hu].
    eapply N.lt_le_trans; [exact Hu|]. apply N.pow_le_mono_l. lia. }
  destruct (H _ Hlog) as (k & H1 & H2 & H3). exists k. repeat split; try assumption.
  destruct H3 as [->|H3]; [lia|].
  destruct (N.eq_dec n 0) as [->|Hn].
  { exfalso. pose proof (N.pow_nonzero 10 (N.of_nat (k - 1))). lia. }
  destruct (N.log2_spec n ltac:(lia)) as [_ Hu].
  assert (Hp : 2 ^ N.of_nat (k - 1) < 2 ^ N.succ (N.log2 n)).
  { eapply N.le_lt_trans; [|exact Hu]. eapply N.le_trans; [|exact H3]. apply N.pow_le_mono_l. lia. }
  apply N.pow_lt_mono_r_iff in Hp; [|lia]. lia.
Qed.

Lemma padded_fixed n : n < 10 ^ 9 -> padded n = fixed 9 n.
Proof.
  intros Hn. destruct (decimal_length n) as (k & H1 & H2 & H3 & H4).
  assert (Hk : (k <= 9)%nat).
  { destruct H3 as [->|H3]; [lia|]. assert (10 ^ N.of_nat (k - 1) < 10 ^ 9) by lia.
    apply N.pow_lt_mono_r_iff in H; [lia|lia]. }
  unfold padded, str. rewrite (dec_fixed k) by assumption. rewrite fixed_length, fixed_pad by exact H2.
  f_equal. lia.
Qed.

Lemma lexltb_app_eq a b x y : length a = length b ->
  lexltb (a ++ [x]) (b ++ [y]) = lexltb a b || ((if list_eq_dec N.eq_dec a b then true else false) && (x <? y)).
Proof.
  revert b; induction a as [|u a IH]; intros [|v b] Hl; cbn in Hl; try discriminate.
  - cbn. destruct (N.eqb_spec x y) as [->|]; [rewrite N.ltb_irrefl|]; reflexivity.
  - cbn [app lexltb]. rewrite IH by lia.
    destruct (N.eqb_spec u v) as [->|Hne].
    + destruct (list_eq_dec N.eq_dec a b) as [->|Hab];
        destruct (list_eq_dec N.eq_dec (v :: _) (v :: _)) as [E|E]; try reflexivity.
      * congruence.
      * exfalso. apply Hab. congruence.
    + destruct (list_eq_dec N.eq_dec (u :: a) (v :: b)) as [E|E]; [congruence|].
      cbn. rewrite orb_false_r. reflexivity.
Qed.

Lemma fixed_inj k m n : m < 10 ^ N.of_nat k -> n < 10 ^ N.of_nat k -> fixed k m = fixed k n -> m = n.
Proof.
  revert m n; induction k as [|k IH]; intros m n Hm Hn E.
  - change (10 ^ N.of_nat 0) with 1 in *. lia.
  - cbn [fixed] in E. apply app_inj_tail in E. destruct E as [E1 E2].
    rewrite Nat2N.inj_succ, N.pow_succ_r' in Hm, Hn.
    apply IH in E1; [|apply N.div_lt_upper_bound; lia|apply N.div_lt_upper_bound; lia].
    rewrite (N.div_mod m 10), (N.div_mod n 10) by lia. congruence.
Qed.

Lemma fixed_lex k m n : m < 10 ^ N.of_nat k -> n < 10 ^ N.of_nat k ->
  lexltb (fixed k m) (fixed k n) = (m <? n).
Proof.
  revert m n; induction k as [|k IH]; intros m n Hm Hn.
  - change (10 ^ N.of_nat 0) with 1 in *. replace m with 0 by lia. replace n with 0 by lia. reflexivity.
  - cbn [fixed]. rewrite lexltb_app_eq by (rewrite !fixed_length; reflexivity).
    rewrite Nat2N.inj_succ, N.pow_succ_r' in Hm, Hn.
    assert (Hm' : m / 10 < 10 ^ N.of_nat k) by (apply N.div_lt_upper_bound; lia).
    assert (Hn' : n / 10 < 10 ^ N.of_nat k) by (apply N.div_lt_upper_bound; lia).
    rewrite IH by assumption.
    pose proof (N.div_mod m 10 ltac:(lia)) as Dm. pose proof (N.div_mod n 10 ltac:(lia)) as Dn.
    pose proof (N.mod_lt m 10 ltac:(lia)) as Lm. pose proof (N.mod_lt n 10 ltac:(lia)) as Ln.
    destruct (list_eq_dec N.eq_dec (fixed k (m / 10)) (fixed k (n / 10))) as [E|E].
    + apply fixed_inj in E; try assumption. rewrite E, N.ltb_irrefl. cbn.
      destruct (N.ltb_spec (m mod 10) (n mod 10)), (N.ltb_spec m n); try reflexivity; lia.
    + rewrite andb_false_l, orb_false_r.
      assert (m / 10 <> n / 10) by congruence.
      destruct (N.ltb_spec (m / 10) (n / 10)), (N.ltb_spec m n); try reflexivity; lia.
Qed.

Lemma padded_lex m n : m < 10 ^ 9 -> n < 10 ^ 9 -> lexltb (padded m) (padded n) = (m <? n).
Proof. intros Hm Hn. rewrite !padded_fixed by assumption. apply fixed_lex; assumption. Qed.

Lemma padded_inj m n : m < 10 ^ 9 -> n < 10 ^ 9 -> padded m = padded n -> m = n.
Proof. intros Hm Hn. rewrite !padded_fixed by assumption. apply fixed_inj; assumption. Qed.

(** ** Runs *)
Section Runs.
  Variable D : Type.

  Lemma same_path_spec a b : same_path a b = true <-> a = b.
  Proof.
    unfold same_path. destruct a as [a1 a2], b as [b1 b2]; cbn [fst snd]. rewrite andb_true_iff, Nat.eqb_eq.
    destruct (list_eq_dec N.eq_dec a2 b2) as [->|Hne]; split.
    - intros [-> _]. reflexivity.
    - intros E. inversion E. auto.
    - intros [_ H]. discriminate H.
    - intros E. inversion E. contradiction.
  Qed.

  (** everything stored so far has a smaller index, and this block no repeated name *)
  Definition below (f : h5file D) (k : N) : Prop :=
    forall e, In e f -> exists j, j < k /\ snd (fst e) = padded j.

  (** the datasets written for block number k *)
  Definition written (k : N) (blk : list (nat * D)) : h5file D :=
    map (fun p => ((fst p, padded k), snd p)) blk.

  Lemma push_all_ok h f blk : index h < 10 ^ 9 -> NoDup (map fst blk) ->
    (forall e, In e f -> snd (fst e) = padded (index h) -> ~ In (fst (fst e)) (map fst blk)) ->
    push_all h f blk = Ok (f ++ written (index h) blk).
  Proof.
    intros Hix. revert f; induction blk as [|[nm d] blk IH]; intros f Hnd Hfree.
    - cbn. rewrite app_nil_r. reflexivity.
    - cbn [push_all]. unfold push.
      destruct (existsb _ f) eqn:Hex.
      + exfalso. apply existsb_exists in Hex. destruct Hex as (e & Hin & He). apply same_path_spec in He.
        apply (Hfree e Hin); rewrite He; [reflexivity|left; reflexivity].
      + cbn [rbind]. inversion Hnd as [|? ? Hni Hnd']; subst. rewrite IH.
        * rewrite <- app_assoc. reflexivity.
        * exact Hnd'.
        * intros e Hin Hp Hn. apply in_app_or in Hin. destruct Hin as [Hin|[<-|[]]].
          -- apply (Hfree e Hin Hp). right. exact Hn.
          -- apply Hni. exact Hn.
  Qed.

  Fixpoint contents (k : N) (bs : list (list (nat * D))) : h5file D :=
    match bs with [] => [] | b :: bs' => written k b ++ contents (k + 1) bs' end.

  Lemma run_blocks_ok bs : forall k f, k + N.of_nat (length bs) <= 10 ^ 9 -> below f k ->
    Forall (fun b => NoDup (map fst b)) bs ->
    run_blocks (Helper k 1, f) bs = Ok (Helper (k + N.of_nat (length bs)) 1, f ++ contents k bs).
  Proof.
    induction bs as [|b bs IH]; intros k f Hk Hb Hnd.
    - cbn. rewrite N.add_0_r, app_nil_r. reflexivity.
    - inversion Hnd as [|? ? Hb1 Hnd']; subst. cbn [length] in Hk.
      cbn [run_blocks]. unfold block_step. cbn [fst snd]. rewrite push_all_ok; cbn [index nav].
      + cbn [rbind]. unfold increment. cbn [nav index]. change (1 =? 0) with false. cbn [rbind].
        rewrite N.div_1_r, IH.
        * rewrite <- app_assoc. cbn [contents length]. f_equal. f_equal. f_equal. lia.
        * lia.
        * intros e Hin. apply in_app_or in Hin. destruct Hin as [Hin|Hin].
          -- destruct (Hb e Hin) as (j & Hj & He). exists j. split; [lia|exact He].
          -- unfold written in Hin. apply in_map_iff in Hin. destruct Hin as (p & <- & _). exists k. split; [lia|reflexivity].
        * exact Hnd'.
      + lia.
      + exact Hb1.
      + intros e Hin He Hn. destruct (Hb e Hin) as (j & Hj & He'). rewrite He' in He.
        apply padded_inj in He; lia.
  Qed.

  (** ** Reading back *)

  Definition entries (name : nat) (f : h5file D) : list (list N * D) :=
    map (fun e => (snd (fst e), snd e)) (filter (fun e => (fst (fst e) =? name)%nat) f).

  Lemma entries_app name f g : entries name (f ++ g) = entries name f ++ entries name g.
  Proof. unfold entries. rewrite filter_app, map_app. reflexivity. Qed.

  Lemma entries_written name k b :
    entries name (written k b) = map (fun p => (padded k, snd p)) (filter (fun p => (fst p =? name)%nat) b).
  Proof.
    unfold entries, written. induction b as [|[nm d] b IH]; [reflexivity|]. cbn [map filter fst snd].
    destruct (nm =? name)%nat; cbn [map filter fst snd]; rewrite IH; reflexivity.
  Qed.

  Lemma entries_series name bs : forall k, map snd (entries name (contents k bs)) = series name bs.
  Proof.
    induction bs as [|b bs IH]; intros k; [reflexivity|].
    cbn [contents series flat_map]. rewrite entries_app, map_app, IH. f_equal.
    rewrite entries_written, map_map. reflexivity.
  Qed.

  Inductive ascending : list (list N * D) -> Prop :=
  | asc_nil : ascending []
  | asc_cons x l : (forall y, In y l -> lexltb (fst x) (fst y) = true) -> ascending l -> ascending (x :: l).

  Lemma sort_ascending l : ascending l -> fold_right lexinsert [] l = l.
  Proof.
    induction 1 as [|x l Hx Hl IH]; [reflexivity|]. cbn [fold_right]. rewrite IH.
    destruct l as [|y l]; [reflexivity|]. cbn [lexinsert]. rewrite Hx; [reflexivity|left; reflexivity].
  Qed.

  Lemma filter_le1 name (b : list (nat * D)) : NoDup (map fst b) ->
    (length (filter (fun p => (fst p =? name)%nat) b) <= 1)%nat.
  Proof.
    induction b as [|[nm d] b IH]; intros Hnd; [cbn; lia|]. inversion Hnd as [|? ? Hni Hnd']; subst. cbn.
    destruct (Nat.eqb_spec nm name) as [->|Hne]; [|apply IH; exact Hnd']. cbn.
    rewrite filter_none; [cbn; lia|]. intros [n' d'] Hin. cbn. apply Nat.eqb_neq. intros ->.
    apply Hni. apply (in_map fst) in Hin. exact Hin.
  Qed.

  Lemma entries_ascending name bs : forall k, k + N.of_nat (length bs) <= 10 ^ 9 ->
    Forall (fun b => NoDup (map fst b)) bs ->
    ascending (entries name (contents k bs)) /\
    forall e, In e (entries name (contents k bs)) -> exists j, k <= j < 10 ^ 9 /\ fst e = padded j.
  Proof.
    induction bs as [|b bs IH]; intros k Hk Hnd.
    - split; [constructor|]. intros e [].
    - inversion Hnd as [|? ? Hb1 Hnd']; subst. cbn [length] in Hk.
      destruct (IH (k + 1) ltac:(lia) Hnd') as [Hasc Hin]. cbn [contents]. rewrite entries_app, entries_written.
      pose proof (filter_le1 name b Hb1) as Hl.
      set (fl := filter (fun p => (fst p =? name)%nat) b) in *.
      destruct fl as [|p [|p' fl']]; cbn [length] in Hl; [| |lia]; cbn [map app].
      + split; [exact Hasc|]. intros e He. destruct (Hin e He) as (j & Hj & E). exists j. split; [lia|exact E].
      + split.
        * constructor; [|exact Hasc]. intros y Hy. destruct (Hin y Hy) as (j & Hj & E). cbn [fst]. rewrite E.
          rewrite padded_lex by lia. apply N.ltb_lt. lia.
        * intros e [<-|He]; [exists k; split; [lia|reflexivity]|].
          destruct (Hin e He) as (j & Hj & E). exists j. split; [lia|exact E].
  Qed.

  Lemma read_back (bs : list (list (nat * D))) : N.of_nat (length bs) <= 10 ^ 9 -> Forall (fun b => NoDup (map fst b)) bs ->
    exists h f, run_blocks (new_helper 1, []) bs = Ok (h, f) /\ NoDup (map fst f) /\
      forall name, extract f name = series name bs.
  Proof.
    intros Hk Hnd. exists (Helper (N.of_nat (length bs)) 1), (contents 0 bs).
    split; [|split].
    - unfold new_helper. rewrite run_blocks_ok; [reflexivity|lia|intros e []|exact Hnd].
    - assert (G : forall bs k, k + N.of_nat (length bs) <= 10 ^ 9 -> Forall (fun b => NoDup (map fst b)) bs ->
        NoDup (map fst (contents k bs)) /\
        forall e, In e (contents k bs) -> exists j, k <= j < 10 ^ 9 /\ snd (fst e) = padded j).
      { clear. induction bs as [|b bs IH]; intros k Hk Hnd; [split; [constructor|intros e []]|].
        inversion Hnd as [|? ? Hb1 Hnd']; subst. cbn [length] in Hk.
        destruct (IH (k + 1) ltac:(lia) Hnd') as [H1 H2]. cbn [contents]. split.
        - rewrite map_app. 
          assert (Hw : map fst (written k b) = map (fun n => (n, padded k)) (map fst b)).
          { unfold written. rewrite !map_map. reflexivity. }
          rewrite Hw.
          assert (Hd : forall x, In x (map (fun n => (n, padded k)) (map fst b)) -> ~ In x (map fst (contents (k + 1) bs))).
          { intros x Hx Hx2. apply in_map_iff in Hx. destruct Hx as (n & <- & _).
            apply in_map_iff in Hx2. destruct Hx2 as (e & E & He). destruct (H2 e He) as (j & Hj & Ej).
            rewrite E in Ej. cbn in Ej. apply padded_inj in Ej; lia. }
          clear Hw H2 IH Hnd Hnd'. revert Hd. generalize (map fst b) as l, Hb1. intros l Hl.
          induction Hl as [|n l Hn Hl IHl]; intros Hd; [exact H1|]. cbn. constructor.
          + intros Hin. apply in_app_or in Hin. destruct Hin as [Hin|Hin].
            * apply in_map_iff in Hin. destruct Hin as (n' & E & Hn'). inversion E; subst. exact (Hn Hn').
            * apply (Hd (n, padded k)); [left; reflexivity|exact Hin].
          + apply IHl. intros x Hx. apply Hd. right. exact Hx.
        - intros e He. apply in_app_or in He. destruct He as [He|He].
          + unfold written in He. apply in_map_iff in He. destruct He as (p & <- & _). exists k. split; [lia|reflexivity].
          + destruct (H2 e He) as (j & Hj & E). exists j. split; [lia|exact E]. }
      apply (G bs 0); [lia|exact Hnd].
    - intros name. unfold extract. fold (entries name (contents 0 bs)).
      rewrite sort_ascending; [apply entries_series|]. apply entries_ascending; [lia|exact Hnd].
  Qed.

  (** with an averaging window of two or more the index never leaves zero *)
  Lemma nav_stuck nav (b1 b2 : list (nat * D)) bs name d1 d2 : 2 <= nav -> NoDup (map fst b1) ->
    In (name, d1) b1 -> In (name, d2) b2 ->
    run_blocks (new_helper nav, []) (b1 :: b2 :: bs) = Err OSError.
  Proof.
    intros Hnav Hnd H1 H2. cbn [run_blocks]. unfold block_step at 1. cbn [fst snd].
    rewrite push_all_ok; [|reflexivity|exact Hnd|intros e []]. cbn [rbind app].
    unfold increment. cbn [H5Names_Model.nav new_helper index].
    destruct (N.eqb_spec nav 0) as [->|_]; [lia|]. cbn [rbind].
    rewrite (N.div_small (0 + 1)) by lia. unfold block_step. cbn [fst snd].
    assert (G : forall blk f, In (name, d2) blk -> In ((name, padded 0), d1) f ->
      push_all (Helper 0 nav) f blk = Err OSError).
    { clear - D. induction blk as [|[n d] blk IH]; intros f Hin Hf; [destruct Hin|]. cbn [push_all]. unfold push.
      destruct (existsb _ f) eqn:Hex; [reflexivity|]. cbn [rbind]. destruct Hin as [E|Hin].
      - inversion E; subst. exfalso. rewrite <- not_true_iff_false in Hex. apply Hex. apply existsb_exists.
        exists ((name, padded 0), d1). split; [exact Hf|]. apply same_path_spec. reflexivity.
      - apply IH; [exact Hin|]. apply in_or_app. left. exact Hf. }
    rewrite G; [reflexivity|exact H2|]. unfold written. apply in_map_iff. exists (name, d1). split; [reflexivity|exact H1].
  Qed.
End Runs.

(** beyond 10^9 blocks the order of names is no longer the order of blocks *)
Lemma order_breaks : lexltb (padded (10 ^ 9)) (padded (10 ^ 9 - 1)) = true.
Proof. vm_compute. reflexivity. Qed.
