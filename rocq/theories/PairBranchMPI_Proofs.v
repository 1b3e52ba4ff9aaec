From Verif Require Import BaseFacts Sort_Model Sort_Proofs MPI_Model MPI_Proofs Comb_Model CombMPI_Proofs
  PairBranch_Model PairBranch_Spec PairBranch_Proofs.
From Coq Require Import Qabs.
Open Scope nat_scope.

(** ** Conserved sums of the table *)
Lemma Qsumf_perm f l m : Permutation l m -> (Qsumf f l == Qsumf f m)%Q.
Proof. intros P. unfold Qsumf. apply Qsum_perm, Permutation_map, P. Qed.

Definition ind (b : bool) : Q := if b then 1%Q else 0%Q.
Lemma Qsumf_ind b l : (Qsumf (fun r => ind (b r)) l == q_of_nat (length (filter b l)))%Q.
Proof.
  unfold Qsumf. induction l as [|x l IH]; simpl; [reflexivity|].
  rewrite IH. destruct (b x); simpl length; rewrite ?q_of_nat_S; unfold ind; lra.
Qed.

Section Sums.
  Variables (minw maxw : Q) (draws : nat -> Q) (nw : nat) (ws : list Q).

  Lemma init_rows_m r : In r (init_rows nw ws) -> r_m r = 1 /\ r_oth r = r_own r.
  Proof.
    intros H. apply In_nth_error in H. destruct H as [i H]. rewrite nth_error_init in H.
    destruct (nth_error ws i); [|discriminate]. injection H as <-. split; reflexivity.
  Qed.

  Lemma table_sum f table : pb_table minw maxw draws nw ws = Ok table ->
    (forall u a b, r_m a = 1 -> r_m b = 1 -> r_oth a = r_own a -> r_oth b = r_own b ->
       (f (fst (branch_pair u a b)) + f (snd (branch_pair u a b)) == f a + f b)%Q) ->
    (Qsumf f table == Qsumf f (init_rows nw ws))%Q.
  Proof.
    intros E Hf. destruct (table_run minw maxw draws nw ws) as [t [K [out [E' [L [I [X [P N]]]]]]]].
    rewrite E in E'. injection E' as <-.
    rewrite (Qsumf_perm f _ _ P).
    rewrite (linv_sum minw maxw draws (take row0 (init_rows nw ws) (pb_sort (init_rows nw ws))) f K out); [|intros|exact I].
    - apply Qsumf_perm.
      transitivity (take row0 (init_rows nw ws) (seq 0 (length ws))).
      + unfold take. apply Permutation_map. apply sigma_perm.
      + replace (take row0 (init_rows nw ws) (seq 0 (length ws))) with (init_rows nw ws); [reflexivity|].
        apply nth_ext with row0 row0; [rewrite take_length, seq_length; apply init_rows_length|].
        intros i Hi. rewrite init_rows_length in Hi. rewrite nth_take by (rewrite seq_length; lia). rewrite seq_nth by lia. reflexivity.
    - assert (Q : forall r, In r (take row0 (init_rows nw ws) (pb_sort (init_rows nw ws))) -> In r (init_rows nw ws)).
      { intros r Hr. unfold take in Hr. apply in_map_iff in Hr. destruct Hr as [i [<- Hi]]. apply nth_In.
        rewrite init_rows_length. apply (Permutation_in _ (sigma_perm nw ws)) in Hi. apply in_seq in Hi. lia. }
      destruct (init_rows_m a (Q a H)). destruct (init_rows_m b (Q b H0)). apply Hf; assumption.
  Qed.

  Lemma table_total table : pb_table minw maxw draws nw ws = Ok table ->
    (Qsumf carried table == Qsum (map Qabs ws))%Q.
  Proof.
    intros E. rewrite (table_sum carried table E).
    - unfold Qsumf, carried, init_rows. clear E. rewrite map_map.
      assert (G : forall l s, (Qsum (map (fun x : nat * Q => (q_of_nat (r_m (let '(i, w) := x in Row (Qabs w) 1 (i / nw) (i / nw))) *
          r_w (let '(i, w) := x in Row (Qabs w) 1 (i / nw) (i / nw)))%Q) (combine (seq s (length l)) l)) == Qsum (map Qabs l))%Q).
      { induction l as [|w l IH]; intros s; simpl; [reflexivity|].
        rewrite IH. change (q_of_nat 1) with 1%Q. lra. }
      apply G.
    - intros u a b Ma Mb _ _. unfold carried. rewrite Ma, Mb.
      destruct (branch_pair_cases u a b) as [B|B]; rewrite B; simpl;
        change (q_of_nat 1) with 1%Q; change (q_of_nat 2) with 2%Q; change (q_of_nat 0) with 0%Q; lra.
  Qed.

  Lemma table_bal table s d : pb_table minw maxw draws nw ws = Ok table ->
    length (filter (fun r => (1 <? r_m r) && (r_own r =? s) && (r_oth r =? d)) table) =
    length (filter (fun r => (r_m r =? 0) && (r_own r =? d) && (r_oth r =? s)) table).
  Proof.
    intros E.
    pose proof (table_sum (fun r => ind ((1 <? r_m r) && (r_own r =? s) && (r_oth r =? d)) - ind ((r_m r =? 0) && (r_own r =? d) && (r_oth r =? s)))%Q table E) as H.
    assert (H0 : (Qsumf (fun r => ind ((1 <? r_m r) && (r_own r =? s) && (r_oth r =? d)) - ind ((r_m r =? 0) && (r_own r =? d) && (r_oth r =? s)))%Q (init_rows nw ws) == 0)%Q).
    { unfold Qsumf. assert (G : forall l, (forall r, In r l -> r_m r = 1) -> (Qsum (map (fun r => ind ((1 <? r_m r) && (r_own r =? s) && (r_oth r =? d)) - ind ((r_m r =? 0) && (r_own r =? d) && (r_oth r =? s)))%Q l) == 0)%Q).
      { induction l as [|r l IH]; intros Hl; simpl; [reflexivity|]. rewrite (Hl r (or_introl eq_refl)). simpl.
        rewrite IH; [unfold ind; lra|]. intros r' Hr'. apply Hl. right. exact Hr'. }
      apply G. intros r Hr. apply init_rows_m in Hr. tauto. }
    rewrite H0 in H.
    assert (S : forall (f g : row -> Q) l, (Qsumf (fun r => f r - g r)%Q l == Qsumf f l - Qsumf g l)%Q).
    { intros f g l. unfold Qsumf. induction l as [|x l IH]; simpl; [lra|]. rewrite IH. lra. }
    rewrite S, !Qsumf_ind in H.
    match goal with |- ?x = ?y => set (X := x) in *; set (Y := y) in * end.
    assert (q_of_nat X == q_of_nat Y)%Q.
    { enough (q_of_nat X - q_of_nat Y == 0)%Q by lra. apply H.
      intros u a b Ma Mb _ _. rewrite Ma, Mb.
      destruct (branch_pair_cases u a b) as [B|B]; rewrite B; simpl;
      destruct (Nat.eqb_spec (r_own a) s), (Nat.eqb_spec (r_own b) d), (Nat.eqb_spec (r_own b) s), (Nat.eqb_spec (r_own a) d); simpl; unfold ind; lra. }
    unfold q_of_nat, inject_Z, Qeq in H1. simpl in H1. lia.
  Qed.

  Lemma table_rows table i r : pb_table minw maxw draws nw ws = Ok table -> nth_error table i = Some r ->
    r_own r = i / nw /\ (exists j, j < length ws /\ r_oth r = j / nw) /\ r_m r <= 2.
  Proof.
    intros E Hr. destruct (table_outcome minw maxw draws nw ws) as [t [K [E' [O _]]]].
    rewrite E in E'. injection E' as <-. destruct O as [L P S HK HP HR].
    assert (Hi : i < length ws) by (rewrite <- L; apply nth_error_Some; congruence).
    assert (In i (pb_sort (init_rows nw ws))) as Hin.
    { eapply Permutation_in; [symmetry; exact P|]. apply in_seq. lia. }
    apply In_nth with (d := 0) in Hin. destruct Hin as [k [Hk Ek]].
    rewrite (Permutation_length P), seq_length in Hk.
    assert (B : forall k, k < length ws -> nth k (pb_sort (init_rows nw ws)) 0 < length ws) by (intros; apply sigma_lt; assumption).
    assert (CK : forall x y, clone_kill nw ws table x y -> x < length ws -> y < length ws -> x = i \/ y = i -> 
        r_own r = i / nw /\ (exists j, j < length ws /\ r_oth r = j / nw) /\ r_m r <= 2).
    { intros x y [rx [ry [E1 [E2 [_ [M1 [O1 [O2 [M2 [O3 O4]]]]]]]]]] Hx Hy [-> | ->].
      - rewrite E1 in Hr. injection Hr as <-. split; [assumption|]. split; [exists y; auto|lia].
      - rewrite E2 in Hr. injection Hr as <-. split; [assumption|]. split; [exists x; auto|lia]. }
    destruct (Nat.lt_ge_cases k K) as [H1|H1].
    - specialize (HP k H1). cbv zeta in HP. rewrite Ek in HP.
      destruct HP as [HP|HP]; eapply CK; eauto; apply B; lia.
    - destruct (Nat.lt_ge_cases k (length ws - K)) as [H2|H2].
      + specialize (HR k H1 H2). cbv zeta in HR. rewrite Ek in HR. rewrite Hr in HR. injection HR as ->. simpl.
        split; [reflexivity|]. split; [exists i; auto|lia].
      + specialize (HP (length ws - 1 - k) ltac:(lia)). cbv zeta in HP.
        replace (length ws - 1 - (length ws - 1 - k)) with k in HP by lia. rewrite Ek in HP.
        destruct HP as [HP|HP]; eapply CK; eauto; apply B; lia.
  Qed.
End Sums.

(** ** List facts *)
Lemma flat_map_swap {A B C} (g : A -> B -> list C) (la : list A) (lb : list B) :
  Permutation (flat_map (fun a => flat_map (fun b => g a b) lb) la) (flat_map (fun b => flat_map (fun a => g a b) la) lb).
Proof.
  induction la as [|a la IH]; simpl.
  - induction lb; simpl; auto.
  - rewrite IH. clear. induction lb as [|b lb IHb]; simpl; [reflexivity|].
    rewrite <- IHb. rewrite <- !app_assoc. apply Permutation_app_head.
    rewrite !app_assoc. apply Permutation_app_tail. apply Permutation_app_comm.
Qed.

Lemma flat_map_perm {A B} (f g : A -> list B) l : (forall x, In x l -> Permutation (f x) (g x)) ->
  Permutation (flat_map f l) (flat_map g l).
Proof.
  induction l as [|x l IH]; intros H; simpl; [constructor|].
  apply Permutation_app; [apply H; left; reflexivity|apply IH; intros; apply H; right; assumption].
Qed.

Lemma bucket_perm {A} (key : A -> nat) p (l : list A) : (forall x, In x l -> key x < p) ->
  Permutation (flat_map (fun d => filter (fun x => key x =? d) l) (seq 0 p)) l.
Proof.
  induction l as [|x l IH]; intros H.
  - simpl. induction (seq 0 p); simpl; auto.
  - assert (IH' := IH (fun y Hy => H y (or_intror Hy))). clear IH.
    transitivity (x :: flat_map (fun d => filter (fun x => key x =? d) l) (seq 0 p)); [|constructor; exact IH'].
    specialize (H x (or_introl eq_refl)).
    replace p with (key x + S (p - S (key x))) by lia. rewrite seq_app, !flat_map_app.
    simpl seq. cbn [flat_map].
    assert (N : forall s k, (forall d, s <= d < s + k -> key x <> d) ->
      flat_map (fun d => filter (fun y => key y =? d) (x :: l)) (seq s k) = flat_map (fun d => filter (fun y => key y =? d) l) (seq s k)).
    { intros s k; revert s; induction k as [|k IHk]; intros s Hs; [reflexivity|]. cbn [seq flat_map].
      rewrite IHk by (intros; apply Hs; lia). f_equal. cbn [filter].
      destruct (Nat.eqb_spec (key x) s); [|reflexivity]. exfalso. apply (Hs s); lia. }
    rewrite N by (intros; lia). rewrite N by (intros; lia).
    cbn [filter]. rewrite Nat.eqb_refl. simpl.
    rewrite <- Permutation_middle. reflexivity.
Qed.

Lemma flat_map_map' {A B C} (f : A -> B) (g : B -> list C) l : flat_map g (map f l) = flat_map (fun x => g (f x)) l.
Proof. induction l as [|x l IH]; simpl; [reflexivity|]. rewrite IH. reflexivity. Qed.
Lemma map_flat_map {A B C} (f : B -> C) (g : A -> list B) l : map f (flat_map g l) = flat_map (fun x => map f (g x)) l.
Proof. induction l as [|x l IH]; simpl; [reflexivity|]. rewrite map_app, IH. reflexivity. Qed.
Lemma filter_flat_map {A B} (f : B -> bool) (g : A -> list B) l : filter f (flat_map g l) = flat_map (fun x => filter f (g x)) l.
Proof. induction l as [|x l IH]; simpl; [reflexivity|]. rewrite filter_app, IH. reflexivity. Qed.

(** ** Received values as a multiset *)
Section Recv.
  Context {A : Type}.
  Variable st0 : nat -> list A.
  Variables sends recvs waits : nat -> list instr.
  Variables (p : nat) (tg : nat -> nat -> nat).

  Definition good_recv (r : nat) (i : instr) : Prop :=
    match i with Recv s t pos => s < p /\ t = tg s r /\ pos < length (st0 r) | _ => False end.
  Definition rpos (i : instr) : nat := match i with Recv _ _ pos => pos | _ => 0 end.

  Notation msgs' := (msgs st0 sends recvs waits).
  Notation rst' := (rst st0 sends recvs waits).

  Lemma flat_map_bump (f g : nat -> list A) s x : s < p -> (forall i, i <> s -> f i = g i) -> f s = g s ++ [x] ->
    Permutation (flat_map f (seq 0 p)) (x :: flat_map g (seq 0 p)).
  Proof.
    intros Hs Hne He. replace p with (s + S (p - S s)) by lia. rewrite seq_app, !flat_map_app. simpl seq. cbn [flat_map].
    assert (N : forall a k, (forall d, a <= d < a + k -> d <> s) -> flat_map f (seq a k) = flat_map g (seq a k)).
    { intros a k; revert a; induction k as [|k IHk]; intros a Ha; [reflexivity|]. cbn [seq flat_map].
      rewrite IHk by (intros; apply Ha; lia). rewrite Hne by (apply Ha; lia). reflexivity. }
    rewrite !N by (intros; lia). rewrite He. rewrite <- app_assoc. simpl.
    rewrite <- Permutation_middle. rewrite app_assoc. rewrite <- Permutation_middle. rewrite <- app_assoc. reflexivity.
  Qed.

  Lemma firstn_S_nth (l : list A) k x : nth_error l k = Some x -> firstn (S k) l = firstn k l ++ [x].
  Proof.
    revert k; induction l as [|y l IH]; intros [|k] H; simpl in *; try discriminate.
    - injection H as ->. reflexivity.
    - f_equal. apply IH, H.
  Qed.

  Lemma rst_recvs_values r l rest :
    (forall c, nrecv r rest c = 0) -> (rst' r rest = st0 r) ->
    (forall i, In i l -> good_recv r i) -> NoDup (map rpos l) ->
    (forall c, nrecv r l c <= length (msgs' c)) ->
    exists vals,
      map (fun i => nth_error (rst' r (l ++ rest)) (rpos i)) l = map Some vals /\
      length (rst' r (l ++ rest)) = length (st0 r) /\
      (forall q, ~ In q (map rpos l) -> nth_error (rst' r (l ++ rest)) q = nth_error (st0 r) q) /\
      Permutation vals (flat_map (fun s => firstn (nrecv r l (s, r, tg s r)) (msgs' (s, r, tg s r))) (seq 0 p)).
  Proof.
    intros Hrest Hst. induction l as [|i l IH]; intros Hg ND Hb.
    - exists []. simpl. rewrite Hst. split; [reflexivity|]. split; [reflexivity|]. split; [auto|].
      induction (seq 0 p); simpl; auto.
    - inversion ND as [|? ? Hni ND']; subst.
      assert (Hgi := Hg i (or_introl eq_refl)). destruct i as [|s t pos|]; simpl in Hgi; try contradiction.
      destruct Hgi as [Hs [Ht Hp]]. subst t.
      destruct IH as [vals [V1 [V2 [V3 V4]]]].
      { intros i Hi. apply Hg. right. exact Hi. } { exact ND'. }
      { intros c. specialize (Hb c). simpl in Hb. lia. }
      assert (exists x, nth_error (msgs' (s, r, tg s r)) (nrecv r l (s, r, tg s r)) = Some x) as [x Ex].
      { destruct (nth_error (msgs' (s, r, tg s r)) (nrecv r l (s, r, tg s r))) as [x|] eqn:E; [eauto|].
        apply nth_error_None in E. specialize (Hb (s, r, tg s r)). simpl in Hb.
        destruct (chan_eqb_spec (s, r, tg s r) (s, r, tg s r)); [lia|congruence]. }
      exists (x :: vals).
      assert (R : rst' r ((Recv s (tg s r) pos :: l) ++ rest) = upd pos x (rst' r (l ++ rest))).
      { simpl. rewrite nrecv_app, Hrest, Nat.add_0_r, Ex. reflexivity. }
      rewrite R. split; [|split; [|split]].
      + simpl. rewrite nth_error_upd_eq by (rewrite V2; exact Hp). f_equal.
        rewrite <- V1. apply map_ext_in. intros i Hi. apply nth_error_upd_ne.
        intros E. apply Hni. simpl. rewrite E. apply in_map. exact Hi.
      + rewrite length_upd. exact V2.
      + intros q Hq. simpl in Hq. rewrite nth_error_upd_ne by tauto. apply V3. tauto.
      + simpl nrecv. symmetry. rewrite V4.
        apply flat_map_bump with (s := s); [exact Hs| |].
        * intros i Hi. destruct (chan_eqb_spec (s, r, tg s r) (i, r, tg i r)) as [E|]; [congruence|reflexivity].
        * destruct (chan_eqb_spec (s, r, tg s r) (s, r, tg s r)); [|congruence].
          simpl plus. apply firstn_S_nth. exact Ex.
  Qed.
End Recv.

(** ** Chunks *)
Lemma skipn_skipn' {A} a b (l : list A) : skipn a (skipn b l) = skipn (b + a) l.
Proof. revert l; induction b as [|b IH]; intros l; [reflexivity|]. destruct l; simpl; [destruct a; reflexivity|apply IH]. Qed.
Lemma chunks_concat_gen {A} nw (l : list A) p s :
  flat_map (fun r => chunk nw r l) (seq s p) = firstn (p * nw) (skipn (s * nw) l).
Proof.
  revert s; induction p as [|p IH]; intros s; [reflexivity|]. cbn [seq flat_map]. rewrite IH.
  unfold chunk. simpl. rewrite <- (firstn_skipn nw (skipn (s * nw) l)) at 2.
  rewrite firstn_app. rewrite firstn_firstn.
  replace (Nat.min (nw + p * nw) nw) with nw by lia. f_equal.
  rewrite skipn_skipn', firstn_length, skipn_length. 
  destruct (Nat.le_gt_cases nw (length l - s * nw)) as [H|H].
  - replace (s * nw + nw) with (nw + s * nw) by lia. f_equal. lia.
  - rewrite !skipn_all2 by lia. rewrite !firstn_nil. reflexivity.
Qed.
Lemma chunks_concat {A} nw p (l : list A) : length l = p * nw -> flat_map (fun r => chunk nw r l) (seq 0 p) = l.
Proof. intros H. rewrite chunks_concat_gen. simpl. rewrite <- H. apply firstn_all. Qed.
Lemma chunk_length {A} nw p r (l : list A) : length l = p * nw -> r < p -> length (chunk nw r l) = nw.
Proof. intros H Hr. unfold chunk. rewrite firstn_length, skipn_length. nia. Qed.
Lemma chunk_beyond {A} nw p r (l : list A) : length l = p * nw -> p <= r -> chunk nw r l = [].
Proof. intros H Hr. unfold chunk. rewrite skipn_all2 by nia. apply firstn_nil. Qed.

Lemma combine_flat_map {A B} (f : nat -> list A) (g : nat -> list B) l :
  (forall r, In r l -> length (f r) = length (g r)) ->
  combine (flat_map f l) (flat_map g l) = flat_map (fun r => combine (f r) (g r)) l.
Proof.
  induction l as [|x l IH]; intros H; simpl; [reflexivity|].
  rewrite <- IH by (intros; apply H; right; assumption).
  specialize (H x (or_introl eq_refl)). revert H. generalize (f x) (g x). clear.
  induction l0 as [|a la IHa]; intros [|b lb] H; simpl in *; try discriminate; [reflexivity|].
  f_equal. apply IHa. lia.
Qed.

Lemma flat_map_ext_in {A B} (f g : A -> list B) l : (forall x, In x l -> f x = g x) -> flat_map f l = flat_map g l.
Proof.
  induction l as [|x l IH]; intros H; simpl; [reflexivity|].
  rewrite IH by (intros; apply H; right; assumption). rewrite H by (left; reflexivity). reflexivity.
Qed.

(** Selecting entries through enumerated positions. *)
Definition o2l {A} (o : option A) : list A := match o with Some x => [x] | None => [] end.
Lemma select_positions {A} (b : row -> bool) data (st pre : list A) :
  length st = length data ->
  map snd (filter (fun rw => b (fst rw)) (combine data st)) =
  flat_map (fun ir : nat * row => o2l (nth_error (pre ++ st) (fst ir)))
    (filter (fun ir => b (snd ir)) (combine (seq (length pre) (length data)) data)).
Proof.
  revert st pre; induction data as [|r data IH]; intros [|x st] pre H; simpl in *; try discriminate; [reflexivity|].
  assert (E : nth_error (pre ++ x :: st) (length pre) = Some x).
  { rewrite nth_error_app2, Nat.sub_diag by lia. reflexivity. }
  specialize (IH st (pre ++ [x]) ltac:(lia)). rewrite app_length in IH. simpl in IH.
  rewrite Nat.add_1_r in IH. rewrite <- app_assoc in IH. simpl in IH.
  destruct (b r); simpl; rewrite IH; [rewrite E|]; reflexivity.
Qed.

Lemma enum_in' {A} (l : list A) i x : In (i, x) (enum l) <-> nth_error l i = Some x.
Proof.
  unfold enum. split.
  - intros H. apply In_nth_error in H. destruct H as [k H]. rewrite nth_error_combine_seq in H.
    destruct (nth_error l k) eqn:E; [|discriminate]. simpl in H. injection H as <- <-. exact E.
  - intros H. apply nth_error_In with i. rewrite nth_error_combine_seq, H. reflexivity.
Qed.
Lemma enum_NoDup {A} (l : list A) : NoDup (map fst (enum l)).
Proof.
  unfold enum. assert (G : forall s, map fst (combine (seq s (length l)) l) = seq s (length l)).
  { induction l as [|x l IH]; intros s; simpl; [reflexivity|]. rewrite IH. reflexivity. }
  rewrite G. apply seq_NoDup.
Qed.
Lemma NoDup_map_filter {A B} (f : A -> B) (q : A -> bool) l : NoDup (map f l) -> NoDup (map f (filter q l)).
Proof.
  induction l as [|x l IH]; simpl; intros H; [constructor|]. inversion H as [|? ? Hn Hd]; subst.
  destruct (q x); simpl; [|auto]. constructor; [|auto].
  intros Hi. apply Hn. apply in_map_iff in Hi. destruct Hi as [y [E Hy]]. apply filter_In in Hy.
  rewrite <- E. apply in_map. tauto.
Qed.
Lemma flat_map_filter {A B} (q : A -> bool) (f : A -> B) l :
  flat_map (fun x => if q x then [f x] else []) l = map f (filter q l).
Proof. induction l as [|x l IH]; simpl; [reflexivity|]. destruct (q x); simpl; rewrite IH; reflexivity. Qed.
Lemma filter_snd_enum {A} (q : A -> bool) (l : list A) s :
  length (filter (fun ir => q (snd ir)) (combine (seq s (length l)) l)) = length (filter q l).
Proof. revert s; induction l as [|x l IH]; intros s; simpl; [reflexivity|]. destruct (q x); simpl; rewrite IH; reflexivity. Qed.
Lemma filter_filter {A} (f g : A -> bool) l : filter f (filter g l) = filter (fun x => g x && f x) l.
Proof. induction l as [|x l IH]; simpl; [reflexivity|]. destruct (g x); simpl; [destruct (f x)|]; rewrite IH; reflexivity. Qed.
Lemma count_occ_filter l d : count_occ Nat.eq_dec l d = length (filter (fun x => x =? d) l).
Proof.
  induction l as [|x l IH]; simpl; [reflexivity|].
  destruct (Nat.eq_dec x d), (Nat.eqb_spec x d); try contradiction; simpl; lia.
Qed.

Lemma payl_none' {A} {st0 : nat -> list A} {s c} l : forallb (fun i => negb (is_send i)) l = true -> payl st0 s l c = [].
Proof.
  induction l as [|i l IH]; simpl; intros H; [reflexivity|].
  apply andb_true_iff in H. destruct i; simpl in *; try (destruct H; discriminate); apply IH, H.
Qed.
Lemma rst_app_norecv' {A} (st0 : nat -> list A) sends recvs waits r l1 l2 : forallb (fun i => negb (is_recv i)) l1 = true ->
  rst st0 sends recvs waits r (l1 ++ l2) = rst st0 sends recvs waits r l2.
Proof.
  induction l1 as [|i l1 IH]; intros H; [reflexivity|]. simpl in H. apply andb_true_iff in H.
  destruct i; simpl in *; try (destruct H; discriminate); apply IH, H.
Qed.

Section PBMPI.
  Context {X : Type}.
  Variables (nw p : nat) (ws : list (Q * X)) (table : list row).
  Hypothesis Hnw : 0 < nw.
  Hypothesis Hlen : length ws = p * nw.
  Hypothesis Htl : length table = p * nw.
  Hypothesis Hown : forall i r, nth_error table i = Some r -> r_own r = i / nw /\ r_oth r < p /\ r_m r <= 2.
  Hypothesis Hbalance : forall s d,
    length (filter (fun r => (1 <? r_m r) && (r_own r =? s) && (r_oth r =? d)) table) =
    length (filter (fun r => (r_m r =? 0) && (r_own r =? d) && (r_oth r =? s)) table).

  Let rw := reweighted table ws.
  Let data r := chunk nw r table.
  Let st0 r := chunk nw r rw.
  Let sends r := pb_sends nw r (data r).
  Let recvs r := pb_recvs nw r (data r).
  Let waits r := pb_waits nw r (data r).
  Let F := full sends recvs waits.
  Let tg s d := s * nw + d.

  Lemma rw_length : length rw = p * nw.
  Proof. unfold rw, reweighted. rewrite map_length, combine_length, Hlen, Htl. lia. Qed.

  Lemma data_row r row : In row (data r) -> r_own row = r /\ r_oth row < p.
  Proof.
    intros H. apply In_nth_error in H. destruct H as [q H]. unfold data in H. rewrite nth_error_chunk in H.
    destruct (Nat.ltb_spec q nw) as [L|]; [|discriminate].
    destruct (Hown _ _ H) as [O1 [O2 _]]. split; [|exact O2]. rewrite O1.
    apply (div_mod_iff nw r q (r * nw + q) L). reflexivity.
  Qed.

  Lemma own_filter (b : row -> bool) s : 
    length (filter (fun r => b r && (r_own r =? s)) table) = length (filter b (data s)).
  Proof.
    rewrite <- (chunks_concat nw p table) at 1 by exact Htl. fold data.
    rewrite filter_flat_map.
    destruct (Nat.lt_ge_cases s p) as [Hs|Hs].
    - replace p with (s + S (p - S s)) by lia. rewrite seq_app, flat_map_app. simpl seq. cbn [flat_map].
      assert (N : forall a k, (forall d, a <= d < a + k -> d <> s) ->
        flat_map (fun x => filter (fun r => b r && (r_own r =? s)) (data x)) (seq a k) = []).
      { intros a k; revert a; induction k as [|k IHk]; intros a Ha; [reflexivity|]. cbn [seq flat_map].
        rewrite IHk by (intros; apply Ha; lia). rewrite app_nil_r.
        assert (G : forall l, (forall r, In r l -> r_own r = a) -> filter (fun r => b r && (r_own r =? s)) l = []).
        { induction l as [|r l IHl]; intros Hl; [reflexivity|]. simpl. rewrite (Hl r (or_introl eq_refl)).
          destruct (Nat.eqb_spec a s); [exfalso; apply (Ha a); lia|]. rewrite andb_false_r. apply IHl. intros. apply Hl. right. assumption. }
        apply G. intros r Hr. apply data_row in Hr. tauto. }
      rewrite !N by (intros; lia). rewrite app_nil_r. simpl. f_equal.
      apply filter_ext_in. intros r Hr. apply data_row in Hr. destruct Hr as [-> _]. rewrite Nat.eqb_refl, andb_true_r. reflexivity.
    - assert (data s = []) as -> by (apply (chunk_beyond nw p); assumption).
      assert (G : forall l, (forall r, In r l -> r < p) -> flat_map (fun x => filter (fun r => b r && (r_own r =? s)) (data x)) l = []).
      { induction l as [|a l IHl]; intros Hl; [reflexivity|]. cbn [flat_map]. rewrite IHl by (intros; apply Hl; right; assumption).
        rewrite app_nil_r. specialize (Hl a (or_introl eq_refl)).
        assert (G : forall l, (forall r, In r l -> r_own r = a) -> filter (fun r => b r && (r_own r =? s)) l = []).
        { induction l0 as [|r l0 IHl0]; intros Hl0; [reflexivity|]. simpl. rewrite (Hl0 r (or_introl eq_refl)).
          destruct (Nat.eqb_spec a s); [lia|]. rewrite andb_false_r. apply IHl0. intros. apply Hl0. right. assumption. }
        apply G. intros r Hr. apply data_row in Hr. tauto. }
      rewrite G; [reflexivity|]. intros r Hr. apply in_seq in Hr. lia.
  Qed.

  Lemma dests_eq d0 : pb_dests d0 = map (fun ir => (fst ir, r_oth (snd ir))) (filter (fun ir => 1 <? r_m (snd ir)) (enum d0)).
  Proof.
    unfold pb_dests. rewrite <- flat_map_filter. apply flat_map_ext. intros [i r]. reflexivity.
  Qed.
  Lemma recvs_eq r d0 : pb_recvs nw r d0 = map (fun ir => Recv (r_oth (snd ir)) (tg (r_oth (snd ir)) r) (fst ir)) (filter (fun ir => r_m (snd ir) =? 0) (enum d0)).
  Proof.
    unfold pb_recvs. rewrite <- flat_map_filter. apply flat_map_ext. intros [i r']. reflexivity.
  Qed.

  Definition nd (s d : nat) : nat := length (filter (fun x : nat * nat => snd x =? d) (pb_dests (data s))).

  Lemma nsend_pb s d t : nsend s (sends s) (s, d, t) = if t =? tg s d then nd s d else 0.
  Proof.
    unfold sends, pb_sends, nd. induction (pb_dests (data s)) as [|[i d'] l IH]; simpl; [destruct (t =? tg s d); reflexivity|].
    rewrite IH. unfold chan_eqb. rewrite Nat.eqb_refl. simpl. unfold tg.
    destruct (Nat.eqb_spec d' d) as [->|D]; simpl.
    - destruct (Nat.eqb_spec (s * nw + d) t), (Nat.eqb_spec t (s * nw + d)); simpl; lia.
    - destruct (Nat.eqb_spec t (s * nw + d)); reflexivity.
  Qed.
  Lemma nrecv_pb s d t : nrecv d (recvs d) (s, d, t) =
    if t =? tg s d then length (filter (fun r => (r_m r =? 0) && (r_oth r =? s)) (data d)) else 0.
  Proof.
    unfold recvs. rewrite recvs_eq.
    rewrite <- (filter_snd_enum (fun r => (r_m r =? 0) && (r_oth r =? s)) (data d) 0). fold (enum (data d)).
    rewrite <- (filter_filter (fun ir : nat * row => r_oth (snd ir) =? s) (fun ir => r_m (snd ir) =? 0)).
    induction (filter (fun ir : nat * row => r_m (snd ir) =? 0) (enum (data d))) as [|[i r] l IH]; simpl;
      [destruct (t =? tg s d); reflexivity|].
    rewrite IH. unfold chan_eqb. rewrite Nat.eqb_refl. unfold tg.
    destruct (Nat.eqb_spec (r_oth r) s) as [->|D]; simpl.
    - destruct (Nat.eqb_spec (s * nw + d) t), (Nat.eqb_spec t (s * nw + d)); simpl; lia.
    - destruct (Nat.eqb_spec t (s * nw + d)); reflexivity.
  Qed.

  Lemma sends_are' r : forallb is_send (sends r) = true.
  Proof. unfold sends, pb_sends. induction (pb_dests (data r)) as [|[i d] l IH]; simpl; [reflexivity|exact IH]. Qed.
  Lemma recvs_are' r : forallb is_recv (recvs r) = true.
  Proof. unfold recvs. rewrite recvs_eq. induction (filter _ (enum (data r))) as [|[i d] l IH]; simpl; [reflexivity|exact IH]. Qed.
  Lemma waits_are' r : forallb is_wait (waits r) = true.
  Proof. unfold waits, pb_waits. induction (enum _) as [|[i d] l IH]; simpl; [reflexivity|exact IH]. Qed.

  Lemma full_nsend r c : nsend r (F r) c = nsend r (sends r) c.
  Proof.
    unfold F, full. rewrite !nsend_app. rewrite (nsend_sends r (recvs r)), (nsend_sends r (waits r)); [lia| |].
    - rewrite forallb_forall. intros i Hi. pose proof (waits_are' r) as W. rewrite forallb_forall in W. specialize (W i Hi). destruct i; simpl in *; congruence.
    - rewrite forallb_forall. intros i Hi. pose proof (recvs_are' r) as W. rewrite forallb_forall in W. specialize (W i Hi). destruct i; simpl in *; congruence.
  Qed.
  Lemma full_nrecv r c : nrecv r (F r) c = nrecv r (recvs r) c.
  Proof.
    unfold F, full. rewrite !nrecv_app. rewrite (nrecv_none r (sends r)), (nrecv_none r (waits r)); [lia| |].
    - rewrite forallb_forall. intros i Hi. pose proof (waits_are' r) as W. rewrite forallb_forall in W. specialize (W i Hi). destruct i; simpl in *; congruence.
    - rewrite forallb_forall. intros i Hi. pose proof (sends_are' r) as W. rewrite forallb_forall in W. specialize (W i Hi). destruct i; simpl in *; congruence.
  Qed.

  Lemma nd_eq s d : nd s d = length (filter (fun r => (1 <? r_m r) && (r_oth r =? d)) (data s)).
  Proof.
    unfold nd. rewrite dests_eq.
    rewrite <- (filter_snd_enum (fun r => (1 <? r_m r) && (r_oth r =? d)) (data s) 0). fold (enum (data s)).
    rewrite <- (filter_filter (fun ir : nat * row => r_oth (snd ir) =? d) (fun ir => 1 <? r_m (snd ir))).
    induction (filter (fun ir : nat * row => 1 <? r_m (snd ir)) (enum (data s))) as [|[i r] l IH]; simpl; [reflexivity|].
    destruct (r_oth r =? d); simpl; rewrite IH; reflexivity.
  Qed.

  Lemma bal' s d : nd s d = length (filter (fun r => (r_m r =? 0) && (r_oth r =? s)) (data d)).
  Proof.
    rewrite nd_eq, <- !own_filter.
    rewrite (filter_ext _ (fun r => (1 <? r_m r) && (r_own r =? s) && (r_oth r =? d))).
    2:{ intros r. destruct (1 <? r_m r), (r_own r =? s), (r_oth r =? d); reflexivity. }
    rewrite Hbalance. f_equal. apply filter_ext. intros r.
    destruct (r_m r =? 0), (r_own r =? d), (r_oth r =? s); reflexivity.
  Qed.

  Lemma H_bal' c : nsend (csrc c) (F (csrc c)) c = nrecv (cdst c) (F (cdst c)) c.
  Proof.
    destruct c as [[s d] t]. unfold csrc, cdst; simpl.
    rewrite full_nsend, full_nrecv, nsend_pb, nrecv_pb, bal'. reflexivity.
  Qed.

  Lemma H_idle' r : p <= r -> F r = [].
  Proof.
    intros H. unfold F, full, sends, recvs, waits.
    assert (data r = []) as -> by (apply (chunk_beyond nw p); assumption). reflexivity.
  Qed.

  Lemma len_st0' r : r < p -> length (st0 r) = nw.
  Proof. intros H. apply (chunk_length nw p); [apply rw_length|exact H]. Qed.
  Lemma len_data r : r < p -> length (data r) = nw.
  Proof. intros H. apply (chunk_length nw p); [exact Htl|exact H]. Qed.
  Lemma data_nonempty r row : In row (data r) -> r < p.
  Proof.
    intros H. destruct (Nat.lt_ge_cases r p) as [|G]; [assumption|].
    unfold data in H. rewrite (chunk_beyond nw p) in H by assumption. contradiction.
  Qed.

  Lemma dests_in r i d : In (i, d) (pb_dests (data r)) -> i < nw /\ d < p /\ r < p.
  Proof.
    rewrite dests_eq. intros H. apply in_map_iff in H. destruct H as [[i' row] [E H]]. simpl in E.
    injection E as -> <-. apply filter_In in H. destruct H as [H _].
    apply enum_in' in H. pose proof (nth_error_In _ _ H) as Hi.
    pose proof (data_nonempty r row Hi) as Hr. pose proof (data_row r row Hi) as [_ Ho].
    assert (i < length (data r)) by (apply nth_error_Some; congruence). rewrite len_data in * by assumption.
    auto.
  Qed.

  Lemma H_pos' r i : In i (F r) -> pos_ok p st0 r i.
  Proof.
    unfold F, full. intros H. apply in_app_or in H. destruct H as [H|H]; [|apply in_app_or in H; destruct H as [H|H]].
    - unfold sends, pb_sends in H. apply in_map_iff in H. destruct H as [[i' d] [<- H]].
      apply dests_in in H. simpl. rewrite len_st0' by tauto. tauto.
    - unfold recvs in H. rewrite recvs_eq in H. apply in_map_iff in H. destruct H as [[i' row] [<- H]]. simpl.
      apply filter_In in H. destruct H as [H _]. apply enum_in' in H. pose proof (nth_error_In _ _ H) as Hi.
      pose proof (data_nonempty r row Hi) as Hr. pose proof (data_row r row Hi) as [_ Ho].
      assert (i' < length (data r)) by (apply nth_error_Some; congruence).
      rewrite len_st0', len_data in * by assumption. auto.
    - unfold waits, pb_waits in H. apply in_map_iff in H. destruct H as [[j d] [<- H]]. simpl.
      apply enum_in' in H. apply nth_error_In in H. apply in_map_iff in H. destruct H as [[i' d'] [E H]].
      simpl in E. subst d'. apply dests_in in H. tauto.
  Qed.

  Lemma H_wait' r d t k : In (Wait d t k) (waits r) -> k < nsend r (F r) (r, d, t).
  Proof.
    unfold waits, pb_waits. intros H. apply in_map_iff in H. destruct H as [[j d'] [E H]].
    injection E as -> <- <-. apply enum_in' in H.
    rewrite full_nsend, nsend_pb. unfold tg. rewrite Nat.eqb_refl. unfold nd.
    set (ds := map snd (pb_dests (data r))) in *.
    assert (length (filter (fun x : nat * nat => snd x =? d) (pb_dests (data r))) = count_occ Nat.eq_dec ds d) as ->.
    { unfold ds. rewrite count_occ_filter. clear. induction (pb_dests (data r)) as [|[i e] l IH]; simpl; [reflexivity|].
      destruct (e =? d); simpl; rewrite IH; reflexivity. }
    revert H. clear. revert j. induction ds as [|x ds IH]; intros [|j] H; simpl in *; try discriminate.
    - injection H as ->. destruct (Nat.eq_dec d d); [lia|congruence].
    - specialize (IH j H). destruct (Nat.eq_dec x d); lia.
  Qed.

  Lemma payl_pb s d : 
    payl st0 s (rev (sends s)) (s, d, tg s d) =
    flat_map (fun x : nat * nat => if snd x =? d then match nth_error (st0 s) (fst x) with Some y => [y] | None => [] end else []) (pb_dests (data s)).
  Proof.
    unfold sends, pb_sends. induction (pb_dests (data s)) as [|[i e] l IH]; [reflexivity|].
    cbn [map rev flat_map]. rewrite payl_app, IH. f_equal.
    simpl. unfold chan_eqb. rewrite Nat.eqb_refl. simpl.
    destruct (Nat.eqb_spec e d) as [->|]; simpl; [|reflexivity].
    unfold tg. rewrite Nat.eqb_refl. reflexivity.
  Qed.


  Lemma msgs_pb s d : msgs st0 sends recvs waits (s, d, tg s d) =
    flat_map (fun x => o2l (nth_error (st0 s) (fst x))) (filter (fun x : nat * nat => snd x =? d) (pb_dests (data s))).
  Proof.
    unfold msgs, csrc; simpl. unfold full. rewrite !rev_app_distr, !payl_app.
    rewrite (payl_none' (rev (recvs s))), (payl_none' (rev (waits s))).
    2,3: rewrite forallb_rev, forallb_forall; intros x Hx.
    2:{ pose proof (waits_are' s) as W. rewrite forallb_forall in W. specialize (W x Hx). destruct x; simpl in *; congruence. }
    2:{ pose proof (recvs_are' s) as W. rewrite forallb_forall in W. specialize (W x Hx). destruct x; simpl in *; congruence. }
    rewrite !app_nil_r. rewrite payl_pb. clear.
    induction (pb_dests (data s)) as [|[i e] l IH]; [reflexivity|]. simpl. rewrite IH.
    destruct (e =? d); simpl; [|reflexivity]. reflexivity.
  Qed.

  Lemma msgs_length_pb s d t : length (msgs st0 sends recvs waits (s, d, t)) = nsend s (F s) (s, d, t).
  Proof.
    unfold msgs, csrc; simpl. fold F. rewrite payl_length, nsend_rev; [reflexivity|].
    intros d' t' pos Hi. apply in_rev in Hi. apply (H_pos' s _ Hi).
  Qed.

  Definition doubled : list (Q * X) := map snd (filter (fun rw => 1 <? r_m (fst rw)) (combine table rw)).

  Lemma all_msgs :
    Permutation (flat_map (fun r => flat_map (fun s => msgs st0 sends recvs waits (s, r, tg s r)) (seq 0 p)) (seq 0 p)) doubled.
  Proof.
    rewrite flat_map_swap.
    transitivity (flat_map (fun s => map snd (filter (fun rw => 1 <? r_m (fst rw)) (combine (data s) (st0 s)))) (seq 0 p)).
    - apply flat_map_perm. intros s Hs. apply in_seq in Hs.
      transitivity (flat_map (fun x => o2l (nth_error (st0 s) (fst x))) (pb_dests (data s))).
      + transitivity (flat_map (fun x => o2l (nth_error (st0 s) (fst x))) (flat_map (fun d => filter (fun x : nat * nat => snd x =? d) (pb_dests (data s))) (seq 0 p))).
        * rewrite (flat_map_ext_in _ (fun d => flat_map (fun x => o2l (nth_error (st0 s) (fst x))) (filter (fun x : nat * nat => snd x =? d) (pb_dests (data s)))) (seq 0 p))
            by (intros; apply msgs_pb).
          clear. induction (seq 0 p) as [|a l IH]; simpl; [constructor|]. rewrite flat_map_app. apply Permutation_app_head, IH.
        * apply Permutation_flat_map. apply bucket_perm. intros [i d] Hx. apply dests_in in Hx. simpl. tauto.
      + rewrite (select_positions (fun r => 1 <? r_m r) (data s) (st0 s) []) by (rewrite len_st0', len_data by lia; reflexivity).
        simpl app. fold (enum (data s)). rewrite dests_eq, flat_map_map'. reflexivity.
    - unfold doubled. rewrite <- (chunks_concat nw p table) at 1 by exact Htl.
      rewrite <- (chunks_concat nw p rw) at 1 by apply rw_length. fold data. fold st0.
      rewrite combine_flat_map by (intros r Hr; apply in_seq in Hr; rewrite len_st0', len_data by lia; reflexivity).
      rewrite filter_flat_map, map_flat_map. reflexivity.
  Qed.

  Lemma rank_final r : r < p ->
    let S := rst st0 sends recvs waits r (rev (F r)) in
    length S = nw /\ (forall q row, nth_error (data r) q = Some row -> r_m row <> 0 -> nth_error S q = nth_error (st0 r) q) /\ Permutation (map snd (filter (fun rw => r_m (fst rw) =? 0) (combine (data r) S)))
      (flat_map (fun s => msgs st0 sends recvs waits (s, r, tg s r)) (seq 0 p)).
  Proof.
    intros Hr S.
    assert (ES : S = rst st0 sends recvs waits r (rev (recvs r) ++ rev (sends r))).
    { unfold S, F, full. rewrite !rev_app_distr, <- app_assoc. apply rst_app_norecv'.
      rewrite forallb_rev, forallb_forall. intros x Hx.
      pose proof (waits_are' r) as W. rewrite forallb_forall in W. specialize (W x Hx). destruct x; simpl in *; congruence. }
    destruct (rst_recvs_values st0 sends recvs waits p tg r (rev (recvs r)) (rev (sends r))) as [vals [V1 [V2 [V3 V4]]]].
    - intros c. rewrite nrecv_rev. apply nrecv_none. rewrite forallb_forall. intros i Hi.
      pose proof (sends_are' r) as W. rewrite forallb_forall in W. specialize (W i Hi). destruct i; simpl in *; congruence.
    - apply rst_sends. rewrite forallb_rev. apply sends_are'.
    - intros i Hi. apply in_rev in Hi. 
      assert (In i (F r)) as HF by (unfold F, full; apply in_or_app; right; apply in_or_app; left; exact Hi).
      apply H_pos' in HF. unfold recvs in Hi. rewrite recvs_eq in Hi. apply in_map_iff in Hi. destruct Hi as [[q row] [<- Hi]].
      simpl in *. tauto.
    - rewrite map_rev. apply NoDup_rev. unfold recvs. rewrite recvs_eq, map_map. simpl.
      apply NoDup_map_filter. apply enum_NoDup.
    - intros c. rewrite nrecv_rev. destruct c as [[s d] t].
      destruct (Nat.eq_dec d r) as [->|D].
      + rewrite msgs_length_pb. pose proof (H_bal' (s, r, t)) as B. unfold csrc, cdst in B; simpl in B.
        rewrite B, full_nrecv. lia.
      + assert (nrecv r (recvs r) (s, d, t) = 0); [|lia].
        clear - D. induction (recvs r) as [|i l IH]; [reflexivity|]. destruct i as [|s' t' pos|]; simpl; try exact IH.
        unfold chan_eqb. destruct (Nat.eqb_spec r d); [congruence|]. rewrite andb_false_r. simpl. exact IH.
    - rewrite <- ES in *. split; [rewrite V2; apply len_st0', Hr|]. split.
      + intros q row Hq Hm. apply V3. intros Hin. rewrite map_rev in Hin. apply in_rev in Hin.
        unfold recvs in Hin. rewrite recvs_eq, map_map in Hin. simpl in Hin.
        apply in_map_iff in Hin. destruct Hin as [[q' row'] [E Hin]]. simpl in E. subst q'.
        apply filter_In in Hin. destruct Hin as [H1 H2]. apply enum_in' in H1. simpl in H2.
        rewrite Hq in H1. injection H1 as <-. apply Nat.eqb_eq in H2. contradiction.
      + rewrite (select_positions (fun row => r_m row =? 0) (data r) S []) by (rewrite V2, len_st0', len_data by lia; reflexivity).
        simpl app. fold (enum (data r)).
        assert (E : flat_map (fun i => o2l (nth_error S (rpos i))) (rev (recvs r)) = vals).
        { revert V1. generalize (rev (recvs r)) vals. clear. induction l as [|i l IH]; intros [|v vals] H; simpl in *; try discriminate; [reflexivity|].
          injection H as H1 H2. rewrite H1. simpl. f_equal. apply IH, H2. }
        transitivity vals.
        * rewrite <- E. rewrite <- Permutation_rev. unfold recvs. rewrite recvs_eq, flat_map_map'. reflexivity.
        * rewrite V4. apply flat_map_perm. intros s Hs.
          rewrite nrecv_rev, <- full_nrecv.
          pose proof (H_bal' (s, r, tg s r)) as B. unfold csrc, cdst in B; simpl in B. rewrite <- B, <- msgs_length_pb.
          rewrite firstn_all. reflexivity.
  Qed.

  Lemma pb_mpi eager n cf :
    steps eager n (init (fun r => pb_program nw r table) st0) cf ->
    (exists cf', step eager cf cf') \/
    (finished p cf /\ (forall c, rcvd cf c = length (sent cf c)) /\
     let final := flat_map (store cf) (seq 0 p) in
     length final = length ws /\
     (forall i row, nth_error table i = Some row -> r_m row <> 0 -> nth_error final i = nth_error rw i) /\
     Permutation (map snd (filter (fun rw => r_m (fst rw) =? 0) (combine table final))) doubled).
  Proof.
    intros H.
    destruct (mpi_main p st0 sends recvs waits) with (eager := eager) (n := n) (cf := cf) as [P|[Fi [N [S R]]]].
    - exact sends_are'.
    - exact recvs_are'.
    - exact waits_are'.
    - exact H_idle'.
    - exact H_pos'.
    - exact H_bal'.
    - exact H_wait'.
    - exact H.
    - left; exact P.
    - right. split; [exact Fi|]. split; [exact R|]. intros final.
      assert (LS : forall r, In r (seq 0 p) -> length (store cf r) = nw).
      { intros r Hr. apply in_seq in Hr. rewrite S. apply rank_final. lia. }
      assert (Lf : forall q s, (forall r, In r (seq s q) -> length (store cf r) = nw) -> length (flat_map (store cf) (seq s q)) = q * nw).
      { induction q as [|q IH]; intros s Hq; [reflexivity|]. cbn [seq flat_map]. rewrite app_length, IH, Hq; [reflexivity|left; reflexivity|].
        intros r Hr. apply Hq. right. exact Hr. }
      assert (Cf : forall q s i, (forall r, In r (seq s q) -> length (store cf r) = nw) -> i < q * nw ->
          nth_error (flat_map (store cf) (seq s q)) i = nth_error (store cf (s + i / nw)) (i mod nw)).
      { induction q as [|q IH]; intros s i Hq Hi; [simpl in Hi; lia|]. cbn [seq flat_map].
        assert (L0 : length (store cf s) = nw) by (apply Hq; left; reflexivity).
        destruct (Nat.lt_ge_cases i nw) as [Hs|Hs].
        - rewrite nth_error_app1 by lia. rewrite Nat.div_small, Nat.mod_small, Nat.add_0_r by lia. reflexivity.
        - rewrite nth_error_app2 by lia. rewrite L0. rewrite IH by (try (intros; apply Hq; right; assumption); lia).
          replace i with ((i - nw) + 1 * nw) at 3 4 by lia. rewrite Nat.div_add, Nat.mod_add by lia.
          f_equal. f_equal. lia. }
      split; [|split].
      + unfold final. rewrite Lf by exact LS. lia.
      + intros i row Hi Hm.
        assert (Hlt : i < p * nw) by (rewrite <- Htl; apply nth_error_Some; congruence).
        unfold final. rewrite Cf by (assumption || lia). rewrite Nat.add_0_l.
        assert (Hr : i / nw < p) by (apply Nat.div_lt_upper_bound; lia).
        assert (Hq : i mod nw < nw) by (apply Nat.mod_upper_bound; lia).
        assert (Ei : i = i / nw * nw + i mod nw) by (apply (div_mod_iff nw (i / nw) (i mod nw) i Hq); auto).
        rewrite S. fold F. destruct (rank_final (i / nw) Hr) as [_ [K _]].
        rewrite (K (i mod nw) row); [|unfold data; rewrite nth_error_chunk|exact Hm].
        * unfold st0. rewrite nth_error_chunk. destruct (Nat.ltb_spec (i mod nw) nw); [|lia]. rewrite <- Ei. reflexivity.
        * destruct (Nat.ltb_spec (i mod nw) nw); [|lia]. rewrite <- Ei. exact Hi.
      + rewrite <- all_msgs. unfold final.
        rewrite <- (chunks_concat nw p table) at 1 by exact Htl. fold data.
        rewrite combine_flat_map by (intros r Hr; rewrite (LS r Hr); apply len_data; apply in_seq in Hr; lia).
        rewrite filter_flat_map, map_flat_map. apply flat_map_perm. intros r Hr. apply in_seq in Hr.
        rewrite S. apply rank_final. lia.
  Qed.

  Lemma pb_mpi_bound eager n cf :
    steps eager n (init (fun r => pb_program nw r table) st0) cf ->
    n <= nsum (map (fun r => length (pb_program nw r table)) (seq 0 p)).
  Proof.
    intros H.
    apply (steps_bound p st0 sends recvs waits) with (eager := eager) (cf := cf).
    - exact sends_are'.
    - exact recvs_are'.
    - exact waits_are'.
    - exact H_idle'.
    - exact H_pos'.
    - exact H_wait'.
    - exact H.
  Qed.
End PBMPI.

(** ** Everything together *)
Lemma Qabs_cong x y : x = y -> Qabs x = Qabs y. Proof. congruence. Qed.

Lemma absw_nonneg ws i : (0 <= absw ws i)%Q.
Proof. apply Qabs_nonneg. Qed.

Lemma table_rows_w minw maxw draws nw ws table i r :
  pb_table minw maxw draws nw ws = Ok table -> nth_error table i = Some r ->
  (r_m r = 0 \/ (r_m r = 1 /\ r_w r = absw ws i) \/ (r_m r = 2 /\ (0 <= r_w r)%Q)).
Proof.
  intros E Hr. destruct (table_outcome minw maxw draws nw ws) as [t [K [E' [O _]]]].
  rewrite E in E'. injection E' as <-. destruct O as [L P S HK HP HR].
  assert (Hi : i < length ws) by (rewrite <- L; apply nth_error_Some; congruence).
  assert (In i (pb_sort (init_rows nw ws))) as Hin.
  { eapply Permutation_in; [symmetry; exact P|]. apply in_seq. lia. }
  apply In_nth with (d := 0) in Hin. destruct Hin as [k [Hk Ek]].
  rewrite (Permutation_length P), seq_length in Hk.
  assert (CK : forall x y, clone_kill nw ws table x y -> x = i \/ y = i ->
     (r_m r = 0 \/ (r_m r = 1 /\ r_w r = absw ws i) \/ (r_m r = 2 /\ (0 <= r_w r)%Q))).
  { intros x y [rx [ry [E1 [E2 [W [M1 [O1 [O2 [M2 [O3 O4]]]]]]]]]] [-> | ->].
    - rewrite E1 in Hr. injection Hr as <-. right. right. split; [assumption|].
      rewrite W. pose proof (absw_nonneg ws i). pose proof (absw_nonneg ws y). lra.
    - rewrite E2 in Hr. injection Hr as <-. left. assumption. }
  destruct (Nat.lt_ge_cases k K) as [H1|H1].
  - specialize (HP k H1). cbv zeta in HP. rewrite Ek in HP.
    destruct HP as [HP|HP]; eapply CK; eauto.
  - destruct (Nat.lt_ge_cases k (length ws - K)) as [H2|H2].
    + specialize (HR k H1 H2). cbv zeta in HR. rewrite Ek in HR. rewrite Hr in HR. injection HR as ->. simpl. auto.
    + specialize (HP (length ws - 1 - k) ltac:(lia)). cbv zeta in HP.
      replace (length ws - 1 - (length ws - 1 - k)) with k in HP by lia. rewrite Ek in HP.
      destruct HP as [HP|HP]; eapply CK; eauto.
Qed.


Lemma total_abs_perm {X} (l m : list (Q * X)) : Permutation l m -> (total_abs l == total_abs m)%Q.
Proof. intros P. unfold total_abs. apply Qsum_perm, Permutation_map, P. Qed.

Section Final.
  Context {X : Type}.
  Variables (table : list row) (ws final : list (Q * X)).
  Hypothesis Ht : length table = length ws.
  Hypothesis Hf : length final = length ws.
  Hypothesis Hkeep : forall i row, nth_error table i = Some row -> r_m row <> 0 ->
    nth_error final i = nth_error (reweighted table ws) i.
  Hypothesis Hrows : forall i r, nth_error table i = Some r ->
    (r_m r = 0 \/ (r_m r = 1 /\ r_w r = absw (map fst ws) i) \/ (r_m r = 2 /\ (0 <= r_w r)%Q)).

  Let live (rw : row * (Q * X)) := negb (r_m (fst rw) =? 0).

  Lemma kept_eq : map snd (filter live (combine table final)) = map snd (filter live (combine table (reweighted table ws))).
  Proof.
    assert (L : length (reweighted table ws) = length table).
    { unfold reweighted. rewrite map_length, combine_length. lia. }
    revert Hkeep. assert (Lf : length final = length table) by lia. revert L Lf. clear. unfold live.
    generalize (reweighted table ws) as rw. revert final.
    induction table as [|r t IH]; intros [|f fs] [|w rw] L Lf Hk; simpl in *; try discriminate; [reflexivity|].
    assert (IH' : map snd (filter (fun rw => negb (r_m (fst rw) =? 0)) (combine t fs)) = map snd (filter (fun rw => negb (r_m (fst rw) =? 0)) (combine t rw))).
    { apply IH; [lia|lia|]. intros i row Hi Hm. apply (Hk (S i) row Hi Hm). }
    destruct (Nat.eqb_spec (r_m r) 0) as [E|D]; simpl; [exact IH'|].
    specialize (Hk 0 r eq_refl D). simpl in Hk. injection Hk as ->. f_equal. exact IH'.
  Qed.

  Lemma split_live (l : list (row * (Q * X))) :
    Permutation (map snd l) (map snd (filter live l) ++ map snd (filter (fun rw => r_m (fst rw) =? 0) l)).
  Proof.
    unfold live. induction l as [|[r w] l IH]; simpl; [constructor|].
    destruct (r_m r =? 0); simpl; [|constructor; exact IH].
    rewrite <- Permutation_middle. constructor. exact IH.
  Qed.

  Lemma map_snd_combine {A B} (l : list A) (m : list B) : length l = length m -> map snd (combine l m) = m.
  Proof. revert m; induction l as [|x l IH]; intros [|y m] H; simpl in *; try discriminate; [reflexivity|]. f_equal. apply IH. lia. Qed.

  Lemma final_perm :
    Permutation (map snd (filter (fun rw => r_m (fst rw) =? 0) (combine table final))) (doubled ws table) ->
    Permutation final (map snd (filter live (combine table (reweighted table ws))) ++ doubled ws table).
  Proof.
    intros P. rewrite <- (map_snd_combine table final) at 1 by lia.
    rewrite split_live, kept_eq, P. reflexivity.
  Qed.

  Lemma live_total :
    (total_abs (map snd (filter live (combine table (reweighted table ws))) ++ doubled ws table) == Qsumf carried table)%Q.
  Proof.
    unfold doubled, total_abs. rewrite map_app, Qsum_app. unfold Qsumf.
    unfold reweighted. 
    assert (G : forall k t w, length t = length w ->
       (forall i r, nth_error t i = Some r -> (r_m r = 0 \/ (r_m r = 1 /\ r_w r = absw (map fst w) i) \/ (r_m r = 2 /\ (0 <= r_w r)%Q))) ->
       k = length t ->
       (Qsum (map (fun w => Qabs (fst w)) (map snd (filter live (combine t (map (@set_weight X) (combine t w)))))) +
        Qsum (map (fun w => Qabs (fst w)) (map snd (filter (fun rw => 1 <? r_m (fst rw)) (combine t (map (@set_weight X) (combine t w)))))) == Qsum (map carried t))%Q).
    { clear. induction k as [|k IH]; intros [|r t] [|[q x] w] L H Hk; simpl in *; try discriminate; [reflexivity|].
      assert (IH' := IH t w ltac:(lia) (fun i r Hi => H (S i) r Hi) ltac:(lia)).
      unfold live in *. simpl. unfold carried at 1.
      destruct (H 0 r eq_refl) as [M|[[M W]|[M W]]].
      - rewrite M. simpl. rewrite <- IH'. change (q_of_nat 0) with 0%Q. lra.
      - rewrite ?M; simpl; rewrite ?M; simpl. unfold absw in W. simpl in W. rewrite W. rewrite <- IH'. change (q_of_nat 1) with 1%Q. lra.
      - rewrite ?M; simpl; rewrite ?M; simpl. rewrite <- IH'. rewrite (Qabs_pos _ W). change (q_of_nat 2) with 2%Q. lra. }
    apply (G (length table)); [exact Ht|exact Hrows|reflexivity].
  Qed.
End Final.

Lemma pair_branch_main {X : Type} (minw maxw : Q) (draws : nat -> Q) (nw p : nat) (ws : list (Q * X)) (table : list row)
    (eager : bool) (n : nat) (cf : config (Q * X)) :
  0 < nw -> length ws = p * nw -> pb_table minw maxw draws nw (map fst ws) = Ok table ->
  steps eager n (init (fun r => pb_program nw r table) (fun r => chunk nw r (reweighted table ws))) cf ->
  n <= nsum (map (fun r => length (pb_program nw r table)) (seq 0 p)) /\
  ((exists cf', step eager cf cf') \/
   (finished p cf /\ (forall c, rcvd cf c = length (sent cf c)) /\
    let final := flat_map (store cf) (seq 0 p) in
    length final = length ws /\
    (total_abs final == total_abs ws)%Q /\
    (forall i row, nth_error table i = Some row -> r_m row <> 0 -> nth_error final i = nth_error (reweighted table ws) i) /\
    Permutation (map snd (filter (fun rw => r_m (fst rw) =? 0) (combine table final)))
                (map snd (filter (fun rw => 1 <? r_m (fst rw)) (combine table (reweighted table ws)))))).
Proof.
  intros Hnw Hlen E H.
  destruct (table_outcome minw maxw draws nw (map fst ws)) as [t [K [E' [O _]]]].
  rewrite E in E'. injection E' as <-.
  assert (Htl : length table = p * nw) by (rewrite (po_len _ _ _ _ _ O), map_length; exact Hlen).
  assert (Hown : forall i r, nth_error table i = Some r -> r_own r = i / nw /\ r_oth r < p /\ r_m r <= 2).
  { intros i r Hr. destruct (table_rows _ _ _ _ _ _ _ _ E Hr) as [O1 [[j [Hj O2]] O3]].
    split; [exact O1|]. split; [|exact O3]. rewrite O2. rewrite map_length in Hj. apply Nat.div_lt_upper_bound; lia. }
  assert (Hbal : forall s d,
    length (filter (fun r => (1 <? r_m r) && (r_own r =? s) && (r_oth r =? d)) table) =
    length (filter (fun r => (r_m r =? 0) && (r_own r =? d) && (r_oth r =? s)) table)).
  { intros s d. eapply table_bal. exact E. }
  split.
  - eapply (pb_mpi_bound nw p ws); eassumption.
  - destruct (pb_mpi nw p ws table Hnw Hlen Htl Hown Hbal eager n cf H) as [G|[G1 [G2 [G3 [G4 G5]]]]]; [left; exact G|right].
    split; [exact G1|]. split; [exact G2|]. intros final. split; [exact G3|]. split; [|split; [exact G4|exact G5]].
    assert (Hrows : forall i r, nth_error table i = Some r ->
      (r_m r = 0 \/ (r_m r = 1 /\ r_w r = absw (map fst ws) i) \/ (r_m r = 2 /\ (0 <= r_w r)%Q))).
    { intros i r Hr. eapply table_rows_w; eassumption. }
    rewrite (total_abs_perm _ _ (final_perm table ws final ltac:(lia) G3 G4 G5)).
    rewrite (live_total table ws ltac:(lia) Hrows).
    rewrite (table_total _ _ _ _ _ _ E). unfold total_abs. rewrite map_map. reflexivity.
Qed.

Lemma reweighted_nth {X} table (ws : list (Q * X)) i row w x :
  nth_error table i = Some row -> nth_error ws i = Some (w, x) ->
  nth_error (reweighted table ws) i = Some (if 1 <? r_m row then r_w row else w, x).
Proof.
  revert ws i; induction table as [|r t IH]; intros [|y ws] [|i] H1 H2; simpl in *; try discriminate.
  - injection H1 as ->. injection H2 as ->. unfold set_weight. destruct (1 <? r_m row); reflexivity.
  - apply IH; assumption.
Qed.

Lemma finished_stuck {A} p (P : nat -> list instr) (st : nat -> list A) eager n cf cf' :
  (forall r, p <= r -> P r = []) ->
  steps eager n (init P st) cf -> finished p cf -> ~ step eager cf cf'.
Proof.
  intros HP H F S.
  assert (G : forall n cf, steps eager n (init P st) cf -> forall r, p <= r -> prog cf r = []).
  { clear - HP. intros n cf H. remember (init P st) as c0 eqn:E.
    induction H as [c|n c c1 c2 H IH S]; intros r Hr; subst.
    - simpl. apply HP, Hr.
    - specialize (IH eq_refl). destruct S as [c0 r0 d t q l x Hp _|c0 r0 s t q l x Hp _ _|c0 r0 d t k l Hp _]; simpl;
        unfold fset; destruct (Nat.eqb_spec r r0) as [->|]; auto; rewrite IH in Hp by assumption; discriminate. }
  assert (N : forall r, prog cf r = []).
  { intros r. destruct (Nat.lt_ge_cases r p); [apply F; assumption|eapply G; eassumption]. }
  destruct S as [cf r d t q l x Hp _|cf r s t q l x Hp _ _|cf r d t k l Hp _]; rewrite N in Hp; discriminate.
Qed.

Lemma pb_program_idle nw p r table : length table = p * nw -> p <= r -> pb_program nw r table = [].
Proof. intros H Hr. unfold pb_program. rewrite (chunk_beyond nw p) by assumption. reflexivity. Qed.

Lemma table_length minw maxw draws nw ws table : pb_table minw maxw draws nw ws = Ok table -> length table = length ws.
Proof.
  intros E. destruct (table_outcome minw maxw draws nw ws) as [t [K [E' [O _]]]].
  rewrite E in E'. injection E' as <-. apply (po_len _ _ _ _ _ O).
Qed.

Lemma pb_conserves (X : Type) (minw maxw : Q) (draws : nat -> Q) (nw p : nat)
    (ws : list (Q * X)) (table : list row) (eager : bool) (n : nat) (cf : config (Q * X)) :
  0 < nw -> length ws = p * nw -> pb_table minw maxw draws nw (map fst ws) = Ok table ->
  steps eager n (init (fun r => pb_program nw r table) (fun r => chunk nw r (reweighted table ws))) cf ->
  finished p cf ->
  let final := flat_map (store cf) (seq 0 p) in
  length final = length ws /\ (total_abs final == total_abs ws)%Q.
Proof.
  intros Hnw Hl E S F final.
  destruct (pair_branch_main minw maxw draws nw p ws table eager n cf Hnw Hl E S) as [_ [[cf' G]|[G1 [G2 [G3 [G4 _]]]]]].
  - exfalso. revert G. eapply finished_stuck; [|exact S|exact F].
    intros r Hr. apply (pb_program_idle nw p); [|exact Hr]. rewrite (table_length _ _ _ _ _ _ E), map_length. exact Hl.
  - split; assumption.
Qed.

Lemma pb_transfer (X : Type) (minw maxw : Q) (draws : nat -> Q) (nw p : nat)
    (ws : list (Q * X)) (table : list row) (eager : bool) (n : nat) (cf : config (Q * X)) :
  0 < nw -> length ws = p * nw -> pb_table minw maxw draws nw (map fst ws) = Ok table ->
  steps eager n (init (fun r => pb_program nw r table) (fun r => chunk nw r (reweighted table ws))) cf ->
  n <= nsum (map (fun r => length (pb_program nw r table)) (seq 0 p)) /\
  ((exists cf', step eager cf cf') \/
   (finished p cf /\ (forall c, rcvd cf c = length (sent cf c)) /\
    let final := flat_map (store cf) (seq 0 p) in
    length final = length ws /\
    (forall i row, nth_error table i = Some row -> r_m row <> 0 ->
       exists w x, nth_error ws i = Some (w, x) /\
         nth_error final i = Some (if r_m row =? 2 then r_w row else w, x)) /\
    Permutation (killed_slots table final) (doubled_walkers table (reweighted table ws)))).
Proof.
  intros Hnw Hl E S.
  destruct (pair_branch_main minw maxw draws nw p ws table eager n cf Hnw Hl E S) as [B [G|[G1 [G2 [G3 [G4 [G5 G6]]]]]]].
  - split; [exact B|left; exact G].
  - split; [exact B|right]. split; [exact G1|]. split; [exact G2|]. intros final. split; [exact G3|].
    split; [|exact G6]. intros i row Hi Hm.
    assert (Hlt : i < length ws) by (rewrite <- (map_length fst), <- (table_length _ _ _ _ _ _ E); apply nth_error_Some; congruence).
    destruct (nth_error ws i) as [[w x]|] eqn:Ew; [|apply nth_error_None in Ew; lia].
    exists w, x. split; [reflexivity|].
    unfold final. rewrite (G5 i row Hi Hm). rewrite (reweighted_nth table ws i row w x Hi Ew).
    destruct (table_rows_w _ _ _ _ _ _ _ _ E Hi) as [M|[[M _]|[M _]]]; rewrite M in *; [lia|reflexivity|reflexivity].
Qed.
