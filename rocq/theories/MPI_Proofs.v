From Verif Require Import BaseFacts MPI_Model.
Open Scope nat_scope.

Lemma chan_eqb_spec c d : Bool.reflect (c = d) (chan_eqb c d).
Proof.
  destruct c as [[a b] t], d as [[a' b'] t']. simpl.
  destruct (Nat.eqb_spec a a'), (Nat.eqb_spec b b'), (Nat.eqb_spec t t'); simpl; constructor; congruence.
Qed.

Arguments chan_eqb : simpl never.

  Fixpoint nrecv (r : nat) (l : list instr) (c : chan) : nat :=
    match l with
    | [] => 0
    | Recv s t _ :: older => (if chan_eqb (s, r, t) c then 1 else 0) + nrecv r older c
    | _ :: older => nrecv r older c
    end.

  Fixpoint nsend (s : nat) (l : list instr) (c : chan) : nat :=
    match l with
    | [] => 0
    | Isend d t _ :: older => (if chan_eqb (s, d, t) c then 1 else 0) + nsend s older c
    | _ :: older => nsend s older c
    end.

  Definition is_send i := match i with Isend _ _ _ => true | _ => false end.

  Definition is_recv i := match i with Recv _ _ _ => true | _ => false end.

  Definition is_wait i := match i with Wait _ _ _ => true | _ => false end.

  Lemma nrecv_app r l1 l2 c : nrecv r (l1 ++ l2) c = nrecv r l1 c + nrecv r l2 c.
  Proof.
    induction l1 as [|i l1 IH]; simpl; [reflexivity|]. destruct i; rewrite ?IH; lia.
  Qed.

  Lemma nsend_app r l1 l2 c : nsend r (l1 ++ l2) c = nsend r l1 c + nsend r l2 c.
  Proof.
    induction l1 as [|i l1 IH]; simpl; [reflexivity|]. destruct i; rewrite ?IH; lia.
  Qed.

  Lemma nrecv_rev r l c : nrecv r (rev l) c = nrecv r l c.
  Proof.
    induction l as [|i l IH]; simpl; [reflexivity|]. rewrite nrecv_app, IH. destruct i; simpl; lia.
  Qed.

  Lemma nsend_rev r l c : nsend r (rev l) c = nsend r l c.
  Proof.
    induction l as [|i l IH]; simpl; [reflexivity|]. rewrite nsend_app, IH. destruct i; simpl; lia.
  Qed.

  Lemma nsend_sends s l c : forallb (fun i => negb (is_send i)) l = true -> nsend s l c = 0.
  Proof.
    induction l as [|i l IH]; simpl; intros H; [reflexivity|].
    apply andb_true_iff in H. destruct H as [H1 H2]. destruct i; simpl in *; try discriminate; auto.
  Qed.

  Lemma nrecv_none s l c : forallb (fun i => negb (is_recv i)) l = true -> nrecv s l c = 0.
  Proof.
    induction l as [|i l IH]; simpl; intros H; [reflexivity|].
    apply andb_true_iff in H. destruct H as [H1 H2]. destruct i; simpl in *; try discriminate; auto.
  Qed.

  Lemma forallb_rev {B} (f : B -> bool) l : forallb f (rev l) = forallb f l.
  Proof.
    induction l as [|x l IH]; simpl; [reflexivity|]. rewrite forallb_app, IH. simpl.
    rewrite andb_true_r, andb_comm. reflexivity.
  Qed.

Section Pay.
  Context {A : Type}.
  Variable st0 : nat -> list A.           (* initial walkers *)
  (** messages sent by a (newest first) list of executed instructions of rank [s] *)
  Fixpoint payl (s : nat) (l : list instr) (c : chan) : list A :=
    match l with
    | [] => []
    | Isend d t pos :: older =>
        if chan_eqb (s, d, t) c then
          payl s older c ++ match nth_error (st0 s) pos with Some x => [x] | None => [] end
        else payl s older c
    | _ :: older => payl s older c
    end.

  Lemma payl_app s l1 l2 c : payl s (l1 ++ l2) c = payl s l2 c ++ payl s l1 c.
  Proof.
    induction l1 as [|i l1 IH]; simpl; [rewrite app_nil_r; reflexivity|].
    destruct i as [d t pos|s' t pos|d t k]; simpl; try assumption.
    destruct (chan_eqb (s, d, t) c); rewrite IH; [rewrite <- app_assoc|]; reflexivity.
  Qed.

  Lemma payl_length s l c :
    (forall d t pos, In (Isend d t pos) l -> pos < length (st0 s)) ->
    length (payl s l c) = nsend s l c.
  Proof.
    induction l as [|i l IH]; intros H; simpl; [reflexivity|].
    assert (IH' := IH (fun d t q Hin => H d t q (or_intror Hin))).
    destruct i as [d t pos|s' t pos|d t k]; simpl; try assumption.
    destruct (chan_eqb (s, d, t) c); simpl; [|assumption].
    rewrite app_length, IH'.
    destruct (nth_error (st0 s) pos) eqn:E; [simpl; lia|].
    apply nth_error_None in E. specialize (H d t pos (or_introl eq_refl)). lia.
  Qed.
End Pay.

Section Gen.
  Context {A : Type}.
  Variable p : nat.                       (* number of ranks *)
  Variable st0 : nat -> list A.           (* initial walkers *)
  Variables sends recvs waits : nat -> list instr.

  Definition full r := sends r ++ recvs r ++ waits r.




  Definition csrc (c : chan) : nat := fst (fst c).
  Definition cdst (c : chan) : nat := snd (fst c).

  (** All messages ever sent on a channel. *)
  Definition msgs (c : chan) : list A := payl st0 (csrc c) (rev (full (csrc c))) c.

  (** Walkers of rank [r] after executing [l] (newest first). *)
  Fixpoint rst (r : nat) (l : list instr) : list A :=
    match l with
    | [] => st0 r
    | Recv s t pos :: older =>
        match nth_error (msgs (s, r, t)) (nrecv r older (s, r, t)) with
        | Some x => upd pos x (rst r older)
        | None => rst r older
        end
    | _ :: older => rst r older
    end.


  Definition pos_ok (r : nat) (i : instr) : Prop :=
    match i with
    | Isend d _ pos => pos < length (st0 r)
    | Recv s _ pos => pos < length (st0 r) /\ s < p
    | Wait d _ _ => d < p
    end.

  Hypothesis Hs : forall r, forallb is_send (sends r) = true.
  Hypothesis Hr : forall r, forallb is_recv (recvs r) = true.
  Hypothesis Hw : forall r, forallb is_wait (waits r) = true.
  Hypothesis Hidle : forall r, p <= r -> full r = [].
  Hypothesis Hpos : forall r i, In i (full r) -> pos_ok r i.
  Hypothesis Hbal : forall c, nsend (csrc c) (full (csrc c)) c = nrecv (cdst c) (full (cdst c)) c.
  Hypothesis Hwait : forall r d t k, In (Wait d t k) (waits r) -> k < nsend r (full r) (r, d, t).





  (** Invariant: the configuration is a function of what each rank has executed. *)
  Definition Inv (done : nat -> list instr) (cf : config A) : Prop :=
    (forall r, full r = rev (done r) ++ prog cf r)
    /\ (forall r, store cf r = rst r (done r))
    /\ (forall c, sent cf c = payl st0 (csrc c) (done (csrc c)) c)
    /\ (forall c, rcvd cf c = nrecv (cdst c) (done (cdst c)) c).

  Lemma inv_init : Inv (fun _ => []) (init full st0).
  Proof. repeat split; reflexivity. Qed.

  Lemma rst_length r l : length (rst r l) = length (st0 r).
  Proof.
    induction l as [|i l IH]; simpl; [reflexivity|].
    destruct i as [| s t pos |]; try assumption.
    destruct (nth_error _ _); [rewrite length_upd|]; assumption.
  Qed.

  (** A split of [full] whose remainder starts with a send has only sends before. *)
  Lemma split_send r l d t pos q :
    full r = l ++ Isend d t pos :: q -> forallb is_send l = true.
  Proof.
    unfold full. intros E.
    assert (G : forall a b l0, forallb is_send a = true -> forallb (fun i => negb (is_send i)) b = true ->
        a ++ b = l0 ++ Isend d t pos :: q -> forallb is_send l0 = true).
    { clear. induction a as [|x a IH]; intros b l0 Ha Hb E; simpl in *.
      - subst. rewrite forallb_app in Hb. apply andb_true_iff in Hb. simpl in Hb. destruct Hb; discriminate.
      - destruct l0 as [|y l0]; [reflexivity|]. simpl in E. injection E as -> E.
        apply andb_true_iff in Ha. simpl. rewrite (proj1 Ha). simpl. eapply IH; [apply (proj2 Ha)|exact Hb|exact E]. }
    eapply G; [apply Hs| |exact E].
    rewrite forallb_app. apply andb_true_iff. split; rewrite forallb_forall; intros i Hi.
    - specialize (Hr r). rewrite forallb_forall in Hr. specialize (Hr i Hi). destruct i; simpl in *; congruence.
    - specialize (Hw r). rewrite forallb_forall in Hw. specialize (Hw i Hi). destruct i; simpl in *; congruence.
  Qed.

  Lemma rst_sends r l : forallb is_send l = true -> rst r l = st0 r.
  Proof.
    induction l as [|i l IH]; simpl; intros H; [reflexivity|].
    apply andb_true_iff in H. destruct i; simpl in *; try (destruct H; discriminate). apply IH, H.
  Qed.


  Lemma inv_step eager done cf cf' : Inv done cf -> step eager cf cf' ->
    exists r i q, prog cf r = i :: q /\ Inv (fset done r (i :: done r)) cf' /\ prog cf' = fset (prog cf) r q.
  Proof.
    intros [I1 [I2 [I3 I4]]] H.
    inversion H as [cf0 r d t pos q x E1 E2|cf0 r s t pos q x E1 E2 E3|cf0 r d t k q E1 E2]; subst;
      (eexists r, _, q; split; [exact E1|split; [|reflexivity]]).
    - pose proof (I1 r) as F. rewrite E1 in F.
      assert (Hd : forallb is_send (done r) = true) by (rewrite <- forallb_rev; eapply split_send; exact F).
      split; [|split; [|split]]; simpl.
      + intros r'. unfold fset. destruct (Nat.eqb_spec r' r) as [->|D]; [|apply I1].
        simpl. rewrite F, <- app_assoc. reflexivity.
      + intros r'. unfold fset. destruct (Nat.eqb_spec r' r) as [->|D]; [|apply I2]. simpl. apply I2.
      + intros c. unfold cset. destruct (chan_eqb_spec c (r, d, t)) as [->|D].
        * unfold csrc at 1; simpl. unfold fset. simpl. rewrite Nat.eqb_refl. simpl.
          destruct (chan_eqb_spec (r, d, t) (r, d, t)); [|congruence].
          rewrite I3. unfold csrc; simpl. f_equal.
          rewrite I2, rst_sends in E2 by assumption. rewrite E2. reflexivity.
        * rewrite I3. unfold fset. destruct (Nat.eqb_spec (csrc c) r) as [->|D2]; [|reflexivity].
          simpl. destruct (chan_eqb_spec (r, d, t) c); [congruence|reflexivity].
      + intros c. rewrite I4. unfold fset. destruct (Nat.eqb_spec (cdst c) r) as [->|D2]; reflexivity.
    - split; [|split; [|split]]; simpl.
      + intros r'. unfold fset. destruct (Nat.eqb_spec r' r) as [->|D]; [|apply I1].
        simpl. rewrite I1, E1, <- app_assoc. reflexivity.
      + intros r'. unfold fset. destruct (Nat.eqb_spec r' r) as [->|D]; [|apply I2]. simpl.
        rewrite I4 in E2. unfold cdst in E2; simpl in E2. rewrite I3 in E2.
        assert (Hm : nth_error (msgs (s, r, t)) (nrecv r (done r) (s, r, t)) = Some x).
        { unfold msgs. unfold csrc in *; simpl in *. rewrite (I1 s).
          rewrite rev_app_distr, rev_involutive, payl_app.
          rewrite nth_error_app1; [exact E2|]. apply nth_error_Some. congruence. }
        rewrite Hm, I2. reflexivity.
      + intros c. rewrite I3. unfold fset. destruct (Nat.eqb_spec (csrc c) r) as [->|D2]; reflexivity.
      + intros c. unfold cset. destruct (chan_eqb_spec c (s, r, t)) as [->|D].
        * unfold cdst at 1; simpl. unfold fset; simpl. rewrite Nat.eqb_refl. simpl.
          destruct (chan_eqb_spec (s, r, t) (s, r, t)); [|congruence].
          rewrite I4. reflexivity.
        * rewrite I4. unfold fset. destruct (Nat.eqb_spec (cdst c) r) as [->|D2]; [|reflexivity].
          simpl. destruct (chan_eqb_spec (s, r, t) c); [congruence|reflexivity].
    - split; [|split; [|split]]; simpl.
      + intros r'. unfold fset. destruct (Nat.eqb_spec r' r) as [->|D]; [|apply I1].
        simpl. rewrite I1, E1, <- app_assoc. reflexivity.
      + intros r'. unfold fset. destruct (Nat.eqb_spec r' r) as [->|D]; [|apply I2]. simpl. apply I2.
      + intros c. rewrite I3. unfold fset. destruct (Nat.eqb_spec (csrc c) r) as [->|D2]; reflexivity.
      + intros c. rewrite I4. unfold fset. destruct (Nat.eqb_spec (cdst c) r) as [->|D2]; reflexivity.
  Qed.

  Definition todo (cf : config A) : nat := nsum (map (fun r => length (prog cf r)) (seq 0 p)).

  Lemma nsum_map_fset (f g : nat -> nat) r n : r < n -> (forall i, i <> r -> g i = f i) ->
    nsum (map g (seq 0 n)) + f r = nsum (map f (seq 0 n)) + g r.
  Proof.
    intros Hrn Hg. induction n as [|n IH]; [lia|].
    rewrite !seq_S, !map_app, !nsum_app. simpl.
    destruct (Nat.eq_dec r n) as [->|D].
    - assert (nsum (map g (seq 0 n)) = nsum (map f (seq 0 n))); [|lia].
      f_equal. apply map_ext_in. intros i Hi. apply in_seq in Hi. apply Hg. lia.
    - rewrite (Hg n) by lia. assert (r < n) by lia. specialize (IH H). lia.
  Qed.

  Lemma prog_nonempty_lt done cf r i q : Inv done cf -> prog cf r = i :: q -> r < p.
  Proof.
    intros [I1 _] E. destruct (Nat.lt_ge_cases r p) as [|G]; [assumption|].
    specialize (I1 r). rewrite (Hidle r G), E in I1. destruct (rev (done r)); discriminate.
  Qed.

  Lemma todo_step done cf cf' r i q :
    Inv done cf -> prog cf r = i :: q -> prog cf' = fset (prog cf) r q -> S (todo cf') = todo cf.
  Proof.
    intros I E F. pose proof (prog_nonempty_lt done cf r i q I E) as Hlt.
    unfold todo. rewrite F.
    pose proof (nsum_map_fset (fun r' => length (prog cf r')) (fun r' => length (fset (prog cf) r q r')) r p Hlt) as N.
    simpl in N. unfold fset in N at 2 3. rewrite Nat.eqb_refl, E in N. simpl in N.
    assert (N' := N). clear N. unfold fset in *. rewrite N' || idtac.
    lapply N'; [intros N; lia|].
    intros j Hj. destruct (Nat.eqb_spec j r); [congruence|reflexivity].
  Qed.

  Lemma reach_inv eager n cf : steps eager n (init full st0) cf -> exists done, Inv done cf /\ n + todo cf = todo (init full st0).
  Proof.
    intros H. remember (init full st0) as cf0 eqn:E0. induction H as [cf|n cf cf' cf'' H IH Hst].
    - subst. exists (fun _ => []). split; [apply inv_init|reflexivity].
    - destruct (IH E0) as [done [I T]].
      destruct (inv_step eager done cf' cf'' I Hst) as [r [i [q [E [I' F]]]]].
      exists (fset done r (i :: done r)). split; [exact I'|].
      pose proof (todo_step done cf' cf'' r i q I E F). lia.
  Qed.

  Lemma ex_rank (f : nat -> bool) n : (exists r, r < n /\ f r = true) \/ (forall r, r < n -> f r = false).
  Proof.
    induction n as [|n [[r [L E]]|IH]].
    - right. intros; lia.
    - left. exists r. split; [lia|assumption].
    - destruct (f n) eqn:E.
      + left. exists n. split; [lia|assumption].
      + right. intros r L. destruct (Nat.eq_dec r n) as [->|]; [assumption|]. apply IH. lia.
  Qed.

  Definition head_is (k : instr -> bool) (cf : config A) (r : nat) : bool :=
    match prog cf r with i :: _ => k i | [] => false end.

  Lemma in_full_split done cf r i q : Inv done cf -> prog cf r = i :: q -> In i (full r).
  Proof. intros [I1 _] E. rewrite I1, E. apply in_or_app. right. left. reflexivity. Qed.

  (** If a rank's next instruction is not a send, all its sends are done. *)
  Lemma sends_done done cf r c : Inv done cf -> head_is is_send cf r = false ->
    nsend r (done r) c = nsend r (full r) c.
  Proof.
    intros [I1 _] Hh. rewrite (I1 r), nsend_app, nsend_rev.
    assert (nsend r (prog cf r) c = 0); [|lia].
    unfold head_is in Hh. destruct (prog cf r) as [|i q] eqn:E; [reflexivity|].
    apply nsend_sends.
    specialize (I1 r). unfold full in I1. rewrite E in I1.
    assert (G : forall a b l0, forallb is_send a = true -> forallb (fun j => negb (is_send j)) b = true ->
        a ++ b = l0 ++ i :: q -> forallb (fun j => negb (is_send j)) (i :: q) = true).
    { clear - Hh. induction a as [|x a IH]; intros b l0 Ha Hb E; simpl in E.
      - subst b. rewrite forallb_app in Hb. apply andb_true_iff in Hb. apply Hb.
      - destruct l0 as [|y l0].
        + simpl in E. injection E as -> _. simpl in Ha. rewrite Hh in Ha. discriminate.
        + simpl in E. injection E as _ E. simpl in Ha. apply andb_true_iff in Ha.
          eapply IH; [apply (proj2 Ha)|exact Hb|exact E]. }
    eapply G; [apply Hs| |exact I1].
    rewrite forallb_app. apply andb_true_iff. split; rewrite forallb_forall; intros j Hj.
    - specialize (Hr r). rewrite forallb_forall in Hr. specialize (Hr j Hj). destruct j; simpl in *; congruence.
    - specialize (Hw r). rewrite forallb_forall in Hw. specialize (Hw j Hj). destruct j; simpl in *; congruence.
  Qed.

  Lemma recvs_done done cf r c : Inv done cf -> head_is is_send cf r = false -> head_is is_recv cf r = false ->
    nrecv r (done r) c = nrecv r (full r) c.
  Proof.
    intros [I1 _] Hh Hh2. rewrite (I1 r), nrecv_app, nrecv_rev.
    assert (nrecv r (prog cf r) c = 0); [|lia].
    unfold head_is in *. destruct (prog cf r) as [|i q] eqn:E; [reflexivity|].
    apply nrecv_none.
    specialize (I1 r). unfold full in I1. rewrite E in I1. rewrite app_assoc in I1.
    assert (G : forall a b l0, forallb (fun j => is_send j || is_recv j) a = true -> forallb (fun j => negb (is_recv j)) b = true ->
        a ++ b = l0 ++ i :: q -> forallb (fun j => negb (is_recv j)) (i :: q) = true).
    { clear - Hh Hh2. induction a as [|x a IH]; intros b l0 Ha Hb E; simpl in E.
      - subst b. rewrite forallb_app in Hb. apply andb_true_iff in Hb. apply Hb.
      - destruct l0 as [|y l0].
        + simpl in E. injection E as -> _. simpl in Ha. rewrite Hh, Hh2 in Ha. discriminate.
        + simpl in E. injection E as _ E. simpl in Ha. apply andb_true_iff in Ha.
          eapply IH; [apply (proj2 Ha)|exact Hb|exact E]. }
    eapply G; [| |exact I1].
    - rewrite forallb_app. apply andb_true_iff. split; rewrite forallb_forall; intros j Hj.
      + specialize (Hs r). rewrite forallb_forall in Hs. rewrite (Hs j Hj). reflexivity.
      + specialize (Hr r). rewrite forallb_forall in Hr. rewrite (Hr j Hj). apply orb_true_r.
    - rewrite forallb_forall; intros j Hj.
      specialize (Hw r). rewrite forallb_forall in Hw. specialize (Hw j Hj). destruct j; simpl in *; congruence.
  Qed.

  Lemma done_pos done cf r : Inv done cf -> forall d t pos, In (Isend d t pos) (done r) -> pos < length (st0 r).
  Proof.
    intros [I1 _] d t pos Hin. specialize (Hpos r (Isend d t pos)). apply Hpos.
    rewrite I1. apply in_or_app. left. apply -> in_rev. exact Hin.
  Qed.

  Lemma idle_head done cf r k : Inv done cf -> p <= r -> head_is k cf r = false.
  Proof.
    intros I G. unfold head_is. destruct (prog cf r) as [|i q] eqn:E; [reflexivity|].
    pose proof (prog_nonempty_lt done cf r i q I E). lia.
  Qed.

  Lemma progress eager done cf : Inv done cf -> (exists cf', step eager cf cf') \/ finished p cf.
  Proof.
    intros I. pose proof I as [I1 [I2 [I3 I4]]].
    destruct (ex_rank (head_is is_send cf) p) as [[r [L E]]|NS].
    { left. unfold head_is in E. destruct (prog cf r) as [|i q] eqn:Ep; [discriminate|].
      destruct i as [d t pos| |]; try discriminate.
      pose proof (Hpos r _ (in_full_split done cf r _ q I Ep)) as Hp. simpl in Hp.
      destruct (nth_error (store cf r) pos) as [x|] eqn:Ex.
      - eexists. eapply step_send; eassumption.
      - apply nth_error_None in Ex. rewrite I2, rst_length in Ex. lia. }
    assert (NS' : forall r, head_is is_send cf r = false).
    { intros r. destruct (Nat.lt_ge_cases r p); [auto|]. eapply idle_head; eassumption. }
    destruct (ex_rank (head_is is_recv cf) p) as [[r [L E]]|NR].
    { left. unfold head_is in E. destruct (prog cf r) as [|i q] eqn:Ep; [discriminate|].
      destruct i as [|s t pos|]; try discriminate.
      pose proof (Hpos r _ (in_full_split done cf r _ q I Ep)) as [Hp _].
      assert (Hlen : rcvd cf (s, r, t) < length (sent cf (s, r, t))).
      { rewrite I3, I4. unfold csrc, cdst; simpl.
        rewrite (payl_length st0) by (eapply done_pos; exact I).
        rewrite (sends_done done cf s) by auto.
        pose proof (Hbal (s, r, t)) as B. unfold csrc, cdst in B; simpl in B. rewrite B.
        rewrite (I1 r), Ep, nrecv_app, nrecv_rev. simpl.
        destruct (chan_eqb_spec (s, r, t) (s, r, t)); [lia|congruence]. }
      destruct (nth_error (sent cf (s, r, t)) (rcvd cf (s, r, t))) as [x|] eqn:Ex.
      - eexists. eapply step_recv; try eassumption. rewrite I2, rst_length. assumption.
      - apply nth_error_None in Ex. lia. }
    assert (NR' : forall r, head_is is_recv cf r = false).
    { intros r. destruct (Nat.lt_ge_cases r p); [auto|]. eapply idle_head; eassumption. }
    destruct (ex_rank (head_is is_wait cf) p) as [[r [L E]]|NW].
    { left. unfold head_is in E. destruct (prog cf r) as [|i q] eqn:Ep; [discriminate|].
      destruct i as [| |d t k]; try discriminate.
      eexists. eapply step_wait; [eassumption|]. right.
      rewrite I4. unfold cdst; simpl.
      rewrite (recvs_done done cf d) by auto.
      pose proof (Hbal (r, d, t)) as B. unfold csrc, cdst in B; simpl in B. rewrite <- B.
      apply (Hwait r d t k).
      pose proof (in_full_split done cf r _ q I Ep) as Hin. unfold full in Hin.
      apply in_app_or in Hin. destruct Hin as [Hin|Hin].
      { specialize (Hs r). rewrite forallb_forall in Hs. specialize (Hs _ Hin). discriminate. }
      apply in_app_or in Hin. destruct Hin as [Hin|Hin]; [|assumption].
      specialize (Hr r). rewrite forallb_forall in Hr. specialize (Hr _ Hin). discriminate. }
    right. intros r L. specialize (NS r L). specialize (NR r L). specialize (NW r L).
    unfold head_is in *. destruct (prog cf r) as [|i q]; [reflexivity|]. destruct i; discriminate.
  Qed.

  (** Main generic result. *)
  Lemma mpi_main eager n cf :
    steps eager n (init full st0) cf ->
    (exists cf', step eager cf cf') \/
    (finished p cf /\ n = todo (init full st0) /\ (forall r, store cf r = rst r (rev (full r)))
     /\ forall c, rcvd cf c = length (sent cf c)).
  Proof.
    intros H. destruct (reach_inv eager n cf H) as [done [I T]].
    destruct (progress eager done cf I) as [P|F]; [left; exact P|right].
    split; [exact F|].
    pose proof I as [I1 [I2 [I3 I4]]].
    assert (F' : forall r, prog cf r = []).
    { intros r. destruct (Nat.lt_ge_cases r p) as [|G]; [auto|].
      destruct (prog cf r) as [|i q] eqn:E; [reflexivity|].
      pose proof (prog_nonempty_lt done cf r i q I E). lia. }
    assert (D : forall r, done r = rev (full r)).
    { intros r. rewrite I1, F', app_nil_r, rev_involutive. reflexivity. }
    split; [|split].
    - assert (todo cf = 0); [|lia]. unfold todo. clear - F'. induction (seq 0 p) as [|a l IH]; simpl; [reflexivity|].
      rewrite F'. simpl. exact IH.
    - intros r. rewrite I2, D. reflexivity.
    - intros c. rewrite I3, I4, D, D, nrecv_rev, <- Hbal.
      rewrite (payl_length st0), nsend_rev; [reflexivity|].
      intros d t pos Hin. apply in_rev in Hin. apply (Hpos _ _ Hin).
  Qed.

  Lemma steps_bound eager n cf : steps eager n (init full st0) cf -> n <= todo (init full st0).
  Proof. intros H. destruct (reach_inv eager n cf H) as [done [I T]]. lia. Qed.
End Gen.
