From Verif Require Import BaseFacts Comb_Model Comb_Proofs MPI_Model MPI_Proofs.
Open Scope nat_scope.

Lemma nth_error_firstn {A} n (l : list A) i : nth_error (firstn n l) i = if i <? n then nth_error l i else None.
Proof.
  revert n i; induction l as [|x l IH]; intros [|n] [|i]; simpl; try reflexivity.
  - destruct (S i <? S n); reflexivity.
  - rewrite IH. reflexivity.
Qed.
Lemma nth_error_skipn {A} n (l : list A) i : nth_error (skipn n l) i = nth_error l (n + i).
Proof.
  revert n i; induction l as [|x l IH]; intros [|n] i; simpl; try reflexivity.
  - destruct i; reflexivity.
  - apply IH.
Qed.
Lemma nth_error_chunk {A} nw r (ws : list A) q :
  nth_error (chunk nw r ws) q = if q <? nw then nth_error ws (r * nw + q) else None.
Proof. unfold chunk. rewrite nth_error_firstn, nth_error_skipn. reflexivity. Qed.

Lemma div_mod_iff nw r q k : q < nw -> (k = r * nw + q <-> k / nw = r /\ k mod nw = q).
Proof.
  intros H. assert (nw <> 0) by lia. split.
  - intros ->. rewrite Nat.add_comm, Nat.div_add, Nat.mod_add, Nat.div_small, Nat.mod_small by lia. lia.
  - intros [<- <-]. rewrite (Nat.div_mod k nw) at 1 by lia. lia.
Qed.

Lemma chunk_upd {A} nw r k (x : A) ws : 0 < nw ->
  chunk nw r (upd k x ws) =
  if k / nw =? r then upd (k mod nw) x (chunk nw r ws) else chunk nw r ws.
Proof.
  intros Hnw. apply nth_error_ext. intros q.
  rewrite nth_error_chunk.
  destruct (Nat.eqb_spec (k / nw) r) as [E|D].
  - rewrite nth_error_upd. 
    destruct (Nat.eqb_spec k (r * nw + q)) as [E1|D1].
    + destruct (Nat.ltb_spec q nw) as [Hq|Hq].
      * apply (div_mod_iff nw r q k Hq) in E1. destruct E1 as [_ E1].
        rewrite nth_error_upd, E1, Nat.eqb_refl.
        assert (Ek : k = r * nw + q) by (apply (div_mod_iff nw r q k Hq); auto).
        assert (L : length (chunk nw r ws) = Nat.min nw (length ws - r * nw))
          by (unfold chunk; rewrite firstn_length, skipn_length; reflexivity).
        rewrite L.
        destruct (Nat.ltb_spec k (length ws)), (Nat.ltb_spec q (Nat.min nw (length ws - r * nw))); try reflexivity; lia.
      * assert (k mod nw < nw) by (apply Nat.mod_upper_bound; lia).
        rewrite nth_error_upd_ne by lia. rewrite nth_error_chunk.
        destruct (Nat.ltb_spec q nw); [lia|reflexivity].
    + rewrite nth_error_upd.
      destruct (Nat.eqb_spec (k mod nw) q) as [E2|D2].
      * assert (q < nw) by (subst q; apply Nat.mod_upper_bound; lia).
        exfalso. apply D1. apply div_mod_iff; auto.
      * rewrite nth_error_chunk. reflexivity.
  - rewrite nth_error_chunk.
    destruct (Nat.ltb_spec q nw) as [Hq|Hq]; [|reflexivity].
    apply nth_error_upd_ne. intros E. apply D. apply (div_mod_iff nw r q k Hq) in E. tauto.
Qed.

Section CombMPI.
  Context {A : Type}.
  Variables (nw p : nat) (ws : list A) (pairs : list (nat * nat)).
  Hypothesis Hnw : 0 < nw.
  Hypothesis Hlen : length ws = p * nw.
  Hypothesis Hin : forall c k, In (c, k) pairs -> c < p * nw /\ k < p * nw.

  Let st0 r := chunk nw r ws.
  Let l0 := enum pairs.
  Let sends r := sends_of nw r l0.
  Let recvs r := recvs_of nw r l0.
  Let waits r := waits_of nw r l0.

  Lemma enum_in i ck : In (i, ck) l0 -> nth_error pairs i = Some ck.
  Proof.
    unfold l0, enum. intros H. apply In_nth_error in H. destruct H as [n H].
    assert (G : forall s (l : list (nat * nat)) n, nth_error (combine (seq s (length l)) l) n = Some (i, ck) ->
              i = s + n /\ nth_error l n = Some ck).
    { clear. intros s l; revert s; induction l as [|x l IH]; intros s n H; simpl in H.
      - destruct n; discriminate.
      - destruct n as [|n]; simpl in H.
        + injection H as <- <-. split; [lia|reflexivity].
        + apply IH in H. destruct H. split; [lia|assumption]. }
    apply G in H. simpl in H. destruct H as [-> H]. exact H.
  Qed.

  Lemma enum_bounds i c k : In (i, (c, k)) l0 -> c < p * nw /\ k < p * nw.
  Proof. intros H. apply enum_in in H. apply Hin. eapply nth_error_In. exact H. Qed.

  Lemma enum_fst_NoDup : NoDup (map fst l0).
  Proof.
    unfold l0, enum.
    assert (G : forall s (l : list (nat * nat)), map fst (combine (seq s (length l)) l) = seq s (length l)).
    { intros s l; revert s; induction l as [|x l IH]; intros s; simpl; [reflexivity|]. rewrite IH. reflexivity. }
    rewrite G. apply seq_NoDup.
  Qed.

  Lemma div_lt c : c < p * nw -> c / nw < p.
  Proof. intros H. apply Nat.div_lt_upper_bound; lia. Qed.

  Definition hits s d t (x : nat * (nat * nat)) : bool :=
    let '(i, (c, k)) := x in (c / nw =? s) && (k / nw =? d) && (i =? t).

  Lemma nsend_of s d t l : nsend s (sends_of nw s l) (s, d, t) = length (filter (hits s d t) l).
  Proof.
    induction l as [|[i [c k]] l IH]; simpl; [reflexivity|]. rewrite nsend_app, IH.
    destruct (Nat.eqb_spec (c / nw) s) as [E|D]; simpl; [|reflexivity].
    unfold chan_eqb. rewrite Nat.eqb_refl. simpl.
    destruct (Nat.eqb_spec (k / nw) d), (Nat.eqb_spec i t); simpl; lia.
  Qed.
  Lemma nrecv_of s d t l : nrecv d (recvs_of nw d l) (s, d, t) = length (filter (hits s d t) l).
  Proof.
    induction l as [|[i [c k]] l IH]; simpl; [reflexivity|]. rewrite nrecv_app, IH.
    destruct (Nat.eqb_spec (k / nw) d) as [E|D]; simpl.
    - unfold chan_eqb. rewrite Nat.eqb_refl. simpl.
      destruct (Nat.eqb_spec (c / nw) s), (Nat.eqb_spec i t); simpl; lia.
    - rewrite andb_false_r. reflexivity.
  Qed.

  Lemma sends_are r l : forallb is_send (sends_of nw r l) = true.
  Proof.
    induction l as [|[i [c k]] l IH]; simpl; [reflexivity|]. rewrite forallb_app, IH.
    destruct (c / nw =? r); reflexivity.
  Qed.
  Lemma recvs_are r l : forallb is_recv (recvs_of nw r l) = true.
  Proof.
    induction l as [|[i [c k]] l IH]; simpl; [reflexivity|]. rewrite forallb_app, IH.
    destruct (k / nw =? r); reflexivity.
  Qed.
  Lemma waits_are r l : forallb is_wait (waits_of nw r l) = true.
  Proof.
    induction l as [|[i [c k]] l IH]; simpl; [reflexivity|]. rewrite forallb_app, IH.
    destruct (c / nw =? r); reflexivity.
  Qed.

  Lemma not_recv_sends r l c : nrecv r (sends_of nw r l) c = 0.
  Proof.
    apply nrecv_none. rewrite forallb_forall. intros i Hi.
    pose proof (sends_are r l) as H. rewrite forallb_forall in H. specialize (H i Hi). destruct i; simpl in *; congruence.
  Qed.
  Lemma not_recv_waits r l c : nrecv r (waits_of nw r l) c = 0.
  Proof.
    apply nrecv_none. rewrite forallb_forall. intros i Hi.
    pose proof (waits_are r l) as H. rewrite forallb_forall in H. specialize (H i Hi). destruct i; simpl in *; congruence.
  Qed.
  Lemma not_send_recvs r l c : nsend r (recvs_of nw r l) c = 0.
  Proof.
    apply nsend_sends. rewrite forallb_forall. intros i Hi.
    pose proof (recvs_are r l) as H. rewrite forallb_forall in H. specialize (H i Hi). destruct i; simpl in *; congruence.
  Qed.
  Lemma not_send_waits r l c : nsend r (waits_of nw r l) c = 0.
  Proof.
    apply nsend_sends. rewrite forallb_forall. intros i Hi.
    pose proof (waits_are r l) as H. rewrite forallb_forall in H. specialize (H i Hi). destruct i; simpl in *; congruence.
  Qed.

  Let F := full sends recvs waits.

  Lemma full_eq r : F r = rank_program nw r pairs.
  Proof. reflexivity. Qed.

  Lemma H_idle r : p <= r -> F r = [].
  Proof.
    intros G. unfold F, full, sends, recvs, waits.
    assert (forall l, (forall i c k, In (i, (c, k)) l -> c < p * nw /\ k < p * nw) ->
       sends_of nw r l = [] /\ recvs_of nw r l = [] /\ waits_of nw r l = []).
    { induction l as [|[i [c k]] l IH]; intros H; simpl; [auto|].
      destruct (IH (fun i c k Hi => H i c k (or_intror Hi))) as [-> [-> ->]].
      destruct (H i c k (or_introl eq_refl)) as [Hc Hk]. apply div_lt in Hc, Hk.
      destruct (Nat.eqb_spec (c / nw) r); [lia|]. destruct (Nat.eqb_spec (k / nw) r); [lia|]. auto. }
    destruct (H l0 enum_bounds) as [-> [-> ->]]. reflexivity.
  Qed.

  Lemma len_st0 r : r < p -> length (st0 r) = nw.
  Proof.
    intros H. unfold st0, chunk. rewrite firstn_length, skipn_length, Hlen. nia.
  Qed.

  Lemma H_pos r i : In i (F r) -> pos_ok p st0 r i.
  Proof.
    unfold F, full, sends, recvs, waits. intros H.
    apply in_app_or in H. destruct H as [H|H]; [|apply in_app_or in H; destruct H as [H|H]];
      apply in_flat_map in H; destruct H as [[j [c k]] [H1 H2]];
      pose proof (enum_bounds j c k H1) as [Hc Hk]; pose proof (div_lt _ Hc); pose proof (div_lt _ Hk).
    - destruct (Nat.eqb_spec (c / nw) r) as [<-|]; [|contradiction]. destruct H2 as [<-|[]]. simpl.
      rewrite len_st0 by assumption. apply Nat.mod_upper_bound. lia.
    - destruct (Nat.eqb_spec (k / nw) r) as [<-|]; [|contradiction]. destruct H2 as [<-|[]]. simpl.
      rewrite len_st0 by assumption. split; [|assumption]. apply Nat.mod_upper_bound. lia.
    - destruct (Nat.eqb_spec (c / nw) r) as [<-|]; [|contradiction]. destruct H2 as [<-|[]]. simpl. assumption.
  Qed.

  Lemma H_bal c : nsend (csrc c) (F (csrc c)) c = nrecv (cdst c) (F (cdst c)) c.
  Proof.
    destruct c as [[s d] t]. unfold csrc, cdst; simpl. unfold F, full, sends, recvs, waits.
    rewrite !nsend_app, !nrecv_app, not_send_recvs, not_send_waits, not_recv_sends, not_recv_waits.
    rewrite nsend_of, nrecv_of. lia.
  Qed.

  Lemma H_wait r d t k : In (Wait d t k) (waits r) -> k < nsend r (F r) (r, d, t).
  Proof.
    unfold waits. intros H. apply in_flat_map in H. destruct H as [[i [c k']] [H1 H2]].
    destruct (Nat.eqb_spec (c / nw) r) as [E|]; [|contradiction]. destruct H2 as [H2|[]].
    injection H2 as <- <- <-. unfold F, full, sends, recvs, waits.
    rewrite !nsend_app, nsend_of.
    assert (In (i, (c, k')) (filter (hits r (k' / nw) i) l0)).
    { apply filter_In. split; [assumption|]. simpl. rewrite E, !Nat.eqb_refl. reflexivity. }
    destruct (filter (hits r (k' / nw) i) l0); [contradiction|]. simpl. lia.
  Qed.

  (** messages of pair [i] *)
  Lemma payl_of s d t l :
    payl st0 s (rev (sends_of nw s l)) (s, d, t) =
    flat_map (fun x => if hits s d t x then match nth_error (st0 s) ((fst (snd x)) mod nw) with Some y => [y] | None => [] end else []) l.
  Proof.
    induction l as [|[i [c k]] l IH]; [reflexivity|].
    cbn [sends_of flat_map]. rewrite rev_app_distr, payl_app.
    fold (sends_of nw s l). rewrite IH. f_equal.
    simpl. destruct (Nat.eqb_spec (c / nw) s) as [E|D]; simpl; [|reflexivity].
    unfold chan_eqb. rewrite Nat.eqb_refl. simpl.
    destruct (Nat.eqb_spec (k / nw) d), (Nat.eqb_spec i t); reflexivity.
  Qed.

  Lemma payl_none s l c : forallb (fun i => negb (is_send i)) l = true -> payl st0 s l c = [].
  Proof.
    induction l as [|i l IH]; simpl; intros H; [reflexivity|].
    apply andb_true_iff in H. destruct i; simpl in *; try (destruct H; discriminate); apply IH, H.
  Qed.

  Lemma msgs_eq i c k : In (i, (c, k)) l0 ->
    msgs st0 sends recvs waits (c / nw, k / nw, i) = match nth_error ws c with Some x => [x] | None => [] end.
  Proof.
    intros H. unfold msgs, csrc; simpl. fold F. unfold F, full.
    rewrite !rev_app_distr, !payl_app.
    rewrite (payl_none _ (rev (recvs (c / nw)))), (payl_none _ (rev (waits (c / nw)))).
    2,3: rewrite forallb_rev, forallb_forall; intros x Hx.
    2:{ pose proof (waits_are (c / nw) l0) as W. rewrite forallb_forall in W. specialize (W x Hx). destruct x; simpl in *; congruence. }
    2:{ pose proof (recvs_are (c / nw) l0) as W. rewrite forallb_forall in W. specialize (W x Hx). destruct x; simpl in *; congruence. }
    rewrite !app_nil_r. unfold sends. rewrite payl_of.
    pose proof enum_fst_NoDup as ND. fold l0 in H.
    destruct (enum_bounds i c k H) as [Hc Hk].
    revert H ND. generalize l0 as l. induction l as [|[j [c' k']] l IH]; intros H ND; [contradiction|].
    simpl in ND. inversion ND as [|? ? Hni ND']; subst.
    assert (Hnil : forall l', ~ In i (map fst l') -> flat_map (fun x : nat * (nat * nat) => if hits (c / nw) (k / nw) i x then match nth_error (st0 (c / nw)) ((fst (snd x)) mod nw) with Some y => [y] | None => [] end else []) l' = []).
    { induction l' as [|[j' [c'' k'']] l' IHl]; intros Hn; [reflexivity|]. simpl in *.
      destruct (Nat.eqb_spec j' i) as [E|D]; [exfalso; apply Hn; left; exact E|].
      rewrite andb_false_r. simpl. apply IHl. intros X. apply Hn. right. exact X. }
    destruct H as [H|H].
    - injection H as -> -> ->. cbn [flat_map]. rewrite Hnil by exact Hni. rewrite app_nil_r.
      unfold hits. rewrite !Nat.eqb_refl. simpl.
      unfold st0. rewrite nth_error_chunk.
      assert (c mod nw < nw) by (apply Nat.mod_upper_bound; lia).
      destruct (Nat.ltb_spec (c mod nw) nw); [|lia].
      replace (c / nw * nw + c mod nw) with c; [reflexivity|].
      apply (div_mod_iff nw (c / nw) (c mod nw) c); auto.
    - cbn [flat_map]. rewrite IH by assumption.
      unfold hits. simpl. destruct (Nat.eqb_spec j i) as [E|D].
      + exfalso. apply Hni. rewrite E. change i with (fst (i, (c, k))). apply in_map. exact H.
      + rewrite andb_false_r. reflexivity.
  Qed.

  Lemma rst_app_norecv r l1 l2 : forallb (fun i => negb (is_recv i)) l1 = true ->
    rst st0 sends recvs waits r (l1 ++ l2) = rst st0 sends recvs waits r l2.
  Proof.
    induction l1 as [|i l1 IH]; intros H; [reflexivity|]. simpl in H. apply andb_true_iff in H.
    destruct i; simpl in *; try (destruct H; discriminate); apply IH, H.
  Qed.

  Lemma exchange_snoc (l : list (nat * nat)) c k x (acc : list A) :
    nth_error ws c = Some x ->
    fold_left (fun acc ck => match nth_error ws (fst ck) with Some x => upd (snd ck) x acc | None => acc end) (l ++ [(c, k)]) acc
    = upd k x (fold_left (fun acc ck => match nth_error ws (fst ck) with Some x => upd (snd ck) x acc | None => acc end) l acc).
  Proof. intros E. rewrite fold_left_app. simpl. rewrite E. reflexivity. Qed.

  Lemma rst_recvs r l rest : l0 = l ++ rest ->
    rst st0 sends recvs waits r (rev (recvs_of nw r l) ++ rev (sends r)) = chunk nw r (exchange ws (map snd l)).
  Proof.
    revert rest. induction l as [|[i [c k]] l IH] using rev_ind; intros rest E.
    - simpl. rewrite <- (app_nil_r (rev (sends r))), rst_app_norecv; [reflexivity|].
      rewrite forallb_rev, forallb_forall. intros x Hx.
      pose proof (sends_are r l0) as W. rewrite forallb_forall in W. specialize (W x Hx). destruct x; simpl in *; congruence.
    - rewrite <- app_assoc in E. specialize (IH _ E).
      assert (Hi : In (i, (c, k)) l0) by (rewrite E; apply in_or_app; right; left; reflexivity).
      destruct (enum_bounds i c k Hi) as [Hc Hk].
      assert (exists x, nth_error ws c = Some x) as [x Ex].
      { destruct (nth_error ws c) as [x|] eqn:Ex; [eauto|]. apply nth_error_None in Ex. lia. }
      rewrite map_app. simpl map. unfold exchange. rewrite (exchange_snoc _ c k x) by exact Ex.
      fold (exchange ws (map snd l)). rewrite chunk_upd by assumption.
      unfold recvs_of. rewrite flat_map_app. simpl. fold (recvs_of nw r l).
      destruct (Nat.eqb_spec (k / nw) r) as [Er|D].
      + simpl. rewrite rev_app_distr. simpl. rewrite <- Er at 1. rewrite msgs_eq by exact Hi. rewrite Ex.
        rewrite nrecv_app, !nrecv_rev. unfold sends. rewrite not_recv_sends.
        rewrite nrecv_of.
        assert (filter (hits (c / nw) r i) l = []) as ->.
        { pose proof enum_fst_NoDup as ND. rewrite E, map_app in ND. simpl in ND.
          apply NoDup_remove_2 in ND.
          destruct (filter (hits (c / nw) r i) l) as [|[j [c' k']] l'] eqn:Ef; [reflexivity|].
          assert (Hj : In (j, (c', k')) (filter (hits (c / nw) r i) l)) by (rewrite Ef; left; reflexivity).
          apply filter_In in Hj. destruct Hj as [Hj1 Hj2]. simpl in Hj2.
          rewrite !andb_true_iff in Hj2. destruct Hj2 as [_ Hj2]. apply Nat.eqb_eq in Hj2. subst j.
          exfalso. apply ND. apply in_or_app. left. change i with (fst (i, (c', k'))). apply in_map. exact Hj1. }
        simpl. f_equal. exact IH.
      + simpl. rewrite app_nil_r. exact IH.
  Qed.

  Lemma final_store r : rst st0 sends recvs waits r (rev (F r)) = chunk nw r (exchange ws pairs).
  Proof.
    unfold F, full. rewrite !rev_app_distr, <- app_assoc.
    rewrite rst_app_norecv.
    - etransitivity; [exact (rst_recvs r l0 [] (eq_sym (app_nil_r _)))|].
      f_equal. f_equal. unfold l0, enum.
      assert (G : forall s (l : list (nat * nat)), map snd (combine (seq s (length l)) l) = l).
      { intros s l; revert s; induction l as [|x l IH]; intros s; simpl; [reflexivity|]. rewrite IH. reflexivity. }
      apply G.
    - rewrite forallb_rev, forallb_forall. intros x Hx.
      pose proof (waits_are r l0) as W. rewrite forallb_forall in W. specialize (W x Hx). destruct x; simpl in *; congruence.
  Qed.

  Lemma comb_mpi eager n cf :
    steps eager n (init (fun r => rank_program nw r pairs) st0) cf ->
    (exists cf', step eager cf cf') \/
    (finished p cf /\ (forall r, store cf r = chunk nw r (exchange ws pairs))
     /\ forall c, rcvd cf c = length (sent cf c)).
  Proof.
    intros H.
    destruct (mpi_main p st0 sends recvs waits) with (eager := eager) (n := n) (cf := cf) as [P|[Fi [N [S R]]]].
    - intros r. apply sends_are.
    - intros r. apply recvs_are.
    - intros r. apply waits_are.
    - exact H_idle.
    - exact H_pos.
    - exact H_bal.
    - exact H_wait.
    - exact H.
    - left; exact P.
    - right. split; [exact Fi|]. split; [|exact R]. intros r. rewrite S. apply final_store.
  Qed.

  Lemma comb_mpi_bound eager n cf :
    steps eager n (init (fun r => rank_program nw r pairs) st0) cf ->
    n <= nsum (map (fun r => length (rank_program nw r pairs)) (seq 0 p)).
  Proof.
    intros H. 
    apply (steps_bound p st0 sends recvs waits) with (eager := eager) (cf := cf).
    - intros r. apply sends_are.
    - intros r. apply recvs_are.
    - intros r. apply waits_are.
    - exact H_idle.
    - exact H_pos.
    - exact H_wait.
    - exact H.
  Qed.
End CombMPI.

Lemma transfer_pairs_bounds counts c k : In (c, k) (transfer_pairs counts) -> c < length counts /\ k < length counts.
Proof.
  intros H. split.
  - apply in_combine_l in H. apply where_ix_spec in H. destruct H as [m [E _]]. apply nth_error_Some. congruence.
  - apply in_combine_r in H. apply where_ix_spec in H. destruct H as [m [E _]]. apply nth_error_Some. congruence.
Qed.

Lemma comb_transfer (A : Type) (nw p : nat) (ws : list A) (counts : list nat)
    (eager : bool) (n : nat) (cf : config A) :
  0 < nw -> length ws = p * nw -> length counts = length ws ->
  steps eager n (init (fun r => rank_program nw r (transfer_pairs counts)) (fun r => chunk nw r ws)) cf ->
  n <= nsum (map (fun r => length (rank_program nw r (transfer_pairs counts))) (seq 0 p)) /\
  ((exists cf', step eager cf cf') \/
   (finished p cf /\ (forall r, store cf r = chunk nw r (comb_exchange ws counts))
    /\ forall c, rcvd cf c = length (sent cf c))).
Proof.
  intros Hnw Hlen Hc H.
  assert (Hb : forall c k, In (c, k) (transfer_pairs counts) -> c < p * nw /\ k < p * nw).
  { intros c k Hi. apply transfer_pairs_bounds in Hi. lia. }
  split.
  - eapply (comb_mpi_bound nw p ws); eassumption.
  - eapply (comb_mpi nw p ws); eassumption.
Qed.
