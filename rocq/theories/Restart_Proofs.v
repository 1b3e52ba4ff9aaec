From Verif Require Import Base BaseFacts Restart_Model Restart_Spec.
Open Scope nat_scope.

Section Proofs.
  Variables (V R : Type) (zero : V).
  Notation walker := (walker V R).

  Lemma find_store_eq {A} k (a : A) l : find k (store k a l) = Some a.
  Proof.
    induction l as [|[j b] l IH]; cbn; [rewrite Nat.eqb_refl; reflexivity|].
    destruct (j =? k) eqn:E; cbn; [rewrite Nat.eqb_refl; reflexivity|]. rewrite E. exact IH.
  Qed.

  Lemma find_store_ne {A} k k' (a : A) l : k <> k' -> find k' (store k a l) = find k' l.
  Proof.
    intros Hne. induction l as [|[j b] l IH]; cbn.
    - destruct (Nat.eqb_spec k k'); [contradiction|reflexivity].
    - destruct (Nat.eqb_spec j k) as [->|Hj]; cbn.
      + destruct (Nat.eqb_spec k k'); [contradiction|reflexivity].
      + destruct (j =? k'); [reflexivity|exact IH].
  Qed.

  Lemma find_init ntot size g : find g (init_file zero ntot size) = if g <? ntot then Some (repeat zero size) else None.
  Proof.
    unfold init_file.
    assert (H : forall s, find g (map (fun i => (i, repeat zero size)) (seq s ntot)) =
      if (s <=? g) && (g <? s + ntot) then Some (repeat zero size) else None).
    { induction ntot as [|n IH]; intros s; cbn [seq map find].
      - destruct (Nat.leb_spec s g), (Nat.ltb_spec g (s + 0)); cbn; try reflexivity; lia.
      - destruct (Nat.eqb_spec s g) as [->|Hne].
        + destruct (Nat.leb_spec g g), (Nat.ltb_spec g (g + S n)); cbn; try reflexivity; lia.
        + rewrite IH. destruct (Nat.leb_spec s g), (Nat.ltb_spec g (s + S n)), (Nat.leb_spec (S s) g), (Nat.ltb_spec g (S s + n));
            cbn; try reflexivity; lia. }
    rewrite H. cbn. reflexivity.
  Qed.

  Notation target nw := (fun p : nat * nat * walker => snd (fst p) + nw * fst (fst p)).

  (** Any order of the writes: each dataset ends up with its walker. *)
  Lemma writes_ok nw size l : forall d,
    (forall g, In g (map (target nw) l) -> exists old, find g d = Some old /\ length old = 3 + size) ->
    NoDup (map (target nw) l) -> Forall (fun p => length (phi (snd p)) = size) l ->
    exists d', write_walkers nw d l = Ok d' /\
      (forall p, In p l -> find (target nw p) d' = Some (write_buffer (snd p))) /\
      (forall g, ~ In g (map (target nw) l) -> find g d' = find g d).
  Proof.
    induction l as [|[[rank i] w] l IH]; intros d Hd Hnd Hs.
    - exists d. split; [reflexivity|]. split; [intros p []|reflexivity].
    - cbn [map fst snd] in Hnd, Hd. inversion_clear Hnd as [|? ? Hni Hnd']. inversion_clear Hs as [|? ? Hs1 Hs']. cbn [snd] in Hs1.
      cbn [write_walkers]. unfold write_walker, write_one.
      destruct (Hd (i + nw * rank)) as (old & Ho & Hl); [left; reflexivity|]. rewrite Ho.
      assert (E : length old =? length (write_buffer w) = true) by (apply Nat.eqb_eq; cbn; lia).
      rewrite E. cbn [rbind].
      destruct (IH (store (i + nw * rank) (write_buffer w) d)) as (d' & E1 & H1 & H2); [|exact Hnd'|exact Hs'|].
      + intros g Hg. rewrite find_store_ne by (intros <-; contradiction). apply Hd. right. exact Hg.
      + exists d'. split; [exact E1|]. split.
        * intros p [<-|Hp]; [|apply H1; exact Hp]. cbn [fst snd]. rewrite H2 by exact Hni. apply find_store_eq.
        * intros g Hg. cbn [map fst snd] in Hg. rewrite H2 by (intros H; apply Hg; right; exact H).
          apply find_store_ne. intros <-. apply Hg. left. reflexivity.
  Qed.

  (** ** The writes of a population *)

  Lemma rank_writes_targets nw rank (ws : list walker) : length ws = nw ->
    map (target nw) (rank_writes rank ws) = seq (nw * rank) nw.
  Proof.
    intros Hl. unfold rank_writes. rewrite map_map. cbn [fst snd].
    assert (G : forall s (ws : list walker), map (fun p : nat * walker => fst p + nw * rank) (combine (seq s (length ws)) ws) = seq (s + nw * rank) (length ws)).
    { intros s ws'. revert s. induction ws' as [|w ws' IH]; intros s; [reflexivity|]. cbn [length seq combine map fst]. rewrite IH. reflexivity. }
    rewrite (G 0 ws). rewrite Hl. reflexivity.
  Qed.

  Lemma all_writes_targets nw (pop : list (list walker)) : layout nw pop ->
    map (target nw) (all_writes pop) = seq 0 (nw * length pop).
  Proof.
    intros Hl. unfold all_writes.
    assert (G : forall s pop, layout nw pop ->
      map (target nw) (flat_map (fun p => rank_writes (fst p) (snd p)) (combine (seq s (length pop)) pop)) = seq (nw * s) (nw * length pop)).
    { intros s pop' H. revert s. induction H as [|ws pop' Hw Hpop IH]; intros s; [rewrite Nat.mul_0_r; reflexivity|].
      cbn [length seq combine flat_map fst snd]. rewrite map_app, IH, rank_writes_targets by exact Hw.
      replace (nw * S (length pop')) with (nw + nw * length pop') by lia.
      replace (nw * S s) with (nw * s + nw) by lia. symmetry. apply seq_app. }
    rewrite (G 0 pop Hl), Nat.mul_0_r. reflexivity.
  Qed.

  Lemma concat_length nw (pop : list (list walker)) : layout nw pop -> length (concat pop) = nw * length pop.
  Proof.
    induction 1 as [|ws pop Hw Hpop IH]; cbn; [lia|]. rewrite app_length, IH, Hw. lia.
  Qed.

  Lemma all_writes_snd nw (pop : list (list walker)) : layout nw pop ->
    map (fun p => (target nw p, snd p)) (all_writes pop) = combine (seq 0 (nw * length pop)) (concat pop).
  Proof.
    intros Hl.
    assert (G : forall s pop, layout nw pop ->
      map (fun p => (target nw p, snd p)) (flat_map (fun p => rank_writes (fst p) (snd p)) (combine (seq s (length pop)) pop))
      = combine (seq (nw * s) (nw * length pop)) (concat pop)).
    { intros s pop' H. revert s. induction H as [|ws pop' Hw Hpop IH]; intros s; [rewrite Nat.mul_0_r; reflexivity|].
      cbn [length seq combine flat_map fst snd concat]. rewrite map_app, IH.
      replace (nw * S (length pop')) with (nw + nw * length pop') by lia. rewrite seq_app.
      replace (nw * S s) with (nw * s + nw) by lia.
      assert (C : forall (a b : list nat) (c d : list walker), length a = length c -> combine (a ++ b) (c ++ d) = combine a c ++ combine b d).
      { induction a as [|x a IHa]; intros b [|y c] d E; cbn in *; try discriminate; [reflexivity|]. f_equal. apply IHa. lia. }
      rewrite C by (rewrite seq_length; lia). f_equal.
      unfold rank_writes. rewrite map_map. cbn [fst snd].
      assert (G2 : forall s0 (ws : list walker), map (fun p : nat * walker => (fst p + nw * s, snd p)) (combine (seq s0 (length ws)) ws) = combine (seq (s0 + nw * s) (length ws)) ws).
      { intros s0 ws'. revert s0. induction ws' as [|w ws' IH']; intros s0; [reflexivity|]. cbn [length seq combine map fst snd]. rewrite IH'. reflexivity. }
      rewrite (G2 0 ws), Hw. reflexivity. }
    unfold all_writes. rewrite (G 0 pop Hl), Nat.mul_0_r. reflexivity.
  Qed.

  Lemma combine_seq_nth {A} (l : list A) s g a : In (g, a) (combine (seq s (length l)) l) <-> s <= g /\ nth_error l (g - s) = Some a.
  Proof.
    revert s; induction l as [|x l IH]; intros s; cbn [length seq combine].
    - split; [intros []|]. intros [_ H]. destruct (g - s); discriminate.
    - cbn [In]. rewrite IH. split.
      + intros [E|[H1 H2]].
        * inversion E; subst. split; [lia|]. rewrite Nat.sub_diag. reflexivity.
        * split; [lia|]. replace (g - s) with (S (g - S s)) by lia. exact H2.
      + intros [H1 H2]. destruct (Nat.eq_dec s g) as [->|Hne].
        * left. rewrite Nat.sub_diag in H2. cbn in H2. congruence.
        * right. split; [lia|]. replace (g - s) with (S (g - S s)) in H2 by lia. exact H2.
  Qed.

  Lemma all_writes_complete nw (pop : list (list walker)) g w : layout nw pop -> nth_error (concat pop) g = Some w ->
    exists p, In p (all_writes pop) /\ target nw p = g /\ snd p = w.
  Proof.
    intros Hl Hn. assert (In (g, w) (map (fun p => (target nw p, snd p)) (all_writes pop))).
    { rewrite (all_writes_snd nw) by exact Hl. rewrite <- (concat_length nw) by exact Hl.
      apply combine_seq_nth. split; [lia|]. rewrite Nat.sub_0_r. exact Hn. }
    apply in_map_iff in H. destruct H as (p & E & Hp). exists p. inversion E; subst. auto.
  Qed.

  (** the file after a whole population was written, in any order *)
  Definition holds (nw : nat) (pop : list (list walker)) (d : file V) : Prop :=
    forall g, find g d = match nth_error (concat pop) g with Some w => Some (write_buffer w) | None => None end.

  Lemma population_written nw size (pop : list (list walker)) l : layout nw pop -> Forall (shape size) pop ->
    Permutation l (all_writes pop) ->
    exists d, write_walkers nw (init_file zero (nw * length pop) (3 + size)) l = Ok d /\ holds nw pop d.
  Proof.
    intros Hl Hs Hp.
    assert (Ht : Permutation (map (target nw) l) (seq 0 (nw * length pop))).
    { rewrite <- (all_writes_targets nw) by exact Hl. apply Permutation_map. exact Hp. }
    assert (Hsh : Forall (fun p => length (phi (snd p)) = size) l).
    { apply Forall_forall. intros p Hin. apply (Permutation_in _ Hp) in Hin. unfold all_writes in Hin.
      apply in_flat_map in Hin. destruct Hin as ([r ws] & H1 & H2). cbn [fst snd] in H2.
      apply in_combine_r in H1. rewrite Forall_forall in Hs. specialize (Hs ws H1). unfold shape in Hs. rewrite Forall_forall in Hs.
      unfold rank_writes in H2. apply in_map_iff in H2. destruct H2 as ([i w] & <- & H3). cbn. apply in_combine_r in H3. apply Hs. exact H3. }
    destruct (writes_ok nw size l (init_file zero (nw * length pop) (3 + size))) as (d & E & H1 & H2).
    - intros g Hg. apply (Permutation_in _ Ht) in Hg. apply in_seq in Hg. rewrite find_init.
      destruct (Nat.ltb_spec g (nw * length pop)); [|lia]. eexists. split; [reflexivity|]. rewrite repeat_length. lia.
    - apply (Permutation_NoDup (Permutation_sym Ht)). apply seq_NoDup.
    - exact Hsh.
    - exists d. split; [exact E|]. intros g.
      destruct (nth_error (concat pop) g) as [w|] eqn:Hn.
      + destruct (all_writes_complete nw pop g w Hl Hn) as (p & Hin & <- & <-).
        apply H1. apply (Permutation_in _ (Permutation_sym Hp)). exact Hin.
      + apply nth_error_None in Hn. rewrite (concat_length nw) in Hn by exact Hl.
        rewrite H2.
        * rewrite find_init. destruct (Nat.ltb_spec g (nw * length pop)); [lia|reflexivity].
        * intros Hg. apply (Permutation_in _ Ht) in Hg. apply in_seq in Hg. lia.
  Qed.

  (** ** Reading *)

  Lemma read_list_ok nw0 nw rank size pop d : holds nw0 pop d -> Forall (shape size) pop ->
    forall ws i, shape size ws ->
    exists ws', read_list nw rank d i ws = Ok ws' /\ length ws' = length ws /\
      forall j w, nth_error ws j = Some w ->
        nth_error ws' j = Some (match nth_error (concat pop) (i + j + nw * rank) with
                                | Some w0 => restored w w0 | None => w end).
  Proof.
    intros Hd Hs. induction ws as [|w ws IH]; intros i Hw.
    - exists []. split; [reflexivity|]. split; [reflexivity|]. intros [|j] w H; discriminate.
    - inversion_clear Hw as [|? ? Hw1 Hw']. cbn [read_list]. rewrite Hd.
      set (w1 := match nth_error (concat pop) (i + nw * rank) with Some w0 => restored w w0 | None => w end).
      assert (E : match match nth_error (concat pop) (i + nw * rank) with Some w0 => Some (write_buffer w0) | None => None end with
                  | Some buff => set_walker w buff | None => Ok w end = Ok w1).
      { unfold w1. destruct (nth_error (concat pop) (i + nw * rank)) as [w0|] eqn:Hn; [|reflexivity].
        cbn. apply nth_error_In in Hn. apply in_concat in Hn. destruct Hn as (ws0 & H1 & H2).
        rewrite Forall_forall in Hs. specialize (Hs ws0 H1). unfold shape in Hs. rewrite Forall_forall in Hs.
        rewrite (Hs w0 H2), Hw1, Nat.eqb_refl. reflexivity. }
      rewrite E. cbn [rbind]. destruct (IH (S i) Hw') as (l & -> & Hlen & Hl). cbn [rbind].
      exists (w1 :: l). split; [reflexivity|]. split; [cbn; lia|].
      intros [|j] w' Hj; cbn [nth_error] in *.
      + inversion Hj; subst. rewrite Nat.add_0_r. reflexivity.
      + rewrite (Hl j w' Hj). replace (S i + j) with (i + S j) by lia. reflexivity.
  Qed.

  (** ** Whole runs *)

  (** first run: set up, write; second run reads it with any layout *)
  Lemma restart_roundtrip size f wf freq1 nw1 (pop : list (list walker)) l (w0 : walker) :
    0 < freq1 -> layout nw1 pop -> Forall (shape size) pop -> length (phi w0) = size ->
    Permutation l (all_writes pop) ->
    exists f', write_restart (init_restart zero f freq1 wf (nw1 * length pop) w0) wf nw1 l = Ok f' /\
      forall freq2 wf2 ntot2 nw2 rank (ws : list walker), (freq2 = 0 \/ wf2 <> wf) -> ws <> [] -> shape size ws ->
        exists f'' ws', setup zero f' freq2 wf2 (Some wf) ntot2 nw2 rank ws = Ok (f'', ws') /\
          read_back pop nw2 rank ws ws'.
  Proof.
    intros Hf Hl Hs Hw0 Hp. unfold init_restart. destruct (Nat.ltb_spec 0 freq1); [|lia]. rewrite Hw0.
    destruct (population_written nw1 size pop l Hl Hs Hp) as (d & E & Hd).
    unfold write_restart. rewrite find_store_eq, E. cbn [rbind]. eexists. split; [reflexivity|].
    intros freq2 wf2 ntot2 nw2 rank ws Hne Hws Hsh. unfold setup. destruct ws as [|w ws]; [contradiction|].
    unfold read_walkers.
    assert (F : find wf (init_restart zero (store wf d (store wf (init_file zero (nw1 * length pop) (3 + size)) f)) freq2 wf2 ntot2 w) = Some d).
    { unfold init_restart. destruct (Nat.ltb_spec 0 freq2).
      - rewrite find_store_ne by (intros ->; destruct Hne; [lia|congruence]). apply find_store_eq.
      - apply find_store_eq. }
    rewrite F. destruct (read_list_ok nw1 nw2 rank size pop d Hd Hs (w :: ws) 0 Hsh) as (ws' & -> & Hlen & Hr).
    cbn [rbind]. eexists _, _. split; [reflexivity|]. split; [exact Hlen|].
    intros i v Hi. rewrite (Hr i v Hi). reflexivity.
  Qed.

  (** reading and writing the same file: everything read is zero *)
  Lemma same_file_zero f freq wf ntot nw rank (ws : list walker) : 0 < freq -> ws <> [] ->
    shape (match ws with w :: _ => length (phi w) | [] => 0 end) ws ->
    exists f' ws', setup zero f freq wf (Some wf) ntot nw rank ws = Ok (f', ws') /\
      forall i w, nth_error ws i = Some w ->
        nth_error ws' i = Some (if i + nw * rank <? ntot
                                then Walker zero zero zero (repeat zero (length (phi w))) (rest w) else w).
  Proof.
    intros Hf Hne Hsh. unfold setup. destruct ws as [|w0 ws0]; [contradiction|]. set (ws := w0 :: ws0) in *.
    unfold read_walkers, init_restart. destruct (Nat.ltb_spec 0 freq); [|lia]. rewrite find_store_eq.
    assert (G : forall (ws : list walker) i, shape (length (phi w0)) ws ->
      exists ws', read_list nw rank (init_file zero ntot (3 + length (phi w0))) i ws = Ok ws' /\
        forall j w, nth_error ws j = Some w ->
          nth_error ws' j = Some (if i + j + nw * rank <? ntot then Walker zero zero zero (repeat zero (length (phi w))) (rest w) else w)).
    { induction ws1 as [|w ws1 IH]; intros i Hs.
      - exists []. split; [reflexivity|]. intros [|j] w E; discriminate.
      - inversion_clear Hs as [|? ? Hs1 Hs']. cbn [read_list]. rewrite find_init.
        destruct (IH (S i) Hs') as (l & El & Hl).
        set (w1 := if i + nw * rank <? ntot then Walker zero zero zero (repeat zero (length (phi w))) (rest w) else w).
        assert (E : match (if i + nw * rank <? ntot then Some (repeat zero (3 + length (phi w0))) else None) with
                    | Some buff => set_walker w buff | None => Ok w end = Ok w1).
        { unfold w1. destruct (i + nw * rank <? ntot); [|reflexivity]. cbn. rewrite repeat_length, Hs1, Nat.eqb_refl. reflexivity. }
        rewrite E. cbn [rbind]. rewrite El. cbn [rbind]. eexists. split; [reflexivity|].
        intros [|j] w' Hj; cbn [nth_error] in *.
        + inversion Hj; subst. rewrite Nat.add_0_r. reflexivity.
        + rewrite (Hl j w' Hj). replace (S i + j) with (i + S j) by lia. reflexivity. }
    destruct (G ws 0 Hsh) as (ws2 & E & HH). rewrite E. cbn [rbind]. eexists _, _. split; [reflexivity|].
    intros i w Hi. rewrite (HH i w Hi). reflexivity.
  Qed.

  (** a run that stopped before its first write leaves a file of zeros *)
  Lemma crash_before_write f freq wf ntot (w0 : walker) wf2 nw rank (ws : list walker) :
    0 < freq -> ws <> [] -> shape (length (phi w0)) ws -> wf2 <> wf ->
    exists f' ws', setup zero (init_restart zero f freq wf ntot w0) 0 wf2 (Some wf) ntot nw rank ws = Ok (f', ws') /\
      forall i w, nth_error ws i = Some w ->
        nth_error ws' i = Some (if i + nw * rank <? ntot
                                then Walker zero zero zero (repeat zero (length (phi w))) (rest w) else w).
  Proof.
    intros Hf Hne Hsh Hw.
    assert (Hsz : shape (match ws with w :: _ => length (phi w) | [] => 0 end) ws).
    { destruct ws as [|w ws]; [contradiction|]. pose proof (Forall_inv Hsh) as H1; cbn beta in H1. rewrite H1. exact Hsh. }
    destruct (same_file_zero f freq wf ntot nw rank ws Hf Hne Hsz) as (f' & ws' & E & H).
    unfold setup in *. destruct ws as [|w ws]; [contradiction|]. pose proof (Forall_inv Hsh) as H1; cbn beta in H1.
    unfold init_restart in *. destruct (Nat.ltb_spec 0 freq); [|lia]. cbn [Nat.ltb Nat.leb] in *.
    unfold read_walkers in *. rewrite find_store_eq in *. rewrite H1 in E.
    destruct (read_list nw rank (init_file zero ntot (3 + length (phi w0))) 0 (w :: ws)) as [r|e]; cbn [rbind] in *; [|discriminate].
    apply Ok_inj in E. inversion E; subst. eexists _, _. split; [reflexivity|]. exact H.
  Qed.
End Proofs.
