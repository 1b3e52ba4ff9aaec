From Verif Require Import BaseFacts Comb_Model Comb_Spec Comb_Proofs MPI_Model MPI_Proofs CombMPI_Proofs
  PairBranch_Model PairBranch_Spec PairBranch_Proofs PairBranchMPI_Proofs PopControl_Model.
From Coq Require Import Qabs.
Open Scope nat_scope.

Lemma Qabs_div x s : (0 < s)%Q -> (Qabs (x / s) == Qabs x / s)%Q.
Proof.
  intros Hs. unfold Qdiv. rewrite Qabs_Qmult. rewrite (Qabs_pos (/ s)); [reflexivity|].
  apply Qlt_le_weak, Qinv_lt_0_compat, Hs.
Qed.

Lemma q_pos n : 0 < n -> (0 < q_of_nat n)%Q.
Proof. intros H. change 0%Q with (q_of_nat 0). apply q_of_nat_lt. exact H. Qed.

Section PC.
  Context {X : Type}.
  Implicit Types ws : list (Q * aux X).

  Lemma tot_nonneg ws : (0 <= total_abs ws)%Q.
  Proof.
    unfold total_abs. induction ws as [|w l IH]; simpl; [lra|].
    pose proof (Qabs_nonneg (fst w)). lra.
  Qed.

  Lemma pop_prepare_spec ntot target ws : ntot <> 1 -> 0 < target -> (tiny <= total_abs ws)%Q ->
    exists gw ws', pop_prepare ntot target ws = Ok (Prepared gw ws') /\ length ws' = length ws /\ length gw = length ws /\
      (total_abs ws' == q_of_nat target)%Q /\
      Qsum gw = Qsum (map (fun g => g / (total_abs ws / q_of_nat target))%Q (map (fun w => Qabs (fst w)) ws)) /\
      (Qsum gw == q_of_nat target)%Q /\
      Forall (fun g => 0 <= g)%Q gw /\
      (forall i w, nth_error ws i = Some w -> exists w' g, nth_error ws' i = Some w' /\ nth_error gw i = Some g /\
         (fst w' * total_abs ws == fst w * q_of_nat target)%Q /\ (g == Qabs (fst w'))%Q /\
         unscaled (snd w') = fst w /\ total_weight (snd w') = total_abs ws /\ body (snd w') = body (snd w)).
  Proof.
    intros Hn Ht Hw. unfold pop_prepare.
    destruct (Nat.eqb_spec ntot 1); [contradiction|]. destruct (Nat.eqb_spec target 0); [lia|].
    fold (total_abs ws).
    assert (Hp : (0 < total_abs ws)%Q) by (unfold tiny in Hw; lra).
    pose proof (q_pos target Ht) as Hq.
    destruct (Qltb (total_abs ws) tiny) eqn:E; [apply Qltb_spec in E; lra|].
    set (scale := (total_abs ws / q_of_nat target)%Q).
    assert (Hs : (0 < scale)%Q) by (unfold scale; apply Qlt_shift_div_l; lra).
    assert (Hsc : forall x, (x / scale * total_abs ws == x * q_of_nat target)%Q).
    { intros x. unfold scale. field. split; lra. }
    assert (HG : (Qsum (map (fun g => g / scale)%Q (map (fun w => Qabs (fst w)) ws)) == q_of_nat target)%Q).
    { assert (G : forall l, (Qsum (map (fun g => g / scale) l) == Qsum l / scale)%Q).
      { induction l as [|x l IH]; simpl; [field; lra|]. rewrite IH. field. lra. }
      rewrite G. fold (total_abs ws). unfold scale. field. split; lra. }
    eexists. eexists. split; [reflexivity|]. rewrite !map_length.
    split; [reflexivity|]. split; [reflexivity|]. split; [|split; [|split; [|split]]].
    - rewrite <- HG. unfold total_abs at 1. rewrite !map_map. simpl. apply Qsum_map_ext.
      intros w _. apply Qabs_div, Hs.
    - reflexivity.
    - exact HG.
    - apply Forall_forall. intros g Hg. apply in_map_iff in Hg. destruct Hg as [x [<- Hg]].
      apply in_map_iff in Hg. destruct Hg as [w [<- _]]. apply Qle_shift_div_l; [exact Hs|].
      pose proof (Qabs_nonneg (fst w)). lra.
    - intros i w Hi. rewrite !nth_error_map, Hi. simpl. eexists. eexists. split; [reflexivity|]. split; [reflexivity|]. simpl.
      split; [apply Hsc|]. split; [symmetry; apply Qabs_div, Hs|]. repeat split.
  Qed.

  Lemma pop_exit ntot target ws : 0 < target ->
    (pop_prepare ntot target ws = Err SystemExit <-> ntot <> 1 /\ (total_abs ws < tiny)%Q).
  Proof.
    intros Ht. unfold pop_prepare. destruct (Nat.eqb_spec ntot 1) as [E|E].
    - split; [discriminate|]. intros [H _]. contradiction.
    - destruct (Nat.eqb_spec target 0); [lia|]. fold (total_abs ws).
      destruct (Qltb (total_abs ws) tiny) eqn:B.
      + apply Qltb_spec in B. split; auto.
      + split; [discriminate|]. intros [_ H]. apply Qltb_spec in H. congruence.
  Qed.

  Lemma exchange_len {A} (l : list A) pairs : length (exchange l pairs) = length l.
  Proof.
    unfold exchange. assert (G : forall acc, length (fold_left (fun acc ck => match nth_error l (fst ck) with Some x => upd (snd ck) x acc | None => acc end) pairs acc) = length acc).
    { induction pairs as [|[c k] ps IH]; intros acc; simpl; [reflexivity|]. rewrite IH. destruct (nth_error l c); [apply length_upd|reflexivity]. }
    apply G.
  Qed.

  Lemma pop_comb_total ntot target r ws : ntot <> 1 -> 0 < target -> (tiny <= total_abs ws)%Q -> (0 <= r < 1)%Q ->
    exists ws', pop_comb ntot target r ws = Ok ws' /\ length ws' = length ws /\
      (total_abs ws' == q_of_nat (length ws))%Q /\ Forall (fun w => fst w = 1%Q /\ total_weight (snd w) = total_abs ws) ws'.
  Proof.
    intros Hn Ht Hw Hr.
    destruct (pop_prepare_spec ntot target ws Hn Ht Hw) as [gw [ws1 [E [L1 [L2 [T1 [_ [T2 [F N]]]]]]]]].
    destruct (counts_total gw target r) as [counts [C [Lc S]]].
    { split; [exact F|]. rewrite T2. apply q_pos, Ht. } { exact Hr. }
    unfold pop_comb. rewrite E. simpl. rewrite C. simpl. eexists. split; [reflexivity|].
    set (l := comb_exchange ws1 counts).
    assert (Ll : length l = length ws) by (unfold l, comb_exchange; rewrite exchange_len; exact L1).
    rewrite map_length. split; [exact Ll|]. split.
    - unfold total_abs. rewrite map_map. simpl. rewrite <- Ll. clear.
      induction l as [|x l IH]; simpl; [reflexivity|]. rewrite IH, q_of_nat_S. change (Qabs 1) with 1%Q. lra.
    - apply Forall_forall. intros w Hi. apply in_map_iff in Hi. destruct Hi as [w0 [<- Hi]]. split; [reflexivity|]. simpl.
      assert (All : forall w, In w ws1 -> total_weight (snd w) = total_abs ws).
      { intros w Hw1. apply In_nth_error in Hw1. destruct Hw1 as [i Hi1].
        destruct (nth_error ws i) as [w2|] eqn:E2.
        - destruct (N i w2 E2) as [w' [g [A1 [_ [_ [_ [_ [A2 _]]]]]]]]. rewrite Hi1 in A1. injection A1 as <-. exact A2.
        - apply nth_error_None in E2. assert (nth_error ws1 i = None) by (apply nth_error_None; lia). congruence. }
      apply All. unfold l, comb_exchange, exchange in Hi. revert Hi. generalize (transfer_pairs counts). clear.
      assert (G : forall pairs acc, (forall w, In w acc -> In w ws1) -> forall w, In w (fold_left (fun acc ck => match nth_error ws1 (fst ck) with Some x => upd (snd ck) x acc | None => acc end) pairs acc) -> In w ws1).
      { induction pairs as [|[c k] ps IH]; intros acc Ha w Hi; simpl in Hi; [auto|].
        apply (IH _) in Hi; [exact Hi|]. destruct (nth_error ws1 c) as [y|] eqn:Ey; [|exact Ha].
        intros v Hv. apply In_nth_error in Hv. destruct Hv as [j Hj]. simpl in Hj.
        rewrite nth_error_upd in Hj. destruct (k =? j).
        - destruct (k <? length acc); [injection Hj as <-; eapply nth_error_In; exact Ey|discriminate].
        - apply Ha. eapply nth_error_In; exact Hj. }
      intros pairs Hi. eapply G; [|exact Hi]. auto.
  Qed.

  (** pair branching after rescaling *)
  Lemma pop_pair_total ntot target ws gw ws1 minw maxw draws nw p table eager n cf :
    ntot <> 1 -> 0 < target -> (tiny <= total_abs ws)%Q -> 0 < nw -> length ws = p * nw ->
    pop_prepare ntot target ws = Ok (Prepared gw ws1) ->
    pb_table minw maxw draws nw (map fst ws1) = Ok table ->
    steps eager n (init (fun r => pb_program nw r table) (fun r => chunk nw r (reweighted table ws1))) cf ->
    (exists cf', step eager cf cf') \/
    (finished p cf /\ length (flat_map (store cf) (seq 0 p)) = length ws /\
     (total_abs (flat_map (store cf) (seq 0 p)) == q_of_nat target)%Q).
  Proof.
    intros Hn Ht Hw Hnw Hl E Et S.
    destruct (pop_prepare_spec ntot target ws Hn Ht Hw) as [gw' [ws1' [E' [L1 [L2 [T1 _]]]]]].
    rewrite E in E'. injection E' as <- <-.
    destruct (pair_branch_main minw maxw draws nw p ws1 table eager n cf Hnw ltac:(congruence) Et S) as [_ [P|[F1 [F2 [F3 [F4 _]]]]]].
    - left; exact P.
    - right. split; [exact F1|]. split; [congruence|]. rewrite F4. exact T1.
  Qed.
End PC.

Lemma pop_rescale (X : Type) (ntot target : nat) (ws : list (Q * aux X)) :
  ntot <> 1 -> 0 < target -> (tiny <= total_abs ws)%Q ->
  exists gw ws', pop_prepare ntot target ws = Ok (Prepared gw ws') /\ length ws' = length ws /\
    (total_abs ws' == q_of_nat target)%Q /\ (Qsum gw == q_of_nat target)%Q /\
    (forall i w, nth_error ws i = Some w -> exists w' g, nth_error ws' i = Some w' /\ nth_error gw i = Some g /\
       (fst w' * total_abs ws == fst w * q_of_nat target)%Q /\ (g == Qabs (fst w'))%Q /\
       unscaled (snd w') = fst w /\ total_weight (snd w') = total_abs ws /\ body (snd w') = body (snd w)).
Proof.
  intros Hn Ht Hw. destruct (pop_prepare_spec ntot target ws Hn Ht Hw) as [gw [ws' [E [L1 [L2 [T1 [_ [T2 [_ N]]]]]]]]].
  exists gw, ws'. auto 6.
Qed.

Lemma pop_single (X : Type) (target : nat) (ws : list (Q * aux X)) : pop_prepare 1 target ws = Ok (Untouched ws).
Proof. reflexivity. Qed.
