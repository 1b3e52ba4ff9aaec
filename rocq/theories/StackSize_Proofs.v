From Verif Require Import Base BaseFacts StackSize_Model StackSize_Spec.
Open Scope nat_scope.

Lemma misfit_spec num b : 1 <= b -> exists m, misfit num b = Ok m /\ (m = false <-> Nat.divide b num).
Proof.
  intros Hb. destruct b as [|b]; [lia|]. exists ((num / S b) * S b <? num). split; [reflexivity|].
  pose proof (Nat.div_mod num (S b) ltac:(lia)) as D.
  pose proof (Nat.mod_upper_bound num (S b) ltac:(lia)) as U.
  rewrite Nat.mul_comm. split.
  - intros H. apply Nat.ltb_ge in H. apply Nat.mod_divide; lia.
  - intros H. apply Nat.mod_divide in H; [|lia]. apply Nat.ltb_ge. lia.
Qed.

Lemma search_down num : 1 <= num -> forall fuel b, 1 <= b -> b < fuel ->
  exists d, search pred fuel num b = Ok d /\ 1 <= d /\ d <= b /\ Nat.divide d num /\
    forall e, d < e <= b -> ~ Nat.divide e num.
Proof.
  intros Hn. induction fuel as [|fuel IH]; intros b Hb Hf; [lia|].
  cbn [search]. destruct (misfit_spec num b Hb) as (m & -> & Hm). cbn [rbind]. destruct m.
  - assert (b <> 1). { intros ->. assert (true = false) by (apply Hm; apply Nat.divide_1_l). discriminate. }
    destruct (IH (pred b)) as (d & -> & H1 & H2 & H3 & H4); [lia|lia|].
    exists d. repeat split; try assumption; try lia. intros e He.
    destruct (Nat.eq_dec e b) as [->|Ne]; [|apply H4; lia].
    intros D. assert (true = false) by (apply Hm; exact D). discriminate.
  - exists b. repeat split; try lia. apply Hm; reflexivity.
Qed.

Lemma search_up num : forall fuel b, 1 <= b -> b <= num -> num < b + fuel ->
  exists d, search S fuel num b = Ok d /\ b <= d /\ d <= num /\ Nat.divide d num /\
    forall e, b <= e < d -> ~ Nat.divide e num.
Proof.
  induction fuel as [|fuel IH]; intros b Hb Hn Hf; [lia|].
  cbn [search]. destruct (misfit_spec num b Hb) as (m & -> & Hm). cbn [rbind]. destruct m.
  - assert (b <> num). { intros ->. assert (true = false) by (apply Hm; apply Nat.divide_refl). discriminate. }
    destruct (IH (S b)) as (d & -> & H1 & H2 & H3 & H4); [lia|lia|lia|].
    exists d. repeat split; try assumption; try lia. intros e He.
    destruct (Nat.eq_dec e b) as [->|Ne]; [|apply H4; lia].
    intros D. assert (true = false) by (apply Hm; exact D). discriminate.
  - exists b. repeat split; try lia. apply Hm; reflexivity.
Qed.

Lemma update_stack_closest want num : 1 <= want -> 1 <= num ->
  exists d, update_stack want num = Ok d /\ closest num want d.
Proof.
  intros Hw Hn. unfold update_stack.
  destruct (search_down num Hn (S num) (Nat.min want num)) as (lo & -> & L1 & L2 & L3 & L4); [lia|lia|].
  destruct (search_up num (S num) (Nat.min want num)) as (up & -> & U1 & U2 & U3 & U4); [lia|lia|lia|].
  cbn [rbind]. eexists. split; [reflexivity|].
  assert (Hall : forall e, 1 <= e -> Nat.divide e num -> e <= lo \/ (up <= e /\ Nat.min want num <= e)).
  { intros e He De. destruct (le_lt_dec e (Nat.min want num)) as [Hle|Hgt].
    - destruct (le_lt_dec e lo) as [|Hl]; [left; assumption|]. exfalso. apply (L4 e); [lia|exact De].
    - right. split; [|lia]. destruct (le_lt_dec up e) as [|Hl]; [assumption|]. exfalso. apply (U4 e); [lia|exact De]. }
  assert (Hbig : forall e, Nat.divide e num -> e <= num) by (intros e De; apply Nat.divide_pos_le; [lia|exact De]).
  destruct (Z.leb_spec (Z.of_nat want - Z.of_nat lo) (Z.of_nat up - Z.of_nat want))%Z; (split; [lia|]; split; [assumption|]);
    intros e He De; specialize (Hbig e De); destruct (Hall e He De) as [H1|[H1 H2]]; lia.
Qed.

Lemma update_stack_zero want num : want = 0 \/ num = 0 -> update_stack want num = Err ZeroDivisionError.
Proof.
  intros H. unfold update_stack. replace (Nat.min want num) with 0 by lia. reflexivity.
Qed.

Lemma closest_self num want : 1 <= want -> Nat.divide want num -> closest num want want.
Proof. intros Hw D. split; [exact Hw|]. split; [exact D|]. intros e _ _. lia. Qed.

Lemma walker_stack_size_closest want num : 1 <= want -> 1 <= num ->
  exists d, walker_stack_size want num = Ok d /\ closest num want d.
Proof.
  intros Hw Hn. unfold walker_stack_size. destruct want as [|w]; [lia|].
  destruct (Nat.eqb_spec ((num / S w) * S w) num) as [E|E].
  - exists (S w). split; [reflexivity|]. apply closest_self; [lia|]. exists (num / S w). lia.
  - apply update_stack_closest; lia.
Qed.

(** whatever was asked for, the frequency ends up equal to the stack size *)
Lemma fix_nstblz_eq ss nst : 1 <= ss -> 1 <= nst -> fix_nstblz ss nst = Ok ss.
Proof.
  intros Hs Hn. unfold fix_nstblz. destruct nst as [|k]; [lia|].
  destruct (Nat.ltb_spec (S k) ss) as [Hlt|Hge].
  - rewrite orb_true_r. reflexivity.
  - rewrite orb_false_r. destruct (Nat.eqb_spec (ss mod S k) 0) as [E|E]; cbn [negb].
    + apply Nat.mod_divide in E; [|lia]. apply Nat.divide_pos_le in E; [|lia]. f_equal. lia.
    + destruct (update_stack_closest (S k) ss) as (d & -> & D1 & D2 & D3); [lia|lia|].
      f_equal. apply Nat.divide_pos_le in D2; [|lia].
      specialize (D3 ss Hs (Nat.divide_refl ss)). lia.
Qed.
