From Coq Require Import Sorted.
From Verif Require Import Base BaseFacts Balls_Model Balls_Spec.
Open Scope nat_scope.

Definition adm (balls : nat) (sizes d : list nat) : Prop := Forall2 le d sizes /\ nsum d = balls.

Lemma down_in : forall n k, In k (down n) <-> k <= n.
Proof. induction n as [|n IH]; intros k; cbn; [lia|]. rewrite IH. lia. Qed.

Lemma adm_nil : forall balls d, adm balls [] d <-> d = [] /\ balls = 0.
Proof.
  intros balls d. split.
  - intros [H S]. inversion H. subst. split; reflexivity.
  - intros [-> ->]. split; [constructor|reflexivity].
Qed.

Lemma adm_cons : forall balls s sizes x d, adm balls (s :: sizes) (x :: d) <-> x <= min balls s /\ adm (balls - x) sizes d.
Proof.
  intros balls s sizes x d. unfold adm, nsum. cbn [fold_right]. split.
  - intros [H S]. inversion_clear H as [|? ? ? ? H1 H2]. split; [lia|]. split; [exact H2|lia].
  - intros [H1 [H2 S]]. split; [constructor; [lia|exact H2]|lia].
Qed.

Lemma adm_zero : forall sizes d, adm 0 sizes d <-> d = repeat 0 (length sizes).
Proof.
  induction sizes as [|s sizes IH]; intros d.
  - rewrite adm_nil. intuition.
  - destruct d as [|x d].
    + split; [intros [H _]; inversion H|discriminate].
    + rewrite adm_cons. rewrite Nat.sub_0_l, IH. cbn. split.
      * intros [H ->]. replace x with 0 by lia. reflexivity.
      * intros H. injection H as -> ->. split; [lia|reflexivity].
Qed.


Lemma before_trans : forall a b c, before a b -> before b c -> before a c.
Proof.
  intros a b c H. revert c. induction H as [x y a b L|x a b H IH]; intros c K.
  - inversion K; subst; constructor; lia.
  - inversion K; subst; [constructor; assumption|]. apply before_next. auto.
Qed.

Lemma before_irr : forall a, ~ before a a.
Proof. intros a H. remember a as b eqn:E in H at 2. revert E. induction H; intros E; injection E; intros; subst; [lia|auto]. Qed.

Lemma Sorted_app : forall A (R : A -> A -> Prop) l1 l2, StronglySorted R l1 -> StronglySorted R l2 ->
  (forall x y, In x l1 -> In y l2 -> R x y) -> StronglySorted R (l1 ++ l2).
Proof.
  induction l1 as [|x l1 IH]; intros l2 H1 H2 H; [exact H2|].
  cbn. inversion_clear H1 as [|? ? S F]. constructor.
  - apply IH; auto. intros; apply H; [right|]; assumption.
  - apply Forall_app. split; [exact F|]. apply Forall_forall. intros y Hy. apply H; [left; reflexivity|exact Hy].
Qed.

Lemma Sorted_map_cons : forall b l, StronglySorted before l -> StronglySorted before (map (cons b) l).
Proof.
  induction l as [|x l IH]; intros H; [constructor|]. inversion_clear H as [|? ? S F]. constructor; [auto|].
  apply Forall_map. eapply Forall_impl; [|exact F]. intros; constructor; assumption.
Qed.

Definition go (balls : nat) (sizes' : list nat) : list nat -> res (list (list nat)) :=
  fix go (firsts : list nat) : res (list (list nat)) :=
    match firsts with
    | [] => Ok []
    | b :: firsts' =>
        rbind (gen (balls - b) sizes') (fun others =>
        rbind (go firsts') (fun rest => Ok (map (cons b) others ++ rest)))
    end.

Lemma gen_eq : forall balls s s' sizes, balls <> 0 ->
  gen balls (s :: s' :: sizes) = go balls (s' :: sizes) (down (min balls s)).
Proof. intros balls s s' sizes H. destruct balls; [congruence|]. reflexivity. Qed.

Lemma gen_ok : forall sizes balls, sizes <> [] \/ balls = 0 -> exists l, gen balls sizes = Ok l /\ StronglySorted before l /\
  forall d, In d l <-> adm balls sizes d.
Proof.
  induction sizes as [|s sizes IH]; intros balls H.
  - destruct H as [H| ->]; [congruence|]. exists [[]]. split; [reflexivity|]. split; [repeat constructor|].
    intros d. rewrite adm_nil. cbn. intuition.
  - destruct (Nat.eq_dec balls 0) as [->|N].
    { exists [repeat 0 (length (s :: sizes))]. split; [reflexivity|]. split; [repeat constructor|].
      intros d. rewrite adm_zero. cbn. intuition. }
    destruct sizes as [|s' sizes].
    + exists (if balls <=? s then [[balls]] else []). split; [destruct balls; [congruence|reflexivity]|].
      split; [destruct (balls <=? s); repeat constructor|]. intros d.
      destruct (Nat.leb_spec balls s).
      * split.
        -- intros [<-|[]]. rewrite adm_cons. split; [lia|]. rewrite Nat.sub_diag. apply adm_nil. auto.
        -- destruct d as [|x d]; [intros [F _]; inversion F|]. rewrite adm_cons, adm_nil. intros [A [-> B]].
           left. f_equal. lia.
      * split; [intros []|]. destruct d as [|x d]; [intros [F _]; inversion F|]. rewrite adm_cons, adm_nil. lia.
    + rewrite gen_eq by exact N.
      assert (G : forall m, exists l, go balls (s' :: sizes) (down m) = Ok l /\ StronglySorted before l /\
        forall d, In d l <-> exists x d', d = x :: d' /\ x <= m /\ adm (balls - x) (s' :: sizes) d').
      { induction m as [|m (l & E & So & I)].
        - destruct (IH (balls - 0)) as (o & E & S & I); [left; discriminate|].
          exists (map (cons 0) o). split; [unfold down, go; rewrite E; cbn; rewrite app_nil_r; reflexivity|].
          split; [apply Sorted_map_cons; exact S|]. intros d. rewrite in_map_iff. split.
          + intros (d' & <- & Hd). exists 0, d'. repeat split; try lia; apply I; exact Hd.
          + intros (x & d' & -> & Hx & Hd). exists d'. replace x with 0 in * by lia. split; [reflexivity|apply I; exact Hd].
        - destruct (IH (balls - S m)) as (o & E' & S' & I'); [left; discriminate|].
          exists (map (cons (S m)) o ++ l). split.
          { change (down (S m)) with (S m :: down m). cbn [go]. fold (go balls (s' :: sizes)). rewrite E', E. reflexivity. }
          split.
          { apply Sorted_app; [apply Sorted_map_cons; exact S'|exact So|]. intros x y Hx Hy.
            apply in_map_iff in Hx. destruct Hx as (d' & <- & _). apply I in Hy. destruct Hy as (z & e & -> & Hz & _).
            constructor. lia. }
          intros d. rewrite in_app_iff, in_map_iff, I. split.
          + intros [(d' & <- & Hd)|(x & d' & -> & Hx & Hd)].
            * exists (S m), d'. split; [reflexivity|]. split; [lia|apply I'; exact Hd].
            * exists x, d'. split; [reflexivity|]. split; [lia|exact Hd].
          + intros (x & d' & -> & Hx & Hd). destruct (Nat.eq_dec x (S m)) as [->|].
            * left. exists d'. split; [reflexivity|apply I'; exact Hd].
            * right. exists x, d'. split; [reflexivity|]. split; [lia|exact Hd]. }
      destruct (G (min balls s)) as (l & E & S & I). exists l. split; [exact E|]. split; [exact S|].
      intros d. rewrite I. split.
      * intros (x & d' & -> & Hx & Hd). apply adm_cons. auto.
      * destruct d as [|x d]; [intros [F _]; inversion F|]. rewrite adm_cons. intros [A B]. exists x, d. auto.
Qed.

Lemma before_NoDup : forall l, StronglySorted before l -> NoDup l.
Proof.
  induction 1 as [|x l S IH F]; constructor; [|exact IH]. intros H. rewrite Forall_forall in F.
  exact (before_irr x (F x H)).
Qed.

Open Scope Z_scope.
Lemma check_spec : forall sizes c, check sizes c = if forallb (fun s => 1 <=? s) sizes then Ok (c + zsum sizes) else Err ValueError.
Proof.
  induction sizes as [|s sizes IH]; intros c; [cbn; f_equal; lia|]. change (zsum (s :: sizes)) with (s + zsum sizes). cbn [check forallb].
  destruct (Z.ltb_spec s 1), (Z.leb_spec 1 s); try lia; cbn [andb]; [reflexivity|]. rewrite IH.
  destruct (forallb _ sizes); [f_equal; lia|reflexivity].
Qed.

Lemma adm_Z : forall balls sizes d, 0 <= balls -> Forall (fun s => 1 <= s) sizes ->
  (adm (Z.to_nat balls) (map Z.to_nat sizes) d <-> admissible balls sizes d).
Proof.
  intros balls sizes d Hb H. unfold adm, admissible.
  assert (E : zsum (map Z.of_nat d) = Z.of_nat (nsum d)) by (clear; unfold zsum, nsum; induction d; cbn [map fold_right]; [reflexivity|lia]).
  assert (F : Forall2 le d (map Z.to_nat sizes) <-> Forall2 (fun x s => Z.of_nat x <= s) d sizes).
  { clear -H. revert d. induction H as [|s sizes Hs H IH]; intros d; cbn; split; intros F; inversion F; subst; constructor;
      try lia; apply IH; assumption. }
  rewrite F, E. split; intros [A B]; split; auto; lia.
Qed.

Lemma balls_ok : forall balls sizes, 0 <= balls -> Forall (fun s => 1 <= s) sizes -> balls <= zsum sizes ->
  exists l, balls_in_boxes balls sizes = Ok l /\ NoDup l /\ StronglySorted before l /\
    forall d, In d l <-> admissible balls sizes d.
Proof.
  intros balls sizes Hb Hs Hc. unfold balls_in_boxes.
  destruct (Z.ltb_spec balls 0); [lia|]. rewrite check_spec.
  assert (F : forallb (fun s => 1 <=? s) sizes = true)
    by (apply forallb_forall; rewrite Forall_forall in Hs; intros x Hx; apply Z.leb_le; auto).
  rewrite F. cbn [rbind]. destruct (Z.ltb_spec (0 + zsum sizes) balls); [lia|].
  destruct (gen_ok (map Z.to_nat sizes) (Z.to_nat balls)) as (l & E & S & I).
  { destruct sizes; [right; cbn in Hc; lia|left; discriminate]. }
  exists l. split; [exact E|]. split; [apply before_NoDup; exact S|]. split; [exact S|].
  intros d. rewrite I. apply adm_Z; assumption.
Qed.

Lemma balls_err : forall balls sizes, balls < 0 \/ ~ Forall (fun s => 1 <= s) sizes \/ zsum sizes < balls ->
  balls_in_boxes balls sizes = Err ValueError.
Proof.
  intros balls sizes H. unfold balls_in_boxes.
  destruct (Z.ltb_spec balls 0); [reflexivity|]. rewrite check_spec.
  destruct (forallb (fun s => 1 <=? s) sizes) eqn:F; [|reflexivity]. cbn [rbind].
  destruct (Z.ltb_spec (0 + zsum sizes) balls); [reflexivity|]. exfalso.
  destruct H as [H|[H|H]]; try lia. apply H. apply Forall_forall. rewrite forallb_forall in F. intros x Hx. apply Z.leb_le. auto.
Qed.
