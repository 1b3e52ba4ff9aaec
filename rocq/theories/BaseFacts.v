(** Lemmas on the common vocabulary. *)
From Verif Require Export Base.
From Coq Require Export ZifyBool ZifyNat ZifyN Lqa Permutation Sorted.
Open Scope nat_scope.

Lemma Qltb_spec x y : Qltb x y = true <-> (x < y)%Q.
Proof.
  unfold Qltb. rewrite negb_true_iff. split.
  - intros H. apply Qnot_le_lt. intros L. apply Qle_bool_iff in L. congruence.
  - intros H. destruct (Qle_bool y x) eqn:E; [|reflexivity].
    apply Qle_bool_iff in E. exfalso. lra.
Qed.

Lemma Qltb_false x y : Qltb x y = false <-> (y <= x)%Q.
Proof.
  unfold Qltb. rewrite negb_false_iff. apply Qle_bool_iff.
Qed.

Lemma Qltb_reflect x y : Bool.reflect (x < y)%Q (Qltb x y).
Proof. apply Bool.iff_reflect. symmetry. apply Qltb_spec. Qed.

Lemma Qle_bool_false x y : Qle_bool x y = false <-> (y < x)%Q.
Proof.
  pose proof (Qltb_spec y x) as H. unfold Qltb in H. rewrite negb_true_iff in H. exact H.
Qed.

Lemma Qsum_app l1 l2 : (Qsum (l1 ++ l2) == Qsum l1 + Qsum l2)%Q.
Proof.
  induction l1 as [|x l1 IH]; simpl; [lra|]. rewrite IH. lra.
Qed.

Lemma nsum_app l1 l2 : nsum (l1 ++ l2) = nsum l1 + nsum l2.
Proof. induction l1 as [|x l1 IH]; simpl; [reflexivity|]. rewrite IH. lia. Qed.

Lemma Qsum_perm l1 l2 : Permutation l1 l2 -> (Qsum l1 == Qsum l2)%Q.
Proof.
  induction 1 as [|x l l' _ IH|x y l|l l' l'' _ IH1 _ IH2]; simpl; try lra.
Qed.

Lemma nsum_perm l1 l2 : Permutation l1 l2 -> nsum l1 = nsum l2.
Proof.
  induction 1 as [|x l l' _ IH|x y l|l l' l'' _ IH1 _ IH2]; simpl; lia.
Qed.

Lemma Qsum_nonneg l : Forall (fun w => 0 <= w)%Q l -> (0 <= Qsum l)%Q.
Proof. induction 1; simpl; lra. Qed.

Lemma Qsum_map_scale {A} (f : A -> Q) c l :
  (Qsum (map (fun x => c * f x) l) == c * Qsum (map f l))%Q.
Proof. induction l as [|x l IH]; simpl; [lra|]. rewrite IH. lra. Qed.

Lemma Qsum_map_ext {A} (f g : A -> Q) l :
  (forall x, In x l -> (f x == g x)%Q) -> (Qsum (map f l) == Qsum (map g l))%Q.
Proof.
  induction l as [|x l IH]; simpl; intros H; [reflexivity|].
  rewrite (H x) by auto. rewrite IH by auto. reflexivity.
Qed.

Lemma length_upd {A} i (x : A) l : length (upd i x l) = length l.
Proof. revert i; induction l as [|h t IH]; intros [|i]; simpl; auto. Qed.

Lemma nth_error_upd_eq {A} i (x : A) l : i < length l -> nth_error (upd i x l) i = Some x.
Proof. revert i; induction l as [|h t IH]; intros [|i] H; simpl in *; try lia; auto. apply IH; lia. Qed.

Lemma nth_error_upd_ne {A} i j (x : A) l : i <> j -> nth_error (upd i x l) j = nth_error l j.
Proof. revert i j; induction l as [|h t IH]; intros [|i] [|j] H; simpl; auto; congruence. Qed.

Lemma nth_error_upd {A} i j (x : A) l :
  nth_error (upd i x l) j = if Nat.eqb i j then (if Nat.ltb i (length l) then Some x else None) else nth_error l j.
Proof.
  destruct (Nat.eqb_spec i j) as [->|E].
  - destruct (Nat.ltb_spec j (length l)) as [H|H].
    + apply nth_error_upd_eq; assumption.
    + apply nth_error_None. rewrite length_upd. assumption.
  - apply nth_error_upd_ne; assumption.
Qed.

Lemma nth_error_ext {A} (l1 l2 : list A) : (forall i, nth_error l1 i = nth_error l2 i) -> l1 = l2.
Proof.
  revert l2; induction l1 as [|x l1 IH]; intros [|y l2] H.
  - reflexivity.
  - specialize (H 0); discriminate.
  - specialize (H 0); discriminate.
  - f_equal.
    + specialize (H 0); simpl in H; congruence.
    + apply IH. intros i. apply (H (S i)).
Qed.

Lemma q_of_nat_S n : (q_of_nat (S n) == q_of_nat n + 1)%Q.
Proof. unfold q_of_nat. rewrite Nat2Z.inj_succ, <- Z.add_1_r, inject_Z_plus. reflexivity. Qed.

Lemma q_of_nat_plus n m : (q_of_nat (n + m) == q_of_nat n + q_of_nat m)%Q.
Proof. unfold q_of_nat. rewrite Nat2Z.inj_add, inject_Z_plus. reflexivity. Qed.

Lemma q_of_nat_mult n m : (q_of_nat (n * m) == q_of_nat n * q_of_nat m)%Q.
Proof. unfold q_of_nat. rewrite Nat2Z.inj_mul, inject_Z_mult. reflexivity. Qed.

Lemma q_of_nat_le n m : n <= m <-> (q_of_nat n <= q_of_nat m)%Q.
Proof. unfold q_of_nat. rewrite <- Zle_Qle. lia. Qed.

Lemma q_of_nat_lt n m : n < m <-> (q_of_nat n < q_of_nat m)%Q.
Proof. unfold q_of_nat. rewrite <- Zlt_Qlt. lia. Qed.

Lemma q_of_nat_nonneg n : (0 <= q_of_nat n)%Q.
Proof. change 0%Q with (q_of_nat 0). apply q_of_nat_le. lia. Qed.

Lemma nth_error_seq s n i : i < n -> nth_error (seq s n) i = Some (s + i).
Proof.
  intros H. rewrite (nth_error_nth' (seq s n) 0) by (rewrite seq_length; assumption).
  rewrite seq_nth by assumption. reflexivity.
Qed.

Lemma filter_none {A} (f : A -> bool) l : (forall x, In x l -> f x = false) -> filter f l = [].
Proof. induction l; simpl; intros H; [reflexivity|]. rewrite (H a) by auto. apply IHl. auto. Qed.
Lemma filter_all {A} (f : A -> bool) l : (forall x, In x l -> f x = true) -> filter f l = l.
Proof. induction l; simpl; intros H; [reflexivity|]. rewrite (H a) by auto. f_equal. apply IHl. auto. Qed.
Lemma rbind_ok {A B} (x : res A) (f : A -> res B) y : rbind x f = Ok y -> exists a, x = Ok a /\ f a = Ok y.
Proof. destruct x; simpl; intros H; [eauto|discriminate]. Qed.
Lemma Ok_inj {A} (a b : A) : Ok a = Ok b -> a = b.
Proof. intros H. injection H. auto. Qed.
