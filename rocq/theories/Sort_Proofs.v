From Verif Require Import BaseFacts Sort_Model.
Open Scope nat_scope.

Section SortP.
  Context {A : Type}.
  Variable leb : A -> A -> bool.

  Let le (x y : A * nat) := leb (fst x) (fst y) = true.

  Lemma insert_perm x l : Permutation (insert leb x l) (x :: l).
  Proof.
    induction l as [|y l IH]; simpl; [reflexivity|].
    destruct (leb (fst x) (fst y)); [reflexivity|]. rewrite IH. constructor.
  Qed.
  Lemma sort_pairs_perm l : Permutation (sort_pairs leb l) l.
  Proof.
    induction l as [|x l IH]; simpl; [reflexivity|]. rewrite insert_perm. constructor. exact IH.
  Qed.

  Lemma combine_seq_snd (l : list A) s : map snd (combine l (seq s (length l))) = seq s (length l).
  Proof. revert s; induction l as [|x l IH]; intros s; simpl; [reflexivity|]. rewrite IH. reflexivity. Qed.

  Lemma argsort_perm l : Permutation (argsort leb l) (seq 0 (length l)).
  Proof.
    rewrite <- (combine_seq_snd l 0). unfold argsort. apply Permutation_map, sort_pairs_perm.
  Qed.
  Lemma argsort_length l : length (argsort leb l) = length l.
  Proof. rewrite (Permutation_length (argsort_perm l)), seq_length. reflexivity. Qed.
  Lemma argsort_NoDup l : NoDup (argsort leb l).
  Proof. eapply Permutation_NoDup; [symmetry; apply argsort_perm|apply seq_NoDup]. Qed.
  Lemma argsort_lt l i : In i (argsort leb l) -> i < length l.
  Proof. intros H. apply (Permutation_in _ (argsort_perm l)) in H. apply in_seq in H. lia. Qed.

  Lemma in_combine_seq (l : list A) s x i : In (x, i) (combine l (seq s (length l))) -> s <= i /\ nth_error l (i - s) = Some x.
  Proof.
    revert s; induction l as [|y l IH]; intros s H; simpl in H; [contradiction|].
    destruct H as [H|H].
    - injection H as <- <-. rewrite Nat.sub_diag. split; [lia|reflexivity].
    - apply IH in H. destruct H as [H1 H2]. split; [lia|].
      replace (i - s) with (S (i - S s)) by lia. exact H2.
  Qed.

  Lemma argsort_keys d l : take d l (argsort leb l) = map fst (sort_pairs leb (combine l (seq 0 (length l)))).
  Proof.
    unfold take, argsort. rewrite map_map. apply map_ext_in. intros [x i] H. simpl.
    apply (Permutation_in _ (sort_pairs_perm _)) in H. apply in_combine_seq in H.
    destruct H as [_ H]. rewrite Nat.sub_0_r in H. apply nth_error_nth. exact H.
  Qed.
  Lemma combine_seq_fst (l : list A) s : map fst (combine l (seq s (length l))) = l.
  Proof. revert s; induction l as [|x l IH]; intros s; simpl; [reflexivity|]. rewrite IH. reflexivity. Qed.
  Lemma take_perm d l : Permutation (take d l (argsort leb l)) l.
  Proof.
    rewrite argsort_keys. rewrite <- (combine_seq_fst l 0) at 3. apply Permutation_map, sort_pairs_perm.
  Qed.
  Hypothesis leb_total : forall x y, leb x y = true \/ leb y x = true.
  Hypothesis leb_trans : forall x y z, leb x y = true -> leb y z = true -> leb x z = true.

  Lemma insert_sorted x l : StronglySorted le l -> StronglySorted le (insert leb x l).
  Proof.
    induction 1 as [|y l Hs IH Hy]; simpl; [repeat constructor|].
    destruct (leb (fst x) (fst y)) eqn:E.
    - constructor; [constructor; assumption|]. constructor; [exact E|].
      rewrite Forall_forall in *. intros z Hz. unfold le in *. eapply leb_trans; [exact E|]. apply Hy, Hz.
    - constructor; [exact IH|]. rewrite Forall_forall in *. intros z Hz.
      apply (Permutation_in _ (insert_perm x l)) in Hz. destruct Hz as [<-|Hz]; [|apply Hy, Hz].
      unfold le. destruct (leb_total (fst x) (fst y)); congruence.
  Qed.
  Lemma sort_pairs_sorted l : StronglySorted le (sort_pairs leb l).
  Proof. induction l as [|x l IH]; simpl; [constructor|]. apply insert_sorted, IH. Qed.
  Lemma argsort_sorted d l : StronglySorted (fun x y => leb x y = true) (take d l (argsort leb l)).
  Proof.
    rewrite argsort_keys. generalize (sort_pairs_sorted (combine l (seq 0 (length l)))).
    generalize (sort_pairs leb (combine l (seq 0 (length l)))). intros m H.
    induction H as [|x m Hs IH Hx]; simpl; constructor; [exact IH|].
    rewrite Forall_map. exact Hx.
  Qed.
End SortP.

Lemma take_length {A} (d : A) l ix : length (take d l ix) = length ix.
Proof. apply map_length. Qed.
Lemma nth_take {A} (d : A) l ix i : i < length ix -> nth i (take d l ix) d = nth (nth i ix 0) l d.
Proof.
  intros H. unfold take. rewrite (nth_indep _ d (nth 0 l d)) by (rewrite map_length; exact H).
  exact (map_nth (fun i => nth i l d) ix 0 i).
Qed.

(** Two sorted permutations of the same naturals agree. *)
Lemma sorted_nat_eq (l m : list nat) :
  StronglySorted (fun x y => (x <=? y) = true) l -> StronglySorted (fun x y => (x <=? y) = true) m ->
  Permutation l m -> l = m.
Proof.
  intros Hl. revert m. induction Hl as [|x l Hs IH Hx]; intros m Hm P.
  - apply Permutation_nil in P. congruence.
  - destruct m as [|y m]; [apply Permutation_sym, Permutation_nil in P; discriminate|].
    inversion Hm as [|? ? Hs' Hy]; subst.
    assert (x = y).
    { rewrite Forall_forall in *.
      assert (Ix : In x (y :: m)) by (eapply Permutation_in; [exact P|left; reflexivity]).
      assert (Iy : In y (x :: l)) by (eapply Permutation_in; [symmetry; exact P|left; reflexivity]).
      destruct Ix as [->|Ix]; [reflexivity|]. destruct Iy as [->|Iy]; [reflexivity|].
      apply Hy in Ix. apply Hx in Iy. lia. }
    subst y. f_equal. apply IH; [assumption|]. eapply Permutation_cons_inv. exact P.
Qed.

Lemma seq_sorted s n : StronglySorted (fun x y => (x <=? y) = true) (seq s n).
Proof.
  revert s; induction n as [|n IH]; intros s; simpl; constructor; [apply IH|].
  apply Forall_forall. intros y Hy. apply in_seq in Hy. apply Nat.leb_le. lia.
Qed.

(** argsort of a permutation is its inverse. *)
Lemma argsort_inverse sigma n :
  Permutation sigma (seq 0 n) -> take 0 sigma (argsort Nat.leb sigma) = seq 0 n.
Proof.
  intros P. apply sorted_nat_eq.
  - apply argsort_sorted; intros; lia.
  - apply seq_sorted.
  - rewrite take_perm. exact P.
Qed.

(** Sorting, changing and un-sorting: element [sigma i] of the un-sorted list is element
    [i] of the sorted one. *)
Lemma unsort_nth {A} (d : A) sigma n (l : list A) i :
  Permutation sigma (seq 0 n) -> length l = n -> i < n ->
  nth (nth i sigma 0) (take d l (argsort Nat.leb sigma)) d = nth i l d.
Proof.
  intros P L Hi.
  assert (Ls : length sigma = n) by (rewrite (Permutation_length P), seq_length; reflexivity).
  assert (Hj : nth i sigma 0 < n).
  { assert (In (nth i sigma 0) (seq 0 n)) by (eapply Permutation_in; [exact P|apply nth_In; lia]).
    apply in_seq in H. lia. }
  rewrite nth_take by (rewrite argsort_length; lia). f_equal.
  pose proof (argsort_inverse sigma n P) as E.
  assert (N : nth (nth (nth i sigma 0) (argsort Nat.leb sigma) 0) sigma 0 = nth i sigma 0).
  { rewrite <- (nth_take 0 sigma (argsort Nat.leb sigma)) by (rewrite argsort_length; lia).
    rewrite E, seq_nth by lia. reflexivity. }
  assert (ND : NoDup sigma) by (eapply Permutation_NoDup; [symmetry; exact P|apply seq_NoDup]).
  eapply (proj1 (NoDup_nth sigma 0) ND); [|lia|exact N].
  apply argsort_lt with (leb := Nat.leb). apply nth_In. rewrite argsort_length. lia.
Qed.

Lemma unsort_perm {A} (d : A) sigma n (l : list A) :
  Permutation sigma (seq 0 n) -> length l = n ->
  Permutation (take d l (argsort Nat.leb sigma)) l.
Proof.
  intros P L. transitivity (take d l (seq 0 n)).
  - apply Permutation_map. rewrite argsort_perm.
    rewrite (Permutation_length P), seq_length. reflexivity.
  - replace (take d l (seq 0 n)) with l; [reflexivity|].
    apply nth_ext with d d; [rewrite take_length, seq_length; exact L|].
    intros i Hi. rewrite nth_take by (rewrite seq_length; lia). rewrite seq_nth by lia. reflexivity.
Qed.
