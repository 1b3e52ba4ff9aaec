From Verif Require Import Base BaseFacts Fcidump_Model Fcidump_Spec Fcidump_Proofs KPoint_Model KPoint_Spec.
Open Scope nat_scope.

Lemma NoDup_app {A} (l m : list A) : NoDup l -> NoDup m -> (forall x, In x l -> ~ In x m) -> NoDup (l ++ m).
Proof.
  induction 1 as [|x l Hx Hl IH]; intros Hm H; [exact Hm|]. cbn. constructor.
  - intros Hin. apply in_app_or in Hin. destruct Hin as [Hin|Hin]; [exact (Hx Hin)|]. apply (H x); [left; reflexivity|exact Hin].
  - apply IH; [exact Hm|]. intros y Hy. apply H. right. exact Hy.
Qed.

Lemma flat_map_ext_in {A B} (f g : A -> list B) l : (forall x, In x l -> f x = g x) -> flat_map f l = flat_map g l.
Proof. induction l as [|x l IH]; intros H; [reflexivity|]. cbn. rewrite H, IH by firstorder. reflexivity. Qed.

Section Lists.
  Context {A B : Type}.

  Lemma loop_seq (body : nat -> nat -> res (nat * list A)) (F : nat -> nat -> list A) m n : forall a c,
    (forall c x, a <= x -> x < a + n -> body c x = Ok (c + m, F c x)) ->
    loop (seq a n) c body = Ok (c + n * m, flat_map (fun x => F (c + (x - a) * m) x) (seq a n)).
  Proof.
    induction n as [|n IH]; intros a c H; [cbn; f_equal; f_equal; lia|].
    cbn [seq loop flat_map]. rewrite H by lia. cbn [rbind fst snd].
    rewrite IH by (intros; apply H; lia). cbn [rbind fst snd]. do 2 f_equal; [lia|].
    rewrite Nat.sub_diag. cbn [Nat.mul]. rewrite Nat.add_0_r. f_equal.
    apply flat_map_ext_in. intros x Hx. apply in_seq in Hx. f_equal.
    replace (x - a) with (S (x - S a)) by lia. cbn [Nat.mul]. lia.
  Qed.

  Lemma gather_ok (f : B -> res (list A)) (g : B -> list A) l : (forall x, In x l -> f x = Ok (g x)) ->
    gather l f = Ok (flat_map g l).
  Proof.
    induction l as [|x l IH]; intros H; [reflexivity|]. cbn. rewrite H by (left; reflexivity). cbn [rbind].
    rewrite IH by (intros; apply H; right; assumption). reflexivity.
  Qed.

  Lemma map_filter_flat {C : Type} (f : A -> C) (p : A -> bool) (g : B -> list A) l :
    map f (filter p (flat_map g l)) = flat_map (fun x => map f (filter p (g x))) l.
  Proof.
    induction l as [|x l IH]; [reflexivity|]. cbn. rewrite filter_app, map_app, IH. reflexivity.
  Qed.

  Lemma NoDup_flat (g : B -> list A) l : NoDup l -> (forall x, In x l -> NoDup (g x)) ->
    (forall x y z, In x l -> In y l -> In z (g x) -> In z (g y) -> x = y) -> NoDup (flat_map g l).
  Proof.
    induction 1 as [|x l Hx Hl IH]; intros H1 H2; [constructor|]. cbn.
    apply NoDup_app.
    - apply H1. left. reflexivity.
    - apply IH; [intros; apply H1; right; assumption|]. intros a b z Ha Hb. apply H2; right; assumption.
    - intros z Hz Hz'. apply in_flat_map in Hz'. destruct Hz' as (y & Hy & Hzy). apply Hx.
      rewrite (H2 x y z); [exact Hy|left; reflexivity|right; exact Hy|exact Hz|exact Hzy].
  Qed.
End Lists.

(** ** Numbering of the orbitals *)
Definition off (npk : list nat) (k : nat) : nat := list_sum (firstn k npk).

Lemma offsets_nth npk k a : k < length npk -> nth k (offsets_from a npk) 0 = a + off npk k.
Proof.
  revert k a; induction npk as [|n npk IH]; intros k a H; cbn in H; [lia|].
  destruct k; [unfold off; cbn; lia|]. cbn [offsets_from nth]. rewrite IH by lia. unfold off. cbn [firstn list_sum fold_right].
  unfold list_sum. cbn. lia.
Qed.

Lemma locate_off npk k i : k < length npk -> i < nth k npk 0 -> locate npk (i + off npk k) = (k, i).
Proof.
  revert k; induction npk as [|n npk IH]; intros k H Hi; cbn in H; [lia|].
  destruct k; cbn [nth] in Hi.
  - replace (i + off (n :: npk) 0) with i by (unfold off; cbn; lia). cbn [locate]. destruct (Nat.ltb_spec i n); [reflexivity|lia].
  - assert (E : i + off (n :: npk) (S k) = n + (i + off npk k)) by (unfold off, list_sum; cbn; lia).
    rewrite E. cbn [locate]. destruct (Nat.ltb_spec (n + (i + off npk k)) n); [lia|].
    replace (n + (i + off npk k) - n) with (i + off npk k) by lia. rewrite IH by (try assumption; lia). reflexivity.
Qed.

Lemma off_locate npk x : x < list_sum npk ->
  fst (locate npk x) < length npk /\ snd (locate npk x) < nth (fst (locate npk x)) npk 0 /\
  snd (locate npk x) + off npk (fst (locate npk x)) = x.
Proof.
  revert x; induction npk as [|n npk IH]; intros x H; [cbn in H; lia|].
  cbn [locate]. destruct (Nat.ltb_spec x n) as [L|L].
  - cbn. unfold off. cbn. lia.
  - assert (H' : x - n < list_sum npk) by (unfold list_sum in *; cbn in H; lia).
    specialize (IH _ H'). destruct (locate npk (x - n)) as [k i]. cbn [fst snd nth length] in *.
    unfold off, list_sum in *. cbn. lia.
Qed.

Lemma off_lt npk k i : k < length npk -> i < nth k npk 0 -> i + off npk k < list_sum npk.
Proof.
  revert k; induction npk as [|n npk IH]; intros k H Hi; cbn in H; [lia|].
  destruct k; cbn [nth] in Hi; [unfold off, list_sum; cbn; lia|].
  specialize (IH k ltac:(lia) Hi). unfold off, list_sum in *. cbn. lia.
Qed.

Definition qin := quads_in unit tt (fun x => x) (fun x => x) (fun _ => true) (fun _ => true) (fun _ => eq_refl).
Definition pin := pairs_in unit tt (fun x => x) (fun x => x) (fun _ => true) (fun _ => true) (fun _ => eq_refl).

Section Transfers.
  Variables (npk : list nat) (nq : nat) (qk : nat -> nat -> nat).

  Lemma transfer_some ki kk kl kj q : transfer npk nq qk ki kk kl kj = Some q ->
    ki < (length npk) /\ kk < (length npk) /\ kl < (length npk) /\ kj < (length npk) /\ q < nq /\ qk q ki = kk /\ qk q kl = kj.
  Proof.
    unfold transfer. destruct (forallb _ _) eqn:R; [|discriminate]. cbn [forallb] in R.
    rewrite !andb_true_iff, !Nat.ltb_lt in R. intros E. apply find_some in E. destruct E as [Hin E]. apply in_seq in Hin.
    apply andb_true_iff in E. rewrite !Nat.eqb_eq in E. repeat split; lia.
  Qed.

  Lemma transfer_is (Hqk : transfers_ok npk nq qk) q ki kk kl kj : q < nq -> ki < (length npk) -> kl < (length npk) -> qk q ki = kk -> qk q kl = kj ->
    transfer npk nq qk ki kk kl kj = Some q.
  Proof.
    intros Hq Hi Hl E1 E2. assert (A1 := proj1 Hqk q ki Hq Hi). assert (A2 := proj1 Hqk q kl Hq Hl). subst kk kj.
    unfold transfer. cbn [forallb].
    rewrite (proj2 (Nat.ltb_lt _ _) Hi), (proj2 (Nat.ltb_lt _ _) Hl), (proj2 (Nat.ltb_lt _ _) A1), (proj2 (Nat.ltb_lt _ _) A2). cbn [andb].
    destruct (find _ _) as [q'|] eqn:E.
    - apply find_some in E. destruct E as [Hin E]. apply in_seq in Hin. apply andb_true_iff in E. destruct E as [E _].
      apply Nat.eqb_eq in E. f_equal. apply (proj2 Hqk q' q ki); try assumption; lia.
    - exfalso. assert (H := find_none _ _ E q). rewrite in_seq in H. specialize (H ltac:(lia)). cbn in H.
      rewrite !Nat.eqb_refl in H. discriminate.
  Qed.

End Transfers.

Section KP.
  Variables (K : Type) (zero : K) (ad mu : K -> K -> K) (conj re : K -> K) (big : K -> bool).
  Variables (npk : list nat) (qk : nat -> nat -> nat) (chol : list (cholq K)).
  Notation nkp := (length npk).
  Notation nq := (length chol).
  Notation nmo := (list_sum npk).
  Hypothesis Hqk : transfers_ok npk nq qk.
  Hypothesis big0 : big zero = false.
  Let dflt : cholq K := CholQ K 0 (fun _ _ _ => zero).

  (** the integral of a transfer: rows are numbered (i,k) and (l,j) *)
  Definition W (q ki kl i k l j : nat) : K :=
    eri K zero ad mu conj (nth q chol dflt) ki kl (i * nth (qk q ki) npk 0 + k) (l * nth (qk q kl) npk 0 + j).

  Definition v (I K' J L : nat) : K := bloch_integral zero npk nq qk W I K' J L.

  Definition bquads (q ki kl : nat) : list quad :=
    flat_map (fun i => flat_map (fun k => flat_map (fun l => map (fun j =>
      (i + off npk ki, k + off npk (qk q ki), j + off npk (qk q kl), l + off npk kl))
      (seq 0 (nth (qk q kl) npk 0))) (seq 0 (nth kl npk 0))) (seq 0 (nth (qk q ki) npk 0))) (seq 0 (nth ki npk 0)).

  Definition kquads : list quad :=
    flat_map (fun q => flat_map (fun ki => flat_map (fun kl => bquads q ki kl) (seq 0 nkp)) (seq 0 nkp)) (seq 0 nq).

  Lemma v_block q ki kl i k l j : q < nq -> ki < nkp -> kl < nkp ->
    i < nth ki npk 0 -> k < nth (qk q ki) npk 0 -> l < nth kl npk 0 -> j < nth (qk q kl) npk 0 ->
    v (i + off npk ki) (k + off npk (qk q ki)) (j + off npk (qk q kl)) (l + off npk kl) = W q ki kl i k l j.
  Proof.
    intros Hq Hki Hkl Hi Hk Hl Hj.
    assert (A1 := proj1 Hqk q ki Hq Hki). assert (A2 := proj1 Hqk q kl Hq Hkl).
    unfold v, bloch_integral, kp, at_k. rewrite !locate_off by assumption. cbn [fst snd].
    rewrite (transfer_is npk nq qk Hqk q) by (try assumption; reflexivity). reflexivity.
  Qed.

  Lemma bquads_in q ki kl x : In x (bquads q ki kl) <-> exists i k l j,
    x = (i + off npk ki, k + off npk (qk q ki), j + off npk (qk q kl), l + off npk kl) /\
    i < nth ki npk 0 /\ k < nth (qk q ki) npk 0 /\ l < nth kl npk 0 /\ j < nth (qk q kl) npk 0.
  Proof.
    unfold bquads. split.
    - intros H. apply in_flat_map in H. destruct H as (i & Hi & H). apply in_flat_map in H. destruct H as (k & Hk & H).
      apply in_flat_map in H. destruct H as (l & Hl & H). apply in_map_iff in H. destruct H as (j & E & Hj).
      rewrite in_seq in *. exists i, k, l, j. subst x. repeat split; lia.
    - intros (i & k & l & j & -> & Hi & Hk & Hl & Hj). apply in_flat_map. exists i. split; [apply in_seq; lia|].
      apply in_flat_map. exists k. split; [apply in_seq; lia|]. apply in_flat_map. exists l. split; [apply in_seq; lia|].
      apply in_map_iff. exists j. split; [reflexivity|apply in_seq; lia].
  Qed.

  Lemma kquads_in x : In x kquads <-> exists q ki kl, q < nq /\ ki < nkp /\ kl < nkp /\ In x (bquads q ki kl).
  Proof.
    unfold kquads. split.
    - intros H. apply in_flat_map in H. destruct H as (q & Hq & H). apply in_flat_map in H. destruct H as (ki & Hki & H).
      apply in_flat_map in H. destruct H as (kl & Hkl & H). rewrite in_seq in *. exists q, ki, kl. repeat split; try lia. exact H.
    - intros (q & ki & kl & Hq & Hki & Hkl & H). apply in_flat_map. exists q. split; [apply in_seq; lia|].
      apply in_flat_map. exists ki. split; [apply in_seq; lia|]. apply in_flat_map. exists kl. split; [apply in_seq; lia|exact H].
  Qed.

  Lemma seq_NoDup' a n : NoDup (seq a n). Proof. apply seq_NoDup. Qed.

  Lemma NoDup_map_inj {A B} (f : A -> B) l : NoDup l -> (forall x y, f x = f y -> x = y) -> NoDup (map f l).
  Proof.
    intros H Hf. induction H as [|x l Hx Hl IH]; [constructor|]. cbn. constructor; [|exact IH].
    intros Hin. apply in_map_iff in Hin. destruct Hin as (y & E & Hy). apply Hx. rewrite <- (Hf _ _ E). exact Hy.
  Qed.

  Lemma bquads_NoDup q ki kl : NoDup (bquads q ki kl).
  Proof.
    unfold bquads. apply NoDup_flat; [apply seq_NoDup| |].
    - intros i _. apply NoDup_flat; [apply seq_NoDup| |].
      + intros k _. apply NoDup_flat; [apply seq_NoDup| |].
        * intros l _. apply NoDup_map_inj; [apply seq_NoDup|]. intros x y E. inversion E. lia.
        * intros l l' z _ _ H H'. apply in_map_iff in H, H'. destruct H as (? & <- & _). destruct H' as (? & E & _). inversion E. lia.
      + intros k k' z _ _ H H'. apply in_flat_map in H, H'. destruct H as (? & _ & H). destruct H' as (? & _ & H').
        apply in_map_iff in H, H'. destruct H as (? & <- & _). destruct H' as (? & E & _). inversion E. lia.
    - intros k k' z _ _ H H'. apply in_flat_map in H, H'. destruct H as (? & _ & H). destruct H' as (? & _ & H').
      apply in_flat_map in H, H'. destruct H as (? & _ & H). destruct H' as (? & _ & H').
      apply in_map_iff in H, H'. destruct H as (? & <- & _). destruct H' as (? & E & _). inversion E. lia.
  Qed.

  (** the k points can be read off *)
  Lemma bquads_kp q ki kl I K' J L : q < nq -> ki < nkp -> kl < nkp -> In (I, K', J, L) (bquads q ki kl) ->
    kp npk I = ki /\ kp npk L = kl /\ kp npk K' = qk q ki /\ kp npk J = qk q kl.
  Proof.
    intros Hq Hki Hkl H. apply bquads_in in H. destruct H as (i & k & l & j & E & Hi & Hk & Hl & Hj).
    inversion E; subst. assert (A1 := proj1 Hqk q ki Hq Hki). assert (A2 := proj1 Hqk q kl Hq Hkl).
    unfold kp. rewrite !locate_off by assumption. repeat split.
  Qed.

  Lemma kquads_NoDup : NoDup kquads.
  Proof.
    unfold kquads. apply NoDup_flat; [apply seq_NoDup| |].
    - intros q Hq. apply in_seq in Hq. apply NoDup_flat; [apply seq_NoDup| |].
      + intros ki Hki. apply in_seq in Hki. apply NoDup_flat; [apply seq_NoDup|intros; apply bquads_NoDup|].
        intros kl kl' [[[I K'] J] L] H1 H2 H3 H4. rewrite in_seq in *.
        apply bquads_kp in H3, H4; try lia. 
      + intros ki ki' [[[I K'] J] L] H1 H2 H3 H4. rewrite in_seq in *. apply in_flat_map in H3, H4.
        destruct H3 as (kl & Hl & H3). destruct H4 as (kl' & Hl' & H4). rewrite in_seq in *.
        apply bquads_kp in H3, H4; try lia.
    - intros q q' [[[I K'] J] L] H1 H2 H3 H4. rewrite in_seq in *. apply in_flat_map in H3, H4.
      destruct H3 as (ki & Hi & H3). destruct H4 as (ki' & Hi' & H4). apply in_flat_map in H3, H4.
      destruct H3 as (kl & Hl & H3). destruct H4 as (kl' & Hl' & H4). rewrite in_seq in *.
      apply bquads_kp in H3, H4; try lia. apply (proj2 Hqk q q' ki); try lia.
      assert (ki = ki') by lia. subst ki'. lia.
  Qed.

  Lemma quads_NoDup n : NoDup (quads n).
  Proof.
    unfold quads. apply NoDup_flat; [apply seq_NoDup| |].
    - intros i _. apply NoDup_flat; [apply seq_NoDup| |].
      + intros k _. apply NoDup_flat; [apply seq_NoDup| |].
        * intros l _. apply NoDup_map_inj; [apply seq_NoDup|]. intros x y E. inversion E. lia.
        * intros l l' z _ _ H H'. apply in_map_iff in H, H'. destruct H as (? & <- & _). destruct H' as (? & E & _). inversion E. lia.
      + intros k k' z _ _ H H'. apply in_flat_map in H, H'. destruct H as (? & _ & H). destruct H' as (? & _ & H').
        apply in_map_iff in H, H'. destruct H as (? & <- & _). destruct H' as (? & E & _). inversion E. lia.
    - intros k k' z _ _ H H'. apply in_flat_map in H, H'. destruct H as (? & _ & H). destruct H' as (? & _ & H').
      apply in_flat_map in H, H'. destruct H as (? & _ & H). destruct H' as (? & _ & H').
      apply in_map_iff in H, H'. destruct H as (? & <- & _). destruct H' as (? & E & _). inversion E. lia.
  Qed.

  (** ** The file *)
  Notation okq sym := (fun q => big (at4 K v q) && check_sym q nmo sym).

  Lemma kquads_perm sym : Permutation (filter (okq sym) kquads) (emitted K big v nmo sym).
  Proof.
    unfold emitted. apply NoDup_Permutation; [apply NoDup_filter, kquads_NoDup|apply NoDup_filter, quads_NoDup|].
    intros [[[I K'] J] L]. rewrite !filter_In. split; intros [H Hb]; (split; [|exact Hb]).
    - apply (proj2 (qin _ _)). apply kquads_in in H. destruct H as (q & ki & kl & Hq & Hki & Hkl & H). apply bquads_in in H.
      destruct H as (i & k & l & j & E & Hi & Hk & Hl & Hj). inversion E; subst.
      assert (A1 := proj1 Hqk q ki Hq Hki). assert (A2 := proj1 Hqk q kl Hq Hkl).
      cbn. repeat split; apply off_lt; assumption.
    - apply qin in H. destruct H as (HI & HK & HJ & HL).
      apply andb_true_iff in Hb. destruct Hb as [Hb _]. cbn [at4] in Hb. unfold v, bloch_integral in Hb.
      destruct (transfer _ _ _ _ _ _) as [q|] eqn:E; [|rewrite big0 in Hb; discriminate].
      apply transfer_some in E. destruct E as (_ & _ & _ & _ & Hq & E1 & E2). unfold kp in *.
      destruct (off_locate npk I HI) as (I1 & I2 & I3), (off_locate npk K' HK) as (K1 & K2 & K3),
        (off_locate npk J HJ) as (J1 & J2 & J3), (off_locate npk L HL) as (L1 & L2 & L3).
      apply kquads_in. exists q, (fst (locate npk I)), (fst (locate npk L)). repeat split; try assumption; try lia.
      apply bquads_in. exists (snd (locate npk I)), (snd (locate npk K')), (snd (locate npk L)), (snd (locate npk J)).
      rewrite E1, E2. repeat split; try assumption. congruence.
  Qed.

  Lemma nth_error_nth' k : k < nkp -> nth_error npk k = Some (nth k npk 0).
  Proof. intros H. apply nth_error_nth'. exact H. Qed.

  Lemma block_ok sym cplx paren q ki kl : q < nq -> ki < nkp -> kl < nkp ->
    block K re big npk qk nmo sym cplx paren q ki kl (eri K zero ad mu conj (nth q chol dflt) ki kl) =
    Ok (map (fun x => fmt_integral K re (at4 K v x) (succ4 x) cplx paren) (filter (okq sym) (bquads q ki kl))).
  Proof.
    intros Hq Hki Hkl. assert (A1 := proj1 Hqk q ki Hq Hki). assert (A2 := proj1 Hqk q kl Hq Hkl).
    unfold block. rewrite !offsets_nth by assumption. rewrite (nth_error_nth' _ A1), (nth_error_nth' _ A2). cbn [Nat.add].
    set (e := eri K zero ad mu conj (nth q chol dflt) ki kl).
    set (emit := fun ik lj i k l j =>
      if big (e ik lj) && check_sym (i + off npk ki, k + off npk (qk q ki), j + off npk (qk q kl), l + off npk kl) nmo sym
      then [fmt_integral K re (e ik lj) (i + off npk ki + 1, k + off npk (qk q ki) + 1, j + off npk (qk q kl) + 1, l + off npk kl + 1) cplx paren]
      else []).
    assert (L3 : forall ik i k l lj, loop (seq 0 (nth (qk q kl) npk 0)) lj (fun lj j => Ok (lj + 1, emit ik lj i k l j)) =
      Ok (lj + nth (qk q kl) npk 0 * 1, flat_map (fun j => emit ik (lj + (j - 0) * 1) i k l j) (seq 0 (nth (qk q kl) npk 0)))).
    { intros. apply (loop_seq _ (fun lj j => emit ik lj i k l j) 1). reflexivity. }
    rewrite (loop_seq _ (fun ik i => flat_map (fun k => flat_map (fun l => flat_map (fun j =>
        emit (ik + (k - 0) * 1) (0 + (l - 0) * (nth (qk q kl) npk 0 * 1) + (j - 0) * 1) i k l j)
        (seq 0 (nth (qk q kl) npk 0))) (seq 0 (nth kl npk 0))) (seq 0 (nth (qk q ki) npk 0))) (nth (qk q ki) npk 0 * 1)).
    2:{ intros ik i _ _. apply (loop_seq _ (fun ik k => flat_map (fun l => flat_map (fun j =>
          emit ik (0 + (l - 0) * (nth (qk q kl) npk 0 * 1) + (j - 0) * 1) i k l j)
          (seq 0 (nth (qk q kl) npk 0))) (seq 0 (nth kl npk 0))) 1).
        intros ik' k _ _.
        rewrite (loop_seq _ (fun lj l => flat_map (fun j => emit ik' (lj + (j - 0) * 1) i k l j) (seq 0 (nth (qk q kl) npk 0))) (nth (qk q kl) npk 0 * 1)).
        - reflexivity.
        - intros lj l _ _. apply L3. }
    cbn [rbind snd]. f_equal. unfold bquads. rewrite map_filter_flat.
    apply flat_map_ext_in. intros i Hi. apply in_seq in Hi. rewrite map_filter_flat.
    apply flat_map_ext_in. intros k Hk. apply in_seq in Hk. rewrite map_filter_flat.
    apply flat_map_ext_in. intros l Hl. apply in_seq in Hl.
    transitivity (flat_map (fun j => map (fun x => fmt_integral K re (at4 K v x) (succ4 x) cplx paren) (filter (okq sym)
       [(i + off npk ki, k + off npk (qk q ki), j + off npk (qk q kl), l + off npk kl)])) (seq 0 (nth (qk q kl) npk 0))).
    - apply flat_map_ext_in. intros j Hj. apply in_seq in Hj. unfold emit. cbn [filter at4].
      rewrite v_block by (try assumption; lia). unfold W. fold e.
      rewrite !Nat.sub_0_r, !Nat.mul_1_r, !Nat.add_0_l. destruct (_ && _); cbn [map at4 succ4]; [|reflexivity].
      rewrite v_block by (try assumption; lia). reflexivity.
    - clear Hi. generalize (seq 0 (nth (qk q kl) npk 0)) as s. induction s as [|j s IH]; [reflexivity|].
      cbn [flat_map]. rewrite IH. cbn [map filter]. destruct (_ && _); reflexivity.
  Qed.

  Lemma combine_nth' {T} (d : T) (l : list T) p : In p (combine (seq 0 (length l)) l) -> fst p < length l /\ snd p = nth (fst p) l d.
  Proof.
    intros H. apply (In_nth _ _ (0, d)) in H. destruct H as (n & Hn & E). rewrite combine_length, seq_length, Nat.min_id in Hn.
    rewrite combine_nth in E by apply seq_length. rewrite seq_nth in E by exact Hn. subst p. cbn. auto.
  Qed.

  Lemma flat_combine {T U} (d : T) (l : list T) (g : nat -> list U) :
    flat_map (fun p => g (fst p)) (combine (seq 0 (length l)) l) = flat_map g (seq 0 (length l)).
  Proof.
    generalize 0 as a. induction l as [|x l IH]; intros a; [reflexivity|]. cbn. rewrite IH. reflexivity.
  Qed.

  Lemma two_ok sym paren :
    write_two_k K zero ad mu conj re big npk qk chol nmo sym true paren =
    Ok (map (fun x => fmt_integral K re (at4 K v x) (succ4 x) true paren) (filter (okq sym) kquads)).
  Proof.
    unfold write_two_k. cbn [negb andb].
    rewrite (gather_ok _ (fun p => flat_map (fun ki => flat_map (fun kl =>
      map (fun x => fmt_integral K re (at4 K v x) (succ4 x) true paren) (filter (okq sym) (bquads (fst p) ki kl))) (seq 0 nkp)) (seq 0 nkp))).
    - f_equal. rewrite (flat_combine dflt chol (fun q => flat_map (fun ki => flat_map (fun kl =>
        map (fun x => fmt_integral K re (at4 K v x) (succ4 x) true paren) (filter (okq sym) (bquads q ki kl))) (seq 0 nkp)) (seq 0 nkp))).
      unfold kquads. rewrite map_filter_flat. apply flat_map_ext_in. intros q _. rewrite map_filter_flat.
      apply flat_map_ext_in. intros ki _. rewrite map_filter_flat. reflexivity.
    - intros p Hp. destruct (combine_nth' dflt chol p Hp) as [H1 H2].
      apply gather_ok. intros ki Hki. apply gather_ok. intros kl Hkl. rewrite in_seq in *.
      rewrite H2. apply block_ok; lia.
  Qed.

  (** one-body lines *)
  Variable hcore : list (nat -> nat -> K).
  Hypothesis Hlen : length hcore = nkp.
  Definition h (I J : nat) : K := bloch_one_body zero npk (fun k => nth k hcore (fun _ _ => zero)) I J.

  Definition kpairs : list (nat * nat) :=
    flat_map (fun k => flat_map (fun i => map (fun j => (i + off npk k, j + off npk k)) (seq 0 (nth k npk 0))) (seq 0 (nth k npk 0))) (seq 0 nkp).

  Notation okp := (fun p => (snd p <=? fst p) && big (h (fst p) (snd p))).

  Lemma h_block k i j : k < nkp -> i < nth k npk 0 -> j < nth k npk 0 ->
    h (i + off npk k) (j + off npk k) = nth k hcore (fun _ _ => zero) i j.
  Proof.
    intros Hk Hi Hj. unfold h, bloch_one_body, kp, at_k. rewrite !locate_off by assumption. cbn. rewrite Nat.eqb_refl. reflexivity.
  Qed.

  Lemma one_ok cplx paren :
    write_one_k K re big npk hcore cplx paren =
    Ok (map (fun p => fmt_integral K re (h (fst p) (snd p)) (fst p + 1, snd p + 1, 0, 0) cplx paren) (filter okp kpairs)).
  Proof.
    unfold write_one_k.
    rewrite (gather_ok _ (fun p => flat_map (fun i => map (fun p => fmt_integral K re (h (fst p) (snd p)) (fst p + 1, snd p + 1, 0, 0) cplx paren)
       (filter okp (map (fun j => (i + off npk (fst p), j + off npk (fst p))) (seq 0 (nth (fst p) npk 0))))) (seq 0 (nth (fst p) npk 0)))).
    - f_equal. rewrite (flat_combine (fun _ _ => zero) hcore (fun k => flat_map (fun i => map (fun p => fmt_integral K re (h (fst p) (snd p)) (fst p + 1, snd p + 1, 0, 0) cplx paren)
       (filter okp (map (fun j => (i + off npk k, j + off npk k)) (seq 0 (nth k npk 0))))) (seq 0 (nth k npk 0)))).
      unfold kpairs. rewrite map_filter_flat, Hlen. apply flat_map_ext_in. intros k _. rewrite map_filter_flat. reflexivity.
    - intros p Hp. destruct (combine_nth' (fun _ _ => zero) hcore p Hp) as [H1 H2]. rewrite Hlen in H1.
      cbn zeta. rewrite (nth_error_nth' _ H1), offsets_nth by exact H1. cbn [Nat.add]. f_equal.
      apply flat_map_ext_in. intros i Hi. apply in_seq in Hi.
      assert (Hs : forall j, In j (seq 0 (nth (fst p) npk 0)) -> j < nth (fst p) npk 0) by (intros j Hj; apply in_seq in Hj; lia).
      revert Hs. generalize (seq 0 (nth (fst p) npk 0)) as s. induction s as [|j s IH]; intros Hs; [reflexivity|].
      cbn [flat_map map filter fst snd]. rewrite IH by (intros; apply Hs; right; assumption).
      rewrite h_block by (try exact H1; try lia; apply Hs; left; reflexivity). rewrite H2.
      destruct (_ && _); [|reflexivity]. cbn [map fst snd app].
      rewrite h_block by (try exact H1; try lia; apply Hs; left; reflexivity). reflexivity.
  Qed.

  Lemma kpairs_perm : Permutation (filter okp kpairs) (emitted1 K big h nmo).
  Proof.
    unfold emitted1. apply NoDup_Permutation.
    - apply NoDup_filter. unfold kpairs. apply NoDup_flat; [apply seq_NoDup| |].
      + intros k _. apply NoDup_flat; [apply seq_NoDup| |].
        * intros i _. apply NoDup_map_inj; [apply seq_NoDup|]. intros x y E. inversion E. lia.
        * intros i i' z _ _ H H'. apply in_map_iff in H, H'. destruct H as (? & <- & _). destruct H' as (? & E & _). inversion E. lia.
      + intros k k' z Hk Hk' H H'. apply in_flat_map in H, H'. destruct H as (i & Hi & H). destruct H' as (i' & Hi' & H').
        apply in_map_iff in H, H'. destruct H as (? & <- & _). destruct H' as (? & E & _). inversion E as [[E1 E2]].
        rewrite in_seq in *. assert (F := locate_off npk k i ltac:(lia) ltac:(lia)). rewrite <- E1, locate_off in F by lia. inversion F. reflexivity.
    - apply NoDup_filter. unfold pairs. apply NoDup_flat; [apply seq_NoDup| |].
      + intros i _. apply NoDup_map_inj; [apply seq_NoDup|]. intros x y E. inversion E. reflexivity.
      + intros i i' z _ _ H H'. apply in_map_iff in H, H'. destruct H as (? & <- & _). destruct H' as (? & E & _). inversion E. reflexivity.
    - intros [I J]. rewrite !filter_In. cbn [fst snd]. split.
      + intros [H Hb]. apply andb_true_iff in Hb. destruct Hb as [H1 Hb]. apply Nat.leb_le in H1. split; [|exact Hb].
        apply pin. split; [|exact H1]. unfold kpairs in H. apply in_flat_map in H. destruct H as (k & Hk & H).
        apply in_flat_map in H. destruct H as (i & Hi & H). apply in_map_iff in H. destruct H as (j & E & Hj). rewrite in_seq in *.
        inversion E; subst. apply off_lt; lia.
      + intros [H Hb]. apply pin in H. destruct H as [HI HJ].
        assert (Hle : (J <=? I) = true) by (apply Nat.leb_le; exact HJ). rewrite Hle, Hb. split; [|reflexivity].
        unfold h, bloch_one_body in Hb. destruct (Nat.eqb_spec (kp npk I) (kp npk J)) as [E|]; [|rewrite big0 in Hb; discriminate].
        unfold kp in E. destruct (off_locate npk I HI) as (I1 & I2 & I3), (off_locate npk J ltac:(lia)) as (J1 & J2 & J3).
        unfold kpairs. apply in_flat_map. exists (fst (locate npk I)). split; [apply in_seq; lia|].
        apply in_flat_map. exists (snd (locate npk I)). split; [apply in_seq; lia|].
        apply in_map_iff. exists (snd (locate npk J)). split; [rewrite E at 2; congruence|rewrite E; apply in_seq; lia].
  Qed.

  Variable imgpos : K -> bool.

  Lemma same_lines enuc nelec sym paren : sym <= 4 ->
    exists d d', write_fcidump_kpoint K zero ad mu conj re big npk qk hcore chol enuc nmo nelec sym true paren = Ok d /\
      write_fcidump K re big imgpos h (fun I K' L J => v I K' J L) enuc nmo nelec sym true paren = Ok d' /\
      norb K d = norb K d' /\ nel K d = nel K d' /\ ms2 K d = ms2 K d' /\ Permutation (lines K d) (lines K d').
  Proof.
    intros Hs. unfold write_fcidump_kpoint, write_fcidump. rewrite two_ok, one_ok. cbn [rbind].
    assert (E : true && (4 <? sym) = false) by (apply Nat.ltb_ge; exact Hs). rewrite E.
    rewrite write_two_ok by (left; reflexivity). cbn [rbind].
    eexists _, _. split; [reflexivity|]. split; [reflexivity|]. cbn [norb nel ms2 lines]. repeat split.
    rewrite write_one_eq. apply Permutation_app; [|apply Permutation_app_tail].
    - apply Permutation_map. apply kquads_perm.
    - apply Permutation_map. apply kpairs_perm.
  Qed.
End KP.
