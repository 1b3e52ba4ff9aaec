(* Proofs about half rotation. *)

From Verif Require Import Base BaseFacts HalfRot_Model HalfRot_Spec.
Open Scope nat_scope.

Lemma in_seq_iff : forall x s n, In x (seq s n) <-> s <= x < s + n.
Proof. intros; apply in_seq. Qed.

Lemma nsum_cons' : forall x l, nsum (x :: l) = x + nsum l.
Proof. reflexivity. Qed.

(* Blocks of equal length. *)
Lemma map_seq_from : forall A (f : nat -> A) s m,
  map f (seq s m) = map (fun j => f (s + j)) (seq 0 m).
Proof.
  intros A f s m; revert f s; induction m as [|m IH]; intros f s; simpl; auto.
  rewrite Nat.add_0_r. f_equal.
  rewrite IH, (IH (fun j => f (s + j)) 1).
  apply map_ext; intro j; f_equal; lia.
Qed.

Lemma map_seq_mul : forall A (f : nat -> A) m n,
  map f (seq 0 (n * m)) = flat_map (fun i => map (fun j => f (i * m + j)) (seq 0 m)) (seq 0 n).
Proof.
  intros A f m n. induction n as [|n IH]; auto.
  rewrite seq_S, flat_map_app, <- IH. simpl flat_map. rewrite app_nil_r.
  replace (S n * m) with (n * m + m) by lia.
  rewrite seq_app, map_app. f_equal. simpl plus.
  apply map_seq_from.
Qed.

Lemma flat_map_length_const : forall A B (g : A -> list B) L l,
  (forall x, In x l -> length (g x) = L) -> length (flat_map g l) = length l * L.
Proof.
  intros A B g L l H; induction l as [|x l IH]; simpl; auto.
  rewrite app_length, IH; [|intros; apply H; right; auto].
  rewrite (H x); auto. left; auto.
Qed.

Lemma flat_map_block : forall B (g : nat -> list B) L n i,
  (forall j, length (g j) = L) -> i < n ->
  firstn L (skipn (i * L) (flat_map g (seq 0 n))) = g i.
Proof.
  intros B g L n i H Hi.
  replace n with (i + (1 + (n - i - 1))) by lia.
  rewrite !seq_app, !flat_map_app. simpl plus.
  assert (E : length (flat_map g (seq 0 i)) = i * L)
    by (rewrite (flat_map_length_const _ _ g L), seq_length; auto).
  rewrite skipn_app, <- E, skipn_all, Nat.sub_diag. simpl. rewrite app_nil_r.
  rewrite firstn_app, H, Nat.sub_diag, firstn_O, app_nil_r.
  rewrite <- (H i). apply firstn_all.
Qed.

Section HalfRot.
Variable K : Type.
Variables (k0 : K) (kadd kmul : K -> K -> K) (conj : K -> K).
Variables (M na nb ndets nchol : nat).
Variable psi : nat -> nat -> nat -> K.
Variable chol : nat -> nat -> nat -> K.
Notation rank_writes := (rank_writes K k0 kadd kmul conj M na nb ndets nchol psi chol).
Notation all_writes := (all_writes K k0 kadd kmul conj M na nb ndets nchol psi chol).
Notation half := (half K k0 kadd kmul conj M psi chol).
Notation rotate := (rotate K k0 kadd kmul conj M psi chol).
Notation share := (share nchol).

(* The columns of a process. *)
Definition owns (comm : option (nat * nat)) (n : nat) : Prop :=
  let '(s, e, c) := share comm in c = true /\ s <= n < e.

Lemma owns_bound : forall r csize n, r < csize -> owns (Some (r, csize)) n -> n < nchol.
Proof.
  intros r csize n Hr H; unfold owns, HalfRot_Model.share in H.
  destruct (Nat.eqb_spec (nchol / csize) 0) as [Z|Z]; [apply H|].
  destruct (Nat.eqb_spec r (csize - 1)) as [E|E]; [apply H|].
  destruct H as [_ [_ H]].
  pose proof (Nat.mul_div_le nchol csize ltac:(lia)).
  assert ((r + 1) * (nchol / csize) <= csize * (nchol / csize)) by (apply Nat.mul_le_mono_r; lia).
  lia.
Qed.

Lemma owns_unique : forall csize n, 0 < csize -> n < nchol ->
  exists! r, r < csize /\ owns (Some (r, csize)) n.
Proof.
  intros csize n Hc Hn; unfold owns, HalfRot_Model.share.
  destruct (Nat.eqb_spec (nchol / csize) 0) as [Z|Z].
  - exists 0; split; [repeat split; auto; lia|].
    intros r [_ [E _]]. apply Nat.eqb_eq in E; auto.
  - set (w := nchol / csize) in *.
    pose proof (Nat.mul_div_le nchol csize ltac:(lia)) as HW; fold w in HW.
    exists (Nat.min (n / w) (csize - 1)); split.
    + split; [lia|].
      pose proof (Nat.mul_div_le n w ltac:(lia)) as D1.
      pose proof (Nat.mul_succ_div_gt n w ltac:(lia)) as D2.
      destruct (Nat.eqb_spec (Nat.min (n / w) (csize - 1)) (csize - 1)) as [E|E].
      * rewrite E. repeat split; auto.
        assert ((csize - 1) * w <= n / w * w) by (apply Nat.mul_le_mono_r; lia). lia.
      * rewrite Nat.min_l by lia. repeat split; lia.
    + intros r [Hr H].
      destruct (Nat.eqb_spec r (csize - 1)) as [E|E].
      * destruct H as [_ [H _]]. subst r.
        assert (csize - 1 <= n / w) by (apply Nat.div_le_lower_bound; lia). lia.
      * destruct H as [_ [H1 H2]].
        assert (n / w = r).
        { symmetry; apply Nat.div_unique with (n - r * w); nia. }
        lia.
Qed.

Lemma in_rotate : forall i c0 nc r0 s e r n x,
  In (r, n, x) (rotate i c0 nc r0 s e) <->
  exists a q, a < nc /\ q < M /\ s <= n < e /\ r = r0 + (a * M + q)
              /\ x = half i (c0 + a) q n.
Proof.
  intros i c0 nc r0 s e r n x; unfold HalfRot_Model.rotate; split.
  - intro H. apply in_flat_map in H as (a & Ha & H).
    apply in_flat_map in H as (q & Hq & H). apply in_map_iff in H as (m & E & Hm).
    injection E as <- <- <-.
    apply in_seq_iff in Ha, Hq, Hm. exists a, q. repeat split; auto; lia.
  - intros (a & q & Ha & Hq & Hn & -> & ->).
    apply in_flat_map; exists a; split; [apply in_seq_iff; lia|].
    apply in_flat_map; exists q; split; [apply in_seq_iff; lia|].
    apply in_map_iff; exists n; split; [reflexivity | apply in_seq_iff; lia].
Qed.

Lemma in_rank : forall comm r n x, In (r, n, x) (rank_writes comm) <->
  owns comm n /\ exists i a q, i < ndets /\ a < na + nb /\ q < M
    /\ r = i * (M * (na + nb)) + (a * M + q) /\ x = half i a q n.
Proof.
  intros comm r n x; unfold HalfRot_Model.rank_writes, owns.
  destruct (share comm) as [[s e] c]. split.
  - intro H. apply in_flat_map in H as (i & Hi & H). apply in_seq_iff in Hi.
    destruct c; [|contradiction]. apply in_app_iff in H as [H|H].
    + apply in_rotate in H as (a & q & Ha & Hq & Hn & -> & ->).
      split; [auto|]. exists i, a, q.
      split; [lia|]. split; [lia|]. split; [auto|]. split; [nia|reflexivity].
    + apply in_rotate in H as (a & q & Ha & Hq & Hn & -> & ->).
      split; [auto|]. exists i, (na + a), q.
      split; [lia|]. split; [lia|]. split; [auto|]. split; [nia|reflexivity].
  - intros [[Hc Hn] (i & a & q & Hi & Ha & Hq & -> & ->)]. subst c.
    apply in_flat_map; exists i; split; [apply in_seq_iff; lia|].
    apply in_app_iff. destruct (le_lt_dec na a) as [L|L]; [right|left]; apply in_rotate.
    + exists (a - na), q. split; [lia|]. split; [auto|]. split; [auto|]. split; [nia|].
      replace (na + (a - na)) with a by lia. reflexivity.
    + exists a, q. split; [lia|]. split; [auto|]. split; [auto|]. split; [nia|reflexivity].
Qed.

Lemma in_all : forall csize r n x, 0 < csize -> In (r, n, x) (all_writes csize) <->
  n < nchol /\ exists i a q, i < ndets /\ a < na + nb /\ q < M
    /\ r = i * (M * (na + nb)) + (a * M + q) /\ x = half i a q n.
Proof.
  intros csize r n x Hc; unfold HalfRot_Model.all_writes; split.
  - intro H. apply in_flat_map in H as (k & Hk & H). apply in_seq_iff in Hk.
    apply in_rank in H as [O H]. split; auto.
    apply (owns_bound k csize); auto; lia.
  - intros [Hn H]. destruct (owns_unique csize n Hc Hn) as (k & [Hk O] & _).
    apply in_flat_map; exists k; split; [apply in_seq_iff; lia|].
    apply in_rank; auto.
Qed.

(* Row numbers determine determinant, orbital and basis function. *)
Lemma row_unique : forall i a q i' a' q', a < na + nb -> q < M -> a' < na + nb -> q' < M ->
  i * (M * (na + nb)) + (a * M + q) = i' * (M * (na + nb)) + (a' * M + q') ->
  i = i' /\ a = a' /\ q = q'.
Proof.
  intros i a q i' a' q' Ha Hq Ha' Hq' E.
  assert (B : a * M + q < M * (na + nb)) by nia.
  assert (B' : a' * M + q' < M * (na + nb)) by nia.
  assert (Ei : i = i').
  { pose proof (Nat.div_unique (i * (M * (na + nb)) + (a * M + q)) (M * (na + nb)) i
      (a * M + q) B ltac:(lia)) as U.
    pose proof (Nat.div_unique (i * (M * (na + nb)) + (a * M + q)) (M * (na + nb)) i'
      (a' * M + q') B' ltac:(lia)) as U'. lia. }
  subst i'. assert (E' : a * M + q = a' * M + q') by lia.
  pose proof (Nat.div_unique (a * M + q) M a q Hq ltac:(lia)) as U.
  pose proof (Nat.div_unique (a * M + q) M a' q' Hq' ltac:(lia)) as U'.
  assert (a = a') by lia. subst a'. repeat split; lia.
Qed.

(* The writes wanted: what matters is which they are. *)
Definition complete (ws : list (write K)) : Prop :=
  forall r n x, In (r, n, x) ws <->
  n < nchol /\ exists i a q, i < ndets /\ a < na + nb /\ q < M
    /\ r = i * (M * (na + nb)) + (a * M + q) /\ x = half i a q n.

Lemma perm_complete : forall csize ws, 0 < csize -> Permutation ws (all_writes csize) ->
  complete ws.
Proof.
  intros csize ws Hc P r n x. split; intro H.
  - apply (in_all csize); auto. apply (Permutation_in _ P); auto.
  - apply (Permutation_in _ (Permutation_sym P)). apply in_all; auto.
Qed.

Lemma serial_complete : complete (rank_writes None).
Proof.
  intros r n x. split; intro H.
  - apply in_rank in H as [O H]. split; auto. apply O.
  - apply in_rank. split; [|apply H]. unfold owns; simpl. split; auto. lia.
Qed.

Lemma read_right : forall ws i a q n, complete ws ->
  i < ndets -> a < na + nb -> q < M -> n < nchol ->
  read K k0 ws (i * (M * (na + nb)) + (a * M + q)) n = half i a q n.
Proof.
  intros ws i a q n Hw Hi Ha Hq Hn; unfold read.
  match goal with |- match ?f with _ => _ end = _ => destruct f as [[[r' n'] x]|] eqn:F end.
  - apply find_some in F as [I E].
    apply andb_true_iff in E as [E1 E2].
    apply Nat.eqb_eq in E1, E2. subst r' n'.
    apply in_rev in I.
    apply Hw in I as [_ (i' & a' & q' & Hi' & Ha' & Hq' & E & ->)].
    destruct (row_unique _ _ _ _ _ _ Ha Hq Ha' Hq' E) as (<- & <- & <-). reflexivity.
  - exfalso.
    assert (I : In (i * (M * (na + nb)) + (a * M + q), n, half i a q n) (rev ws)).
    { apply in_rev. rewrite rev_involutive. apply Hw.
      split; auto. exists i, a, q. auto. }
    apply (find_none _ _ F) in I. rewrite !Nat.eqb_refl in I. discriminate.
Qed.

Lemma complete_right : forall ws, complete ws ->
  rchol K k0 M na nb ndets nchol ws
  = determinants k0 kadd kmul conj M nchol psi chol ndets (na + nb).
Proof.
  intros ws Hw; unfold rchol, determinants.
  rewrite map_seq_mul. rewrite !flat_map_concat_map. f_equal.
  apply map_ext_in; intros i Hi; apply in_seq_iff in Hi.
  unfold orbitals. replace (seq 0 (M * (na + nb))) with (seq 0 ((na + nb) * M)) by (f_equal; lia).
  rewrite map_seq_mul. rewrite !flat_map_concat_map. f_equal.
  apply map_ext_in; intros a Ha; apply in_seq_iff in Ha.
  unfold orbital. apply map_ext_in; intros q Hq; apply in_seq_iff in Hq.
  apply map_ext_in; intros n Hn; apply in_seq_iff in Hn.
  apply read_right; auto; lia.
Qed.

Lemma rchol_right : forall csize ws, 0 < csize -> Permutation ws (all_writes csize) ->
  rchol K k0 M na nb ndets nchol ws
  = determinants k0 kadd kmul conj M nchol psi chol ndets (na + nb).
Proof. intros; eapply complete_right, perm_complete; eauto. Qed.

Lemma serial_right : rchol K k0 M na nb ndets nchol (rank_writes None)
  = determinants k0 kadd kmul conj M nchol psi chol ndets (na + nb).
Proof. apply complete_right, serial_complete. Qed.

Lemma partition_ranks : forall csize n, 0 < csize ->
  0 < M -> 0 < na + nb -> 0 < ndets -> n < nchol ->
  exists! r, r < csize /\ exists row x, In (row, n, x) (rank_writes (Some (r, csize))).
Proof.
  intros csize n Hc HM Ho Hd Hn.
  destruct (owns_unique csize n Hc Hn) as (r & [Hr O] & U).
  exists r; split.
  - split; auto. exists (0 * (M * (na + nb)) + (0 * M + 0)), (half 0 0 0 n).
    apply in_rank. split; auto. exists 0, 0, 0. auto.
  - intros r' [Hr' (row & x & I)]. apply in_rank in I as [O' _]. apply U; auto.
Qed.

Lemma orbital_length : forall i a, length (orbital K k0 kadd kmul conj M nchol psi chol i a) = M.
Proof. intros; unfold orbital; rewrite map_length, seq_length; auto. Qed.

Lemma orbitals_length : forall i a0 n,
  length (orbitals k0 kadd kmul conj M nchol psi chol i a0 n) = M * n.
Proof.
  intros; unfold orbitals. rewrite (flat_map_length_const _ _ _ M), seq_length; [lia|].
  intros; apply orbital_length.
Qed.

Lemma orbitals_app : forall i a0 n m,
  orbitals k0 kadd kmul conj M nchol psi chol i a0 (n + m)
  = orbitals k0 kadd kmul conj M nchol psi chol i a0 n
    ++ orbitals k0 kadd kmul conj M nchol psi chol i (a0 + n) m.
Proof. intros; unfold orbitals; rewrite seq_app, flat_map_app; reflexivity. Qed.

Notation D := (determinants k0 kadd kmul conj M nchol psi chol ndets (na + nb)).
Notation rot := (rot_chol K M na nb D).

Lemma rot_whole : forall i, i < ndets ->
  rot i None = orbitals k0 kadd kmul conj M nchol psi chol i 0 (na + nb).
Proof.
  intros i Hi; unfold rot_chol, rows.
  replace ((i + 1) * (M * (na + nb)) - i * (M * (na + nb))) with (M * (na + nb)) by nia.
  apply (flat_map_block _ (fun i => orbitals k0 kadd kmul conj M nchol psi chol i 0 (na + nb)));
    auto. intro; apply orbitals_length.
Qed.

Lemma rows_of_block : forall A (l : list A) s L st len, st + len <= L ->
  rows (s + st) (s + st + len) l = rows st (st + len) (firstn L (skipn s l)).
Proof.
  intros A l s L st len H; unfold rows.
  replace (s + st + len - (s + st)) with len by lia.
  replace (st + len - st) with len by lia.
  rewrite skipn_firstn_comm, firstn_firstn, Nat.min_l by lia.
  f_equal. clear. revert l; induction s as [|s IH]; intro l; auto.
  destruct l; simpl; [rewrite !skipn_nil; auto | apply IH].
Qed.

Lemma rot_up : forall i, i < ndets ->
  rot i (Some 0) = orbitals k0 kadd kmul conj M nchol psi chol i 0 na.
Proof.
  intros i Hi. pose proof (rot_whole i Hi) as W. unfold rot_chol in *; simpl.
  unfold rows at 1 in W.
  replace ((i + 1) * (M * (na + nb)) - i * (M * (na + nb))) with (M * (na + nb)) in W by nia.
  rewrite <- (Nat.add_0_r (i * (M * (na + nb)))) at 1.
  replace (i * (M * (na + nb)) + M * na) with (i * (M * (na + nb)) + 0 + M * na) by lia.
  rewrite (rows_of_block _ _ _ (M * (na + nb))) by nia.
  rewrite W, orbitals_app. unfold rows. simpl.
  rewrite Nat.sub_0_r, firstn_app, orbitals_length, Nat.sub_diag, firstn_O, app_nil_r.
  rewrite <- (orbitals_length i 0 na). apply firstn_all.
Qed.

Lemma rot_down : forall i s, i < ndets ->
  rot i (Some (S s)) = orbitals k0 kadd kmul conj M nchol psi chol i na nb.
Proof.
  intros i s Hi. pose proof (rot_whole i Hi) as W. unfold rot_chol in *; simpl.
  unfold rows at 1 in W.
  replace ((i + 1) * (M * (na + nb)) - i * (M * (na + nb))) with (M * (na + nb)) in W by nia.
  rewrite (rows_of_block _ _ _ (M * (na + nb))) by nia.
  rewrite W, orbitals_app. unfold rows.
  replace (M * na + M * nb - M * na) with (M * nb) by lia.
  rewrite skipn_app, orbitals_length, Nat.sub_diag.
  rewrite (skipn_all2 (orbitals _ _ _ _ _ _ _ _ i 0 na)) by (rewrite orbitals_length; lia).
  simpl. rewrite <- (orbitals_length i na nb). apply firstn_all.
Qed.

Lemma slices_right : forall csize ws idet, 0 < csize -> Permutation ws (all_writes csize) ->
  idet < ndets ->
  let arr := rchol K k0 M na nb ndets nchol ws in
  rot_chol K M na nb arr idet None
    = orbitals k0 kadd kmul conj M nchol psi chol idet 0 (na + nb) /\
  rot_chol K M na nb arr idet (Some 0)
    = orbitals k0 kadd kmul conj M nchol psi chol idet 0 na /\
  rot_chol K M na nb arr idet (Some 1)
    = orbitals k0 kadd kmul conj M nchol psi chol idet na nb.
Proof.
  intros csize ws idet Hc P Hi; cbv zeta. rewrite (rchol_right csize); auto.
  split; [apply rot_whole; auto | split; [apply rot_up; auto | apply (rot_down idet 0); auto]].
Qed.

Lemma tiling_right : forall csize ws, 0 < csize -> Permutation ws (all_writes csize) ->
  let arr := rchol K k0 M na nb ndets nchol ws in
  flat_map (fun idet => rot_chol K M na nb arr idet (Some 0)
                        ++ rot_chol K M na nb arr idet (Some 1)) (seq 0 ndets) = arr.
Proof.
  intros csize ws Hc P; cbv zeta. rewrite (rchol_right csize); auto.
  transitivity (flat_map (fun i => orbitals k0 kadd kmul conj M nchol psi chol i 0 (na + nb))
    (seq 0 ndets)); [|reflexivity].
  rewrite !flat_map_concat_map. f_equal.
  apply map_ext_in; intros i Hi; apply in_seq_iff in Hi.
  rewrite rot_up by lia. rewrite (rot_down i 0) by lia. symmetry; apply (orbitals_app i 0).
Qed.

Lemma both_right : forall arr idet spin,
  rot_hs_pot K M na nb arr idet spin = rot_chol K M na nb arr idet spin.
Proof. reflexivity. Qed.

(* Each element is written exactly once. *)
Lemma rotate_length : forall i c0 nc r0 s e,
  length (rotate i c0 nc r0 s e) = nc * (M * (e - s)).
Proof.
  intros; unfold HalfRot_Model.rotate.
  rewrite (flat_map_length_const _ _ _ (M * (e - s))), seq_length; auto.
  intros; rewrite (flat_map_length_const _ _ _ (e - s)), seq_length; auto.
  intros; rewrite map_length, seq_length; auto.
Qed.

Definition width (comm : option (nat * nat)) : nat :=
  let '(s, e, c) := share comm in if c then e - s else 0.

Lemma rank_length : forall comm,
  length (rank_writes comm) = ndets * (M * (na + nb) * width comm).
Proof.
  intro comm; unfold HalfRot_Model.rank_writes, width.
  destruct (share comm) as [[s e] c].
  rewrite (flat_map_length_const _ _ _ (M * (na + nb) * (if c then e - s else 0))), seq_length; auto.
  intros i _; destruct c; simpl; [|lia].
  rewrite app_length, !rotate_length. nia.
Qed.

Lemma nsum_const : forall A (g : A -> nat) c l,
  (forall x, In x l -> g x = c) -> nsum (map g l) = length l * c.
Proof.
  intros A g c l H; induction l as [|x l IH]; [reflexivity|]. cbn [map length].
  rewrite nsum_cons', IH; [|intros; apply H; right; auto]. rewrite (H x); auto. left; auto.
Qed.

Lemma width_sum : forall csize, 0 < csize ->
  nsum (map (fun r => width (Some (r, csize))) (seq 0 csize)) = nchol.
Proof.
  intros csize Hc. destruct csize as [|c]; [lia|]. clear Hc.
  unfold width, HalfRot_Model.share.
  destruct (Nat.eqb_spec (nchol / S c) 0) as [Z|Z].
  - cbn [seq map]. rewrite nsum_cons'.
    rewrite (nsum_const _ _ 0); [simpl; lia|].
    intros x Hx; apply in_seq_iff in Hx. destruct x; [lia|]. reflexivity.
  - set (w := nchol / S c) in *.
    pose proof (Nat.mul_div_le nchol (S c) ltac:(lia)) as HW; fold w in HW.
    rewrite seq_S, map_app, nsum_app. cbn [map]. rewrite nsum_cons'.
    rewrite (nsum_const _ _ w), seq_length.
    + replace (0 + c =? S c - 1) with true by (symmetry; apply Nat.eqb_eq; lia).
      unfold nsum; simpl. nia.
    + intros x Hx; apply in_seq_iff in Hx.
      replace (x =? S c - 1) with false by (symmetry; apply Nat.eqb_neq; lia). nia.
Qed.

Lemma flat_map_length_nsum : forall A B (g : A -> list B) l,
  length (flat_map g l) = nsum (map (fun x => length (g x)) l).
Proof.
  intros A B g l; induction l as [|x l IH]; auto. cbn [flat_map map].
  rewrite app_length, nsum_cons', IH; auto.
Qed.

Lemma nsum_scale : forall A (g : A -> nat) k l,
  nsum (map (fun x => k * g x) l) = k * nsum (map g l).
Proof.
  intros A g k l; induction l as [|x l IH]; cbn [map]; [unfold nsum; simpl; lia|].
  rewrite !nsum_cons', IH. lia.
Qed.

Lemma all_length : forall csize, 0 < csize ->
  length (all_writes csize) = ndets * (M * (na + nb)) * nchol.
Proof.
  intros csize Hc; unfold HalfRot_Model.all_writes. rewrite flat_map_length_nsum.
  rewrite (map_ext _ (fun r => ndets * (M * (na + nb)) * width (Some (r, csize)))).
  - rewrite nsum_scale, width_sum; auto.
  - intro r; rewrite rank_length; lia.
Qed.

Lemma writes_once : forall csize, 0 < csize ->
  NoDup (map fst (all_writes csize)).
Proof.
  intros csize Hc.
  apply NoDup_incl_NoDup with
    (map (fun k => (k / nchol, k mod nchol)) (seq 0 (ndets * (M * (na + nb)) * nchol))).
  - destruct (Nat.eq_dec nchol 0) as [Z|Z].
    { rewrite Z, Nat.mul_0_r. constructor. }
    apply FinFun.Injective_map_NoDup; [|apply seq_NoDup].
    intros x y E. injection E as E1 E2.
    rewrite (Nat.div_mod x nchol Z), (Nat.div_mod y nchol Z), E1, E2. reflexivity.
  - rewrite !map_length, seq_length, all_length; auto.
  - intros [r n] I. apply in_map_iff in I as (k & E & Hk). apply in_seq_iff in Hk.
    injection E as <- <-.
    assert (Z : nchol <> 0) by nia.
    assert (Hr : k / nchol < ndets * (M * (na + nb))) by (apply Nat.div_lt_upper_bound; nia).
    set (r := k / nchol) in *.
    assert (ZM : M <> 0) by nia. assert (ZS : M * (na + nb) <> 0) by nia.
    apply in_map_iff.
    set (i := r / (M * (na + nb))). set (t := r mod (M * (na + nb))).
    exists (r, k mod nchol, half i (t / M) (t mod M) (k mod nchol)). split; auto.
    apply in_all; auto. split; [apply Nat.mod_upper_bound; auto|].
    exists i, (t / M), (t mod M).
    assert (Ht : t < M * (na + nb)) by (apply Nat.mod_upper_bound; auto).
    repeat split; auto.
    + apply Nat.div_lt_upper_bound; nia.
    + apply Nat.div_lt_upper_bound; nia.
    + apply Nat.mod_upper_bound; auto.
    + rewrite (Nat.mul_comm (t / M)), <- Nat.div_mod by auto.
      rewrite (Nat.mul_comm i). apply Nat.div_mod; auto.
Qed.

End HalfRot.
