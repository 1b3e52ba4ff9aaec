(** Proofs about the estimator blocks. *)
From Verif Require Import CplxFacts Mixed_Model Mixed_Spec Mixed_Proofs Blocks_Model Blocks_Spec.
Open Scope nat_scope.

Definition tracks (o : opts) (hs : list history) (ranks : list (list C)) : Prop :=
  Forall2 (fun h es => update_all o (zeros o) h = Ok es) hs ranks.

Lemma reduced_tracks o n hs ranks : tracks o hs ranks -> reduced o n hs = Ok (reduce (size o) (map (scaled o n) ranks)).
Proof.
  unfold reduced. match goal with |- context [?F hs []] => set (go := F) end.
  enough (M : forall hs ranks acc, tracks o hs ranks -> go hs acc = Ok (reduce (size o) (map (scaled o n) (rev acc ++ ranks)))).
  { intros H. rewrite (M _ _ [] H). reflexivity. }
  clear hs ranks. intros hs ranks acc H. revert acc. induction H as [|h es hs ranks H0 H IH]; intros acc.
  - subst go. simpl. rewrite app_nil_r. reflexivity.
  - assert (go (h :: hs) acc = go hs (es :: acc)) as -> by (subst go; simpl; rewrite H0; reflexivity).
    rewrite IH. simpl. rewrite <- app_assoc. reflexivity.
Qed.

Lemma update_all_snoc o h s ws : forall es, update_all o es (h ++ [(s, ws)]) = rbind (update_all o es h) (fun e => update o s e ws).
Proof.
  induction h as [|[s' ws'] h IH]; intros es; simpl.
  - destruct (update o s es ws); reflexivity.
  - destruct (update o s' es ws'); simpl; [apply IH|reflexivity].
Qed.

(** Histories extended by one step. *)
Fixpoint snoc_all (hs : list history) (s : nat) (ws : list (list meas)) : list history :=
  match hs, ws with h :: hs', w :: ws' => (h ++ [(s, w)]) :: snoc_all hs' s ws' | _, _ => [] end.

Lemma update_ranks_tracks o s hs ranks ws ranks' : tracks o hs ranks -> List.length ws = List.length hs ->
  update_ranks o s ranks ws = Ok ranks' -> tracks o (snoc_all hs s ws) ranks'.
Proof.
  intros H. revert ws ranks'. induction H as [|h es hs ranks H0 H IH]; intros [|w ws] ranks' L E; simpl in *; try discriminate.
  - apply Ok_inj in E. subst. constructor.
  - apply rbind_ok in E. destruct E as (e1 & E1 & E). apply rbind_ok in E. destruct E as (r & E2 & E).
    apply Ok_inj in E. subst. constructor; [|apply IH; [lia|exact E2]].
    rewrite update_all_snoc, H0. exact E1.
Qed.

Lemma print_step_tracks o block step ns hs ranks : tracks o hs ranks -> 0 < block ->
  print_step o block step ns ranks =
    if step mod block =? 0 then
      rbind (printed o (match ns with Some n => n | None => block end) hs) (fun r => Ok (Some r, map (fun _ => zeros o) ranks))
    else Ok (None, ranks).
Proof.
  intros H Hb. unfold print_step, printed.
  assert ((block =? 0) = false) as -> by (apply Nat.eqb_neq; lia).
  destruct (step mod block =? 0); simpl; [|reflexivity].
  rewrite (reduced_tracks _ _ _ _ H). reflexivity.
Qed.

Lemma tracks_nil o n ranks : List.length ranks = n -> tracks o (repeat [] n) (map (fun _ : list C => zeros o) ranks).
Proof. intros <-. induction ranks; simpl; constructor; auto. Qed.
Lemma tracks_length o hs ranks : tracks o hs ranks -> List.length hs = List.length ranks.
Proof. induction 1; simpl; auto. Qed.
Lemma snoc_length hs s ws : List.length ws = List.length hs -> List.length (snoc_all hs s ws) = List.length hs.
Proof. revert ws. induction hs; intros [|w ws] H; simpl in *; try lia. rewrite IHhs; lia. Qed.

(** What the loop outputs in terms of the histories since the last print. *)
Fixpoint blocks (o : opts) (block : nat) (data : nat -> list (list meas)) (nr step n : nat) (hs : list history)
  : list (nat * res row) :=
  match n with
  | O => []
  | S n' =>
      let hs' := snoc_all hs step (data step) in
      if step mod block =? 0 then (step, printed o block hs') :: blocks o block data nr (S step) n' (repeat [] nr)
      else blocks o block data nr (S step) n' hs'
  end.

Lemma est_loop_blocks o block data nr n : 0 < block -> (forall s, List.length (data s) = nr) ->
  forall step ranks hs outs res, tracks o hs ranks -> List.length hs = nr ->
  est_loop o block data step n ranks outs = Ok res ->
  map (fun x => (fst x, Ok (snd x))) res = map (fun x => (fst x, Ok (snd x))) outs ++ blocks o block data nr step n hs.
Proof.
  intros Hb Hd. induction n as [|n IH]; intros step ranks hs outs rs T L E; cbn [est_loop] in E.
  - apply Ok_inj in E. subst. simpl. rewrite app_nil_r. reflexivity.
  - apply rbind_ok in E. destruct E as (r1 & E1 & E).
    assert (T1 : tracks o (snoc_all hs step (data step)) r1) by (eapply update_ranks_tracks; [exact T|rewrite Hd; auto|exact E1]).
    assert (L1 : List.length (snoc_all hs step (data step)) = nr) by (rewrite snoc_length; rewrite ?Hd; auto).
    apply rbind_ok in E. destruct E as ([out r2] & E2 & E).
    rewrite (print_step_tracks _ _ _ _ _ _ T1 Hb) in E2. cbn [blocks].
    destruct (step mod block =? 0).
    + apply rbind_ok in E2. destruct E2 as (row & Hr & E2). apply Ok_inj in E2. injection E2 as <- <-.
      rewrite (IH _ _ (repeat [] nr) _ _ (tracks_nil o nr r1 ltac:(rewrite <- L1; symmetry; eapply tracks_length; exact T1)) (repeat_length _ _) E).
      rewrite map_app, <- app_assoc. simpl. rewrite Hr. reflexivity.
    + apply Ok_inj in E2. injection E2 as <- <-. rewrite app_nil_r in E.
      rewrite (IH _ _ _ _ _ T1 L1 E). reflexivity.
Qed.

Lemma est_loop_ok o block data nr n : 0 < block -> good o -> proper_data o nr data -> forall step ranks outs,
  List.length ranks = nr -> Forall (fun es => List.length es = size o) ranks ->
  exists rs, est_loop o block data step n ranks outs = Ok rs.
Proof.
  intros Hb Hg Hd. induction n as [|n IH]; intros step ranks outs L F; [eexists; reflexivity|].
  cbn [est_loop]. destruct (Hd step) as [L1 F1].
  assert (U : exists r, update_ranks o step ranks (data step) = Ok r /\ List.length r = nr /\ Forall (fun es => List.length es = size o) r).
  { rewrite <- L in L1. rewrite <- L. clear L IH. revert L1 F1. generalize (data step). induction F as [|es ranks He F IHF]; intros [|w ws] L1 F1; simpl in *; try lia.
    - exists []. auto.
    - inversion F1; subst. destruct (update_ok o step w Hg H1 es He) as (es' & E & L' & _). rewrite E. simpl.
      destruct (IHF ws) as (r & Er & Lr & Fr); [lia|assumption|]. rewrite Er. simpl. exists (es' :: r). simpl. auto. }
  destruct U as (r & -> & Lr & Fr). cbn [rbind]. unfold print_step.
  assert ((block =? 0) = false) as -> by (apply Nat.eqb_neq; lia).
  destruct (step mod block =? 0); cbn [negb rbind].
  - apply IH; [rewrite map_length; exact Lr|]. apply Forall_map. apply Forall_forall. intros. apply repeat_length.
  - apply IH; assumption.
Qed.

Lemma snoc_window data nr a len : (forall s, List.length (data s) = nr) ->
  snoc_all (window data nr a len) (a + len) (data (a + len)) = window data nr a (S len).
Proof.
  intros Hd. unfold window.
  assert (E : forall ws k, snoc_all (map (fun r => map (fun s => (s, nth r (data s) [])) (seq a len)) (seq k (List.length ws))) (a + len) ws
     = map (fun r => map (fun s => (s, nth r (data s) [])) (seq a len) ++ [(a + len, nth (r - k) ws [])]) (seq k (List.length ws))).
  { induction ws as [|w ws IH]; intros k; simpl; [reflexivity|]. rewrite Nat.sub_diag. f_equal.
    rewrite IH. apply map_ext_in. intros r Hr. apply in_seq in Hr. do 3 f_equal.
    replace (r - k) with (S (r - S k)) by lia. reflexivity. }
  specialize (E (data (a + len)) 0). rewrite Hd in E. rewrite E.
  apply map_ext. intros r. rewrite seq_S, map_app, Nat.sub_0_r. reflexivity.
Qed.
Lemma window_0 data nr a : window data nr a 0 = repeat [] nr.
Proof. unfold window. simpl. generalize 0 as k. induction nr; intros k; simpl; [reflexivity|]. rewrite IHnr. reflexivity. Qed.

(** From a start with [len] pending steps, the loop runs on to the end of the block. *)
Lemma blocks_until o block data nr : 0 < block -> (forall s, List.length (data s) = nr) ->
  forall k n hs step, (forall i, i < k -> (step + i) mod block <> 0) -> (step + k) mod block = 0 ->
  exists hs', blocks o block data nr step (S k + n) hs = (step + k, printed o block hs') :: blocks o block data nr (step + S k) n (repeat [] nr) /\
     forall a len, hs = window data nr a len -> step = a + len -> hs' = window data nr a (len + S k).
Proof.
  intros Hb Hd. induction k as [|k IH]; intros n hs step H1 H2.
  - rewrite Nat.add_0_r in *. simpl. rewrite H2. simpl. eexists. split; [replace (step + 1) with (S step) by lia; reflexivity|].
    intros a len -> ->. rewrite snoc_window by exact Hd. f_equal. lia.
  - change (S (S k) + n) with (S (S k + n)). cbn [blocks].
    assert ((step mod block =? 0) = false) as ->.
    { apply Nat.eqb_neq. specialize (H1 0 ltac:(lia)). rewrite Nat.add_0_r in H1. exact H1. }
    destruct (IH n (snoc_all hs step (data step)) (S step)) as (hs' & E & W).
    + intros i Hi. specialize (H1 (S i) ltac:(lia)). replace (S step + i) with (step + S i) by lia. exact H1.
    + replace (S step + k) with (step + S k) by lia. exact H2.
    + exists hs'. split.
      * replace (S step + k) with (step + S k) in E by lia. replace (S step + S k) with (step + S (S k)) in E by lia. exact E.
      * intros a len Eh Es. replace (len + S (S k)) with (S len + S k) by lia. apply W; [|lia].
        rewrite Eh, Es. apply snoc_window. exact Hd.
Qed.

Lemma mod_block block q i : 0 < block -> i < block - 1 -> (q * block + 1 + i) mod block <> 0.
Proof.
  intros Hb Hi. replace (q * block + 1 + i) with ((1 + i) + q * block) by lia. rewrite Nat.mod_add by lia.
  rewrite Nat.mod_small by lia. lia.
Qed.
Lemma mod_block0 block q : 0 < block -> (q * block + 1 + (block - 1)) mod block = 0.
Proof.
  intros Hb. replace (q * block + 1 + (block - 1)) with (0 + (q + 1) * block) by nia. rewrite Nat.mod_add by lia. apply Nat.mod_0_l. lia.
Qed.

Lemma blocks_full o block data nr : 0 < block -> (forall s, List.length (data s) = nr) -> forall nb q,
  blocks o block data nr (q * block + 1) (nb * block) (repeat [] nr) =
  map (fun b => (S b * block, printed o block (window data nr (b * block + 1) block))) (seq q nb).
Proof.
  intros Hb Hd. induction nb as [|nb IH]; intros q; [reflexivity|].
  replace (S nb * block) with (S (block - 1) + nb * block) by (simpl; lia).
  destruct (blocks_until o block data nr Hb Hd (block - 1) (nb * block) (repeat [] nr) (q * block + 1)) as (hs' & E & W).
  - intros i Hi. apply mod_block; lia.
  - apply mod_block0; lia.
  - rewrite E. cbn [seq map]. rewrite (W (q * block + 1) 0) by (rewrite ?window_0; auto; lia).
    replace (0 + S (block - 1)) with block by lia.
    replace (q * block + 1 + (block - 1)) with (S q * block) by (simpl; lia).
    replace (q * block + 1 + S (block - 1)) with (S q * block + 1) by (simpl; lia).
    rewrite IH. reflexivity.
Qed.

Theorem est_run_verbose o block data nr nb : 0 < block -> good o -> proper_data o nr data ->
  exists outs, est_run o block true data nr (nb * block) = Ok outs /\
    map (fun x => (fst x, Ok (snd x))) outs =
      (0, printed o 1 (window data nr 0 1)) ::
      map (fun b => (S b * block, printed o block (window data nr (b * block + 1) block))) (seq 0 nb).
Proof.
  intros Hb Hg Hd.
  assert (Hl : forall s, List.length (data s) = nr) by (intros s; apply Hd).
  assert (T0 : tracks o (repeat [] nr) (repeat (zeros o) nr)) by (clear; induction nr; simpl; constructor; auto).
  destruct (est_loop_ok o block data nr 1 Hb Hg Hd 0 (repeat (zeros o) nr) []) as (rs0 & R0).
  { apply repeat_length. }
  { apply Forall_forall. intros x Hx. apply repeat_spec in Hx. subst. apply repeat_length. }
  cbn [est_loop] in R0. apply rbind_ok in R0. destruct R0 as (r1 & E1 & R0).
  assert (T1 : tracks o (window data nr 0 1) r1).
  { rewrite <- (snoc_window data nr 0 0 Hl), window_0. eapply update_ranks_tracks; [exact T0|rewrite Hl, repeat_length; reflexivity|exact E1]. }
  assert (L1 : List.length r1 = nr).
  { apply tracks_length in T1. unfold window in T1. rewrite map_length, seq_length in T1. auto. }
  unfold est_run. rewrite E1. cbn [rbind].
  rewrite (print_step_tracks o block 0 (Some 1) _ _ T1 Hb). rewrite Nat.mod_0_l by lia. cbn [Nat.eqb].
  unfold printed at 1. rewrite (reduced_tracks _ _ _ _ T1). cbn [rbind].
  set (row0 := finish o (reduce (size o) (map (scaled o 1) r1))).
  destruct (est_loop_ok o block data nr (nb * block) Hb Hg Hd 1 (map (fun _ => zeros o) r1) [(0, row0)]) as (outs & E2).
  { rewrite map_length. exact L1. }
  { apply Forall_map. apply Forall_forall. intros. apply repeat_length. }
  exists outs. split; [exact E2|].
  rewrite (est_loop_blocks o block data nr (nb * block) Hb Hl 1 _ _ _ _ (tracks_nil o nr r1 L1) (repeat_length _ _) E2).
  cbn [map fst snd app]. f_equal.
  - unfold printed. rewrite (reduced_tracks _ _ _ _ T1). reflexivity.
  - apply (blocks_full o block data nr Hb Hl nb 0).
Qed.

(** Without verbose output the zeroth measurement stays in the arrays. *)
Theorem est_run_quiet o block data nr nb : 0 < block -> good o -> proper_data o nr data ->
  exists outs, est_run o block false data nr (S nb * block) = Ok outs /\
    map (fun x => (fst x, Ok (snd x))) outs =
      (block, printed o block (window data nr 0 (S block))) ::
      map (fun b => (S b * block, printed o block (window data nr (b * block + 1) block))) (seq 1 nb).
Proof.
  intros Hb Hg Hd.
  assert (Hl : forall s, List.length (data s) = nr) by (intros s; apply Hd).
  assert (T0 : tracks o (repeat [] nr) (repeat (zeros o) nr)) by (clear; induction nr; simpl; constructor; auto).
  assert (F0 : Forall (fun es => List.length es = size o) (repeat (zeros o) nr)).
  { apply Forall_forall. intros x Hx. apply repeat_spec in Hx. subst. apply repeat_length. }
  destruct (Hd 0) as [L0 S0].
  assert (U : forall ranks ws, List.length ranks = List.length ws -> Forall (fun es => List.length es = size o) ranks -> Forall (Forall (shaped o)) ws ->
     exists r, update_ranks o 0 ranks ws = Ok r /\ List.length r = List.length ranks /\ Forall (fun es => List.length es = size o) r).
  { induction ranks as [|es ranks IH]; intros [|w ws] L F S; simpl in *; try lia; [exists []; auto|].
    inversion F; inversion S; subst. destruct (update_ok o 0 w Hg H5 es H1) as (es' & E & L' & _). rewrite E. simpl.
    destruct (IH ws) as (r & Er & Lr & Fr); [lia|assumption|assumption|]. rewrite Er. exists (es' :: r). simpl. auto. }
  destruct (U (repeat (zeros o) nr) (data 0)) as (r1 & E1 & L1 & F1); [rewrite repeat_length; auto|exact F0|exact S0|].
  rewrite repeat_length in L1.
  assert (T1 : tracks o (window data nr 0 1) r1).
  { rewrite <- (snoc_window data nr 0 0 Hl), window_0. eapply update_ranks_tracks; [exact T0|rewrite Hl, repeat_length; reflexivity|exact E1]. }
  unfold est_run. rewrite E1. cbn [rbind].
  destruct (est_loop_ok o block data nr (S nb * block) Hb Hg Hd 1 r1 [] L1 F1) as (outs & E2).
  exists outs. split; [exact E2|].
  assert (LW : List.length (window data nr 0 1) = nr) by (unfold window; rewrite map_length, seq_length; reflexivity).
  rewrite (est_loop_blocks o block data nr (S nb * block) Hb Hl 1 _ _ _ _ T1 LW E2).
  cbn [map app].
  replace (S nb * block) with (S (block - 1) + nb * block) by (simpl; lia).
  destruct (blocks_until o block data nr Hb Hl (block - 1) (nb * block) (window data nr 0 1) 1) as (hs' & E & W).
  - intros i Hi. apply (mod_block block 0 i Hb). exact Hi.
  - apply (mod_block0 block 0 Hb).
  - rewrite E, (W 0 1 eq_refl eq_refl). replace (1 + (block - 1)) with block by lia. replace (1 + S (block - 1)) with (S block) by lia.
    f_equal. replace (S block) with (1 * block + 1) by lia. apply (blocks_full o block data nr Hb Hl nb 1).
Qed.
