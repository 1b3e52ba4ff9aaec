From Verif Require Import Base BaseFacts Qmcpack_Model Qmcpack_Spec.
Open Scope nat_scope.

Section Proofs.
  Variables (K : Type) (zero : K) (add : K -> K -> K) (conj : K -> K) (big : K -> bool).
  Hypothesis add_0_r : forall x, add x zero = x.
  Hypothesis add_0_l : forall x, add zero x = x.

  Lemma evens_interleave l : evens (interleave l) = map fst l.
  Proof.
    induction l as [|[a b] l IH]; [reflexivity|].
    change (a :: evens (interleave l) = a :: map fst l). rewrite IH. reflexivity.
  Qed.

  Lemma odds_interleave l : odds (interleave l) = map snd l.
  Proof.
    destruct l as [|[a b] l]; [reflexivity|]. change (evens (b :: interleave l) = b :: map snd l). clear a. revert b.
    induction l as [|[a' b'] l IH]; intros b; [reflexivity|].
    change (b :: evens (b' :: interleave l) = b :: b' :: map snd l). rewrite IH. reflexivity.
  Qed.

  Lemma slice_set_ok {A} s n (src a : list A) (d : A) pre post : length pre = s -> length src = n ->
    a = pre ++ repeat d n ++ post -> slice_set s n src a = Ok (pre ++ src ++ post).
  Proof.
    intros Hs Hn ->. unfold slice_set. rewrite !app_length, repeat_length.
    replace (min (s + n) (length pre + (n + length post)) - s) with n by lia.
    assert (F : firstn s (pre ++ repeat d n ++ post) = pre) by (rewrite firstn_app, <- Hs, firstn_all, Nat.sub_diag, firstn_O, app_nil_r; reflexivity).
    assert (S' : skipn (s + n) (pre ++ repeat d n ++ post) = post).
    { rewrite skipn_app. rewrite (skipn_all2 pre) by lia. cbn. replace (s + n - length pre) with n by lia.
      rewrite skipn_app, repeat_length, Nat.sub_diag, skipn_all2 by (rewrite repeat_length; lia). reflexivity. }
    rewrite F, S'. destruct src as [|x [|y src]]; cbn in Hn; subst n; try reflexivity.
    rewrite Nat.eqb_refl. reflexivity.
  Qed.

  Lemma nsum_map_length {A} (ps : list (list A)) : nsum (map (@length A) ps) = length (concat ps).
  Proof. induction ps as [|p ps IH]; [reflexivity|]. cbn [concat]. rewrite app_length, <- IH. reflexivity. Qed.

  Notation chunk f := (fun p : list (nat * nat) => (flat_map (fun rc => [fst rc; snd rc]) p, map (fun rc => f (fst rc) (snd rc)) p)).

  Lemma read_chunks_ok (f : nat -> nat -> K) : forall (ps done : list (list (nat * nat))),
    read_chunks K (length (concat done)) (length done) (map (@length _) ps) (map (chunk f) (done ++ ps))
      (map fst (concat done) ++ repeat 0 (length (concat ps)))
      (map snd (concat done) ++ repeat 0 (length (concat ps)))
      (map (fun rc => f (fst rc) (snd rc)) (concat done) ++ repeat zero (length (concat ps)))
    = Ok (map fst (concat (done ++ ps)), map snd (concat (done ++ ps)), map (fun rc => f (fst rc) (snd rc)) (concat (done ++ ps))).
  Proof.
    induction ps as [|p ps IH]; intros done.
    - cbn. rewrite !app_nil_r. reflexivity.
    - cbn [map read_chunks].
      rewrite map_app, nth_error_app2 by (rewrite map_length; lia). rewrite map_length, Nat.sub_diag. cbn [map nth_error].
      assert (Rep : forall (A : Type) (d : A), repeat d (length (concat (p :: ps))) = repeat d (length p) ++ repeat d (length (concat ps))).
      { intros A d. cbn. rewrite app_length, repeat_app. reflexivity. }
      rewrite !Rep. fold (interleave p). rewrite evens_interleave, odds_interleave.
      erewrite (slice_set_ok _ _ (map fst p)); [|apply map_length|apply map_length|reflexivity]. cbn [rbind].
      erewrite (slice_set_ok _ _ (map snd p)); [|apply map_length|apply map_length|reflexivity]. cbn [rbind].
      erewrite (slice_set_ok _ _ (map _ p)); [|apply map_length|apply map_length|reflexivity]. cbn [rbind].
      specialize (IH (done ++ [p])). rewrite <- !app_assoc in IH. cbn [app] in IH.
      
      assert (L1 : length (concat (done ++ [p])) = length (concat done) + length p).
      { rewrite concat_app, app_length. cbn. rewrite app_nil_r. reflexivity. }
      assert (L2 : length (done ++ [p]) = S (length done)) by (rewrite app_length; cbn; lia).
      rewrite L1, L2 in IH.
      assert (M : forall (B : Type) (g : nat * nat -> B), map g (concat (done ++ [p])) = map g (concat done) ++ map g p).
      { intros B g. rewrite concat_app, map_app. cbn. rewrite app_nil_r. reflexivity. }
      rewrite !M in IH. rewrite <- !app_assoc in IH. rewrite map_app in IH. cbn [map] in IH. exact IH.
  Qed.

  Lemma entry_none l (f : nat -> nat -> K) r c : ~ In (r, c) l ->
    entry K zero add (map fst l) (map snd l) (map (fun rc => f (fst rc) (snd rc)) l) r c = zero.
  Proof.
    induction l as [|[a b] l IH]; intros H; [reflexivity|]. cbn [map entry fst snd].
    destruct (Nat.eqb_spec a r), (Nat.eqb_spec b c); cbn [andb]; try (apply IH; intros Hin; apply H; right; exact Hin).
    subst. exfalso. apply H. left. reflexivity.
  Qed.

  Lemma entry_once l (f : nat -> nat -> K) r c : NoDup l -> In (r, c) l ->
    entry K zero add (map fst l) (map snd l) (map (fun rc => f (fst rc) (snd rc)) l) r c = f r c.
  Proof.
    induction l as [|[a b] l IH]; intros Hnd Hin; [destruct Hin|]. inversion_clear Hnd as [|? ? Hni Hnd'].
    cbn [map entry fst snd]. destruct Hin as [E|Hin].
    - inversion E; subst. rewrite !Nat.eqb_refl. cbn [andb]. rewrite entry_none by exact Hni. apply add_0_r.
    - destruct (Nat.eqb_spec a r), (Nat.eqb_spec b c); cbn [andb]; try (apply IH; assumption).
      subst. contradiction.
  Qed.

  Lemma positions_in m n r c : In (r, c) (positions m n) <-> r < m /\ c < n.
  Proof.
    unfold positions. rewrite in_flat_map. split.
    - intros (a & Ha & H). apply in_map_iff in H. destruct H as (b & E & Hb). rewrite in_seq in *. inversion E; subst. lia.
    - intros [H1 H2]. exists r. split; [apply in_seq; lia|]. apply in_map_iff. exists c. split; [reflexivity|apply in_seq; lia].
  Qed.

  Lemma positions_nodup m n : NoDup (positions m n).
  Proof.
    unfold positions. generalize (seq_NoDup m 0). generalize (seq 0 m) as l. induction l as [|a l IH]; intros H; [constructor|].
    inversion_clear H as [|? ? Ha Hl]. cbn. specialize (IH Hl).
    assert (N1 : NoDup (map (fun c => (a, c)) (seq 0 n))).
    { apply FinFun.Injective_map_NoDup; [|apply seq_NoDup]. intros x y E. inversion E. reflexivity. }
    assert (D : forall x, In x (map (fun c => (a, c)) (seq 0 n)) -> ~ In x (flat_map (fun r => map (fun c => (r, c)) (seq 0 n)) l)).
    { intros x Hx Hx2. apply in_map_iff in Hx. destruct Hx as (c & <- & _). apply in_flat_map in Hx2. destruct Hx2 as (b & Hb & Hx2).
      apply in_map_iff in Hx2. destruct Hx2 as (c' & E & _). inversion E; subst. contradiction. }
    revert N1 D. generalize (map (fun c => (a, c)) (seq 0 n)) as l1. induction l1 as [|x l1 IH1]; intros N1 D; [exact IH|].
    inversion_clear N1 as [|? ? Hx N1']. cbn. constructor.
    - intros Hin. apply in_app_or in Hin. destruct Hin as [Hin|Hin]; [contradiction|]. apply (D x); [left; reflexivity|exact Hin].
    - apply IH1; [exact N1'|]. intros y Hy. apply D. right. exact Hy.
  Qed.

  Lemma nonzero_in m n f r c : In (r, c) (nonzero K big m n f) <-> r < m /\ c < n /\ big (f r c) = true.
  Proof. unfold nonzero. rewrite filter_In, positions_in. cbn. tauto. Qed.

  Lemma read_any_chunking nmo nchol f h : chunked big nmo nchol f h ->
    exists g, read_cholesky K zero add h = Ok g /\
      forall r c, r < nmo * nmo -> c < nchol -> g r c = kept zero big f r c.
  Proof.
    intros (ps & Hp & E1 & E2 & E3 & E4). unfold read_cholesky. rewrite E1, E2, E3, E4, nsum_map_length.
    pose proof (read_chunks_ok f ps []) as H. cbn [length concat app map] in H. rewrite H. cbn [rbind].
    unfold csr.
    assert (Hall : forall rc, In rc (concat ps) -> fst rc < nmo * nmo /\ snd rc < nchol).
    { intros [r c] Hin. apply (Permutation_in _ Hp) in Hin. apply nonzero_in in Hin. cbn. tauto. }
    assert (F1 : forallb (fun a => a <? nmo * nmo) (map fst (concat ps)) = true).
    { apply forallb_forall. intros a Ha. apply in_map_iff in Ha. destruct Ha as (rc & <- & Hin). apply Nat.ltb_lt. apply Hall. exact Hin. }
    assert (F2 : forallb (fun b => b <? nchol) (map snd (concat ps)) = true).
    { apply forallb_forall. intros a Ha. apply in_map_iff in Ha. destruct Ha as (rc & <- & Hin). apply Nat.ltb_lt. apply Hall. exact Hin. }
    rewrite F1, F2. cbn [andb]. eexists. split; [reflexivity|]. intros r c Hr Hc. unfold kept.
    assert (Hnd : NoDup (concat ps)).
    { apply (Permutation_NoDup (Permutation_sym Hp)). apply NoDup_filter. apply positions_nodup. }
    destruct (big (f r c)) eqn:Hb.
    - apply entry_once; [exact Hnd|]. apply (Permutation_in _ (Permutation_sym Hp)). apply nonzero_in. auto.
    - apply entry_none. intros Hin. apply (Permutation_in _ Hp) in Hin. apply nonzero_in in Hin. destruct Hin as (_ & _ & Hx). congruence.
  Qed.

  Lemma write_chunked nmo nchol f : chunked big nmo nchol f (write_sparse K big nmo nchol f).
  Proof.
    exists [nonzero K big (nmo * nmo) nchol f]. unfold write_sparse, to_sparse. cbn. rewrite app_nil_r, map_length.
    split; [apply Permutation_refl|]. auto.
  Qed.

  Lemma sparse_roundtrip nmo nchol f :
    exists g, read_cholesky K zero add (write_sparse K big nmo nchol f) = Ok g /\
      forall r c, r < nmo * nmo -> c < nchol -> g r c = kept zero big f r c.
  Proof. apply read_any_chunking. apply write_chunked. Qed.

End Proofs.

(** ** to_qmcpack_index *)
Section Index.
  Variable K : Type.

  Lemma indptr_cons (r : list (nat * K)) rows :
    map (fun k => nsum (map (@length _) (firstn k (r :: rows)))) (seq 0 (S (S (length rows)))) =
    0 :: map (fun k => length r + k) (map (fun k => nsum (map (@length _) (firstn k rows))) (seq 0 (S (length rows)))).
  Proof.
    change (seq 0 (S (S (length rows)))) with (0 :: seq 1 (S (length rows))). cbn [map firstn nsum]. f_equal.
    rewrite <- seq_shift, !map_map. apply map_ext. intros k. reflexivity.
  Qed.

  Lemma slice_shift {A} (l1 l2 : list A) a b : slice (length l1 + a) (length l1 + b) (l1 ++ l2) = slice a b l2.
  Proof.
    unfold slice. replace (length l1 + b - (length l1 + a)) with (b - a) by lia. f_equal.
    rewrite skipn_app, (skipn_all2 l1) by lia. cbn. f_equal. lia.
  Qed.

  Lemma index_rows_cons row a b ptr l off : index_rows row (a :: b :: ptr) l off =
    flat_map (fun i => [row; i + off]) (slice a b l) ++ index_rows (S row) (b :: ptr) l off.
  Proof. reflexivity. Qed.

  Lemma data_rows_cons a b ptr (l : list K) : data_rows K (a :: b :: ptr) l = slice a b l ++ data_rows K (b :: ptr) l.
  Proof. reflexivity. Qed.

  Lemma index_rows_shift row p ptr (l1 l2 : list nat) off : p = length l1 ->
    index_rows row (map (fun k => p + k) ptr) (l1 ++ l2) off = index_rows row ptr l2 off.
  Proof.
    intros ->. revert row. induction ptr as [|a ptr IH]; intros row; [reflexivity|]. destruct ptr as [|b ptr]; [reflexivity|].
    cbn [map]. rewrite !index_rows_cons, slice_shift. cbn [map] in IH. rewrite IH. reflexivity.
  Qed.

  Lemma data_rows_shift p ptr (l1 l2 : list K) : p = length l1 ->
    data_rows K (map (fun k => p + k) ptr) (l1 ++ l2) = data_rows K ptr l2.
  Proof.
    intros ->. induction ptr as [|a ptr IH]; [reflexivity|]. destruct ptr as [|b ptr]; [reflexivity|].
    cbn [map]. rewrite !data_rows_cons, slice_shift. cbn [map] in IH. rewrite IH. reflexivity.
  Qed.

  Lemma slice_first {A} (l1 l2 : list A) : slice 0 (length l1) (l1 ++ l2) = l1.
  Proof. unfold slice. cbn. rewrite Nat.sub_0_r, firstn_app, firstn_all, Nat.sub_diag, firstn_O, app_nil_r. reflexivity. Qed.

  Lemma index_ok off : forall (rows : list (list (nat * K))) row,
    index_rows row (map (fun k => nsum (map (@length _) (firstn k rows))) (seq 0 (S (length rows)))) (map fst (concat rows)) off
    = interleave (flat_map (fun p => map (fun e => (fst p, fst e + off)) (snd p)) (combine (seq row (length rows)) rows)).
  Proof.
    induction rows as [|r rows IH]; intros row; [reflexivity|].
    cbn [length]. rewrite indptr_cons. set (ptr := map _ (seq 0 (S (length rows)))) in *.
    cbn [concat seq combine flat_map fst snd]. rewrite map_app.
    assert (Hp : exists ptr', ptr = 0 :: ptr') by (eexists; reflexivity). destruct Hp as [ptr' Hptr].
    assert (Hm : map (fun k => length r + k) ptr = length r :: map (fun k => length r + k) ptr') by (rewrite Hptr; cbn; rewrite Nat.add_0_r; reflexivity).
    rewrite Hm, index_rows_cons.
    replace (slice 0 (length r) (map fst r ++ map fst (concat rows))) with (map fst r)
      by (rewrite <- (map_length fst r); symmetry; apply slice_first).
    rewrite <- Hm, (index_rows_shift (S row) (length r) ptr (map fst r)) by (symmetry; apply map_length).
    rewrite IH. unfold interleave. rewrite flat_map_app. f_equal. 
    clear. induction r as [|e r IHr]; [reflexivity|]. cbn. rewrite IHr. reflexivity.
  Qed.

  Lemma data_ok : forall (rows : list (list (nat * K))),
    data_rows K (map (fun k => nsum (map (@length _) (firstn k rows))) (seq 0 (S (length rows)))) (map snd (concat rows))
    = map snd (concat rows).
  Proof.
    induction rows as [|r rows IH]; [reflexivity|].
    cbn [length]. rewrite indptr_cons. set (ptr := map _ (seq 0 (S (length rows)))) in *.
    cbn [concat]. rewrite map_app.
    assert (Hp : exists ptr', ptr = 0 :: ptr') by (eexists; reflexivity). destruct Hp as [ptr' Hptr].
    assert (Hm : map (fun k => length r + k) ptr = length r :: map (fun k => length r + k) ptr') by (rewrite Hptr; cbn; rewrite Nat.add_0_r; reflexivity).
    rewrite Hm, data_rows_cons.
    replace (slice 0 (length r) (map snd r ++ map snd (concat rows))) with (map snd r)
      by (rewrite <- (map_length snd r); symmetry; apply slice_first).
    rewrite <- Hm, (data_rows_shift (length r) ptr (map snd r)) by (symmetry; apply map_length).
    rewrite IH. reflexivity.
  Qed.

  Lemma to_index_ok (rows : list (list (nat * K))) off :
    to_qmcpack_index K (arrays rows) off =
    (map snd (concat rows),
     interleave (flat_map (fun p => map (fun e => (fst p, fst e + off)) (snd p)) (combine (seq 0 (length rows)) rows))).
  Proof. unfold to_qmcpack_index, arrays. rewrite data_ok, index_ok. reflexivity. Qed.

End Index.

(** ** Old one-body format *)
Section Old.
  Variables (K : Type) (zero : K) (add : K -> K -> K) (conj : K -> K).
  Hypothesis add_0_r : forall x, add x zero = x.
  Hypothesis add_0_l : forall x, add zero x = x.

  Lemma unpack_old_ok (h : nat -> nat -> K) : conj zero = zero -> (forall i j, h j i = conj (h i j)) ->
    forall i j, unpack_old K zero add conj h i j = h i j.
  Proof.
    intros H0 Hh i j. unfold unpack_old. destruct (Nat.ltb_spec j i), (Nat.leb_spec i j); try lia.
    - rewrite H0. apply add_0_r.
    - rewrite <- Hh. apply add_0_l.
  Qed.
End Old.
