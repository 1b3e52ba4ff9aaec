(** Proofs about the mixed estimator. *)
From Coq Require Import String.
From Verif Require Import CplxFacts Mixed_Model Mixed_Spec.
Open Scope nat_scope.

Definition at_pos (j : nat) (a : list (nat * C)) : C := Csum (map snd (filter (fun x => fst x =? j) a)).
Lemma at_pos_app j a b : at_pos j (a ++ b) =c= (at_pos j a + at_pos j b)%C.
Proof. unfold at_pos. rewrite filter_app, map_app, Csum_app. reflexivity. Qed.
Lemma at_pos_cons j x a : at_pos j (x :: a) =c= ((if fst x =? j then snd x else C0) + at_pos j a)%C.
Proof. unfold at_pos. simpl. destruct (fst x =? j); simpl; ring. Qed.

Lemma get_upd i j v es : i < List.length es -> get j (upd i v es) = if i =? j then v else get j es.
Proof.
  intros Hi. unfold get. destruct (Nat.eqb_spec i j) as [->|N].
  - apply nth_error_nth. apply nth_error_upd_eq. exact Hi.
  - assert (E : nth_error (upd i v es) j = nth_error es j) by (apply nth_error_upd_ne; auto).
    destruct (nth_error es j) eqn:E2.
    + rewrite (nth_error_nth _ _ C0 E), (nth_error_nth _ _ C0 E2). reflexivity.
    + apply nth_error_None in E. apply nth_error_None in E2. rewrite !nth_overflow by assumption. reflexivity.
Qed.

Lemma fold_addat a : forall es, Forall (fun x => fst x < List.length es) a ->
  List.length (fold_left addat a es) = List.length es /\
  forall j, get j (fold_left addat a es) =c= (get j es + at_pos j a)%C.
Proof.
  induction a as [|x a IH]; intros es H; cbn [fold_left].
  - split; [reflexivity|]. intros j. unfold at_pos; simpl. ring.
  - inversion H as [|? ? H1 H2]; subst.
    assert (L : List.length (addat es x) = List.length es) by (unfold addat; apply length_upd).
    destruct (IH (addat es x)) as [L2 G]; [rewrite L; exact H2|].
    split; [lia|]. intros j. rewrite G, at_pos_cons. unfold addat. rewrite get_upd by exact H1.
    destruct (Nat.eqb_spec (fst x) j) as [->|N]; ring.
Qed.

Definition contrib (o : opts) (s j : nat) (m : meas) : C :=
  match walker_adds o s m with Ok a => at_pos j a | Err _ => C0 end.

Lemma slice_lt start vals n : start + List.length vals <= n -> Forall (fun x => fst x < n) (slice_adds start vals).
Proof.
  intros H. apply Forall_forall. intros [i v] Hin. unfold slice_adds in Hin.
  apply in_combine_l in Hin. apply in_seq in Hin. simpl. lia.
Qed.
Lemma slice_at_lo start vals j : j < start -> at_pos j (slice_adds start vals) = C0.
Proof.
  intros H. unfold at_pos, slice_adds.
  assert (filter (fun x : nat * C => fst x =? j) (combine (seq start (List.length vals)) vals) = []) as ->; [|reflexivity].
  apply filter_none. intros [i v] Hin. apply in_combine_l in Hin. apply in_seq in Hin. simpl. apply Nat.eqb_neq. lia.
Qed.
Lemma slice_at start vals : forall i, i < List.length vals -> at_pos (start + i) (slice_adds start vals) =c= nth i vals C0.
Proof.
  revert start. induction vals as [|v vals IH]; intros start i Hi; simpl in Hi; [lia|].
  unfold slice_adds. cbn [List.length seq combine]. rewrite at_pos_cons. cbn [fst snd].
  destruct i as [|i].
  - rewrite Nat.add_0_r, Nat.eqb_refl. fold (slice_adds (S start) vals). rewrite slice_at_lo by lia. simpl. ring.
  - destruct (Nat.eqb_spec start (start + S i)) as [E|E]; [lia|].
    replace (start + S i) with (S start + i) by lia.
    fold (slice_adds (S start) vals). rewrite (IH (S start) i) by lia. simpl. ring.
Qed.

Arguments nreg : simpl never.
Lemma nreg_val th : nreg th = if th then 11 else 10.
Proof. destruct th; reflexivity. Qed.
Lemma ix_time th : S (ix th Ktime) = nreg th.
Proof. destruct th; reflexivity. Qed.

Lemma walker_adds_ok o s m : good o -> shaped o m ->
  exists a, walker_adds o s m = Ok a /\ Forall (fun x => fst x < size o) a.
Proof.
  intros [Hf Hr] [S1 S2]. unfold walker_adds.
  assert (E0 : (o_freq o =? 0) = false) by (apply Nat.eqb_neq; lia).
  assert (Hn : nreg (o_thermal o) <= size o) by (unfold size; lia).
  rewrite nreg_val in Hn. rewrite E0, andb_false_r.
  destruct (o_fp o).
  - eexists. split; [reflexivity|]. unfold adds_fp.
    destruct (o_thermal o), (s mod o_freq o =? 0), (o_eval o); simpl;
      repeat (constructor; [vm_compute fst; lia|]); constructor.
  - assert (A : exists r, adds_rdm o m = Ok r /\ Forall (fun x => fst x < size o) r).
    { unfold adds_rdm, size in *. rewrite ix_time.
      destruct (o_rdm1 o) as [n1|] eqn:E1, (o_rdm2 o) as [n2|] eqn:E2.
      - specialize (S1 _ eq_refl). specialize (S2 _ eq_refl).
        eexists. split; [reflexivity|]. apply Forall_app. split; apply slice_lt; rewrite map_length; lia.
      - specialize (S1 _ eq_refl). eexists. split; [reflexivity|]. apply slice_lt. rewrite map_length; lia.
      - exfalso. apply Hr; [discriminate|reflexivity].
      - eexists. split; [reflexivity|constructor]. }
    destruct A as (r & -> & Hr'). cbn [rbind]. eexists. split; [reflexivity|].
    apply Forall_app. split; [|apply Forall_app; split; [|exact Hr']].
    + unfold adds_energy. destruct (o_thermal o), (o_avg_gf o), (s mod o_freq o =? 0), (o_eval o); simpl;
        repeat (constructor; [vm_compute fst; lia|]); constructor.
    + unfold adds_common. destruct (o_thermal o); simpl; repeat (constructor; [vm_compute fst; lia|]); constructor.
Qed.

Lemma update_ok o s ws : good o -> Forall (shaped o) ws -> forall es, List.length es = size o ->
  exists es', update o s es ws = Ok es' /\ List.length es' = size o /\
    forall j, get j es' =c= (get j es + Csum (map (contrib o s j) ws))%C.
Proof.
  intros Hg. induction ws as [|m ws IH]; intros Hs es Hl.
  - exists es. repeat split; auto; simpl; intros; ring.
  - inversion Hs as [|? ? H1 H2]; subst. simpl.
    destruct (walker_adds_ok o s m Hg H1) as (a & Ha & Hlt).
    unfold update_walker. rewrite Ha. simpl.
    destruct (fold_addat a es) as [L G]; [rewrite Hl; exact Hlt|].
    destruct (IH H2 (fold_left addat a es)) as (es' & E & L' & G'); [lia|].
    exists es'. split; [exact E|]. split; [exact L'|]. intros j. rewrite G', G.
    unfold contrib at 2. rewrite Ha. ring.
Qed.

Definition flat_contrib (o : opts) (j : nat) (sm : nat * meas) : C := contrib o (fst sm) j (snd sm).

Lemma update_all_ok o h : good o -> Forall (fun sw => Forall (shaped o) (snd sw)) h -> forall es, List.length es = size o ->
  exists es', update_all o es h = Ok es' /\ List.length es' = size o /\
    forall j, get j es' =c= (get j es + Csum (map (flat_contrib o j) (flat h)))%C.
Proof.
  intros Hg. induction h as [|[s ws] h IH]; intros Hs es Hl.
  - exists es. repeat split; auto; simpl; intros; ring.
  - inversion Hs as [|? ? H1 H2]; subst. simpl in H1. simpl.
    destruct (update_ok o s ws Hg H1 es Hl) as (e1 & E1 & L1 & G1). rewrite E1. simpl.
    destruct (IH H2 e1 L1) as (e2 & E2 & L2 & G2). exists e2. split; [exact E2|]. split; [exact L2|].
    intros j. rewrite G2, G1. rewrite map_app, Csum_app, map_map.
    unfold flat_contrib at 2. simpl. fold (flat_contrib o j).
    change (map (fun x : meas => contrib o s j x) ws) with (map (contrib o s j) ws). ring.
Qed.

Lemma get_zeros n j : get j (repeat C0 n) = C0.
Proof. unfold get. revert j. induction n; destruct j; simpl; auto. Qed.

Definition scale_at (o : opts) (j : nat) : bool :=
  let p := ix (o_thermal o) in in_slice (p Kuweight) (p Kweight + 1) j || in_slice (p Kehyb) (p Ktime + 1) j.

Lemma get_map_seq f n j : j < n -> get j (map f (seq 0 n)) = f j.
Proof.
  intros H. unfold get. rewrite nth_indep with (d' := f 0) by (rewrite map_length, seq_length; exact H).
  rewrite map_nth, seq_nth by exact H. reflexivity.
Qed.

Lemma reduced_ok o n hs : good o -> 0 < n -> Forall (Forall (fun sw => Forall (shaped o) (snd sw))) hs ->
  exists gs, reduced o n hs = Ok gs /\ List.length gs = size o /\
    forall j, j < size o ->
      get j gs =c= (if scale_at o j then Csum (map (flat_contrib o j) (all_meas hs)) / Cof (q_of_nat n)
                    else Csum (map (flat_contrib o j) (all_meas hs)))%C.
Proof.
  intros Hg Hn. unfold reduced.
  match goal with |- context [?F hs []] => set (go := F) end.
  enough (M : forall hs acc accm, Forall (Forall (fun sw => Forall (shaped o) (snd sw))) hs ->
     List.length acc = List.length accm ->
     (forall i es h, nth_error acc i = Some es -> nth_error accm i = Some h -> List.length es = size o /\
         forall j, get j es =c= Csum (map (flat_contrib o j) (flat h))) ->
     exists gs, go hs acc = Ok gs /\ List.length gs = size o /\
      forall j, j < size o ->
      get j gs =c= (if scale_at o j then Csum (map (flat_contrib o j) (flat_map flat (rev accm ++ hs))) / Cof (q_of_nat n)
                    else Csum (map (flat_contrib o j) (flat_map flat (rev accm ++ hs))))%C).
  { intros Hs. destruct (M hs [] [] Hs eq_refl) as (gs & E & L & G).
    - intros [|i] es h H; discriminate.
    - exists gs. split; [exact E|]. split; [exact L|]. intros j Hj. rewrite (G j Hj). reflexivity. }
  clear hs. induction hs as [|h hs IH]; intros acc accm Hs Hlen Hacc.
  - subst go. simpl. eexists. split; [reflexivity|]. unfold reduce. split; [rewrite map_length, seq_length; reflexivity|].
    intros j Hj. rewrite get_map_seq by exact Hj. rewrite map_map, app_nil_r.
    assert (S1 : forall es, List.length es = size o -> get j (scaled o n es) = if scale_at o j then (get j es / Cof (q_of_nat n))%C else get j es).
    { intros es He. unfold scaled. rewrite get_map_seq by lia. reflexivity. }
    assert (Hq : ~ Cof (q_of_nat n) =c= C0).
    { apply Cof_neq0. pose proof (q_of_nat_lt 0 n) as Q0. assert (0 < q_of_nat n)%Q by (apply Q0; lia). lra. }
    clear Hs.
    assert (Csum (map (fun x => get j (scaled o n x)) acc) =c=
            if scale_at o j then (Csum (map (flat_contrib o j) (flat_map flat accm)) / Cof (q_of_nat n))%C
            else Csum (map (flat_contrib o j) (flat_map flat accm))) as E.
    { revert accm Hlen Hacc. induction acc as [|es acc IHa]; intros [|h accm] Hlen Hacc; simpl in Hlen; try lia.
      - simpl. destruct (scale_at o j); field; exact Hq.
      - simpl. destruct (Hacc 0 es h eq_refl eq_refl) as [L0 G0].
        assert (IHa' := IHa accm). rewrite IHa'; [|lia|intros i; exact (Hacc (S i))].
        rewrite S1 by exact L0. rewrite map_app. destruct (scale_at o j); rewrite Csum_app, (G0 j); field; exact Hq. }
    rewrite (Csum_perm (map (fun x => get j (scaled o n x)) (rev acc)) (map (fun x => get j (scaled o n x)) acc))
      by (apply Permutation_map, Permutation_sym, Permutation_rev).
    rewrite E.
    assert (P : Csum (map (flat_contrib o j) (flat_map flat (rev accm))) =c= Csum (map (flat_contrib o j) (flat_map flat accm))).
    { rewrite !Csum_flat_map. apply Csum_perm, Permutation_map, Permutation_sym, Permutation_rev. }
    destruct (scale_at o j); rewrite P; reflexivity.
  - inversion Hs as [|? ? H1 H2]; subst.
    destruct (update_all_ok o h Hg H1 (zeros o)) as (es & E & L & G); [apply repeat_length|].
    assert (go (h :: hs) acc = go hs (es :: acc)) as -> by (subst go; simpl; rewrite E; reflexivity).
    destruct (IH (es :: acc) (h :: accm) H2) as (gs & E' & L' & G'); [simpl; lia| |].
    + intros [|i] e1 h1 A B; [|exact (Hacc i e1 h1 A B)].
      injection A as <-. injection B as <-. split; [exact L|]. intros j. rewrite G. unfold zeros. rewrite get_zeros. ring.
    + exists gs. split; [exact E'|]. split; [exact L'|]. intros j Hj. specialize (G' j Hj). simpl rev in G'.
      rewrite <- app_assoc in G'. exact G'.
Qed.

Lemma printed_ok o n hs : good o -> 0 < n -> Forall (Forall (fun sw => Forall (shaped o) (snd sw))) hs ->
  exists gs, printed o n hs = Ok (finish o gs) /\ List.length gs = size o /\
    forall j, j < size o ->
      get j gs =c= (if scale_at o j then Csum (map (flat_contrib o j) (all_meas hs)) / Cof (q_of_nat n)
                    else Csum (map (flat_contrib o j) (all_meas hs)))%C.
Proof.
  intros A B H. destruct (reduced_ok o n hs A B H) as (gs & E & L & G). exists gs.
  split; [unfold printed; rewrite E; reflexivity|]. split; assumption.
Qed.

(** Value of the sums entering each column. *)
Lemma contrib_rdm_lo o m j r : adds_rdm o m = Ok r -> j < nreg (o_thermal o) -> at_pos j r =c= C0.
Proof.
  unfold adds_rdm. rewrite ix_time. intros H Hj.
  destruct (o_rdm1 o), (o_rdm2 o); try discriminate; apply Ok_inj in H; subst r.
  - rewrite at_pos_app, !slice_at_lo by lia. ring.
  - rewrite slice_at_lo by lia. reflexivity.
  - reflexivity.
Qed.

Lemma contrib_lo o s m j : good o -> shaped o m -> j < nreg (o_thermal o) ->
  contrib o s j m =c= if o_fp o then at_pos j (adds_fp o s m) else (at_pos j (adds_energy o s m) + at_pos j (adds_common o m))%C.
Proof.
  intros Hg Hs Hj. destruct (walker_adds_ok o s m Hg Hs) as (a & Ha & _). unfold contrib. rewrite Ha.
  unfold walker_adds in Ha. destruct (o_fp o).
  - destruct (o_freq o =? 0); [discriminate|]. apply Ok_inj in Ha; subst a. reflexivity.
  - destruct (negb (o_thermal o) && (o_freq o =? 0)); [discriminate|].
    apply rbind_ok in Ha. destruct Ha as (r & Hr & Ha). apply Ok_inj in Ha; subst a.
    rewrite !at_pos_app, (contrib_rdm_lo _ _ _ _ Hr Hj). ring.
Qed.

Definition opt (b : bool) (c : C) : C := if b then c else C0.

Ltac unf := unfold adds_fp, adds_energy, adds_common, at_pos, measured, ewt, wt, en, opt.
Lemma contrib_energy o s m : good o -> shaped o m -> averages_energy o -> o_eval o = true ->
  contrib o s (ix (o_thermal o) Kenumer) m =c= opt (measured o s) (ewt o m * en o m_E m)%C /\
  contrib o s (ix (o_thermal o) Ke1b) m =c= opt (measured o s) (ewt o m * en o m_T m)%C /\
  contrib o s (ix (o_thermal o) Ke2b) m =c= opt (measured o s) (ewt o m * en o m_V m)%C /\
  contrib o s (ix (o_thermal o) Kedenom) m =c= opt (measured o s) (ewt o m).
Proof.
  intros Hg Hs Ha He.
  refine (conj _ (conj _ (conj _ _))); (rewrite contrib_lo; [|assumption|assumption|destruct (o_thermal o); vm_compute; lia]);
  unf; rewrite He; destruct Ha as [A|[A|A]]; rewrite A; try destruct (o_fp o); try destruct (o_thermal o); try destruct (o_avg_gf o);
  simpl; destruct (s mod o_freq o =? 0); simpl; cbv [ix index_of keys key_eqb Nat.eqb app filter map snd fst Csum fold_right]; ring.
Qed.
Lemma contrib_weight o s m : good o -> shaped o m ->
  contrib o s (ix (o_thermal o) Kweight) m =c= wt o m /\
  contrib o s (ix (o_thermal o) Kuweight) m =c= Cof (m_unscaled m) /\
  contrib o s (ix (o_thermal o) Kehyb) m =c= (wt o m * m_hyb m)%C /\
  contrib o s (ix (o_thermal o) Kovlp) m =c= Cof (m_weight m * m_absot m) /\
  (o_thermal o = true -> averages_energy o -> contrib o s (ix (o_thermal o) Knav) m =c= (wt o m * m_nav m)%C).
Proof.
  intros Hg Hs.
  assert (L : forall k, k <> Knav \/ o_thermal o = true -> ix (o_thermal o) k < nreg (o_thermal o)).
  { intros k Hk. destruct (o_thermal o), k; vm_compute; try lia. destruct Hk as [Hk|Hk]; [congruence|discriminate]. }
  refine (conj _ (conj _ (conj _ (conj _ _)))).
  5: intros Ht Ha.
  all: (rewrite contrib_lo; [|assumption|assumption|apply L; (left; discriminate) || (right; assumption)]).
  5: { unf. rewrite Ht. destruct Ha as [A|[A|A]]; [|congruence|]; rewrite A;
       try destruct (o_fp o); simpl; destruct (s mod o_freq o =? 0); try destruct (o_eval o);
       cbv [ix index_of keys key_eqb Nat.eqb app filter map snd fst Csum fold_right]; ring. }
  all: unf; destruct (o_fp o), (o_thermal o), (o_avg_gf o), (s mod o_freq o =? 0), (o_eval o);
       simpl; cbv [ix index_of keys key_eqb Nat.eqb app filter map snd fst Csum fold_right]; ring.
Qed.

Lemma sum_opt (o : opts) (f : meas -> C) (l : list (nat * meas)) (g : nat * meas -> C) :
  (forall sm, In sm l -> g sm =c= opt (measured o (fst sm)) (f (snd sm))) ->
  Csum (map g l) =c= Csum (map f (map snd (filter (fun sm => measured o (fst sm)) l))).
Proof.
  induction l as [|x l IH]; intros H; simpl; [reflexivity|].
  rewrite IH by (intros; apply H; right; assumption). rewrite (H x) by (left; reflexivity). unfold opt.
  destruct (measured o (fst x)); simpl; ring.
Qed.

Lemma nth_map_seq {A} (f : nat -> A) n j d : j < n -> nth j (map f (seq 0 n)) d = f j.
Proof.
  intros H. rewrite nth_indep with (d' := f 0) by (rewrite map_length, seq_length; exact H).
  rewrite map_nth, seq_nth by exact H. reflexivity.
Qed.

Lemma odiv_value a b c d : a =c= c -> b =c= d -> ~ d =c= C0 -> is_value (odiv a b) (c / d)%C.
Proof.
  intros H1 H2 N. unfold odiv. destruct (Ceqb b C0) eqn:E.
  - apply Ceqb_spec in E. exfalso. apply N. rewrite <- H2. exact E.
  - eexists. split; [reflexivity|]. rewrite H1, H2. reflexivity.
Qed.
Lemma odiv_none a b d : b =c= d -> d =c= C0 -> odiv a b = None.
Proof. intros H N. unfold odiv. destruct (Ceqb b C0) eqn:E; [reflexivity|]. exfalso.
  assert (b =c= C0) as X by (rewrite H; exact N). apply Ceqb_spec in X. congruence. Qed.

Lemma finish_columns o gs : List.length gs = size o ->
  column o (finish o gs) Kuweight = Some (get (ix (o_thermal o) Kuweight) gs) /\
  column o (finish o gs) Kweight = Some (get (ix (o_thermal o) Kweight) gs) /\
  column o (finish o gs) Kenumer = Some (get (ix (o_thermal o) Kenumer) gs) /\
  column o (finish o gs) Kedenom = Some (get (ix (o_thermal o) Kedenom) gs) /\
  column o (finish o gs) Keproj = odiv (get (ix (o_thermal o) Kenumer) gs) (get (ix (o_thermal o) Kedenom) gs) /\
  column o (finish o gs) Ke1b = odiv (get (ix (o_thermal o) Ke1b) gs) (get (ix (o_thermal o) Kedenom) gs) /\
  column o (finish o gs) Ke2b = odiv (get (ix (o_thermal o) Ke2b) gs) (get (ix (o_thermal o) Kedenom) gs) /\
  column o (finish o gs) Kehyb = odiv (get (ix (o_thermal o) Kehyb) gs) (get (ix (o_thermal o) Kweight) gs) /\
  column o (finish o gs) Kovlp = odiv (get (ix (o_thermal o) Kovlp) gs) (get (ix (o_thermal o) Kweight) gs) /\
  (o_thermal o = true -> column o (finish o gs) Knav = odiv (get (ix (o_thermal o) Knav) gs) (get (ix (o_thermal o) Kweight) gs)).
Proof.
  intros L. assert (Hn : nreg (o_thermal o) <= List.length gs) by (unfold size in L; lia).
  rewrite nreg_val in Hn. unfold column, finish.
  repeat match goal with |- _ /\ _ => split end; try (intros Ht);
    destruct (o_thermal o) eqn:Et; try discriminate;
    (rewrite nth_map_seq by (vm_compute; lia)); rewrite !get_upd by (cbv [ix index_of keys key_eqb Nat.eqb app]; lia);
    reflexivity.
Qed.

Lemma in_shaped o hs sm : Forall (Forall (fun sw => Forall (shaped o) (snd sw))) hs -> In sm (all_meas hs) -> shaped o (snd sm).
Proof.
  intros H Hin. unfold all_meas in Hin. apply in_flat_map in Hin. destruct Hin as (h & Hh & Hin).
  rewrite Forall_forall in H. specialize (H h Hh). unfold flat in Hin. apply in_flat_map in Hin.
  destruct Hin as ([s ws] & Hsw & Hin). rewrite Forall_forall in H. specialize (H _ Hsw). simpl in H, Hin.
  apply in_map_iff in Hin. destruct Hin as (m & <- & Hm). rewrite Forall_forall in H. exact (H m Hm).
Qed.


Theorem mixed_sums o n hs : good o -> 0 < n -> all_shaped o hs -> averages_energy o -> o_eval o = true ->
  let D := wtot (ewt o) (energy_meas o hs) in let W := wtot (wt o) (every_meas hs) in
  exists row, printed o n hs = Ok row /\
    is_value (column o row Kenumer) (wsum (ewt o) (en o m_E) (energy_meas o hs)) /\
    is_value (column o row Kedenom) D /\
    is_value (column o row Kweight) (W / Cof (q_of_nat n))%C /\
    is_value (column o row Kuweight) (Csum (map (fun m => Cof (m_unscaled m)) (every_meas hs)) / Cof (q_of_nat n))%C /\
    (~ D =c= C0 ->
       is_value (column o row Keproj) (wsum (ewt o) (en o m_E) (energy_meas o hs) / D)%C /\
       is_value (column o row Ke1b) (wsum (ewt o) (en o m_T) (energy_meas o hs) / D)%C /\
       is_value (column o row Ke2b) (wsum (ewt o) (en o m_V) (energy_meas o hs) / D)%C) /\
    (D =c= C0 -> column o row Keproj = None) /\
    (~ W =c= C0 ->
       is_value (column o row Kehyb) (wsum (wt o) m_hyb (every_meas hs) / W)%C /\
       is_value (column o row Kovlp) (Csum (map (fun m => Cof (m_weight m * m_absot m)) (every_meas hs)) / W)%C /\
       (o_thermal o = true -> is_value (column o row Knav) (wsum (wt o) m_nav (every_meas hs) / W)%C)).
Proof.
  intros Hg Hn Hs Ha He D W.
  destruct (printed_ok o n hs Hg Hn Hs) as (gs & E & L & G). exists (finish o gs). split; [exact E|].
  destruct (finish_columns o gs L) as (F1 & F2 & F3 & F4 & F5 & F6 & F7 & F8 & F9 & F10).
  assert (Hq : ~ Cof (q_of_nat n) =c= C0).
  { apply Cof_neq0. pose proof (q_of_nat_lt 0 n) as Q0. assert (0 < q_of_nat n)%Q by (apply Q0; lia). lra. }
  assert (Hn1 : nreg (o_thermal o) <= size o) by (unfold size; lia). rewrite nreg_val in Hn1.
  assert (Lk : forall k, k <> Knav \/ o_thermal o = true -> ix (o_thermal o) k < size o).
  { intros k Hk. destruct (o_thermal o), k; cbv [ix index_of keys key_eqb app]; try lia. destruct Hk as [Hk|Hk]; [congruence|discriminate]. }
  assert (SE : forall k f, ix (o_thermal o) k < size o -> scale_at o (ix (o_thermal o) k) = false ->
     (forall s m, shaped o m -> contrib o s (ix (o_thermal o) k) m =c= opt (measured o s) (f m)) ->
     get (ix (o_thermal o) k) gs =c= Csum (map f (energy_meas o hs))).
  { intros k f Hk Sc Hf. rewrite (G _ Hk), Sc. unfold energy_meas. apply sum_opt.
    intros sm Hin. apply Hf. eapply in_shaped; eassumption. }
  assert (SW : forall k f, ix (o_thermal o) k < size o -> scale_at o (ix (o_thermal o) k) = true ->
     (forall s m, shaped o m -> contrib o s (ix (o_thermal o) k) m =c= f m) ->
     get (ix (o_thermal o) k) gs =c= (Csum (map f (every_meas hs)) / Cof (q_of_nat n))%C).
  { intros k f Hk Sc Hf. rewrite (G _ Hk), Sc. unfold every_meas. rewrite map_map.
    rewrite (Csum_map_ext (flat_contrib o (ix (o_thermal o) k)) (fun x => f (snd x))); [reflexivity|].
    intros sm Hin. apply Hf. eapply in_shaped; eassumption. }
  assert (Sct : forall k, k <> Knav \/ o_thermal o = true ->
     scale_at o (ix (o_thermal o) k) = match k with Kuweight | Kweight | Kehyb | Kovlp | Knav | Ktime => true | _ => false end).
  { intros k Hk. unfold scale_at. destruct (o_thermal o), k; try reflexivity. destruct Hk; congruence. }
  assert (VE : get (ix (o_thermal o) Kenumer) gs =c= wsum (ewt o) (en o m_E) (energy_meas o hs)).
  { apply SE; [apply Lk; left; discriminate|apply Sct; left; discriminate|]. intros s m Hm. apply contrib_energy; assumption. }
  assert (VT : get (ix (o_thermal o) Ke1b) gs =c= wsum (ewt o) (en o m_T) (energy_meas o hs)).
  { apply SE; [apply Lk; left; discriminate|apply Sct; left; discriminate|]. intros s m Hm. apply contrib_energy; assumption. }
  assert (VV : get (ix (o_thermal o) Ke2b) gs =c= wsum (ewt o) (en o m_V) (energy_meas o hs)).
  { apply SE; [apply Lk; left; discriminate|apply Sct; left; discriminate|]. intros s m Hm. apply contrib_energy; assumption. }
  assert (VD : get (ix (o_thermal o) Kedenom) gs =c= D).
  { apply SE; [apply Lk; left; discriminate|apply Sct; left; discriminate|]. intros s m Hm. apply contrib_energy; assumption. }
  assert (VW : get (ix (o_thermal o) Kweight) gs =c= (W / Cof (q_of_nat n))%C).
  { apply SW; [apply Lk; left; discriminate|apply Sct; left; discriminate|]. intros s m Hm. apply contrib_weight; assumption. }
  assert (VU : get (ix (o_thermal o) Kuweight) gs =c= (Csum (map (fun m => Cof (m_unscaled m)) (every_meas hs)) / Cof (q_of_nat n))%C).
  { apply SW; [apply Lk; left; discriminate|apply Sct; left; discriminate|]. intros s m Hm. apply contrib_weight; assumption. }
  assert (VH : get (ix (o_thermal o) Kehyb) gs =c= (wsum (wt o) m_hyb (every_meas hs) / Cof (q_of_nat n))%C).
  { apply SW; [apply Lk; left; discriminate|apply Sct; left; discriminate|]. intros s m Hm. apply contrib_weight; assumption. }
  assert (VO : get (ix (o_thermal o) Kovlp) gs =c= (Csum (map (fun m => Cof (m_weight m * m_absot m)) (every_meas hs)) / Cof (q_of_nat n))%C).
  { apply SW; [apply Lk; left; discriminate|apply Sct; left; discriminate|]. intros s m Hm. apply contrib_weight; assumption. }
  assert (VN : o_thermal o = true -> get (ix (o_thermal o) Knav) gs =c= (wsum (wt o) m_nav (every_meas hs) / Cof (q_of_nat n))%C).
  { intros Ht. apply SW; [apply Lk; right; exact Ht|apply Sct; right; exact Ht|]. intros s m Hm. apply contrib_weight; assumption. }
  rewrite F1, F2, F3, F4, F5, F6, F7, F8, F9.
  refine (conj _ (conj _ (conj _ (conj _ (conj _ (conj _ _)))))).
  - eexists; split; [reflexivity|exact VE].
  - eexists; split; [reflexivity|exact VD].
  - eexists; split; [reflexivity|exact VW].
  - eexists; split; [reflexivity|exact VU].
  - intros HD. refine (conj _ (conj _ _)); apply odiv_value; assumption.
  - intros HD. apply odiv_none with D; assumption.
  - intros HW.
    assert (HW' : ~ (W / Cof (q_of_nat n))%C =c= C0).
    { intros X. apply HW. assert (Y : (W =c= W / Cof (q_of_nat n) * Cof (q_of_nat n))%C) by (field; exact Hq).
      rewrite Y, X. ring. }
    assert (K : forall a b, a =c= (b / Cof (q_of_nat n))%C -> is_value (odiv a (get (ix (o_thermal o) Kweight) gs)) (b / W)%C).
    { intros a b Hab. destruct (odiv_value a (get (ix (o_thermal o) Kweight) gs) _ _ Hab VW HW') as (z & Hz & Ez).
      exists z. split; [exact Hz|]. rewrite Ez. field. split; assumption. }
    refine (conj _ (conj _ _)); [apply K; exact VH|apply K; exact VO|].
    intros Ht. rewrite (F10 Ht). apply K. exact (VN Ht).
Qed.

Theorem mixed_total o n hs : good o -> 0 < n -> all_shaped o hs -> averages_energy o -> o_eval o = true ->
  (forall m, In m (energy_meas o hs) -> m_E m =c= (m_T m + m_V m)%C) ->
  ~ wtot (ewt o) (energy_meas o hs) =c= C0 ->
  exists row e t v, printed o n hs = Ok row /\ column o row Keproj = Some e /\ column o row Ke1b = Some t /\
    column o row Ke2b = Some v /\ e =c= (t + v)%C.
Proof.
  intros Hg Hn Hs Ha He HE HD.
  destruct (mixed_sums o n hs Hg Hn Hs Ha He) as (row & E & _ & _ & _ & _ & M & _).
  destruct (M HD) as ((e & E1 & V1) & (t & E2 & V2) & (v & E3 & V3)).
  exists row, e, t, v. repeat (split; [assumption|]). rewrite V1, V2, V3.
  assert (S : wsum (ewt o) (en o m_E) (energy_meas o hs) =c=
     (wsum (ewt o) (en o m_T) (energy_meas o hs) + wsum (ewt o) (en o m_V) (energy_meas o hs))%C).
  { unfold wsum. rewrite <- Csum_map_add. apply Csum_map_ext. intros m Hm.
    unfold en, real. destruct (o_fp o); [rewrite (HE m Hm); ring|].
    assert (R : (re (m_E m) == re (m_T m) + re (m_V m))%Q) by (rewrite (HE m Hm); reflexivity).
    rewrite R, Cof_add. ring. }
  rewrite S. field. exact HD.
Qed.

Lemma get_upd_eq i j v w es es' : List.length es = List.length es' -> v =c= w ->
  (forall k, get k es =c= get k es') -> get j (upd i v es) =c= get j (upd i w es').
Proof.
  intros L V H. destruct (Nat.lt_ge_cases i (List.length es)) as [Hi|Hi].
  - rewrite !get_upd by lia. destruct (i =? j); auto.
  - assert (forall (l : list C) x, List.length l <= i -> upd i x l = l) as U.
    { intros l x. revert i Hi. clear. intros i _. revert i. induction l; intros [|i]; simpl; intros; try lia; f_equal; auto.
      apply IHl. lia. }
    rewrite !U by lia. apply H.
Qed.

Lemma finish_same o gs gs' : List.length gs = size o -> List.length gs' = size o ->
  (forall j, j < size o -> get j gs =c= get j gs') ->
  Forall2 same_entry (finish o gs) (finish o gs').
Proof.
  intros L L' H.
  assert (H2 : forall j, get j gs =c= get j gs').
  { intros j. destruct (Nat.lt_ge_cases j (size o)) as [A|A]; [auto|]. unfold get. rewrite !nth_overflow by lia. reflexivity. }
  assert (OD : forall a b c d, a =c= c -> b =c= d -> same_entry (odiv a b) (odiv c d)).
  { intros a b c d A B. unfold odiv. destruct (Ceqb b C0) eqn:E1, (Ceqb d C0) eqn:E2; simpl; auto.
    - apply Ceqb_spec in E1. rewrite B in E1. apply Ceqb_spec in E1. congruence.
    - apply Ceqb_spec in E2. rewrite <- B in E2. apply Ceqb_spec in E2. congruence.
    - rewrite A, B. reflexivity. }
  unfold finish. set (p := ix (o_thermal o)).
  assert (U : forall k, get k (upd (p Keproj) (get (p Kenumer) gs) gs) =c= get k (upd (p Keproj) (get (p Kenumer) gs') gs')).
  { intros k. apply get_upd_eq; auto; lia. }
  generalize (seq 0 (p Ktime)). induction l as [|i l IH]; simpl; constructor; auto.
  repeat match goal with |- context [if ?b then _ else _] => destruct b end; auto.
  simpl. apply U.
Qed.

Theorem mixed_distribution o n hs hs' : good o -> 0 < n -> all_shaped o hs -> all_shaped o hs' ->
  Permutation (all_meas hs) (all_meas hs') ->
  exists row row', printed o n hs = Ok row /\ printed o n hs' = Ok row' /\ Forall2 same_entry row row'.
Proof.
  intros Hg Hn Hs Hs' P.
  destruct (printed_ok o n hs Hg Hn Hs) as (gs & E & L & G).
  destruct (printed_ok o n hs' Hg Hn Hs') as (gs' & E' & L' & G').
  exists (finish o gs), (finish o gs'). split; [exact E|]. split; [exact E'|].
  apply finish_same; auto. intros j Hj. rewrite (G j Hj), (G' j Hj).
  assert (Csum (map (flat_contrib o j) (all_meas hs)) =c= Csum (map (flat_contrib o j) (all_meas hs'))) as X
    by (apply Csum_perm, Permutation_map, P).
  destruct (scale_at o j); rewrite X; reflexivity.
Qed.

Lemma all_meas_rescale c hs : all_meas (map (rescale_hist c) hs) = map (fun sm => (fst sm, rescale c (snd sm))) (all_meas hs).
Proof.
  unfold all_meas. induction hs as [|h hs IH]; simpl; [reflexivity|]. rewrite map_app, <- IH. f_equal.
  unfold flat, rescale_hist. induction h as [|[s ws] h IHh]; simpl; [reflexivity|]. rewrite map_app, <- IHh. f_equal.
  rewrite !map_map. reflexivity.
Qed.
Lemma filter_map_comm {A B} (f : A -> B) (p : B -> bool) l : filter p (map f l) = map f (filter (fun x => p (f x)) l).
Proof. induction l; simpl; [reflexivity|]. destruct (p (f a)); simpl; rewrite IHl; reflexivity. Qed.

Theorem mixed_scale o n hs (c : Q) : good o -> 0 < n -> all_shaped o hs -> averages_energy o -> o_eval o = true ->
  ~ (c == 0)%Q -> ~ wtot (ewt o) (energy_meas o hs) =c= C0 -> ~ wtot (wt o) (every_meas hs) =c= C0 ->
  exists row row', printed o n hs = Ok row /\ printed o n (map (rescale_hist c) hs) = Ok row' /\
    forall k, In k [Keproj; Ke1b; Ke2b; Kehyb; Kovlp] \/ (k = Knav /\ o_thermal o = true) ->
      column o row k <> None /\ same_entry (column o row k) (column o row' k).
Proof.
  intros Hg Hn Hs Ha He Hc HD HW.
  assert (Hs' : all_shaped o (map (rescale_hist c) hs)).
  { unfold all_shaped in *. rewrite Forall_map. eapply Forall_impl; [|exact Hs]. intros h Hh. unfold rescale_hist.
    rewrite Forall_map. eapply Forall_impl; [|exact Hh]. intros [s ws] Hw. simpl in *. rewrite Forall_map.
    eapply Forall_impl; [|exact Hw]. intros m Hm. exact Hm. }
  destruct (mixed_sums o n hs Hg Hn Hs Ha He) as (row & E & _ & _ & _ & _ & M1 & _ & M2).
  destruct (mixed_sums o n _ Hg Hn Hs' Ha He) as (row' & E' & _ & _ & _ & _ & N1 & _ & N2).
  assert (EM : energy_meas o (map (rescale_hist c) hs) = map (rescale c) (energy_meas o hs)).
  { unfold energy_meas. rewrite all_meas_rescale, filter_map_comm. simpl. rewrite !map_map. reflexivity. }
  assert (AM : every_meas (map (rescale_hist c) hs) = map (rescale c) (every_meas hs)).
  { unfold every_meas. rewrite all_meas_rescale, !map_map. reflexivity. }
  rewrite EM in N1. rewrite AM in N2.
  assert (WE : forall m, ewt o (rescale c m) =c= (Cof c * ewt o m)%C).
  { intros m. unfold ewt, wt. destruct (o_fp o), (o_thermal o); simpl; rewrite Cof_mul; ring. }
  assert (WW : forall m, wt o (rescale c m) =c= (Cof c * wt o m)%C).
  { intros m. unfold wt. destruct (o_fp o); simpl; rewrite Cof_mul; ring. }
  assert (Hcc : ~ Cof c =c= C0) by (apply Cof_neq0; exact Hc).
  assert (T1 : forall ms, wtot (ewt o) (map (rescale c) ms) =c= (Cof c * wtot (ewt o) ms)%C).
  { intros ms. unfold wtot. rewrite map_map, <- Csum_map_scale. apply Csum_map_ext. auto. }
  assert (T2 : forall ms, wtot (wt o) (map (rescale c) ms) =c= (Cof c * wtot (wt o) ms)%C).
  { intros ms. unfold wtot. rewrite map_map, <- Csum_map_scale. apply Csum_map_ext. auto. }
  assert (S1 : forall f ms, (forall m, f (rescale c m) = f m) -> wsum (ewt o) f (map (rescale c) ms) =c= (Cof c * wsum (ewt o) f ms)%C).
  { intros f ms Hf. unfold wsum. rewrite map_map, <- Csum_map_scale. apply Csum_map_ext. intros m _. rewrite Hf, WE. ring. }
  assert (S2 : forall f ms, (forall m, f (rescale c m) = f m) -> wsum (wt o) f (map (rescale c) ms) =c= (Cof c * wsum (wt o) f ms)%C).
  { intros f ms Hf. unfold wsum. rewrite map_map, <- Csum_map_scale. apply Csum_map_ext. intros m _. rewrite Hf, WW. ring. }
  assert (S3 : forall ms, Csum (map (fun m => Cof (m_weight m * m_absot m)) (map (rescale c) ms)) =c=
               (Cof c * Csum (map (fun m => Cof (m_weight m * m_absot m)) ms))%C).
  { intros ms. rewrite map_map, <- Csum_map_scale. apply Csum_map_ext. intros m _. simpl.
    rewrite <- Cof_mul. apply Cof_m. ring. }
  assert (NZ : forall x, ~ x =c= C0 -> ~ (Cof c * x)%C =c= C0).
  { intros x Hx X. apply Cmul_integral in X. tauto. }
  destruct (M1 HD) as ((e1 & E1 & V1) & (e2 & E2 & V2) & (e3 & E3 & V3)).
  destruct (M2 HW) as ((e4 & E4 & V4) & (e5 & E5 & V5) & M6).
  destruct N1 as ((f1 & F1 & U1) & (f2 & F2 & U2) & (f3 & F3 & U3)); [rewrite T1; apply NZ; exact HD|].
  destruct N2 as ((f4 & F4 & U4) & (f5 & F5 & U5) & N6); [rewrite T2; apply NZ; exact HW|].
  exists row, row'. split; [exact E|]. split; [exact E'|].
  intros k Hk.
  assert (ENr : forall f, (forall m, f (rescale c m) = f m) -> forall m, en o f (rescale c m) = en o f m).
  { intros f Hf m. unfold en. rewrite Hf. reflexivity. }
  destruct Hk as [Hk|[-> Ht]].
  - simpl in Hk. destruct Hk as [<-|[<-|[<-|[<-|[<-|[]]]]]].
    + rewrite E1, F1. split; [discriminate|]. simpl. rewrite V1, U1, T1, S1 by (apply ENr; reflexivity). field. split; assumption.
    + rewrite E2, F2. split; [discriminate|]. simpl. rewrite V2, U2, T1, S1 by (apply ENr; reflexivity). field. split; assumption.
    + rewrite E3, F3. split; [discriminate|]. simpl. rewrite V3, U3, T1, S1 by (apply ENr; reflexivity). field. split; assumption.
    + rewrite E4, F4. split; [discriminate|]. simpl. rewrite V4, U4, T2, S2 by reflexivity. field. split; assumption.
    + rewrite E5, F5. split; [discriminate|]. simpl. rewrite V5, U5, T2, S3. field. split; assumption.
  - destruct (M6 Ht) as (e6 & E6 & V6). destruct (N6 Ht) as (f6 & F6 & U6).
    rewrite E6, F6. split; [discriminate|]. simpl. rewrite V6, U6, T2, S2 by reflexivity. field. split; assumption.
Qed.

(** One-body RDM: weighted average over all measurements. *)
Lemma at_pos_lt j a b : Forall (fun x => fst x < b) a -> b <= j -> at_pos j a =c= C0.
Proof.
  intros H Hj. unfold at_pos. rewrite filter_none; [reflexivity|]. intros x Hin. rewrite Forall_forall in H.
  specialize (H x Hin). apply Nat.eqb_neq. lia.
Qed.
Lemma contrib_rdm o n1 s i m : good o -> shaped o m -> o_fp o = false -> o_rdm1 o = Some n1 -> i < n1 ->
  contrib o s (nreg (o_thermal o) + i) m =c= (Cof (m_weight m) * real (nth i (m_G m) C0))%C.
Proof.
  intros Hg Hs Hf H1 Hi. pose proof Hs as [S1 S2]. specialize (S1 _ H1).
  destruct (walker_adds_ok o s m Hg Hs) as (a & Ha & _). unfold contrib. rewrite Ha.
  unfold walker_adds in Ha. rewrite Hf in Ha.
  destruct (negb (o_thermal o) && (o_freq o =? 0)); [discriminate|].
  apply rbind_ok in Ha. destruct Ha as (r & Hr & Ha). apply Ok_inj in Ha; subst a.
  rewrite !at_pos_app.
  rewrite (at_pos_lt _ (adds_energy o s m) (nreg (o_thermal o))); [|rewrite nreg_val; unfold adds_energy;
     destruct (o_thermal o), (o_avg_gf o), (s mod o_freq o =? 0), (o_eval o); simpl;
        repeat (constructor; [vm_compute fst; lia|]); constructor|lia].
  rewrite (at_pos_lt _ (adds_common o m) (nreg (o_thermal o))); [|rewrite nreg_val; unfold adds_common;
     destruct (o_thermal o); simpl; repeat (constructor; [vm_compute fst; lia|]); constructor|lia].
  unfold adds_rdm in Hr. rewrite ix_time, H1 in Hr.
  assert (X : at_pos (nreg (o_thermal o) + i) (slice_adds (nreg (o_thermal o)) (map (fun g : C => Cof (m_weight m) * real g)%C (m_G m)))
     =c= (Cof (m_weight m) * real (nth i (m_G m) C0))%C).
  { rewrite slice_at by (rewrite map_length; lia).
    rewrite nth_indep with (d' := (Cof (m_weight m) * real C0)%C) by (rewrite map_length; lia).
    rewrite (map_nth (fun g : C => Cof (m_weight m) * real g)%C). reflexivity. }
  destruct (o_rdm2 o); apply Ok_inj in Hr; subst r.
  - rewrite at_pos_app, slice_at_lo with (j := nreg (o_thermal o) + i) (start := nreg (o_thermal o) + List.length (m_G m)) by lia.
    rewrite X. ring.
  - rewrite X. ring.
Qed.

Theorem mixed_rdm o n n1 hs : good o -> 0 < n -> all_shaped o hs -> o_fp o = false -> o_rdm1 o = Some n1 ->
  ~ wtot (wt o) (every_meas hs) =c= C0 ->
  exists rdm, printed_rdm o n n1 hs = Ok rdm /\ List.length rdm = n1 /\
    forall i, i < n1 -> is_value (nth i rdm None)
      (wsum (wt o) (fun m => real (nth i (m_G m) C0)) (every_meas hs) / wtot (wt o) (every_meas hs))%C.
Proof.
  intros Hg Hn Hs Hf H1 HW.
  destruct (reduced_ok o n hs Hg Hn Hs) as (gs & E & L & G).
  exists (finish_rdm o n n1 gs). split; [unfold printed_rdm; rewrite E; reflexivity|].
  unfold finish_rdm. split; [rewrite map_length, seq_length; reflexivity|].
  intros i Hi.
  match goal with |- context [map ?f _] => set (F := f) end.
  rewrite nth_indep with (d' := F 0) by (rewrite map_length, seq_length; lia).
  rewrite map_nth, seq_nth by lia. subst F. cbv beta.
  assert (Hq : ~ Cof (q_of_nat n) =c= C0).
  { apply Cof_neq0. pose proof (q_of_nat_lt 0 n) as Q0. assert (0 < q_of_nat n)%Q by (apply Q0; lia). lra. }
  assert (Hsz : nreg (o_thermal o) + i < size o) by (unfold size; rewrite H1; lia).
  assert (Hw : ix (o_thermal o) Kweight < size o).
  { pose proof (nreg_val (o_thermal o)). unfold size. destruct (o_thermal o); cbv [ix index_of keys key_eqb app]; lia. }
  assert (VW : get (ix (o_thermal o) Kweight) gs =c= (wtot (wt o) (every_meas hs) / Cof (q_of_nat n))%C).
  { rewrite (G _ Hw). assert (scale_at o (ix (o_thermal o) Kweight) = true) as -> by (unfold scale_at; destruct (o_thermal o); reflexivity).
    unfold wtot, every_meas. rewrite map_map.
    rewrite (Csum_map_ext (flat_contrib o (ix (o_thermal o) Kweight)) (fun x => wt o (snd x))); [reflexivity|].
    intros sm Hin. apply contrib_weight; [assumption|eapply in_shaped; eassumption]. }
  assert (VG : get (nreg (o_thermal o) + i) gs =c= wsum (wt o) (fun m => real (nth i (m_G m) C0)) (every_meas hs)).
  { rewrite (G _ Hsz). assert (scale_at o (nreg (o_thermal o) + i) = false) as ->.
    { unfold scale_at, in_slice. rewrite nreg_val. apply not_true_iff_false. intros X.
      rewrite orb_true_iff, !andb_true_iff, !Nat.leb_le, !Nat.ltb_lt in X.
      destruct (o_thermal o); cbv [ix index_of keys key_eqb app] in X; lia. }
    unfold wsum, every_meas. rewrite map_map. apply Csum_map_ext. intros sm Hin.
    unfold flat_contrib. rewrite (contrib_rdm o n1); auto; [|eapply in_shaped; eassumption].
    unfold wt. rewrite Hf. reflexivity. }
  destruct (odiv_value (get (nreg (o_thermal o) + i) gs / Cof (q_of_nat n))%C (get (ix (o_thermal o) Kweight) gs)
     (wsum (wt o) (fun m => real (nth i (m_G m) C0)) (every_meas hs) / Cof (q_of_nat n))%C (wtot (wt o) (every_meas hs) / Cof (q_of_nat n))%C)
    as (z & Ez & Vz).
  - rewrite VG. reflexivity.
  - exact VW.
  - intros X. apply HW. assert (Y : (wtot (wt o) (every_meas hs) =c= wtot (wt o) (every_meas hs) / Cof (q_of_nat n) * Cof (q_of_nat n))%C) by (field; exact Hq).
    rewrite Y, X. ring.
  - exists z. split; [exact Ez|]. rewrite Vz. field. split; assumption.
Qed.

(** average_gf: the denominator of the energy is never accumulated. *)
Theorem mixed_average_gf o n hs : good o -> 0 < n -> all_shaped o hs ->
  o_thermal o = true -> o_fp o = false -> o_avg_gf o = true ->
  exists row, printed o n hs = Ok row /\ column o row Keproj = None /\ column o row Ke1b = None /\ column o row Ke2b = None.
Proof.
  intros Hg Hn Hs Ht Hf Ha.
  destruct (printed_ok o n hs Hg Hn Hs) as (gs & E & L & G). exists (finish o gs). split; [exact E|].
  destruct (finish_columns o gs L) as (_ & _ & _ & _ & F5 & F6 & F7 & _).
  assert (D : get (ix (o_thermal o) Kedenom) gs =c= C0).
  { assert (Hsz : ix (o_thermal o) Kedenom < size o) by (unfold size; rewrite Ht, nreg_val; cbv [ix index_of keys key_eqb app]; lia).
    rewrite (G _ Hsz). assert (scale_at o (ix (o_thermal o) Kedenom) = false) as -> by (unfold scale_at; rewrite Ht; reflexivity).
    rewrite (Csum_map_ext _ (fun _ => C0)).
    - generalize (all_meas hs). induction l; simpl; [reflexivity|]. rewrite IHl. ring.
    - intros sm Hin. unfold flat_contrib. rewrite contrib_lo; [|assumption|eapply in_shaped; eassumption|rewrite Ht; vm_compute; lia].
      unf. rewrite Hf, Ht, Ha. cbv [ix index_of keys key_eqb Nat.eqb app filter map snd fst Csum fold_right]. ring. }
  rewrite F5, F6, F7. repeat split; apply odiv_none with C0; auto; reflexivity.
Qed.

Theorem mixed_two_rdm_error o n step es m : o_fp o = false -> o_rdm1 o = None -> o_rdm2 o = Some n -> 0 < o_freq o ->
  update o step es [m] = Err UnboundLocalError.
Proof.
  intros Hf H1 H2 H3. simpl. unfold update_walker, walker_adds. rewrite Hf.
  assert ((o_freq o =? 0) = false) as -> by (apply Nat.eqb_neq; lia). rewrite andb_false_r.
  unfold adds_rdm. rewrite H1, H2. reflexivity.
Qed.

Theorem header_titles th k : In k (keys th) ->
  nth (S (ix th k)) (header th) EmptyString = title k /\ List.length (header th) = S (nreg th) /\ nreg th = List.length (keys th)
  /\ nth_error (keys th) (ix th k) = Some k.
Proof. destruct th; simpl; intros H; repeat (destruct H as [<-|H]; [repeat split; reflexivity|]); contradiction. Qed.
