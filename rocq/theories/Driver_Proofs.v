(** Proofs about the drivers. *)
From Verif Require Import BaseFacts Driver_Model Driver_Spec.
From Coq Require Import Qabs.
Open Scope nat_scope.

Lemma afqmc_walkers_spec n size : 0 < size -> let '(nw, tot) := afqmc_walkers n size in
  0 < nw /\ tot = nw * size /\ (size <= n -> tot <= n /\ n < tot + size) /\ (n < size -> nw = 1 /\ tot = size).
Proof.
  intros H. unfold afqmc_walkers. pose proof (Nat.div_mod_eq n size). pose proof (Nat.mod_upper_bound n size).
  destruct (Nat.eqb_spec (n / size) 0) as [E|E].
  - rewrite E in H0. repeat split; lia.
  - cbv beta iota. assert (0 < n / size) by (destruct (n / size); [congruence|apply Nat.lt_0_succ]). split; [assumption|]. split; [reflexivity|]. split; [intros; split; nia|]. intros L. apply Nat.div_small in L. contradiction.
Qed.
Lemma thermal_walkers_eq n size : thermal_walkers n size = afqmc_walkers n size.
Proof. unfold thermal_walkers, afqmc_walkers. destruct (n / size =? 0); reflexivity. Qed.
Lemma parallel_walkers_iff n size : 0 < size -> let '(nw, tot) := parallel_walkers n size in
  tot = nw * size <-> size <= n.
Proof.
  intros H. unfold parallel_walkers. pose proof (Nat.div_mod_eq n size). pose proof (Nat.mod_upper_bound n size).
  destruct (Nat.eqb_spec (n / size) 0) as [E|E].
  - rewrite E in *. lia.
  - split; [|reflexivity]. intros _. destruct (Nat.le_gt_cases size n); [assumption|]. apply Nat.div_small in H2. contradiction.
Qed.

Lemma seq_split_blocks nw size : flat_map (fun r => map (global_ix nw r) (seq 0 nw)) (seq 0 size) = seq 0 (size * nw).
Proof.
  induction size; [reflexivity|]. rewrite seq_S, flat_map_app, IHsize. simpl. rewrite app_nil_r.
  replace (nw + size * nw) with (size * nw + nw) by lia. rewrite seq_app. f_equal. simpl.
  assert (forall n a b, map (fun i => i + b) (seq a n) = seq (a + b) n) as X.
  { induction n; intros; simpl; [reflexivity|]. f_equal. rewrite IHn. f_equal. }
  unfold global_ix. rewrite (Nat.mul_comm nw size), X. reflexivity.
Qed.
Lemma global_ix_inv nw r i : i < nw -> global_ix nw r i / nw = r /\ global_ix nw r i mod nw = i.
Proof.
  intros H. unfold global_ix. rewrite (Nat.mul_comm nw r). split.
  - rewrite Nat.div_add by lia. rewrite Nat.div_small by lia. lia.
  - rewrite Nat.mod_add by lia. apply Nat.mod_small. exact H.
Qed.

Lemma rank_seed_spec seed draw r s : rank_seed seed draw r = Ok s ->
  s = (match seed with Some x => x | None => draw end + Z.of_nat r)%Z /\ (0 <= s < 2^32)%Z.
Proof.
  unfold rank_seed. destruct (_ && _)%bool eqn:E; [|discriminate]. intros H. apply Ok_inj in H. subst s.
  split; [reflexivity|]. lia.
Qed.
Lemma rank_seed_inj seed draw r r' s : rank_seed seed draw r = Ok s -> rank_seed seed draw r' = Ok s -> r = r'.
Proof. intros H H'. apply rank_seed_spec in H, H'. lia. Qed.
Lemma rank_seed_ok seed draw size : let base := match seed with Some x => x | None => draw end in
  (0 <= base)%Z -> (base + Z.of_nat size <= 2^32)%Z -> forall r, r < size -> exists s, rank_seed seed draw r = Ok s.
Proof.
  simpl. intros H1 H2 r Hr. unfold rank_seed.
  assert ((0 <=? match seed with Some x => x | None => draw end + Z.of_nat r) && (match seed with Some x => x | None => draw end + Z.of_nat r <? 4294967296) = true)%Z as ->
    by (destruct seed; lia).
  eauto.
Qed.
(** Runs with consecutive base seeds share all but one of their streams. *)
Lemma rank_seed_shift x draw r s : rank_seed (Some x) draw (S r) = Ok s -> rank_seed (Some (x + 1)%Z) draw r = Ok s.
Proof.
  unfold rank_seed. replace (x + 1 + Z.of_nat r)%Z with (x + Z.of_nat (S r))%Z by lia. auto.
Qed.

Section Run.
  Context {W M : Type}.
  Variables (weight total : W -> Q) (set_weight : Q -> W -> W).
  Variables (propagate : nat -> nat -> Q -> W -> W) (ortho : list W -> list W)
            (popc : nat -> list W -> res (list W)) (est : nat -> list W -> M -> res M) (shift : bool -> M -> Q).
  Variable p : params.
  Notation run_step := (run_step weight total set_weight propagate ortho popc est shift p).
  Notation run_from := (run_from weight total set_weight propagate ortho popc est shift p).
  Notation advance_all := (advance_all weight total set_weight propagate).
  Notation advance := (advance weight total set_weight propagate).
  Notation cap := (cap weight total set_weight).

  Lemma advance_all_map step e ws : forall i,
    fst (advance_all step e i ws) = map (fun '(j, w) => advance step e j w) (combine (seq i (length ws)) ws).
  Proof.
    induction ws as [|w ws IH]; intros i; [reflexivity|].
    cbn [Driver_Model.advance_all]. specialize (IH (S i)). destruct (advance_all step e (S i) ws) as [ws' ev]. cbn in *.
    rewrite IH. reflexivity.
  Qed.
  Lemma advance_all_events step e ws : forall i,
    ortho_steps (snd (advance_all step e i ws)) = [] /\ pop_steps (snd (advance_all step e i ws)) = [] /\
    est_steps (snd (advance_all step e i ws)) = [] /\ write_steps (snd (advance_all step e i ws)) = [].
  Proof.
    induction ws as [|w ws IH]; intros i; [repeat split|].
    cbn [Driver_Model.advance_all]. specialize (IH (S i)). destruct (advance_all step e (S i) ws) as [ws' ev]. cbn [snd] in *.
    destruct (Qltb tiny_weight (Qabs (weight w))); exact IH.
  Qed.

  Lemma app_steps (f : list event -> list nat) :
    (f = ortho_steps \/ f = pop_steps \/ f = est_steps \/ f = write_steps) -> forall a b, f (a ++ b) = f a ++ f b.
  Proof. intros [-> |[-> |[-> | ->]]] a b; apply flat_map_app. Qed.

  Lemma run_step_events step s s' : run_step step s = Ok s' ->
    p_nstblz p <> 0 /\ p_npop p <> 0 /\ (p_restart p = true -> p_wfreq p <> 0) /\
    ortho_steps (st_trace s') = ortho_steps (st_trace s) ++ (if step mod p_nstblz p =? 0 then [step] else []) /\
    pop_steps (st_trace s') = pop_steps (st_trace s) ++ (if step mod p_npop p =? 0 then [step] else []) /\
    est_steps (st_trace s') = est_steps (st_trace s) ++ [step] /\
    write_steps (st_trace s') = write_steps (st_trace s) ++ (if p_restart p && (step mod p_wfreq p =? 0) then [step] else []) /\
    exists m, st_est s' = m /\ (st_shift s' == if step <? p_neqlb p then shift (p_hybrid p) m else shift true m)%Q.
  Proof.
    unfold Driver_Model.run_step, pymod. intros H.
    destruct (p_nstblz p =? 0) eqn:E1; [discriminate|]. cbn [rbind] in H.
    destruct (advance_all step (st_shift s) 0 (if step mod p_nstblz p =? 0 then ortho (st_psi s) else st_psi s)) as [psi ev2] eqn:EA.
    pose proof (advance_all_events step (st_shift s) (if step mod p_nstblz p =? 0 then ortho (st_psi s) else st_psi s) 0) as EV.
    rewrite EA in EV. cbn [snd] in EV. destruct EV as (V1 & V2 & V3 & V4).
    destruct (p_npop p =? 0) eqn:E2; [discriminate|]. cbn [rbind] in H.
    apply rbind_ok in H. destruct H as (psi2 & Hp & H).
    apply rbind_ok in H. destruct H as (m & Hm & H).
    apply rbind_ok in H. destruct H as (r3 & Hr & H). apply Ok_inj in H. subst s'. cbn [st_trace st_est st_shift].
    apply Nat.eqb_neq in E1. apply Nat.eqb_neq in E2.
    split; [exact E1|]. split; [exact E2|].
    assert (R : (p_restart p = true -> p_wfreq p <> 0) /\ (r3 =? 0) = p_restart p && (step mod p_wfreq p =? 0)).
    { destruct (p_restart p).
      - destruct (p_wfreq p =? 0) eqn:E3; [discriminate|]. apply Ok_inj in Hr. subst r3. apply Nat.eqb_neq in E3. auto.
      - apply Ok_inj in Hr. subst r3. split; [discriminate|reflexivity]. }
    destruct R as [R1 R2]. split; [exact R1|]. rewrite R2.
    unfold ortho_steps, pop_steps, est_steps, write_steps in *. rewrite !flat_map_app, V1, V2, V3, V4.
    assert (SH : exists m0, m = m0 /\ ((if step <? p_neqlb p then shift (p_hybrid p) m else st_shift s + (shift true m - st_shift s))
       == if step <? p_neqlb p then shift (p_hybrid p) m0 else shift true m0)%Q).
    { exists m. split; [reflexivity|]. destruct (step <? p_neqlb p); [reflexivity|ring]. }
    refine (conj _ (conj _ (conj _ (conj _ _)))).
    5: exact SH.
    all: destruct (step mod p_nstblz p =? 0), (step mod p_npop p =? 0), (p_restart p && (step mod p_wfreq p =? 0)); cbn;
      rewrite ?app_nil_r; reflexivity.
  Qed.

  Lemma run_from_events n : forall step s s', run_from step n s = Ok s' ->
    (0 < n -> p_nstblz p <> 0 /\ p_npop p <> 0) /\
    ortho_steps (st_trace s') = ortho_steps (st_trace s) ++ multiples (p_nstblz p) step n /\
    pop_steps (st_trace s') = pop_steps (st_trace s) ++ multiples (p_npop p) step n /\
    est_steps (st_trace s') = est_steps (st_trace s) ++ seq step n /\
    write_steps (st_trace s') = write_steps (st_trace s) ++ (if p_restart p then multiples (p_wfreq p) step n else []).
  Proof.
    induction n as [|n IH]; intros step s s' H.
    - cbn in H. apply Ok_inj in H. subst. split; [lia|]. unfold multiples. cbn. destruct (p_restart p); rewrite ?app_nil_r; auto.
    - cbn [Driver_Model.run_from] in H. apply rbind_ok in H. destruct H as (s1 & H1 & H2).
      destruct (run_step_events _ _ _ H1) as (A & B & C & D & E & F & G & _).
      destruct (IH _ _ _ H2) as (_ & I1 & I2 & I3 & I4).
      split; [auto|]. rewrite I1, I2, I3, I4, D, E, F, G. unfold multiples. cbn [seq filter]. rewrite <- !app_assoc.
      destruct (step mod p_nstblz p =? 0), (step mod p_npop p =? 0), (step mod p_wfreq p =? 0), (p_restart p);
        repeat split; reflexivity.
  Qed.

  (** Weight cap. *)
  Hypothesis total_set : forall q w, total (set_weight q w) = total w.
  Hypothesis weight_set : forall q w, weight (set_weight q w) = q.

  Lemma cap_bound active w : active = true -> (0 <= total w)%Q -> (Qabs (weight (cap active w)) <= total (cap active w) * cap_fac)%Q.
  Proof.
    intros -> H. unfold Driver_Model.cap. rewrite andb_true_r.
    destruct (Qltb (total w * cap_fac) (Qabs (weight w))) eqn:E.
    - rewrite weight_set, total_set. rewrite Qabs_pos; [lra|]. unfold cap_fac. lra.
    - apply Qltb_false in E. exact E.
  Qed.
  Lemma cap_noop active w : active = false \/ (Qabs (weight w) <= total w * cap_fac)%Q -> cap active w = w.
  Proof.
    intros H. unfold Driver_Model.cap. destruct active; [|rewrite andb_false_r; reflexivity].
    destruct H as [H|H]; [discriminate|]. assert (Qltb (total w * cap_fac) (Qabs (weight w)) = false) as -> by (apply Qltb_false; exact H).
    reflexivity.
  Qed.

  Lemma advance_bound step e ws : 1 < step -> (forall i w, (0 <= total (propagate step i e w))%Q \/ ~ In w ws) ->
    Forall (fun w => (0 <= total w)%Q) ws -> Forall (fun w => (Qabs (weight w) <= total w * cap_fac)%Q) (fst (advance_all step e 0 ws)).
  Proof.
    intros Hs Hp Hf. rewrite advance_all_map. apply Forall_map. apply Forall_forall. intros [i w] Hin.
    apply in_combine_r in Hin. rewrite Forall_forall in Hf. specialize (Hf w Hin).
    unfold Driver_Model.advance. apply cap_bound; [apply Nat.ltb_lt; exact Hs|].
    destruct (Qltb tiny_weight (Qabs (weight w))); [|exact Hf]. destruct (Hp i w) as [H|H]; [exact H|contradiction].
  Qed.

  Variable tpropagate : nat -> nat -> W -> W.
  Notation thermal_slices := (thermal_slices weight total set_weight popc tpropagate).
  Lemma thermal_slices_pop n npop : forall ts psi tr psi' tr', thermal_slices ts n npop psi tr = Ok (psi', tr') ->
    pop_steps tr' = pop_steps tr ++ filter (fun s => negb (s =? 0)) (multiples npop ts n).
  Proof.
    induction n as [|n IH]; intros ts psi tr psi' tr' H.
    - cbn in H. apply Ok_inj in H. injection H as <- <-. cbn. rewrite app_nil_r. reflexivity.
    - cbn [Driver_Model.thermal_slices] in H. apply rbind_ok in H. destruct H as (r & Hr & H).
      apply rbind_ok in H. destruct H as (psi2 & Hp & H). apply IH in H. rewrite H.
      unfold pymod in Hr. destruct (npop =? 0); [discriminate|]. apply Ok_inj in Hr. subst r.
      unfold pop_steps at 1. rewrite flat_map_app. fold (pop_steps tr). unfold multiples. cbn [seq filter].
      destruct (ts mod npop =? 0); cbn; [|rewrite app_nil_r; reflexivity].
      destruct (ts =? 0); cbn; [rewrite app_nil_r; reflexivity|]. rewrite <- app_assoc. reflexivity.
  Qed.
End Run.

(** Fewer than ten walkers of equal positive weight: every weight is cut. *)
Lemma cap_small_population (n : nat) (w : Q) : 0 < n < 10 -> (0 < w)%Q ->
  let tot := (q_of_nat n * w)%Q in
  cap (W := Q * Q) fst snd (fun q x => (q, snd x)) true (w, tot) = ((tot * cap_fac)%Q, tot) /\ (tot * cap_fac < w)%Q.
Proof.
  intros Hn Hw tot.
  assert (L : (tot * cap_fac < w)%Q).
  { unfold tot, cap_fac. assert (q_of_nat n < 10)%Q by (apply (q_of_nat_lt n 10); lia). nra. }
  split; [|exact L]. unfold cap. cbn [fst snd].
  assert (Qltb (tot * cap_fac) (Qabs w) = true) as ->; [|reflexivity].
  apply Qltb_spec. rewrite Qabs_pos by lra. exact L.
Qed.
Lemma cap_large_population (n : nat) (w : Q) : 10 <= n -> (0 <= w)%Q ->
  cap (W := Q * Q) fst snd (fun q x => (q, snd x)) true (w, (q_of_nat n * w)%Q) = (w, (q_of_nat n * w)%Q).
Proof.
  intros Hn Hw. apply cap_noop. right. cbn [fst snd]. rewrite Qabs_pos by exact Hw. unfold cap_fac.
  assert (10 <= q_of_nat n)%Q by (apply (q_of_nat_le 10 n); lia). nra.
Qed.
