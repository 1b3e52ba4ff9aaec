From Coq Require Import String.
From Verif Require Import Base BaseFacts Cplx CplxFacts Buffer_Model Buffer_Spec Buffer_Proofs FieldConfig_Model FieldConfig_Spec.
Open Scope nat_scope.

Lemma firstn_upd_S {A} n (x : A) l : n < length l -> firstn (S n) (upd n x l) = firstn n l ++ [x].
Proof.
  revert n. induction l as [|y l IH]; intros [|n] H; cbn in *; try lia; auto.
  f_equal. apply IH. lia.
Qed.

Lemma Forall_upd {A} (P : A -> Prop) n x l : P x -> Forall P l -> Forall P (upd n x l).
Proof.
  intros Hx H. revert n. induction H; intros [|n]; cbn; constructor; auto.
Qed.

Record rep (nf np nb : nat) (f : fc) (h : list entry) : Prop := mkRep {
  rep_step : step f = length h;
  rep_le : length h <= np;
  rep_configs : length (configs f) = np;
  rep_rows : Forall (fun r => length r = nf) (configs f);
  rep_cos : length (cos_fac f) = np;
  rep_wf : length (weight_fac f) = np;
  rep_block : get_block f = blocks_of h;
  rep_params : nfields f = nf /\ nbp f = nb /\ nprop_tot f = np /\ nblock f = np / nb;
  rep_ib : ib f = 0;
  rep_brange : (-1 <= block f < Z.of_nat (np / nb))%Z }.

Lemma next_block_ok s np nb b : 0 < nb <= np -> (-1 <= b < Z.of_nat (np / nb))%Z ->
  exists b', next_block s nb (np / nb) b = Ok b' /\ (-1 <= b' < Z.of_nat (np / nb))%Z.
Proof.
  intros H Hb. unfold next_block.
  assert (0 < np / nb) by (apply Nat.div_str_pos; lia).
  replace (nb =? 0) with false by lia. replace (np / nb =? 0) with false by lia.
  destruct (s mod nb =? 0); eauto.
  eexists; split; eauto. pose proof (Z.mod_pos_bound (b + 1) (Z.of_nat (np / nb))). lia.
Qed.

Lemma update_ok nf np nb f h c w : 0 < nb <= np -> rep nf np nb f h -> length h < np -> length c = nf ->
  exists f', update f c w = Ok f' /\ rep nf np nb f' (h ++ [(c, w)]) /\
    num_val (tot_wfac f') = (if big (snd w) then num_val (tot_wfac f) * ratio w else C0)%C.
Proof.
  intros Hnb [R1 R2 R3 R4 R5 R6 R7 (R8 & R9 & R10 & R11) R12 R13] Hh Hc.
  unfold update. rewrite R10, R1. replace (np <=? length h) with false by lia.
  unfold row_of. rewrite R8, Hc, Nat.eqb_refl. cbn [rbind].
  rewrite R9, R11. destruct (next_block_ok (length h + 1) np nb (block f) Hnb R13) as (b' & -> & Hb').
  cbn [rbind]. eexists. split; [reflexivity|]. split.
  - constructor; cbn; rewrite ?length_upd, ?app_length; cbn; auto; try lia.
    + apply Forall_upd; auto.
    + unfold get_block, blocks_of in *. cbn.
      rewrite Nat.add_1_r, !firstn_upd_S by lia.
      rewrite R1 in R7. injection R7 as E1 E2 E3. rewrite E1, E2, E3.
      rewrite !map_app. reflexivity.
  - cbn. destruct (big (snd w)); reflexivity.
Qed.

Lemma reset_ok nf np nb f h : 0 < nb <= np -> rep nf np nb f h ->
  exists f', reset f = Ok f' /\ rep nf np nb f' (if length h mod np =? 0 then [] else h) /\ num_val (tot_wfac f') = C1.
Proof.
  intros Hnb [R1 R2 R3 R4 R5 R6 R7 (R8 & R9 & R10 & R11) R12 R13].
  unfold reset. rewrite R10. replace (np =? 0) with false by lia. rewrite R1.
  eexists. split; [reflexivity|]. split; [|reflexivity].
  destruct (length h mod np =? 0); constructor; cbn; auto; try lia.
  unfold get_block, blocks_of in *. cbn. rewrite <- R1. auto.
Qed.

Lemma new_rep nf np nb : 0 < nb <= np -> exists f, fc_new nf np nb = Ok f /\ rep nf np nb f [] /\ num_val (tot_wfac f) = C1.
Proof.
  intros H. unfold fc_new. replace (nb =? 0) with false by lia. eexists; split; [reflexivity|]. split; [|reflexivity].
  assert (0 < np / nb) by (apply Nat.div_str_pos; lia).
  constructor; cbn; rewrite ?repeat_length; auto; try lia.
  apply Forall_forall. intros r Hr. apply repeat_spec in Hr. subst. apply repeat_length.
Qed.

Lemma room_dec np ops : forall n, {room np n ops} + {~ room np n ops}.
Proof.
  induction ops as [|[c w|] ops IH]; intros n; cbn; auto.
  destruct (lt_dec n np); [destruct (IH (S n))|]; tauto.
Qed.

(** Along any sequence of operations. *)
Lemma run_ops_rep nf np nb ops : 0 < nb <= np -> well_formed nf ops -> forall f h l,
  rep nf np nb f h -> num_val (tot_wfac f) = tot_of l C1 ->
  (room np (length h) ops ->
     exists f', run_ops f ops = Ok f' /\ rep nf np nb f' (hist np h ops) /\
       num_val (tot_wfac f') = tot_of (since_reset l ops) C1) /\
  (~ room np (length h) ops -> run_ops f ops = Err IndexError).
Proof.
  intros Hnb. induction ops as [|o ops IH]; intros Hw f h l Hr Ht.
  - cbn. split; [eauto|tauto].
  - inversion Hw as [|? ? Ho Hw']; subst. destruct o as [c w|]; cbn [run_ops apply_op room hist since_reset].
    + destruct (lt_dec (length h) np) as [Hlt|Hlt].
      * destruct (update_ok nf np nb f h c w Hnb Hr Hlt Ho) as (f' & Hu & Hr' & Ht'). rewrite Hu. cbn [rbind].
        destruct (IH Hw' f' (h ++ [(c, w)]) (l ++ [w]) Hr') as (I1 & I2).
        { rewrite Ht', Ht. clear. generalize C1. destruct w as [w0 w1].
          induction l as [|[a b] l IHl]; intros acc; [reflexivity|]. cbn. apply IHl. }
        rewrite app_length in I1, I2. cbn in I1, I2. rewrite Nat.add_1_r in I1, I2. tauto.
      * split; [tauto|]. intros _. unfold update.
        destruct Hr as [R1 R2 _ _ _ _ _ (R8 & R9 & R10 & R11) _ _].
        rewrite R10, R1. replace (np <=? length h) with true by lia. reflexivity.
    + destruct (reset_ok nf np nb f h Hnb Hr) as (f' & Hu & Hr' & Ht'). rewrite Hu. cbn [rbind].
      destruct (IH Hw' f' _ [] Hr' Ht') as (I1 & I2).
      assert (E : length (if length h mod np =? 0 then [] else h) = (if length h mod np =? 0 then 0 else length h))
        by (destruct (length h mod np =? 0); reflexivity).
      rewrite E in I1, I2. auto.
Qed.

Lemma tot_of_big l : Forall (fun w => big (snd w) = true) l -> forall acc, (tot_of l acc =c= acc * Cprod (map ratio l))%C.
Proof.
  induction 1 as [|[a b] l Hb Hl IH]; intros acc.
  - cbn [tot_of map Cprod fold_right]. ring.
  - change (tot_of ((a, b) :: l) acc) with (tot_of l (if big b then acc * (a / b) else C0)%C).
    change (Cprod (map ratio ((a, b) :: l))) with (a / b * Cprod (map ratio l))%C.
    cbn in Hb. rewrite Hb, IH. ring.
Qed.

Lemma rep_wfac nf np nb f h : rep nf np nb f h ->
  get_wfac f = (Cprod (map (fun e => Cof (re (snd (snd e)))) h), Cprod (map (fun e => fst (snd e)) h)).
Proof.
  intros H. pose proof (rep_block _ _ _ _ _ H) as R. unfold get_block, blocks_of in R. unfold get_wfac.
  injection R as _ -> ->. reflexivity.
Qed.

Lemma history nf np nb f0 ops : 0 < nb <= np -> fc_new nf np nb = Ok f0 -> well_formed nf ops ->
  (room np 0 ops ->
     exists f, run_ops f0 ops = Ok f /\
       step f = length (hist np [] ops) /\ step f <= np /\
       get_block f = blocks_of (hist np [] ops) /\
       get_wfac f = (Cprod (map (fun e => Cof (re (snd (snd e)))) (hist np [] ops)),
                     Cprod (map (fun e => fst (snd e)) (hist np [] ops))) /\
       num_val (tot_wfac f) = tot_of (since_reset [] ops) C1 /\
       (Forall (fun w => big (snd w) = true) (since_reset [] ops) ->
          num_val (tot_wfac f) =c= Cprod (map ratio (since_reset [] ops)))) /\
  (~ room np 0 ops -> run_ops f0 ops = Err IndexError).
Proof.
  intros Hnb Hn Hw. destruct (new_rep nf np nb Hnb) as (f & Hf & Hr & Ht).
  assert (f0 = f) by congruence. subst f0.
  destruct (run_ops_rep nf np nb ops Hnb Hw f [] [] Hr Ht) as (I1 & I2). split; auto.
  intros Hroom. destruct (I1 Hroom) as (f' & Hrun & Hr' & Ht').
  exists f'. split; [exact Hrun|]. split; [apply Hr'|]. split; [rewrite (rep_step _ _ _ _ _ Hr'); apply Hr'|].
  split; [apply Hr'|]. split; [eapply rep_wfac; eauto|]. split; [exact Ht'|].
  intros Hb. rewrite Ht', tot_of_big by auto. ring.
Qed.

(** Pushing the components one by one. *)
Definition set_row (f : fc) (row : list C) (s : nat) (b : Z) (i : nat) : fc :=
  mkFC (upd (step f) row (configs f)) (cos_fac f) (weight_fac f) (tot_wfac f) s b i
       (nfields f) (nbp f) (nprop_tot f) (nblock f).

Lemma upd_upd {A} n (x y : A) l : upd n x (upd n y l) = upd n x l.
Proof. revert n. induction l; intros [|n]; cbn; auto. f_equal. auto. Qed.

Lemma upd_app {A} (a : list A) x y b : upd (length a) x (a ++ y :: b) = a ++ x :: b.
Proof. induction a; cbn; auto. f_equal. auto. Qed.

Lemma pushes_row l : forall f done rest b,
  l <> [] -> nth_error (configs f) (step f) = Some (done ++ rest) -> length rest = length l ->
  ib f = length done -> nfields f = length done + length l ->
  next_block (step f + 1) (nbp f) (nblock f) (block f) = Ok b ->
  pushes f l = Ok (set_row f (done ++ l) (step f + 1) b 0).
Proof.
  induction l as [|c l IH]; intros f done rest b Hne Hrow Hlen Hib Hnf Hb; [congruence|].
  destruct rest as [|r rest]; [discriminate|]. cbn in Hlen, Hnf. cbn [pushes]. unfold push. rewrite Hrow.
  rewrite app_length. cbn [length]. replace (length done + S (length rest) <=? ib f) with false by lia.
  replace (nfields f =? 0) with false by lia. rewrite Hib, upd_app.
  destruct l as [|c' l].
  - cbn in Hnf. replace ((length done + 1) mod nfields f) with 0 by (rewrite Hnf; symmetry; apply Nat.mod_same; lia).
    cbn [Nat.eqb]. rewrite Hb. cbn [rbind pushes]. destruct rest; [|discriminate]. reflexivity.
  - rewrite Nat.mod_small by (cbn in Hnf; lia).
    replace (length done + 1 =? 0) with false by lia. cbn [rbind].
    set (f1 := mkFC _ _ _ _ _ _ _ _ _ _ _).
    assert (Hs : step f < length (configs f)) by (apply nth_error_Some; congruence).
    rewrite (IH f1 (done ++ [c]) rest b); try discriminate; auto.
    + unfold set_row, f1. cbn. rewrite upd_upd, <- app_assoc. reflexivity.
    + unfold f1. cbn. rewrite nth_error_upd_eq by auto. rewrite <- app_assoc. reflexivity.
    + unfold f1. cbn. rewrite app_length. cbn. lia.
    + unfold f1. cbn. rewrite app_length. cbn in *. lia.
Qed.

(** State of a history filled by pushes only. *)
Record prep (nf np nb : nat) (f : fc) (h : list (list C)) : Prop := mkPrep {
  p_step : step f = length h;
  p_le : length h <= np;
  p_configs : length (configs f) = np;
  p_rows : Forall (fun r => length r = nf) (configs f);
  p_first : firstn (length h) (configs f) = h;
  p_fac : cos_fac f = repeat C0 np /\ weight_fac f = repeat C0 np;
  p_params : nfields f = nf /\ nbp f = nb /\ nprop_tot f = np /\ nblock f = np / nb;
  p_ib : ib f = 0;
  p_brange : (-1 <= block f < Z.of_nat (np / nb))%Z }.

Lemma pushes_config nf np nb f h c : 0 < nb <= np -> 0 < nf -> prep nf np nb f h -> length h < np -> length c = nf ->
  exists f', pushes f c = Ok f' /\ prep nf np nb f' (h ++ [c]).
Proof.
  intros Hnb Hnf [R1 R2 R3 R4 R5 R6 (R8 & R9 & R10 & R11) R12 R13] Hh Hc.
  destruct (nth_error (configs f) (step f)) as [row|] eqn:Hrow.
  2:{ apply nth_error_None in Hrow. lia. }
  assert (Hl : length row = nf).
  { rewrite Forall_forall in R4. apply R4. eapply nth_error_In; eauto. }
  destruct (next_block_ok (step f + 1) np nb (block f) Hnb R13) as (b & Hb & Hr).
  exists (set_row f c (step f + 1) b 0). split.
  - apply (pushes_row c f [] row b); auto; try congruence.
    + intros ->. cbn in Hc. lia.
    + cbn. lia.
  - constructor; cbn; rewrite ?length_upd, ?app_length; cbn; auto; try lia.
    + apply Forall_upd; auto.
    + rewrite Nat.add_1_r, R1, firstn_upd_S by lia. rewrite R5. reflexivity.
Qed.

Fixpoint push_all (f : fc) (cs : list (list C)) : res fc :=
  match cs with [] => Ok f | c :: cs' => rbind (pushes f c) (fun f' => push_all f' cs') end.

Lemma push_all_ok nf np nb cs : 0 < nb <= np -> 0 < nf -> Forall (fun c => length c = nf) cs -> forall f h,
  prep nf np nb f h -> length h + length cs <= np ->
  exists f', push_all f cs = Ok f' /\ prep nf np nb f' (h ++ cs).
Proof.
  intros Hnb Hnf. induction 1 as [|c cs Hc Hcs IH]; intros f h Hp Hl; cbn [push_all].
  - exists f. rewrite app_nil_r. auto.
  - cbn in Hl. destruct (pushes_config nf np nb f h c Hnb Hnf Hp ltac:(lia) Hc) as (f' & -> & Hp'). cbn [rbind].
    destruct (IH f' _ Hp') as (f'' & Hf'' & Hp''); [rewrite app_length; cbn; lia|].
    exists f''. rewrite <- app_assoc in Hp''. auto.
Qed.

Lemma Cprod_zeros n : 0 < n -> Cprod (repeat C0 n) =c= C0.
Proof. destruct n; [lia|]. intros _. cbn [repeat Cprod fold_right]. ring. Qed.

Lemma push_history nf np nb f0 cs : 0 < nb <= np -> 0 < nf -> fc_new nf np nb = Ok f0 ->
  Forall (fun c => length c = nf) cs -> length cs <= np ->
  exists f, pushes f0 (concat cs) = Ok f /\ step f = length cs /\ fst (fst (get_block f)) = cs /\
    (cs <> [] -> fst (get_wfac f) =c= C0 /\ snd (get_wfac f) =c= C0).
Proof.
  intros Hnb Hnf Hn Hcs Hl.
  assert (Hp : prep nf np nb f0 []).
  { unfold fc_new in Hn. replace (nb =? 0) with false in Hn by lia. apply Ok_inj in Hn. subst f0.
    assert (0 < np / nb) by (apply Nat.div_str_pos; lia).
    constructor; cbn; rewrite ?repeat_length; auto; try lia.
    apply Forall_forall. intros r Hr. apply repeat_spec in Hr. subst. apply repeat_length. }
  destruct (push_all_ok nf np nb cs Hnb Hnf Hcs f0 [] Hp) as (f & Hf & Hp'); [cbn; lia|].
  exists f. split.
  - rewrite <- Hf. clear. revert f0. induction cs as [|c cs IH]; intros f0; cbn; auto.
    assert (E : forall a b g, pushes g (a ++ b) = rbind (pushes g a) (fun g' => pushes g' b)).
    { induction a; intros b g; cbn; auto. destruct (push g a); cbn; auto. }
    rewrite E. destruct (pushes f0 c); cbn; auto.
  - destruct Hp' as [R1 R2 R3 R4 R5 (R6 & R7) R8 R9 R10]. cbn [app] in *. split; auto. split.
    + unfold get_block. cbn [fst]. rewrite R1. auto.
    + intros Hne. unfold get_wfac. rewrite R6, R7, R1.
      assert (E : firstn (length cs) (repeat C0 np) = repeat C0 (length cs)).
      { clear - Hl. revert np Hl. generalize (length cs). induction n; intros [|np] H; cbn; auto; try lia. f_equal. apply IHn. lia. }
      rewrite E. assert (0 < length cs) by (destruct cs; cbn; [congruence|lia]).
      cbn [fst snd]. rewrite !Cprod_zeros by auto. split; reflexivity.
Qed.

(** All walkers of one process. *)
Lemma mapr_Forall2 {A B} (g : A -> res B) (P : A -> B -> Prop) l :
  Forall (fun x => exists y, g x = Ok y /\ P x y) l -> exists l', mapr g l = Ok l' /\ Forall2 P l l'.
Proof.
  induction 1 as [|x l (y & Hy & HP) Hl (l' & IH & IH2)]; cbn; [eauto|].
  rewrite Hy, IH. cbn. eauto.
Qed.

Lemma splits_last nmax nsplit : 0 < nsplit -> last (splits nmax nsplit) 0 = nsplit * (nmax / nsplit).
Proof.
  intros H. unfold splits. destruct nsplit as [|n]; [lia|].
  rewrite seq_S, map_app. cbn [map]. rewrite last_last. f_equal. lia.
Qed.

Lemma splits_pos nmax nsplit x : In x (splits nmax nsplit) -> x <= nsplit * (nmax / nsplit).
Proof.
  unfold splits. rewrite in_map_iff. intros (i & <- & Hi). apply in_seq in Hi. apply Nat.mul_le_mono_r. lia.
Qed.

Lemma last_in_splits nmax nsplit : 0 < nsplit -> In (nsplit * (nmax / nsplit)) (splits nmax nsplit).
Proof.
  intros H. unfold splits. rewrite in_map_iff. exists (nsplit - 1). split; [f_equal; lia|]. apply in_seq. lia.
Qed.

Section Walkers.
Variables nf nmax nsplit nw : nat.
Let reps (ws : list fc) (hs : list (list entry)) : Prop := Forall2 (rep nf nmax nmax) ws hs.

Lemma reps_step (Hm : 0 < nmax) ws hs (sig : list entry) p : reps ws hs -> Forall (fun h => length h = p) hs -> p < nmax ->
  length sig = length ws -> Forall (fun e => length (fst e) = nf) sig ->
  exists ws', mapr (fun '(w, s) => match s with None => Ok w | Some (c, wf) => update w c wf end)
                (combine ws (map Some sig)) = Ok ws' /\
    reps ws' (map (fun '(h, e) => h ++ [e]) (combine hs sig)).
Proof.
  intros Hr. revert sig. induction Hr as [|w h ws hs Hw Hws IH]; intros sig Hp Hlt Hl Hs.
  - exists []. split; constructor.
  - destruct sig as [|[c wf] sig]; [discriminate|]. inversion Hp as [|? ? P1 P2]. inversion Hs as [|? ? S1 S2]. cbn [map combine mapr].
    destruct (update_ok nf nmax nmax w h c wf ltac:(lia) Hw ltac:(lia) S1) as (w' & -> & Hw' & _). cbn [rbind].
    destruct (IH sig P2 Hlt ltac:(cbn in Hl; lia) S2) as (ws' & -> & Hr'). cbn [rbind].
    exists (w' :: ws'). split; auto. constructor; auto.
Qed.

Lemma reps_src ws hs src : reps ws hs -> Forall (fun i => i < length ws) src ->
  exists ws', mapr (fun i => match nth_error ws i with Some w => Ok w | None => Err IndexError end) src = Ok ws' /\
    reps ws' (map (fun i => nth i hs []) src).
Proof.
  intros Hr. induction 1 as [|i src Hi Hs (ws' & IH & IH2)]; cbn [mapr map].
  - exists []. split; constructor.
  - destruct (nth_error ws i) as [w|] eqn:E; [|apply nth_error_None in E; lia]. cbn [rbind].
    rewrite IH. cbn [rbind]. exists (w :: ws'). split; auto. constructor; auto.
    clear - Hr E. revert i E. induction Hr; intros [|i] E; cbn in *; try discriminate; auto.
    inversion E; subst; auto.
Qed.

Lemma reps_reset (Hm : 0 < nmax) ws hs : reps ws hs -> Forall (fun h => length h = nmax) hs ->
  exists ws', mapr reset ws = Ok ws' /\ reps ws' (map (fun _ => []) hs).
Proof.
  induction 1 as [|w h ws hs Hw Hws IH]; intros Hp; cbn [mapr map].
  - exists []. split; constructor.
  - inversion Hp as [|? ? P1 P2]. destruct (reset_ok nf nmax nmax w h ltac:(lia) Hw) as (w' & -> & Hw' & _). cbn [rbind].
    rewrite P1, Nat.mod_same in Hw' by lia. cbn in Hw'.
    destruct (IH P2) as (ws' & -> & Hr'). cbn [rbind]. exists (w' :: ws'). split; auto. constructor; auto.
Qed.

Lemma reps_blocks ws hs : reps ws hs -> map get_block ws = map blocks_of hs.
Proof. induction 1 as [|w h ws hs Hw Hws IH]; cbn; f_equal; auto. apply Hw. Qed.

Lemma reps_length ws hs : reps ws hs -> length ws = length hs.
Proof. induction 1; cbn; auto. Qed.

Lemma hstep_length p sig src hs : valid_step nf nw sig src -> length hs = nw -> Forall (fun h => length h = p) hs ->
  length (hstep nmax sig src hs) = nw /\ Forall (fun h => length h = S p) (hstep nmax sig src hs).
Proof.
  intros (V1 & V2 & V3 & V4) Hl Hp. unfold hstep. rewrite map_length. split; auto.
  rewrite Forall_forall. intros h Hh. apply in_map_iff in Hh. destruct Hh as (i & <- & Hi).
  rewrite Forall_forall in V4. specialize (V4 i Hi).
  assert (K : Forall (fun h => length h = S p) (map (fun '(h, e) => h ++ [e]) (combine hs sig))).
  { clear - Hp. revert sig. induction Hp; intros [|e sig]; cbn; constructor; auto.
    rewrite app_length; cbn; lia. }
  rewrite Forall_forall in K. apply K, nth_In. rewrite map_length, combine_length. lia.
Qed.

Lemma bp_step_reps (Hm : 0 < nmax) sp sig src ws hs p : valid_step nf nw sig src -> reps ws hs -> length hs = nw -> 0 < nw ->
  Forall (fun h => length h = p) hs -> p < nmax ->
  exists ws', reps ws' (hstep nmax sig src hs) /\ bp_step sp (map Some sig) src ws = bp_update sp ws'.
Proof.
  intros V Hr Hl Hnw Hp Hlt. pose proof V as (V1 & V2 & V3 & V4).
  assert (Hlw : length ws = nw) by (rewrite (reps_length _ _ Hr); auto).
  destruct (reps_step Hm ws hs sig p Hr Hp Hlt (eq_trans V1 (eq_sym Hlw)) V2) as (ws1 & E1 & R1).
  destruct (reps_src ws1 _ src R1) as (ws2 & E2 & R2).
  { rewrite (reps_length _ _ R1), map_length, combine_length, Hl, V1, Nat.min_id. auto. }
  exists ws2. split; auto. unfold bp_step. rewrite E1. cbn [rbind]. rewrite E2. reflexivity.
Qed.

Lemma pos_eq t : pos nmax t = S ((t - 1) mod nmax).
Proof. reflexivity. Qed.

(** Divisible splits: the run never fails and measures exactly the stored histories. *)
Lemma bp_run_ok (Hm : 0 < nmax) (Hs : 0 < nsplit) (Hd : nsplit * (nmax / nsplit) = nmax) (Hnw : 0 < nw) sig src :
  (forall t, valid_step nf nw (sig t) (src t)) -> forall n t ws hs,
  reps ws hs -> length hs = nw -> 1 <= t -> Forall (fun h => length h = (t - 1) mod nmax) hs ->
  exists ws', bp_run (splits nmax nsplit) (fun t => map Some (sig t)) src t n ws =
    Ok (hrun nmax (splits nmax nsplit) sig src t n hs, ws').
Proof.
  intros V. induction n as [|n IH]; intros t ws hs Hr Hl Ht Hp; cbn [bp_run hrun]; [eauto|].
  pose proof (Nat.mod_upper_bound (t - 1) nmax ltac:(lia)) as Hlt.
  destruct (bp_step_reps Hm (splits nmax nsplit) (sig t) (src t) ws hs _ (V t) Hr Hl Hnw Hp Hlt) as (ws1 & R1 & ->).
  destruct (hstep_length _ _ _ _ (V t) Hl Hp) as (Hl1 & Hp1).
  set (hs1 := hstep nmax (sig t) (src t) hs) in *. fold (pos nmax t) in Hp1.
  assert (Hpos : 0 < pos nmax t <= nmax) by (unfold pos; lia).
  unfold bp_update.
  assert (Hlw : length ws1 = nw) by (rewrite (reps_length _ _ R1); auto).
  destruct ws1 as [|w0 ws1]; [cbn in Hlw; lia|]. 
  assert (Hst : step w0 = pos nmax t).
  { inversion R1 as [|? h0 ? hs0 Hw0 Hws0 E1 E2]. rewrite (rep_step _ _ _ _ _ Hw0).
    rewrite <- E2 in Hp1. inversion Hp1; auto. }
  rewrite Hst. rewrite splits_last by auto. rewrite Hd.
  assert (Hnext : pos nmax t <> nmax -> (S t - 1) mod nmax = pos nmax t).
  { intros Hne. unfold pos in *. replace (S t - 1) with (t - 1 + 1) by lia.
    rewrite Nat.add_mod by lia. destruct (Nat.eq_dec nmax 1) as [->|]; [lia|].
    rewrite (Nat.mod_small 1) by lia. rewrite Nat.mod_small by lia. lia. }
  assert (Hwrap : pos nmax t = nmax -> (S t - 1) mod nmax = 0).
  { intros He. unfold pos in He. replace (S t - 1) with (t - 1 + 1) by lia.
    rewrite (Nat.div_mod (t - 1) nmax) by lia. 
    replace (nmax * ((t - 1) / nmax) + (t - 1) mod nmax + 1) with (0 + ((t - 1) / nmax + 1) * nmax) by lia.
    rewrite Nat.mod_add by lia. apply Nat.mod_small; lia. }
  destruct (existsb (Nat.eqb (pos nmax t)) (splits nmax nsplit)) eqn:Ein; cbn [negb].
  - destruct (pos nmax t =? nmax) eqn:Elast.
    + apply Nat.eqb_eq in Elast. rewrite Elast in Hp1.
      destruct (reps_reset Hm _ _ R1 Hp1) as (ws2 & -> & R2). cbn [rbind].
      destruct (IH (S t) ws2 (map (fun _ => []) hs1) R2) as (ws' & ->).
      * rewrite map_length; auto.
      * lia.
      * rewrite Hwrap by auto. rewrite Forall_forall. intros h Hh. apply in_map_iff in Hh. destruct Hh as (? & <- & _). reflexivity.
      * cbn [rbind]. rewrite <- (reps_blocks _ _ R1). cbn [map app]. eauto.
    + cbn [rbind]. destruct (IH (S t) (w0 :: ws1) hs1 R1 Hl1) as (ws' & ->); [lia| |].
      * rewrite Hnext by lia. auto.
      * cbn [rbind]. rewrite <- (reps_blocks _ _ R1). cbn [map app]. eauto.
  - cbn [rbind].
    assert (Hne : pos nmax t <> nmax).
    { intros He. rewrite He in Ein.
      assert (existsb (Nat.eqb nmax) (splits nmax nsplit) = true); [|congruence].
      apply existsb_exists. exists nmax. split; [|apply Nat.eqb_refl].
      rewrite <- Hd at 1. apply last_in_splits; auto. }
    destruct (IH (S t) (w0 :: ws1) hs1 R1 Hl1) as (ws' & ->); [lia| |].
    + rewrite Hnext by auto. auto.
    + cbn [rbind app]. replace (pos nmax t =? nmax) with false by lia. eauto.
Qed.

(** Otherwise the window is never emptied and step nmax+1 overruns it. *)
Lemma reps_reset_partial (Hm : 0 < nmax) p ws hs : 0 < p < nmax -> reps ws hs -> Forall (fun h => length h = p) hs ->
  exists ws', mapr reset ws = Ok ws' /\ reps ws' hs.
Proof.
  intros Hpr. induction 1 as [|w h ws hs Hw Hws IH]; intros Hp; cbn [mapr map].
  - exists []. split; constructor.
  - inversion Hp as [|? ? E Hp']. destruct (reset_ok nf nmax nmax w h ltac:(lia) Hw) as (w' & -> & Hw' & _). cbn [rbind].
    rewrite E, Nat.mod_small in Hw' by lia. replace (p =? 0) with false in Hw' by lia.
    destruct (IH Hp') as (ws' & -> & Hr'). cbn [rbind]. exists (w' :: ws'). split; auto. constructor; auto.
Qed.

Lemma bp_run_overrun (Hm : 0 < nmax) (Hs : 0 < nsplit) (Hd : nsplit * (nmax / nsplit) <> nmax) (Hnw : 0 < nw) sig src :
  (forall t, valid_step nf nw (sig t) (src t)) -> forall n t ws hs,
  reps ws hs -> length hs = nw -> Forall (fun h => length h = t - 1) hs -> 1 <= t -> nmax + 1 < t + n -> t <= nmax + 1 ->
  bp_run (splits nmax nsplit) (fun t => map Some (sig t)) src t n ws = Err IndexError.
Proof.
  intros V. 
  assert (Hlt : nsplit * (nmax / nsplit) < nmax) by (pose proof (Nat.mul_div_le nmax nsplit); lia).
  induction n as [|n IH]; intros t ws hs Hr Hl Hp Ht Hn Htm; [lia|].
  cbn [bp_run]. destruct (Nat.eq_dec t (nmax + 1)) as [->|Hne].
  - unfold bp_step. 
    assert (Hlw : length ws = nw) by (rewrite (reps_length _ _ Hr); auto).
    destruct (V (nmax + 1)) as (V1 & _). destruct ws as [|w ws]; [cbn in Hlw; lia|].
    destruct (sig (nmax + 1)) as [|[c wf] sg]; [cbn in V1; lia|]. cbn [map combine mapr].
    inversion Hr as [|? h ? hs0 Hw Hws E1 E2]. rewrite <- E2 in Hp. inversion Hp as [|? ? E3 _].
    unfold update. destruct (rep_params _ _ _ _ _ Hw) as (_ & _ & -> & _). rewrite (rep_step _ _ _ _ _ Hw).
    replace (nmax <=? length h) with true by lia. reflexivity.
  - destruct (bp_step_reps Hm (splits nmax nsplit) (sig t) (src t) ws hs _ (V t) Hr Hl Hnw Hp ltac:(lia)) as (ws1 & R1 & ->).
    destruct (hstep_length _ _ _ _ (V t) Hl Hp) as (Hl1 & Hp1).
    set (hs1 := hstep nmax (sig t) (src t) hs) in *. 
    assert (Hlw : length ws1 = nw) by (rewrite (reps_length _ _ R1); auto).
    unfold bp_update. destruct ws1 as [|w0 ws1]; [cbn in Hlw; lia|].
    assert (Hst : step w0 = t).
    { inversion R1 as [|? h0 ? hs0 Hw0 Hws0 E1 E2]. rewrite (rep_step _ _ _ _ _ Hw0).
      rewrite <- E2 in Hp1. inversion Hp1 as [|? ? E3 _]. lia. }
    rewrite Hst, splits_last by auto.
    assert (Hcont : forall ws2, reps ws2 hs1 -> bp_run (splits nmax nsplit) (fun t => map Some (sig t)) src (S t) n ws2 = Err IndexError).
    { intros ws2 R2. apply (IH (S t) ws2 hs1 R2 Hl1); try lia.
      replace (S t - 1) with (S (t - 1)) by lia. auto. }
    destruct (existsb (Nat.eqb t) (splits nmax nsplit)); cbn [negb].
    + destruct (t =? nsplit * (nmax / nsplit)) eqn:Elast.
      * destruct (reps_reset_partial Hm t _ _ ltac:(lia) R1) as (ws2 & -> & R2).
        { replace t with (S (t - 1)) by lia. auto. }
        cbn [rbind]. rewrite Hcont; auto.
      * cbn [rbind]. rewrite Hcont; auto.
    + cbn [rbind]. rewrite Hcont; auto.
Qed.
End Walkers.

Lemma repeat_reps nf nmax f0 nw : rep nf nmax nmax f0 [] -> Forall2 (rep nf nmax nmax) (repeat f0 nw) (repeat [] nw).
Proof. intros H. induction nw; cbn; constructor; auto. Qed.

Lemma div_iff a b : 0 < b -> (b * (a / b) = a <-> Nat.divide b a).
Proof.
  intros H. split.
  - intros E. exists (a / b). lia.
  - intros (k & ->). rewrite Nat.div_mul by lia. lia.
Qed.

Lemma bp_windows nf nmax nsplit nw f0 sig src n :
  0 < nmax -> 0 < nsplit -> 0 < nw -> fc_new nf nmax nmax = Ok f0 ->
  (forall t, valid_step nf nw (sig t) (src t)) ->
  (Nat.divide nsplit nmax ->
     exists ws, bp_run (splits nmax nsplit) (fun t => map Some (sig t)) src 1 n (repeat f0 nw) =
       Ok (hrun nmax (splits nmax nsplit) sig src 1 n (repeat [] nw), ws)) /\
  (~ Nat.divide nsplit nmax -> nmax < n ->
     bp_run (splits nmax nsplit) (fun t => map Some (sig t)) src 1 n (repeat f0 nw) = Err IndexError).
Proof.
  intros Hm Hs Hw Hf V. destruct (new_rep nf nmax nmax ltac:(lia)) as (f & Hf' & Hr & _).
  assert (f0 = f) by congruence. subst f0.
  pose proof (repeat_reps nf nmax f nw Hr) as Hrs.
  split; intros Hd.
  - apply (bp_run_ok nf nmax nsplit nw); auto; try lia.
    + apply div_iff; auto.
    + apply repeat_length.
    + apply Forall_forall. intros h Hh. apply repeat_spec in Hh. subst. rewrite Nat.mod_small; auto.
  - intros Hn. apply (bp_run_overrun nf nmax nsplit nw Hm Hs) with (hs := repeat [] nw); auto; try lia.
    + rewrite div_iff; auto.
    + apply repeat_length.
    + apply Forall_forall. intros h Hh. apply repeat_spec in Hh. subst. reflexivity.
Qed.

(** One walker of negligible weight in front: the rest overrun. *)
Definition dead_front : nat -> list (option entry) :=
  fun t => [if t =? 1 then Some ([C1], (C1, C1)) else None; Some ([C1], (C1, C1))].

Lemma dead_front_overrun : forall f0, fc_new 1 2 2 = Ok f0 ->
  bp_run (splits 2 1) dead_front (fun _ => [0; 1]) 1 3 [f0; f0] = Err IndexError.
Proof. intros f0 H. apply Ok_inj in H. subst. reflexivity. Qed.

(** Transfer of a field history: the received total factor is truncated. *)
Definition sender_fc : res fc := rbind (fc_new 1 1 1) (fun f => update f [C1] (mkC 0 1, C1)).
Definition receiver_fc : res fc := rbind (fc_new 1 1 1) (fun f => update f [C1] (C1, C0)).

Lemma tot_wfac_lost : exists s r b r',
  sender_fc = Ok s /\ receiver_fc = Ok r /\ compatible (fc_obj s) (fc_obj r) /\
  obj_get (fc_obj s) = Ok b /\ obj_set (fc_obj r) b = Ok r' /\
  lookup (attrs (fc_obj s)) "tot_wfac" = Some (PComplex (num_val (tot_wfac s))) /\
  num_val (tot_wfac s) =c= mkC 0 1 /\ lookup (attrs r') "tot_wfac" = Some (PInt 0).
Proof.
  let s := eval vm_compute in sender_fc in
  let r := eval vm_compute in receiver_fc in
  match s with Ok ?s => match r with Ok ?r =>
    let b := eval vm_compute in (obj_get (fc_obj s)) in
    match b with Ok ?b =>
      let r' := eval vm_compute in (obj_set (fc_obj r) b) in
      match r' with Ok ?r' => exists s, r, b, r' end end end end.
  split; [vm_compute; reflexivity|]. split; [vm_compute; reflexivity|]. split.
  - split; [apply new_obj_sized; cbn; repeat constructor; cbn; intuition discriminate|].
    split; [reflexivity|]. split; [vm_compute; reflexivity|].
    intros k Hk. vm_compute in Hk.
    repeat (destruct Hk as [<-|Hk]; [eexists _, _; split; [reflexivity|]; split; [reflexivity|];
      apply slot_one; first [apply slot_num; reflexivity|apply slot_arr; reflexivity]|]).
    destruct Hk.
  - split; [vm_compute; reflexivity|]. split; [vm_compute; reflexivity|].
    split; [vm_compute; reflexivity|]. split; [split; vm_compute; reflexivity|]. vm_compute; reflexivity.
Qed.
