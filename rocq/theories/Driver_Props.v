(** Properties C11, C12 and C23: drivers. *)
From Verif Require Import BaseFacts Driver_Model Driver_Spec Driver_Proofs.
From Coq Require Import Qabs.
Open Scope nat_scope.

(** C11 for the zero-temperature driver: every process holds the same positive number of
    walkers, the reported total is processes * walkers, it does not exceed the request and
    misses fewer than one walker per process unless the request is below the process count. *)
Theorem C11_walkers : forall n size, 0 < size -> let '(nw, tot) := afqmc_walkers n size in
  0 < nw /\ tot = nw * size /\ (size <= n -> tot <= n /\ n < tot + size) /\ (n < size -> nw = 1 /\ tot = size).
Proof. exact afqmc_walkers_spec. Qed.
Print Assumptions C11_walkers.

(** C11: the finite-temperature driver computes the same. *)
Theorem C11_thermal : forall n size, thermal_walkers n size = afqmc_walkers n size.
Proof. exact thermal_walkers_eq. Qed.
Print Assumptions C11_thermal.

(** C11 is false of calc.setup_parallel: with fewer walkers than processes the reported total
    is zero although each process holds one; it is right exactly otherwise. *)
Theorem C11_setup_parallel_refuted : exists n size, 0 < size /\
  snd (parallel_walkers n size) <> fst (parallel_walkers n size) * size.
Proof. exact (ex_intro _ 3 (ex_intro _ 4 (conj (Nat.lt_0_succ 3) (fun H => Nat.neq_0_succ 3 H)))). Qed.
Print Assumptions C11_setup_parallel_refuted.
Theorem C11_setup_parallel_iff : forall n size, 0 < size -> let '(nw, tot) := parallel_walkers n size in
  tot = nw * size <-> size <= n.
Proof. exact parallel_walkers_iff. Qed.
Print Assumptions C11_setup_parallel_iff.

(** C11: numbering i + nwalkers*rank enumerates 0 .. ntot-1 without gaps or repetitions, in
    rank order, and rank and position are recovered by division. *)
Theorem C11_numbering : forall nw size,
  flat_map (fun r => map (global_ix nw r) (seq 0 nw)) (seq 0 size) = seq 0 (size * nw).
Proof. exact seq_split_blocks. Qed.
Print Assumptions C11_numbering.
Theorem C11_numbering_inverse : forall nw r i, i < nw -> global_ix nw r i / nw = r /\ global_ix nw r i mod nw = i.
Proof. exact global_ix_inv. Qed.
Print Assumptions C11_numbering_inverse.
Example C11_hyps : afqmc_walkers 10 4 = (2, 8) /\ afqmc_walkers 3 4 = (1, 4) /\ parallel_walkers 3 4 = (1, 0).
Proof. repeat split. Qed.

(** C12: seeds of different processes differ; they are base seed + rank and are accepted
    whenever base seed + number of processes fits in 32 bits. *)
Theorem C12_seeds_distinct : forall seed draw r r' s,
  rank_seed seed draw r = Ok s -> rank_seed seed draw r' = Ok s -> r = r'.
Proof. exact rank_seed_inj. Qed.
Print Assumptions C12_seeds_distinct.
Theorem C12_seeds_value : forall seed draw r s, rank_seed seed draw r = Ok s ->
  s = (match seed with Some x => x | None => draw end + Z.of_nat r)%Z /\ (0 <= s < 2^32)%Z.
Proof. exact rank_seed_spec. Qed.
Print Assumptions C12_seeds_value.
Theorem C12_seeds_accepted : forall seed draw size, let base := match seed with Some x => x | None => draw end in
  (0 <= base)%Z -> (base + Z.of_nat size <= 2^32)%Z -> forall r, r < size -> exists s, rank_seed seed draw r = Ok s.
Proof. exact rank_seed_ok. Qed.
Print Assumptions C12_seeds_accepted.
(** Runs whose base seeds differ by one share all streams but one. *)
Theorem C12_seeds_shared_between_runs : forall x draw r s,
  rank_seed (Some x) draw (S r) = Ok s -> rank_seed (Some (x + 1)%Z) draw r = Ok s.
Proof. exact rank_seed_shift. Qed.
Print Assumptions C12_seeds_shared_between_runs.
Example C12_hyps : map (rank_seed (Some 7%Z) 99%Z) [0; 1; 2] = [Ok 7%Z; Ok 8%Z; Ok 9%Z] /\
  rank_seed None 99%Z 2 = Ok 101%Z /\ rank_seed (Some (-1)%Z) 99%Z 0 = Err ValueError.
Proof. repeat split. Qed.

(** C23: a completed run orthogonalises, controls the population and writes restart files
    exactly at the multiples of the periods in 1 .. total_steps, and measures every step. *)
Theorem C23_schedule : forall (W M : Type) weight total set_weight propagate ortho popc est shift (p : params) (s s' : state W M),
  run weight total set_weight propagate ortho popc est shift p s = Ok s' -> st_trace s = [] ->
  ortho_steps (st_trace s') = multiples (p_nstblz p) 1 (p_steps p) /\
  pop_steps (st_trace s') = multiples (p_npop p) 1 (p_steps p) /\
  est_steps (st_trace s') = seq 1 (p_steps p) /\
  write_steps (st_trace s') = (if p_restart p then multiples (p_wfreq p) 1 (p_steps p) else []).
Proof.
  exact (fun W M we to se pr or po es sh p s s' H E =>
    match run_from_events we to se pr or po es sh p (p_steps p) 1 s s' H with
    | conj _ R => eq_ind (st_trace s) (fun t => ortho_steps (st_trace s') = ortho_steps t ++ multiples (p_nstblz p) 1 (p_steps p) /\
        pop_steps (st_trace s') = pop_steps t ++ multiples (p_npop p) 1 (p_steps p) /\
        est_steps (st_trace s') = est_steps t ++ seq 1 (p_steps p) /\
        write_steps (st_trace s') = write_steps t ++ (if p_restart p then multiples (p_wfreq p) 1 (p_steps p) else [])) R [] E
    end).
Qed.
Print Assumptions C23_schedule.

(** C23: energy shift after each step: before equilibration the shift of the propagation mode,
    afterwards always the hybrid shift. *)
Theorem C23_shift : forall (W M : Type) weight total set_weight propagate ortho popc est shift (p : params) step (s s' : state W M),
  run_step weight total set_weight propagate ortho popc est shift p step s = Ok s' ->
  (st_shift s' == if step <? p_neqlb p then shift (p_hybrid p) (st_est s') else shift true (st_est s'))%Q.
Proof.
  exact (fun W M we to se pr or po es sh p step s s' H =>
    match run_step_events we to se pr or po es sh p step s s' H with
    | conj _ (conj _ (conj _ (conj _ (conj _ (conj _ (conj _ (ex_intro _ m (conj Em Es)))))))) =>
        eq_ind_r (fun m => (st_shift s' == if step <? p_neqlb p then sh (p_hybrid p) m else sh true m)%Q) Es Em
    end).
Qed.
Print Assumptions C23_shift.

(** C23, finite temperature: population control at the multiples of its period except slice 0. *)
Theorem C23_thermal_schedule : forall (W : Type) weight total set_weight popc tpropagate n npop (psi psi' : list W) tr',
  thermal_slices weight total set_weight popc tpropagate 0 n npop psi [] = Ok (psi', tr') ->
  pop_steps tr' = filter (fun s => negb (s =? 0)) (multiples npop 0 n).
Proof. exact (fun W we to se po tp n npop psi psi' tr' => thermal_slices_pop we to se po tp n npop 0 psi [] psi' tr'). Qed.
Print Assumptions C23_thermal_schedule.

(** C23, cap: after the propagation phase of any step after the first every |weight| is at most
    10% of the total weight recorded at the last population control. *)
Theorem C23_cap : forall (W : Type) weight total set_weight propagate,
  (forall q (w : W), total (set_weight q w) = total w) -> (forall q w, weight (set_weight q w) = q) ->
  forall step e ws, 1 < step -> (forall i w, (0 <= total (propagate step i e w))%Q \/ ~ In w ws) ->
  Forall (fun w => (0 <= total w)%Q) ws ->
  Forall (fun w => (Qabs (weight w) <= total w * cap_fac)%Q) (fst (advance_all weight total set_weight propagate step e 0 ws)).
Proof. exact @advance_bound. Qed.
Print Assumptions C23_cap.

(** The cap relative to the current total fails: three equal walkers each keep a third. *)
Theorem C23_cap_current_total_refuted : exists (ws : list (Q * Q)),
  Forall (fun w => (0 <= snd w)%Q) ws /\
  let ws' := fst (advance_all fst snd (fun q x => (q, snd x)) (fun _ _ _ w => w) 2 0%Q 0 ws) in
  Exists (fun w => (Qsum (map fst ws') * cap_fac < Qabs (fst w))%Q) ws'.
Proof.
  exists [(1, 3); (1, 3); (1, 3)]%Q. split; [repeat constructor; vm_compute; congruence|].
  constructor. vm_compute. reflexivity.
Qed.
Print Assumptions C23_cap_current_total_refuted.

(** The cap is inactive on equal weights exactly from ten walkers on; below that it cuts every walker. *)
Theorem C23_cap_small_population : forall (n : nat) (w : Q), 0 < n < 10 -> (0 < w)%Q ->
  let tot := (q_of_nat n * w)%Q in
  cap (W := Q * Q) fst snd (fun q x => (q, snd x)) true (w, tot) = ((tot * cap_fac)%Q, tot) /\ (tot * cap_fac < w)%Q.
Proof. exact cap_small_population. Qed.
Print Assumptions C23_cap_small_population.
Theorem C23_cap_large_population : forall (n : nat) (w : Q), 10 <= n -> (0 <= w)%Q ->
  cap (W := Q * Q) fst snd (fun q x => (q, snd x)) true (w, (q_of_nat n * w)%Q) = (w, (q_of_nat n * w)%Q).
Proof. exact cap_large_population. Qed.
Print Assumptions C23_cap_large_population.

Example C23_hyps :
  exists s', run (M := nat) (fst (A := Q) (B := Q)) snd (fun q x => (q, snd x)) (fun _ _ _ w => w) (fun l => l) (fun _ l => Ok l)
    (fun _ _ m => Ok (S m)) (fun b m => if b then q_of_nat m else 0%Q) (Driver_Model.Params 6 2 3 4 false true 4) (State [(1, 3)%Q] 0 0%Q []) = Ok s'
  /\ ortho_steps (st_trace s') = [2; 4; 6] /\ pop_steps (st_trace s') = [3; 6] /\ write_steps (st_trace s') = [4].
Proof. eexists. split; [vm_compute; reflexivity|]. repeat split. Qed.
