(** Properties C06-C10: pair branching and weight normalisation. *)
From Verif Require Import BaseFacts Comb_Model MPI_Model MPI_Proofs PairBranch_Model PairBranch_Spec PairBranch_Proofs
  PairBranchMPI_Proofs PopControl_Model PopControl_Proofs.
From Coq Require Import Qabs.
Open Scope nat_scope.

(** C06-C08, root-rank part: the table is always computed (no IndexError, no infinite loop);
    it pairs the lightest with the heaviest walkers from the outside inwards, one of each
    pair doubled with half the pair weight, the other killed, all others untouched; on exit
    at most one walker is unprocessed or all unprocessed weights are in the window. *)
Theorem C08_pair_branch_window : forall (minw maxw : Q) (draws : nat -> Q) (nw : nat) (ws : list Q),
  exists table sigma K, pb_table minw maxw draws nw ws = Ok table /\ pb_outcome nw ws table sigma K /\
    (length ws <= 2 * K + 1 \/
     forall i, K <= i -> i < length ws - K -> (minw <= absw ws (nth i sigma 0%nat) <= maxw)%Q).
Proof.
  exact (fun minw maxw draws nw ws =>
    match table_outcome minw maxw draws nw ws with
    | ex_intro _ t (ex_intro _ K H) => ex_intro _ t (ex_intro _ (pb_sort (init_rows nw ws)) (ex_intro _ K H))
    end).
Qed.
Print Assumptions C08_pair_branch_window.

Example C08_hyps : exists t, pb_table (1#10) 4 (fun _ => 1#2) 2 [5; 1#20; 1; 1]%Q = Ok t /\ map r_m t = [2; 0; 1; 1].
Proof. eexists. split; [vm_compute; reflexivity|reflexivity]. Qed.

(** C06: whatever the draws and the interleaving, when the exchange has finished the sum
    of |weight| over all ranks and the number of walkers are those before branching. *)
Theorem C06_pair_branch_conserves : forall (X : Type) (minw maxw : Q) (draws : nat -> Q) (nw p : nat)
    (ws : list (Q * X)) (table : list row) (eager : bool) (n : nat) (cf : config (Q * X)),
  0 < nw -> length ws = p * nw -> pb_table minw maxw draws nw (map fst ws) = Ok table ->
  steps eager n (init (fun r => pb_program nw r table) (fun r => chunk nw r (reweighted table ws))) cf ->
  finished p cf ->
  let final := flat_map (store cf) (seq 0 p) in
  length final = length ws /\ (total_abs final == total_abs ws)%Q.
Proof. exact @pb_conserves. Qed.
Print Assumptions C06_pair_branch_conserves.

(** C07: the transfer never blocks, is bounded, delivers every message once, leaves every
    surviving walker in its slot (doubled ones with their new weight) and fills the killed
    slots with exactly one copy of each doubled walker. *)
Theorem C07_pair_branch_transfer : forall (X : Type) (minw maxw : Q) (draws : nat -> Q) (nw p : nat)
    (ws : list (Q * X)) (table : list row) (eager : bool) (n : nat) (cf : config (Q * X)),
  0 < nw -> length ws = p * nw -> pb_table minw maxw draws nw (map fst ws) = Ok table ->
  steps eager n (init (fun r => pb_program nw r table) (fun r => chunk nw r (reweighted table ws))) cf ->
  n <= nsum (map (fun r => length (pb_program nw r table)) (seq 0 p)) /\
  ((exists cf', step eager cf cf') \/
   (finished p cf /\ (forall c, rcvd cf c = length (sent cf c)) /\
    let final := flat_map (store cf) (seq 0 p) in
    length final = length ws /\
    (forall i row, nth_error table i = Some row -> r_m row <> 0 ->
       exists w x, nth_error ws i = Some (w, x) /\
         nth_error final i = Some (if r_m row =? 2 then r_w row else w, x)) /\
    Permutation (killed_slots table final) (doubled_walkers table (reweighted table ws)))).
Proof. exact @pb_transfer. Qed.
Print Assumptions C07_pair_branch_transfer.

Example C07_hyps : exists t, pb_table (1#10) 4 (fun _ => 1#2) 2 [5; 1#20; 1; 1#30]%Q = Ok t /\
  pb_program 2 0 t = [Isend 1 1 0; Recv 1 2 1; Wait 1 1 0] /\ pb_program 2 1 t = [Isend 0 2 0; Recv 0 1 1; Wait 0 2 0].
Proof. eexists. split; [vm_compute; reflexivity|split; reflexivity]. Qed.

(** C09: for a pair of total weight > 0 there is a threshold t such that draws below t keep
    the heavier walker's state and draws above keep the lighter one's, and the mean over a
    uniform draw of the weight carried by either state is its weight before. *)
Theorem C09_pair_branch_unbiased : forall a b, (0 <= r_w a)%Q -> (0 <= r_w b)%Q -> (0 < r_w a + r_w b)%Q ->
  exists t, (0 <= t <= 1)%Q /\
    (forall u, ((u < t)%Q -> (carried (snd (branch_pair u a b)) == r_w a + r_w b /\ carried (fst (branch_pair u a b)) == 0)%Q) /\
               ((t <= u)%Q -> (carried (snd (branch_pair u a b)) == 0 /\ carried (fst (branch_pair u a b)) == r_w a + r_w b)%Q)) /\
    (mean_threshold t (r_w a + r_w b) 0 == r_w b)%Q /\ (mean_threshold t 0 (r_w a + r_w b) == r_w a)%Q.
Proof. exact branch_unbiased. Qed.
Print Assumptions C09_pair_branch_unbiased.

Example C09_hyps : (0 <= r_w (Row (1#20) 1 0 0))%Q /\ (0 <= r_w (Row 5 1 1 1))%Q /\ (0 < r_w (Row (1#20) 1 0 0) + r_w (Row 5 1 1 1))%Q.
Proof. repeat split; vm_compute; congruence. Qed.

(** C10: rescaling. *)
Theorem C10_rescale : forall (X : Type) (ntot target : nat) (ws : list (Q * aux X)),
  ntot <> 1 -> 0 < target -> (tiny <= total_abs ws)%Q ->
  exists gw ws', pop_prepare ntot target ws = Ok (Prepared gw ws') /\ length ws' = length ws /\
    (total_abs ws' == q_of_nat target)%Q /\ (Qsum gw == q_of_nat target)%Q /\
    (forall i w, nth_error ws i = Some w -> exists w' g, nth_error ws' i = Some w' /\ nth_error gw i = Some g /\
       (fst w' * total_abs ws == fst w * q_of_nat target)%Q /\ (g == Qabs (fst w'))%Q /\
       unscaled (snd w') = fst w /\ total_weight (snd w') = total_abs ws /\ body (snd w') = body (snd w)).
Proof. exact @pop_rescale. Qed.
Print Assumptions C10_rescale.

(** C10: exactly the vanishing populations stop the run, a single walker is left alone. *)
Theorem C10_exit : forall (X : Type) (ntot target : nat) (ws : list (Q * aux X)), 0 < target ->
  (pop_prepare ntot target ws = Err SystemExit <-> ntot <> 1 /\ (total_abs ws < tiny)%Q).
Proof. exact @pop_exit. Qed.
Print Assumptions C10_exit.
Theorem C10_single_walker : forall (X : Type) (target : nat) (ws : list (Q * aux X)),
  pop_prepare 1 target ws = Ok (Untouched ws).
Proof. exact @pop_single. Qed.
Print Assumptions C10_single_walker.

(** C10: after comb every weight is one; after pair branching the total is the target. *)
Theorem C10_comb_total : forall (X : Type) (ntot target : nat) (r : Q) (ws : list (Q * aux X)),
  ntot <> 1 -> 0 < target -> (tiny <= total_abs ws)%Q -> (0 <= r < 1)%Q ->
  exists ws', pop_comb ntot target r ws = Ok ws' /\ length ws' = length ws /\
    (total_abs ws' == q_of_nat (length ws))%Q /\ Forall (fun w => fst w = 1%Q /\ total_weight (snd w) = total_abs ws) ws'.
Proof. exact @pop_comb_total. Qed.
Print Assumptions C10_comb_total.
Theorem C10_pair_branch_total : forall (X : Type) ntot target (ws : list (Q * aux X)) gw ws1 minw maxw draws nw p table eager n cf,
  ntot <> 1 -> 0 < target -> (tiny <= total_abs ws)%Q -> 0 < nw -> length ws = p * nw ->
  pop_prepare ntot target ws = Ok (Prepared gw ws1) ->
  pb_table minw maxw draws nw (map fst ws1) = Ok table ->
  steps eager n (init (fun r => pb_program nw r table) (fun r => chunk nw r (reweighted table ws1))) cf ->
  (exists cf', step eager cf cf') \/
  (finished p cf /\ length (flat_map (store cf) (seq 0 p)) = length ws /\
   (total_abs (flat_map (store cf) (seq 0 p)) == q_of_nat target)%Q).
Proof. exact @pop_pair_total. Qed.
Print Assumptions C10_pair_branch_total.

Example C10_hyps : let ws := [(3, Aux 0 0 tt); (-(1#2), Aux 0 0 tt)]%Q in
  2 <> 1 /\ 0 < 2 /\ (tiny <= total_abs ws)%Q /\
  exists ws', pop_comb 2 2 (1#2) ws = Ok ws'.
Proof. simpl. repeat split; try lia; try (vm_compute; congruence). eexists. vm_compute. reflexivity. Qed.
