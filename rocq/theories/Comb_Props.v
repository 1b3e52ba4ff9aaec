(** Properties C01-C05: comb population control. Statements only; proofs are in
    Comb_Proofs.v and CombMPI_Proofs.v. *)
From Verif Require Import BaseFacts Comb_Model Comb_Spec Comb_Proofs MPI_Model MPI_Proofs CombMPI_Proofs.
Open Scope nat_scope.

(** C01: the selection loop terminates without IndexError and the copy counts add
    up to the target population. *)
Theorem C01_comb_counts_total : forall (w : list Q) (target : nat) (r : Q),
  admissible w -> (0 <= r < 1)%Q ->
  exists counts, comb_counts w target r = Ok counts /\ length counts = length w /\ nsum counts = target.
Proof. exact (fun w target r Hadm Hr => counts_total w target r Hadm Hr). Qed.
Print Assumptions C01_comb_counts_total.

Example C01_hyps : admissible [1; 0; 5#2; 1#2]%Q /\ (0 <= 1#3 < 1)%Q /\
  comb_counts [1; 0; 5#2; 1#2]%Q 4 (1#3) = Ok [1; 0; 3; 0].
Proof. unfold admissible. repeat split; try (repeat constructor; unfold Qle; simpl; lia); try (vm_compute; congruence); vm_compute; reflexivity. Qed.

(** C02: every walker gets the floor or the ceiling of weight*target/total. *)
Theorem C02_comb_counts_floor_ceil : forall (w : list Q) (target : nat) (r : Q) (counts : list nat) (i : nat),
  admissible w -> (0 <= r < 1)%Q -> comb_counts w target r = Ok counts -> i < length w ->
  (Qfloor (ideal_copies w target i) <= Z.of_nat (nth i counts 0%nat) <= Qceiling (ideal_copies w target i))%Z.
Proof. exact (fun w target r counts i Hadm Hr E Hi => count_floor_ceil w target r Hadm Hr i counts E Hi). Qed.
Print Assumptions C02_comb_counts_floor_ceil.

Example C02_hyps : Qfloor (ideal_copies [1; 0; 5#2; 1#2]%Q 4 2) = 2%Z /\ Qceiling (ideal_copies [1; 0; 5#2; 1#2]%Q 4 2) = 3%Z.
Proof. vm_compute. split; reflexivity. Qed.

(** C03: on every equispaced grid of m offsets the total number of copies of walker
    i differs from m * weight*target/total by less than one, so the mean over the
    offset equals weight*target/total up to 1/m for every m. *)
Theorem C03_comb_unbiased : forall (w : list Q) (target i m : nat) (s : Q),
  admissible w -> i < length w -> 0 < m -> (0 <= s < 1)%Q ->
  let tot := fold_right Z.add 0%Z (map (fun k => copies_of w target i (offset m k s)) (seq 0 m)) in
  (q_of_nat m * ideal_copies w target i - 1 < inject_Z tot < q_of_nat m * ideal_copies w target i + 1)%Q.
Proof. exact mean_copies. Qed.
Print Assumptions C03_comb_unbiased.

Example C03_hyps :
  fold_right Z.add 0%Z (map (fun k => copies_of [1; 0; 5#2; 1#2]%Q 4 2 (offset 10 k 0)) (seq 0 10)) = 25%Z
  /\ (ideal_copies [1; 0; 5#2; 1#2]%Q 4 2 == 5#2)%Q.
Proof. split; vm_compute; reflexivity. Qed.

(** C04 is false of the code: a walker drawn three times occupies only two slots
    afterwards (clone and kill lists are zipped, each walker appearing at most once
    in the clone list). The counts below are reachable: weights 3,0,0. *)
Theorem C04_comb_multiset_refuted : exists (w : list Q) (r : Q) (counts : list nat),
  admissible w /\ (0 <= r < 1)%Q /\ comb_counts w (length w) r = Ok counts /\
  ~ Permutation (comb_exchange (seq 0 (length w)) counts) (drawn (seq 0 (length w)) counts).
Proof.
  exists [3; 0; 0]%Q, (1#2)%Q, [3; 0; 0].
  split; [split; [repeat constructor; unfold Qle; simpl; lia|vm_compute; reflexivity]|].
  split; [split; [unfold Qle; simpl; lia|vm_compute; reflexivity]|].
  split; [vm_compute; reflexivity|].
  intros H. apply Permutation_sym in H.
  assert (In 2 (drawn (seq 0 (length [3; 0; 0]%Q)) [3; 0; 0])).
  { eapply Permutation_in; [apply Permutation_sym; exact H|]. vm_compute. auto. }
  vm_compute in H0. intuition discriminate.
Qed.
Print Assumptions C04_comb_multiset_refuted.

(** C04, exact scope: for a population resampled to its own size the walkers after the
    exchange are the drawn multiset if and only if no count exceeds two. *)
Theorem C04_comb_multiset_iff : forall counts, nsum counts = length counts ->
  (Permutation (comb_exchange (seq 0 (length counts)) counts) (drawn (seq 0 (length counts)) counts)
   <-> Forall (fun n => n <= 2) counts).
Proof. exact comb_exchange_iff. Qed.
Print Assumptions C04_comb_multiset_iff.

(** C04, payload version of the positive half: any walker contents. *)
Theorem C04_comb_multiset_partial : forall (A : Type) (ws : list A) (counts : list nat),
  length ws = length counts -> nsum counts = length counts -> Forall (fun n => n <= 2) counts ->
  Permutation (comb_exchange ws counts) (drawn ws counts).
Proof. exact @comb_exchange_perm. Qed.
Print Assumptions C04_comb_multiset_partial.

Example C04_hyps : nsum [2; 0; 1; 0; 2] = length [2; 0; 1; 0; 2] /\ Forall (fun n => n <= 2) [2; 0; 1; 0; 2]
  /\ comb_exchange [10; 11; 12; 13; 14] [2; 0; 1; 0; 2] = [10; 10; 12; 14; 14].
Proof. split; [reflexivity|split; [repeat constructor|reflexivity]]. Qed.

(** C05: the transfer phase. [p] ranks with [nw] walkers each run their sends, receives
    and waits under any interleaving, with sends completing immediately or only when
    received. Every reachable configuration can step or is final; a final
    configuration has every message received exactly once and holds exactly the
    walkers of the sequential exchange. Executions are bounded, so every execution
    reaches a final configuration. *)
Theorem C05_comb_transfer : forall (A : Type) (nw p : nat) (ws : list A) (counts : list nat)
    (eager : bool) (n : nat) (cf : config A),
  0 < nw -> length ws = p * nw -> length counts = length ws ->
  steps eager n (init (fun r => rank_program nw r (transfer_pairs counts)) (fun r => chunk nw r ws)) cf ->
  n <= nsum (map (fun r => length (rank_program nw r (transfer_pairs counts))) (seq 0 p)) /\
  ((exists cf', step eager cf cf') \/
   (finished p cf /\ (forall r, store cf r = chunk nw r (comb_exchange ws counts))
    /\ forall c, rcvd cf c = length (sent cf c))).
Proof. exact comb_transfer. Qed.
Print Assumptions C05_comb_transfer.

Example C05_hyps : 0 < 2 /\ length [10; 11; 12; 13] = 2 * 2 /\ length [2; 2; 0; 0] = length [10; 11; 12; 13]
  /\ rank_program 2 0 (transfer_pairs [2; 2; 0; 0]) = [Isend 1 0 0; Isend 1 1 1; Wait 1 0 0; Wait 1 1 0]
  /\ rank_program 2 1 (transfer_pairs [2; 2; 0; 0]) = [Recv 0 0 0; Recv 0 1 1].
Proof. repeat split; vm_compute; auto. Qed.
