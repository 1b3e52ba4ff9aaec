(* C58: numbers of imaginary time slices. *)

From Coq Require Import Reals ZArith.
From Flocq Require Import Core.Core IEEE754.BinarySingleNaN.
From Verif Require Import Base StackSize_Model StackSize_Spec
  TimeGrid_Model TimeGrid_Spec TimeGrid_Proofs.
From Coq Require Import Lra.
Open Scope R_scope.

(* All doubles: the driver rounds the quotient to the nearest integer, the trial
   cuts it off; both raise when it overflows. *)
Theorem C58_counts : forall (beta dt : f64), is_finite beta = true -> 0 < B2R dt ->
  let q := nearest (B2R beta / B2R dt) in
  (in_range q /\ ntime_slices beta dt = Ok (ZnearestE q)
    /\ num_slices beta dt = Ok (Ztrunc q) /\ neqlb beta dt = Ok (Ztrunc q))
  \/ (~ in_range q /\ ntime_slices beta dt = Err OverflowError
    /\ num_slices beta dt = Err OverflowError /\ neqlb beta dt = Err OverflowError).
Proof. exact counts. Qed.

(* When they agree, and by how much they differ otherwise. *)
Theorem C58_agree_iff : forall (beta dt : f64), is_finite beta = true ->
  0 <= B2R beta -> 0 < B2R dt ->
  let q := nearest (B2R beta / B2R dt) in
  (ntime_slices beta dt = num_slices beta dt <->
   (in_range q -> q - IZR (Zfloor q) < / 2
      \/ (q - IZR (Zfloor q) = / 2 /\ Z.even (Zfloor q) = true))).
Proof. exact counts_agree. Qed.

Theorem C58_differ : forall (beta dt : f64) d t, is_finite beta = true ->
  0 <= B2R beta -> 0 < B2R dt ->
  ntime_slices beta dt = Ok d -> num_slices beta dt = Ok t -> (d = t \/ d = t + 1)%Z.
Proof. exact counts_differ. Qed.

(* If dt is contained in beta exactly n times, as doubles, everything is
   consistent: driver, trial, and bins. *)
Theorem C58_exact_partial : forall (beta dt : f64) n want,
  is_finite beta = true -> 0 < B2R dt ->
  (1 <= n < 2 ^ 53)%Z -> (1 <= want)%nat -> B2R beta = IZR n * B2R dt ->
  exists s b, trial_grid beta dt want = Ok (n, s, b) /\
    ntime_slices beta dt = Ok n /\
    closest (Z.to_nat n) want s /\ (b * Z.of_nat s = n)%Z.
Proof. exact exact_grid. Qed.

(* The time step of a bin is then not rounded either. *)
Theorem C58_exact_step : forall (beta dt : f64) k s,
  is_finite beta = true -> 0 < B2R dt ->
  (0 < k)%Z -> (0 < s)%Z -> (k * s < 2 ^ 53)%Z -> B2R beta = IZR (k * s) * B2R dt ->
  num_bins beta dt s = Ok k /\
  exists w, bin_step dt s = Ok w /\ is_finite w = true /\ B2R w = IZR s * B2R dt.
Proof. exact exact_bins. Qed.

(* If beta is n steps of length h as real numbers, and the program reads the
   nearest doubles, the driver has n slices; the trial may have one less, and the
   number of bins may be one too small. *)
Theorem C58_decimal_partial : forall (beta dt : f64) h n, (1 <= n <= 2 ^ 49)%Z ->
  normal h -> normal (IZR n * h) -> reads beta (IZR n * h) -> reads dt h ->
  ntime_slices beta dt = Ok n /\
  (num_slices beta dt = Ok n \/ num_slices beta dt = Ok (n - 1)%Z).
Proof. exact decimal_slices. Qed.

Theorem C58_decimal_bins_partial : forall (beta dt : f64) h k s, (0 < k)%Z -> (0 < s)%Z ->
  (k * s <= 2 ^ 47)%Z ->
  normal h -> normal (IZR (k * s) * h) -> reads beta (IZR (k * s) * h) -> reads dt h ->
  num_bins beta dt s = Ok k \/ num_bins beta dt s = Ok (k - 1)%Z.
Proof. exact decimal_bins. Qed.

(* They do differ: beta = 0.3 and dt = 0.05. *)
Theorem C58_slices_refuted : exists beta dt, reads beta (3 / 10) /\ reads dt (5 / 100) /\
  ntime_slices beta dt = Ok 6%Z /\ num_slices beta dt = Ok 5%Z.
Proof. exact slices_witness. Qed.

(* With equal numbers of slices the trial can still be built for another
   temperature: beta = 0.9, dt = 0.1, two bins of three slices. *)
Theorem C58_bins_refuted : exists beta dt, reads beta (9 / 10) /\ reads dt (1 / 10) /\
  ntime_slices beta dt = Ok 9%Z /\ trial_grid beta dt 3 = Ok (9%Z, 3%nat, 2%Z).
Proof. exact bins_witness. Qed.

(* A step of 1/32 and ten of them. *)
Example C58_instance : exists beta dt : f64,
  is_finite beta = true /\ B2R beta = IZR 10 * B2R dt /\ 0 < B2R dt /\
  B2R dt = / 32 /\ trial_grid beta dt 4 = Ok (10%Z, 5%nat, 2%Z).
Proof.
  exists (@B754_finite 53 1024 false 5629499534213120 (-54) eq_refl : f64),
         (@B754_finite 53 1024 false 4503599627370496 (-57) eq_refl : f64).
  split; [reflexivity|]. unfold B2R, F2R; simpl. split; [lra|]. split; [lra|]. split; [lra|].
  vm_compute. reflexivity.
Qed.

Print Assumptions C58_counts.
Print Assumptions C58_agree_iff.
Print Assumptions C58_differ.
Print Assumptions C58_exact_partial.
Print Assumptions C58_exact_step.
Print Assumptions C58_decimal_partial.
Print Assumptions C58_decimal_bins_partial.
Print Assumptions C58_slices_refuted.
Print Assumptions C58_bins_refuted.
