(* C55: statistical analysis uses the stated estimators. *)

From Verif Require Import Base BaseFacts Cplx Analysis_Model Analysis_Spec Analysis_Proofs.
Open Scope Q_scope.

(* A ratio is the real part of the quotient of the averages. *)
Theorem C55_ratio : forall data, data <> [] ->
  fst (average_ratio data) == re (Cdiv (Caverage (map fst data)) (Caverage (map snd data))).
Proof. exact average_ratio_mean. Qed.

(* For real samples its error is that of the ratio to first order, with the
   number of samples; in general the imaginary parts are left out. *)
Theorem C55_ratio_error_partial : forall data, (2 <= length data)%nat ->
  (forall p, In p data -> im (fst p) == 0 /\ im (snd p) == 0) ->
  ~ average (map fst (reals data)) == 0 -> ~ average (map snd (reals data)) == 0 ->
  exists e, snd (average_ratio data) = Some e /\ e == ratio_err2 (reals data).
Proof. exact average_ratio_error. Qed.

(* Multiplying all samples by the phase (3 + 4i)/5 leaves every quotient as it
   is, but changes the error reported. *)
Definition turn (p : C * C) : C * C := (Cmul (mkC (3#5) (4#5)) (fst p), Cmul (mkC (3#5) (4#5)) (snd p)).
Theorem C55_ratio_error_refuted : exists data,
  fst (average_ratio (map turn data)) == fst (average_ratio data) /\
  exists e e', snd (average_ratio data) = Some e /\ snd (average_ratio (map turn data)) = Some e' /\
    ~ e == e'.
Proof.
  exists [(mkC 1 1, mkC 1 0); (mkC 3 0, mkC 1 0); (mkC 2 0, mkC 2 0)].
  split; [vm_compute; reflexivity|].
  do 2 eexists. split; [vm_compute; reflexivity|]. split; [vm_compute; reflexivity|].
  vm_compute. discriminate.
Qed.

Definition sample (a b : Q) : C * C := (mkC a 0, mkC b 0).
Example C55_ratio_case :
  let data := [sample (-3) 1; sample (-5) 2; sample (-4) 1] in
  fst (average_ratio data) == -3 /\
  exists e, snd (average_ratio data) = Some e /\ e == ratio_err2 (reals data) /\ 0 < e.
Proof.
  split; [vm_compute; reflexivity|]. eexists. split; [vm_compute; reflexivity|].
  split; vm_compute; reflexivity.
Qed.

(* Free projection: the iterations, in order, and the ratio of each. *)
Theorem C55_fp : forall rows,
  StronglySorted lt (map (fun p => fst (fst p)) (average_fp rows)) /\
  (forall k, In k (map (fun p => fst (fst p)) (average_fp rows))
             <-> In k (map (fun r => fst (fst r)) rows)) /\
  forall k e er, In (k, e, er) (average_fp rows) ->
    e == re (Cdiv (Caverage (map fst (at_iteration rows k)))
                  (Caverage (map snd (at_iteration rows k)))).
Proof.
  intro rows. rewrite fp_keys. split; [apply keys_sorted|]. split; [apply keys_in | apply fp_means].
Qed.

(* Their errors are right when there are as many iterations as samples. *)
Theorem C55_fp_error_partial : forall rows k e er, In (k, e, er) (average_fp rows) ->
  length (average_fp rows) = length (at_iteration rows k) ->
  (2 <= length (at_iteration rows k))%nat ->
  (forall p, In p (at_iteration rows k) -> im (fst p) == 0 /\ im (snd p) == 0) ->
  ~ average (map fst (reals (at_iteration rows k))) == 0 ->
  ~ average (map snd (reals (at_iteration rows k))) == 0 ->
  exists e', er = Some e' /\ e' == ratio_err2 (reals (at_iteration rows k)).
Proof.
  intros rows k e er I Hn. apply (fp_error rows k e er I).
  rewrite <- Hn, <- (map_length (fun p => fst (fst p))), fp_keys. reflexivity.
Qed.

(* Two simulations whose ratio is always 1: the error is not a number with one
   iteration, and not zero with three. *)
Definition two_runs (n : nat) : list (nat * C * C) :=
  flat_map (fun k => [(k, mkC 1 0, mkC 1 0); (k, mkC 3 0, mkC 3 0)]) (seq 0 n).
Theorem C55_fp_error_refuted :
  ratio_err2 (reals (at_iteration (two_runs 1) 0)) == 0 /\
  ratio_err2 (reals (at_iteration (two_runs 3) 0)) == 0 /\
  (exists e, average_fp (two_runs 1) = [(0%nat, e, None)]) /\
  (exists k e e' l, average_fp (two_runs 3) = (k, e, Some e') :: l /\ 0 < e').
Proof.
  split; [vm_compute; reflexivity|]. split; [vm_compute; reflexivity|]. split.
  - eexists. vm_compute. reflexivity.
  - do 4 eexists. split; [vm_compute; reflexivity | reflexivity].
Qed.

(* Density matrices: the average of the retained samples, with an error whose
   square is divided by the number of all samples. *)
Theorem C55_rdm_partial : forall series skip, (skip < length series)%nat ->
  fst (average_rdm series skip) == average (skipn skip series) /\
  snd (average_rdm series skip) * q_of_nat (length series)
  == std_err2 (skipn skip series) * q_of_nat (length series - skip).
Proof. intros. split; [reflexivity | apply rdm_error; auto]. Qed.
Theorem C55_rdm_refuted : exists series skip,
  (skip < length series)%nat /\
  snd (average_rdm series skip) < std_err2 (skipn skip series).
Proof. exists [0; 1; 3], 1%nat. split; [simpl; lia | reflexivity]. Qed.

(* Equilibration: the samples of a run that starts afresh and writes its zeroth
   row are those taken after the start time; a restarted run keeps all. *)
Theorem C55_equilibration_partial : forall Par (f : out Par) start, 0 <= start ->
  0 < o_nsteps _ f * o_dt _ f ->
  retained _ start f
  = Ok (if o_read_rs _ f then o_rows _ f
        else taken_after (o_nsteps _ f * o_dt _ f) 0 start (o_rows _ f)).
Proof.
  intros Par f start H0 HT. destruct (o_read_rs _ f) eqn:R;
    [apply retained_restart | apply retained_right]; auto.
Qed.
(* Without the zeroth row the first of them is dropped as well. *)
Theorem C55_equilibration_late : forall Par (f : out Par) start, 0 <= start ->
  0 < o_nsteps _ f * o_dt _ f -> o_read_rs _ f = false ->
  exists d, retained _ start f = Ok d /\
    d = tl (taken_after (o_nsteps _ f * o_dt _ f) 1 start (o_rows _ f)).
Proof. exact retained_late. Qed.
Theorem C55_equilibration_refuted : exists (f : out unit) start,
  0 <= start /\ 0 < o_nsteps _ f * o_dt _ f /\ o_read_rs _ f = false /\
  retained _ start f = Ok [7] /\
  taken_after (o_nsteps _ f * o_dt _ f) 1 start (o_rows _ f) = [6; 7].
Proof.
  exists (MkOut _ tt 10 (1#100) false [5; 6; 7]), (1#10).
  split; [discriminate|]. split; [reflexivity|]. split; [reflexivity|].
  split; vm_compute; reflexivity.
Qed.
(* A start time of minus k blocks keeps the last k - 1 rows, not all of them. *)
Theorem C55_equilibration_negative_refuted : forall Par (f : out Par) k, (2 <= k)%nat ->
  0 < o_nsteps _ f * o_dt _ f -> o_read_rs _ f = false ->
  let start := - (q_of_nat k * (o_nsteps _ f * o_dt _ f)) in
  retained _ start f = Ok (skipn (length (o_rows _ f) - (k - 1)) (o_rows _ f)) /\
  taken_after (o_nsteps _ f * o_dt _ f) 0 start (o_rows _ f) = o_rows _ f.
Proof.
  intros Par f k Hk HT HR start. split; [apply retained_negative; auto|].
  apply taken_negative; auto. unfold start.
  assert (0 < q_of_nat k * (o_nsteps _ f * o_dt _ f)); [|lra].
  apply Qmult_lt_0_compat; auto. unfold q_of_nat. change 0 with (inject_Z 0).
  rewrite <- Zlt_Qlt. lia.
Qed.
Example C55_equilibration_case :
  retained _ (1#10) (MkOut _ tt 10 (1#100) false [4; 5; 6; 7]) = Ok [6; 7] /\
  taken_after (1#10) 0 (1#10) [4; 5; 6; 7] = [6; 7].
Proof. split; vm_compute; reflexivity. Qed.

(* Back propagation: the first row is dropped, whatever the start time; mean and
   error are those of the other rows. *)
Theorem C55_back_prop_partial : forall f rows tbp start, 0 < tbp -> 0 <= start ->
  extract_data f Energies = Ok rows ->
  exists m e2, analyse_back_prop f tbp start = Ok (m, e2) /\
    m == average (tl rows) /\ e2 == std_err2 (tl rows).
Proof. exact back_prop_start. Qed.
Theorem C55_back_prop_refuted : exists f rows tbp start m e2,
  extract_data f Energies = Ok rows /\ 0 < tbp /\
  analyse_back_prop f tbp start = Ok (m, e2) /\
  taken_after tbp 1 start rows = [3; 5] /\ ~ m == average [3; 5].
Proof.
  exists [(Energies, [9; 7; 3; 5])], [9; 7; 3; 5], 1, 2. do 2 eexists.
  repeat split; try (vm_compute; reflexivity). vm_compute. discriminate.
Qed.
(* A file in which every data set of energies is numbered, as the estimator
   writes them (estimators/back_propagation.py 286-321), is not read. *)
Theorem C55_back_prop_file_refuted : forall f tbp start, 0 < tbp ->
  (forall d rows, In (d, rows) f -> d <> Energies) ->
  analyse_back_prop f tbp start = Err KeyError.
Proof. exact back_prop_missing. Qed.
Example C55_back_prop_file_case :
  analyse_back_prop [(Denominator_ix 40, [1; 1]); (Energies_ix 40, [2; 3]); (One_rdm_ix 40, [1; 1])] 1 0
  = Err KeyError.
Proof. vm_compute. reflexivity. Qed.

(* The least power of two that is no less than n. *)
Theorem C55_pow_two : forall n, exists k, next_pow_two n = Ok (2 ^ k)%nat /\
  (n <= 2 ^ k)%nat /\ forall j, (n <= 2 ^ j)%nat -> (k <= j)%nat.
Proof. exact next_pow_two_right. Qed.

(* The correlation time of a varying series is the integrated one at the first
   window that is long enough; there always is one.  A constant series has none. *)
Theorem C55_window : forall y c, 0 < c ->
  (~ constant y -> exists k t, autocorr_gw2010 y c = Some t /\ t == correlation_time y k /\
      (1 <= k)%nat /\ first_window y c k) /\
  (constant y -> autocorr_gw2010 y c = None).
Proof. intros y c Hc. split; [intro H; apply window_right; auto | apply constant_nan]. Qed.
(* The search by itself gives the shortest window when none is long enough. *)
Theorem C55_no_window_refuted : forall taus c,
  (forall k t, nth_error taus k = Some t -> q_of_nat k < c * t) -> auto_window taus c = 0%nat.
Proof. exact auto_window_all. Qed.
Example C55_window_case : exists k t, autocorr_gw2010 [1; 2; 4; 3; 5; 6] 1 = Some t /\
  first_window [1; 2; 4; 3; 5; 6] 1 k /\ t == correlation_time [1; 2; 4; 3; 5; 6] k.
Proof.
  destruct (C55_window [1; 2; 4; 3; 5; 6] 1) as [H _]; [reflexivity|].
  destruct H as (k & t & E & T & _ & W); [|exists k, t; auto].
  intro H. specialize (H 1 2). assert (E : 1 == 2) by (apply H; simpl; auto). discriminate.
Qed.

(* Reblocking, when the shortest prefix looked at varies: either no block size is
   found, or there are at least three blocks of equal size, which cover all
   samples but fewer than one block; the mean is that of the samples covered, and
   the square of the error is (n-1)/n of that of n independent block means. *)
Theorem C55_blocks_partial : forall y k p, p = (length y / 2 ^ k)%nat -> (2 <= p < 4)%nat ->
  ~ constant (firstn p y) ->
  reblock_by_autocorr y = Err ZeroDivisionError \/
  exists r b nb, reblock_by_autocorr y = Ok r /\ r_size r = Z.of_nat b /\ r_nblocks r = Z.of_nat nb /\
    (1 <= b)%nat /\ (3 <= nb)%nat /\ (nb * b <= length y < (nb + 1) * b)%nat /\
    r_mean r == average (firstn (nb * b) y) /\
    r_err2 r * q_of_nat nb == std_err2 (block_means b y) * (q_of_nat nb - 1).
Proof. exact reblock_spec. Qed.
(* When that prefix is constant, or the series is short, there is no result. *)
Theorem C55_constant_refuted : forall y k p, p = (length y / 2 ^ k)%nat -> (2 <= p < 4)%nat ->
  constant (firstn p y) -> reblock_by_autocorr y = Err ValueError.
Proof. exact reblock_constant. Qed.
Theorem C55_short_refuted : forall y, (length y = 2 \/ length y = 3)%nat -> ~ constant y ->
  reblock_by_autocorr y = Err ZeroDivisionError.
Proof. exact reblock_short. Qed.
(* An alternating series has a correlation time below one half. *)
Theorem C55_alternating_refuted :
  reblock_by_autocorr [0; 1; 0; 1; 0; 1; 0; 1] = Err ZeroDivisionError.
Proof. vm_compute. reflexivity. Qed.
(* Samples left over are not in the mean, and the error is too small. *)
Definition ramp : list Q := map q_of_nat (seq 0 15).
Theorem C55_tail_refuted : exists y r, reblock_by_autocorr y = Ok r /\
  ~ r_mean r == average y /\
  r_err2 r < std_err2 (block_means (Z.to_nat (r_size r)) y).
Proof.
  exists ramp. eexists. split; [vm_compute; reflexivity|].
  split; [vm_compute; discriminate | vm_compute; reflexivity].
Qed.

(* Files with the same parameters are analysed together. *)
Theorem C55_estimates_partial : forall Par par_eq start (files : list (out Par)) f, 0 <= start ->
  (forall g, In g (f :: files) -> 0 < o_nsteps _ g * o_dt _ g /\ o_read_rs _ g = false) ->
  (forall g, In g (f :: files) -> par_eq (o_par _ f) (o_par _ g) = true) ->
  analyse_estimates _ par_eq false start (f :: files)
  = reblock_by_autocorr (concat (map (fun g =>
      taken_after (o_nsteps _ g * o_dt _ g) 0 start (o_rows _ g)) (f :: files))).
Proof. exact estimates_one. Qed.
(* Files with different parameters are not, and free projection is not. *)
Theorem C55_groups_refuted : forall Par par_eq start (files : list (out Par)) f g, 0 <= start ->
  (forall g, In g (f :: files) -> 0 < o_nsteps _ g * o_dt _ g /\ o_read_rs _ g = false) ->
  In g files -> par_eq (o_par _ f) (o_par _ g) = false ->
  analyse_estimates _ par_eq false start (f :: files) = Err ValueError.
Proof. exact estimates_several. Qed.
Theorem C55_free_projection_refuted : forall Par par_eq start (files : list (out Par)), 0 <= start ->
  files <> [] ->
  (forall g, In g files -> 0 < o_nsteps _ g * o_dt _ g /\ o_read_rs _ g = false) ->
  analyse_estimates _ par_eq true start files = Err TypeError.
Proof. exact estimates_fp. Qed.
Example C55_estimates_case : exists r,
  analyse_estimates _ Nat.eqb false (1#20)
    [MkOut _ 3%nat 10 (1#100) false [9; 0; 1; 2; 3]; MkOut _ 3%nat 10 (1#100) false [9; 4; 5; 6; 7]] = Ok r
  /\ r_size r = 1%Z /\ r_nblocks r = 8%Z.
Proof. eexists. split; [vm_compute; reflexivity|]. split; reflexivity. Qed.

Print Assumptions C55_ratio.
Print Assumptions C55_ratio_error_partial.
Print Assumptions C55_ratio_error_refuted.
Print Assumptions C55_fp.
Print Assumptions C55_fp_error_partial.
Print Assumptions C55_fp_error_refuted.
Print Assumptions C55_rdm_partial.
Print Assumptions C55_rdm_refuted.
Print Assumptions C55_equilibration_partial.
Print Assumptions C55_equilibration_late.
Print Assumptions C55_equilibration_refuted.
Print Assumptions C55_equilibration_negative_refuted.
Print Assumptions C55_back_prop_partial.
Print Assumptions C55_back_prop_refuted.
Print Assumptions C55_back_prop_file_refuted.
Print Assumptions C55_pow_two.
Print Assumptions C55_window.
Print Assumptions C55_no_window_refuted.
Print Assumptions C55_blocks_partial.
Print Assumptions C55_constant_refuted.
Print Assumptions C55_short_refuted.
Print Assumptions C55_alternating_refuted.
Print Assumptions C55_tail_refuted.
Print Assumptions C55_estimates_partial.
Print Assumptions C55_groups_refuted.
Print Assumptions C55_free_projection_refuted.
