(** Properties C21 and C22: mixed estimator. *)
From Verif Require Import CplxFacts Mixed_Model Mixed_Spec Mixed_Proofs Blocks_Model Blocks_Spec Blocks_Proofs.
From Coq Require Import String.
From Verif Require Import Base Mixed_Model.
Open Scope nat_scope.

(** C21: the printed row holds the weighted sums and weighted averages over all walkers of all
    ranks and all steps since the arrays were zeroed (energies: the steps at which they are
    measured); it is nan exactly when the energy weight vanishes. *)
Theorem C21_weighted_averages : forall o n hs, good o -> 0 < n -> all_shaped o hs -> averages_energy o -> o_eval o = true ->
  let D := wtot (ewt o) (energy_meas o hs) in let W := wtot (wt o) (every_meas hs) in
  exists row, printed o n hs = Ok row /\
    is_value (column o row Kenumer) (wsum (ewt o) (en o m_E) (energy_meas o hs)) /\
    is_value (column o row Kedenom) D /\
    is_value (column o row Kweight) (W / Cof (q_of_nat n))%C /\
    is_value (column o row Kuweight) (Csum (map (fun m => Cof (m_unscaled m)) (every_meas hs)) / Cof (q_of_nat n))%C /\
    (~ D =c= C0 ->
       is_value (column o row Keproj) (wsum (ewt o) (en o m_E) (energy_meas o hs) / D)%C /\
       is_value (column o row Ke1b) (wsum (ewt o) (en o m_T) (energy_meas o hs) / D)%C /\
       is_value (column o row Ke2b) (wsum (ewt o) (en o m_V) (energy_meas o hs) / D)%C) /\
    (D =c= C0 -> column o row Keproj = None) /\
    (~ W =c= C0 ->
       is_value (column o row Kehyb) (wsum (wt o) m_hyb (every_meas hs) / W)%C /\
       is_value (column o row Kovlp) (Csum (map (fun m => Cof (m_weight m * m_absot m)) (every_meas hs)) / W)%C /\
       (o_thermal o = true -> is_value (column o row Knav) (wsum (wt o) m_nav (every_meas hs) / W)%C)).
Proof. exact mixed_sums. Qed.
Print Assumptions C21_weighted_averages.

(** C21: total energy is one-body plus two-body. *)
Theorem C21_total_is_sum : forall o n hs, good o -> 0 < n -> all_shaped o hs -> averages_energy o -> o_eval o = true ->
  (forall m, In m (energy_meas o hs) -> m_E m =c= (m_T m + m_V m)%C) ->
  ~ wtot (ewt o) (energy_meas o hs) =c= C0 ->
  exists row e t v, printed o n hs = Ok row /\ column o row Keproj = Some e /\ column o row Ke1b = Some t /\
    column o row Ke2b = Some v /\ e =c= (t + v)%C.
Proof. exact mixed_total. Qed.
Print Assumptions C21_total_is_sum.

(** C21: the printed row does not depend on how the walkers are spread over ranks. *)
Theorem C21_distribution : forall o n hs hs', good o -> 0 < n -> all_shaped o hs -> all_shaped o hs' ->
  Permutation (all_meas hs) (all_meas hs') ->
  exists row row', printed o n hs = Ok row /\ printed o n hs' = Ok row' /\ Forall2 same_entry row row'.
Proof. exact mixed_distribution. Qed.
Print Assumptions C21_distribution.

(** C21: nor do the averages depend on a common scale of the weights. *)
Theorem C21_scale : forall o n hs (c : Q), good o -> 0 < n -> all_shaped o hs -> averages_energy o -> o_eval o = true ->
  ~ (c == 0)%Q -> ~ wtot (ewt o) (energy_meas o hs) =c= C0 -> ~ wtot (wt o) (every_meas hs) =c= C0 ->
  exists row row', printed o n hs = Ok row /\ printed o n (map (rescale_hist c) hs) = Ok row' /\
    forall k, In k [Keproj; Ke1b; Ke2b; Kehyb; Kovlp] \/ (k = Knav /\ o_thermal o = true) ->
      column o row k <> None /\ same_entry (column o row k) (column o row' k).
Proof. exact mixed_scale. Qed.
Print Assumptions C21_scale.

(** C21: the one-body density matrix is the weighted average of the walkers' real parts. *)
Theorem C21_one_rdm : forall o n n1 hs, good o -> 0 < n -> all_shaped o hs -> o_fp o = false -> o_rdm1 o = Some n1 ->
  ~ wtot (wt o) (every_meas hs) =c= C0 ->
  exists rdm, printed_rdm o n n1 hs = Ok rdm /\ List.length rdm = n1 /\
    forall i, i < n1 -> is_value (nth i rdm None)
      (wsum (wt o) (fun m => real (nth i (m_G m) C0)) (every_meas hs) / wtot (wt o) (every_meas hs))%C.
Proof. exact mixed_rdm. Qed.
Print Assumptions C21_one_rdm.

(** C21: header column [ix k + 1] carries the title of key [k]. *)
Theorem C21_columns : forall th k, In k (keys th) ->
  nth (S (ix th k)) (header th) EmptyString = title k /\ List.length (header th) = S (nreg th) /\ nreg th = List.length (keys th)
  /\ nth_error (keys th) (ix th k) = Some k.
Proof. exact header_titles. Qed.
Print Assumptions C21_columns.

(** C21 is false with average_gf: no energy is ever printed. *)
Theorem C21_average_gf_refuted : forall o n hs, good o -> 0 < n -> all_shaped o hs ->
  o_thermal o = true -> o_fp o = false -> o_avg_gf o = true ->
  exists row, printed o n hs = Ok row /\ column o row Keproj = None /\ column o row Ke1b = None /\ column o row Ke2b = None.
Proof. exact mixed_average_gf. Qed.
Print Assumptions C21_average_gf_refuted.
(** C21 is false with two_rdm but without one_rdm: update raises. *)
Theorem C21_two_rdm_refuted : forall o n step es m, o_fp o = false -> o_rdm1 o = None -> o_rdm2 o = Some n -> 0 < o_freq o ->
  update o step es [m] = Err UnboundLocalError.
Proof. exact mixed_two_rdm_error. Qed.
Print Assumptions C21_two_rdm_refuted.

Definition ex_meas (w e : Q) : meas :=
  Meas w C1 C1 1 (Cof e) w C1 (Cof e) (Cof (e - 1)) (Cof 1) C0 [] [Cof w] [].
Definition ex_opts : opts := Opts false false false true 2 (Some 1) None.
Definition ex_hist : list history := [[(1, [ex_meas 1 3]); (2, [ex_meas 1 5])]; [(1, [ex_meas 3 3]); (2, [ex_meas 3 1])]].
Example C21_hyps : good ex_opts /\ all_shaped ex_opts ex_hist /\ averages_energy ex_opts /\ o_eval ex_opts = true /\
  (exists row, printed ex_opts 2 ex_hist = Ok row /\ is_value (column ex_opts row Keproj) (Cof 2) /\ is_value (column ex_opts row Kweight) (Cof 4)) /\
  ~ wtot (ewt ex_opts) (energy_meas ex_opts ex_hist) =c= C0.
Proof.
  split; [split; [vm_compute; lia|simpl; congruence]|].
  split. { repeat constructor; simpl; intros n H; inversion H; reflexivity. }
  split; [right; left; reflexivity|]. split; [reflexivity|]. split.
  - eexists. split; [vm_compute; reflexivity|]. split; eexists; (split; [reflexivity|]); split; vm_compute; reflexivity.
  - intros [H _]. vm_compute in H. discriminate.
Qed.

(** C22: with verbose output (the default) the zeroth step is printed alone and block b contains
    exactly the measurements of steps (b-1)*block+1 .. b*block, for every number of blocks. *)
Theorem C22_blocks_partial : forall o block data nr nb, 0 < block -> good o -> proper_data o nr data ->
  exists outs, est_run o block true data nr (nb * block) = Ok outs /\
    map (fun x => (fst x, Ok (snd x))) outs =
      (0, printed o 1 (window data nr 0 1)) ::
      map (fun b => (S b * block, printed o block (window data nr (b * block + 1) block))) (seq 0 nb).
Proof. exact est_run_verbose. Qed.
Print Assumptions C22_blocks_partial.

(** C22 without verbose output: the first block also contains the zeroth step; the others are right. *)
Theorem C22_blocks_quiet : forall o block data nr nb, 0 < block -> good o -> proper_data o nr data ->
  exists outs, est_run o block false data nr (S nb * block) = Ok outs /\
    map (fun x => (fst x, Ok (snd x))) outs =
      (block, printed o block (window data nr 0 (S block))) ::
      map (fun b => (S b * block, printed o block (window data nr (b * block + 1) block))) (seq 1 nb).
Proof. exact est_run_quiet. Qed.
Print Assumptions C22_blocks_quiet.

Definition ex_data (s : nat) : list (list meas) := [[ex_meas 1 (q_of_nat s)]].
Definition ex_opts1 : opts := Opts false false false true 1 (Some 1) None.
(** C22 is false of a run with verbose=False: the first block (steps 1 to 2, energies 1 and 2)
    prints energy 1 instead of 3/2. *)
Theorem C22_quiet_refuted : exists outs row e e',
  est_run ex_opts1 2 false ex_data 1 2 = Ok outs /\ nth_error outs 0 = Some (2, row) /\ column ex_opts1 row Keproj = Some e /\
  (exists row', printed ex_opts1 2 (window ex_data 1 1 2) = Ok row' /\ column ex_opts1 row' Keproj = Some e') /\
  ~ e =c= e'.
Proof.
  do 4 eexists. split; [vm_compute; reflexivity|]. split; [reflexivity|]. split; [reflexivity|].
  split; [eexists; split; [vm_compute; reflexivity|reflexivity]|]. intros [H _]. vm_compute in H. discriminate.
Qed.
Print Assumptions C22_quiet_refuted.
Example C22_hyps : good ex_opts1 /\ proper_data ex_opts1 1 ex_data.
Proof.
  split; [split; [vm_compute; lia|simpl; congruence]|]. intros s. split; [reflexivity|].
  repeat constructor; simpl; intros n H; inversion H; reflexivity.
Qed.
