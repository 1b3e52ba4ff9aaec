(* C39: weights under the phaseless approximation.
   C40: the cap on the force bias. *)

From Coq Require Import Reals List Lra.
From Verif Require Import Base Phaseless_Model Phaseless_Spec Phaseless_Proofs.
Set Warnings "-ambiguous-paths".
From Coquelicot Require Import Complex.
Import ListNotations.
Open Scope R_scope.

(* What the hybrid update does, for every input on which it returns. *)
Theorem C39_hybrid_formula :
  forall (big dt eb : R) (w : walker) (ovlp ovlp_new cfb cmf eshift : C) (w' : walker) (t : nat),
  0 < dt ->
  update_hybrid big dt (bound_hybrid eb) w ovlp ovlp_new cfb cmf eshift = Ok (w', t) ->
  let r := Cdiv ovlp_new ovlp in
  let h : C := (- ((ln (Cmod r) + fst cfb + fst cmf) / dt), - ((arg r + snd cfb + snd cmf) / dt)) in
  hyb w' = fst (bound_hybrid eb h eshift) /\
  weight w' = weight w *
    (exp (- dt * (/ 2 * (fst (hyb w') + fst (hyb w)) - fst eshift))
     * Rmax 0 (direction (Cmult r (cexp cmf)))) /\
  exp (- dt * (/ 2 * (fst (hyb w') + fst (hyb w)) - fst eshift)) <= big /\
  ot w' = ovlp_new /\ eloc w' = eloc w /\ t = snd (bound_hybrid eb h eshift) /\
  Cmod ovlp <> 0 /\ Cmod r <> 0.
Proof.
  intros big dt eb w ovlp ovlp_new cfb cmf eshift w' t Hdt H.
  exact (hybrid_formula big dt _ Hdt (im_bound_hybrid eb) w ovlp ovlp_new cfb cmf eshift w' t H).
Qed.
Print Assumptions C39_hybrid_formula.

Example C39_hybrid_formula_case : exists w' t,
  update_hybrid 10 1 (bound_hybrid (sqrt 2)) (w1 (RtoC 0)) (RtoC 1) (RtoC 1) (RtoC 0) (RtoC 0) (RtoC 1) = Ok (w', t).
Proof. exact hybrid_example. Qed.

(* Weights never become negative over any sequence of steps, and a walker of
   weight zero keeps weight zero. *)
Theorem C39_hybrid_nonneg :
  forall (big dt eb : R) (steps : list (C * C * C * C * C)) (w w' : walker),
  0 < dt ->
  run_hybrid big dt (bound_hybrid eb) steps w = Ok w' ->
  (0 <= weight w -> 0 <= weight w') /\ (weight w = 0 -> weight w' = 0).
Proof.
  intros big dt eb steps w w' Hdt H. split.
  - exact (run_nonneg big dt _ Hdt (im_bound_hybrid eb) steps w w' H).
  - exact (run_zero big dt _ Hdt (im_bound_hybrid eb) steps w w' H).
Qed.
Print Assumptions C39_hybrid_nonneg.

(* A move is rejected exactly if the overlap ratio, with the mean-field factor
   but without the force-bias factor, has a non-positive real part. *)
Theorem C39_hybrid_rejected :
  forall (big dt eb : R) (w : walker) (ovlp ovlp_new cfb cmf eshift : C) (w' : walker) (t : nat),
  0 < dt ->
  update_hybrid big dt (bound_hybrid eb) w ovlp ovlp_new cfb cmf eshift = Ok (w', t) ->
  0 < weight w ->
  (weight w' = 0 <-> fst (Cmult (Cdiv ovlp_new ovlp) (cexp cmf)) <= 0).
Proof.
  intros big dt eb w ovlp ovlp_new cfb cmf eshift w' t Hdt.
  exact (hybrid_rejected big dt _ Hdt (im_bound_hybrid eb) w ovlp ovlp_new cfb cmf eshift w' t).
Qed.
Print Assumptions C39_hybrid_rejected.

(* Clipping: the real part goes to the nearest point of the window, the
   imaginary part stays, and the counter counts the energies outside. *)
Theorem C39_window :
  forall (eb : R) (e s : C), 0 <= eb -> / 10 ^ 10 <= Cmod s ->
  fst (bound_hybrid eb e s) = (nearest (fst e) (fst s) eb, snd e) /\
  snd (bound_hybrid eb e s) = (if Rle_dec (Rabs (fst e - fst s)) eb then 0%nat else 1%nat) /\
  fst (fst (bound_local eb e s)) = nearest (fst e) (fst s) eb /\
  (within (fst e) (fst s) eb -> fst (bound_local eb e s) = e).
Proof.
  intros eb e s Hb Hs. destruct (bound_hybrid_spec eb e s Hb Hs). destruct (bound_local_re eb e s Hb Hs).
  repeat split; assumption.
Qed.
Print Assumptions C39_window.

Theorem C39_window_nearest :
  forall x c b : R, 0 <= b ->
  within (nearest x c b) c b /\ (within x c b -> nearest x c b = x).
Proof. intros x c b Hb. split; [now apply nearest_within|apply nearest_id]. Qed.
Print Assumptions C39_window_nearest.

Example C39_window_case : 0 <= 1 /\ / 10 ^ 10 <= Cmod (RtoC 1).
Proof. rewrite Cmod_R1. pose proof tiny10. lra. Qed.

(* With a shift below 1e-10 nothing is clipped. *)
Theorem C39_window_small_shift :
  forall (eb : R) (e s : C), Cmod s < / 10 ^ 10 ->
  bound_hybrid eb e s = (e, 0%nat) /\ bound_local eb e s = (e, 0%nat).
Proof. exact small_shift. Qed.
Print Assumptions C39_window_small_shift.

Theorem C39_local_energy_bound :
  forall e m t : R, 0 <= t -> local_energy_bound e m t = nearest e m t.
Proof. exact local_energy_bound_spec. Qed.
Print Assumptions C39_local_energy_bound.

(* Growth along a run of any length with any shifts. *)
Theorem C39_hybrid_growth :
  forall (big dt : R) (steps : list (C * C * C * C * C)) (w w' : walker) (s0 : R),
  0 < dt ->
  run_hybrid big dt (bound_hybrid (sqrt (2 / dt))) steps w = Ok w' ->
  (forall st, In st steps -> / 10 ^ 10 <= Cmod (snd st)) ->
  within (fst (hyb w)) s0 (sqrt (2 / dt)) -> 0 <= weight w ->
  weight w' <= weight w * exp (INR (length steps) * sqrt (2 * dt)
                 + dt * / 2 * variation s0 (map (fun st => fst (snd st)) steps)).
Proof.
  intros big dt steps w w' s0 Hdt H Hk Hh Hw. rewrite <- dt_ebound by assumption.
  refine (run_growth big dt _ Hdt (im_bound_hybrid _) _ (fun s => / 10 ^ 10 <= Cmod s) _ steps w w' s0 H Hk Hh Hw).
  intros e s Hs. apply bound_hybrid_within; [apply sqrt_pos|exact Hs].
Qed.
Print Assumptions C39_hybrid_growth.

(* The plane-wave propagator of pw.py clips for every shift. *)
Theorem C39_pw :
  forall (big dt : R) (steps : list (C * C * C * C * C)) (w w' : walker) (s0 : R),
  0 < dt ->
  run_hybrid big dt (bound_pw (sqrt (2 / dt))) steps w = Ok w' ->
  within (fst (hyb w)) s0 (sqrt (2 / dt)) -> 0 <= weight w ->
  0 <= weight w' <= weight w * exp (INR (length steps) * sqrt (2 * dt)
                 + dt * / 2 * variation s0 (map (fun st => fst (snd st)) steps)).
Proof.
  intros big dt steps w w' s0 Hdt H Hh Hw. split.
  - exact (run_nonneg big dt _ Hdt (im_bound_pw _) steps w w' H Hw).
  - rewrite <- dt_ebound by assumption.
    refine (run_growth big dt _ Hdt (im_bound_pw _) _ (fun _ => True) _ steps w w' s0 H (fun _ _ => I) Hh Hw).
    intros e s _. apply bound_pw_within; [apply sqrt_pos|exact I].
Qed.
Print Assumptions C39_pw.

(* The local-energy update. *)
Theorem C39_local_formula :
  forall (big dt eb : R) (w : walker) (ovlp ovlp_new e s : C) (w' : walker) (t : nat),
  update_local big dt eb w ovlp ovlp_new e s = Ok (w', t) ->
  let r := Cdiv ovlp_new ovlp in
  weight w' = weight w *
    (exp (- / 2 * dt * (fst (fst (bound_local eb e s)) + fst (eloc w) - fst s)) * Rmax 0 (cos (arg r)))
  /\ eloc w' = e /\ hyb w' = hyb w /\ ot w' = ovlp_new
  /\ exp (- / 2 * dt * (fst (fst (bound_local eb e s)) + fst (eloc w) - fst s)) <= big /\ Cmod ovlp <> 0.
Proof. exact local_formula. Qed.
Print Assumptions C39_local_formula.

Theorem C39_local_nonneg :
  forall (big dt eb : R) (w : walker) (ovlp ovlp_new e s : C) (w' : walker) (t : nat),
  update_local big dt eb w ovlp ovlp_new e s = Ok (w', t) -> 0 <= weight w -> 0 <= weight w'.
Proof. exact local_nonneg. Qed.
Print Assumptions C39_local_nonneg.

Theorem C39_local_rejected :
  forall (big dt eb : R) (w : walker) (ovlp ovlp_new e s : C) (w' : walker) (t : nat),
  update_local big dt eb w ovlp ovlp_new e s = Ok (w', t) -> 0 < weight w ->
  Cmod (Cdiv ovlp_new ovlp) <> 0 ->
  (weight w' = 0 <-> fst (Cdiv ovlp_new ovlp) <= 0).
Proof. exact local_rejected. Qed.
Print Assumptions C39_local_rejected.

Example C39_local_case : exists w' t,
  update_local 10 1 (sqrt 2) (w1 (RtoC 1)) (RtoC 1) (RtoC 1) (RtoC 0) (RtoC 0) = Ok (w', t).
Proof.
  apply local_ok; [rewrite Cmod_R1; lra|].
  destruct (small_shift (sqrt 2) (RtoC 0) (RtoC 0)) as [_ E].
  { rewrite Cmod_0. apply Rinv_0_lt_compat. lra. }
  rewrite E. simpl. apply Rle_trans with (exp 0); [left; apply exp_increasing; lra|rewrite exp_0; lra].
Qed.

(* An exactly vanishing overlap is not rejected. *)
Theorem C39_local_zero_overlap_refuted :
  forall (big dt eb : R) (w : walker) (ovlp e s : C) (w' : walker) (t : nat),
  update_local big dt eb w ovlp (RtoC 0) e s = Ok (w', t) -> 0 < weight w -> 0 < weight w'.
Proof. exact local_zero_overlap. Qed.
Print Assumptions C39_local_zero_overlap_refuted.

(* The shift enters with half its weight: a walker with all energies equal to
   the shift changes its weight. *)
Theorem C39_local_shift_refuted :
  ~ (forall big dt eb w ovlp s w' t, 0 < dt -> 0 <= eb ->
       eloc w = RtoC s -> update_local big dt eb w ovlp ovlp (RtoC s) (RtoC s) = Ok (w', t) ->
       weight w' = weight w).
Proof. exact local_shift_refuted. Qed.
Print Assumptions C39_local_shift_refuted.

(* The stored energy is not clipped: no bound on the growth over two steps. *)
Theorem C39_local_growth_refuted :
  forall B : R, exists big e1 w wa wb ta tb,
    update_local big 1 (sqrt 2) w (RtoC 1) (RtoC 1) e1 (RtoC 1) = Ok (wa, ta) /\
    update_local big 1 (sqrt 2) wa (RtoC 1) (RtoC 1) (RtoC 1) (RtoC 1) = Ok (wb, tb) /\
    weight w = 1 /\ within (fst (eloc w)) 1 (sqrt 2) /\ B < weight wb.
Proof. exact local_growth_refuted. Qed.
Print Assumptions C39_local_growth_refuted.

(* An overflow ends in a NameError instead of weight zero. *)
Theorem C39_local_overflow_refuted :
  forall (big dt eb : R) (w : walker) (ovlp ovlp_new e s : C),
  Cmod ovlp <> 0 ->
  big < exp (- / 2 * dt * (fst (fst (bound_local eb e s)) + fst (eloc w) - fst s)) ->
  update_local big dt eb w ovlp ovlp_new e s = Err NameError.
Proof. exact local_overflow. Qed.
Print Assumptions C39_local_overflow_refuted.

(* Thermal propagation. *)
Theorem C39_thermal :
  forall (big mf weight : R) (m0 mnew cfb cmf : C) (x : R),
  update_thermal big mf weight m0 mnew cfb cmf = Ok x ->
  (0 <= weight -> 0 <= x) /\
  (Cmod mnew <> 0 -> Rabs mf * exp (ln (Cmod (Cdiv m0 mnew)) + fst cfb + fst cmf) <= big ->
   x = weight * (Rabs mf * Cmod (Cmult (Cdiv m0 mnew) (cexp (Cplus cfb cmf)))
                 * Rmax 0 (direction (Cmult (Cdiv m0 mnew) (cexp cmf))))).
Proof.
  intros big mf weight m0 mnew cfb cmf x H. split.
  - exact (thermal_nonneg big mf weight m0 mnew cfb cmf x H).
  - intros Hn Hb. exact (thermal_formula big mf weight m0 mnew cfb cmf x H Hn Hb).
Qed.
Print Assumptions C39_thermal.

(* The one-body step of the discrete propagator. *)
Theorem C39_kinetic :
  forall (w : R) (o o' : C) (x : R) (y : C),
  update_kinetic w o o' = Ok (x, y) ->
  let r := Cdiv o' o in
  (0 <= w -> 0 <= x) /\
  (Cmod r <> 0 -> (0 < fst r -> x = w * fst r /\ y = o') /\ (fst r <= 0 -> x = 0 /\ y = o)) /\
  (Cmod r = 0 -> x = 0).
Proof. exact kinetic_spec. Qed.
Print Assumptions C39_kinetic.

(* The cap: every component, and the count. *)
Theorem C40_cap :
  forall l : list C,
  length (fst (cap 1 l)) = length l /\
  snd (cap 1 l) = large l /\
  (forall i x, nth_error l i = Some x ->
     exists y, nth_error (fst (cap 1 l)) i = Some y /\
       (Cmod x <= 1 -> y = x) /\
       (1 < Cmod x -> Cmod y = 1 /\ x = Cmult (RtoC (Cmod x)) y)).
Proof.
  intros l. split; [apply cap_length|]. split; [apply cap_count|].
  intros i x Hx. rewrite cap_nth, Hx. simpl.
  destruct (Rlt_dec 1 (Cmod x)) as [L|L]; eexists; (split; [reflexivity|]); split; intros G; try lra; try reflexivity.
  destruct (scaled_mod x) as [A B]; [lra|]. split; [exact A|symmetry; exact B].
Qed.
Print Assumptions C40_cap.

Theorem C40_idempotent :
  forall l : list C,
  Forall (fun x => Cmod x <= 1) (fst (cap 1 l)) /\ cap 1 (fst (cap 1 l)) = (fst (cap 1 l), 0%nat).
Proof. intros l; split; [apply cap_mod|apply cap_idem]. Qed.
Print Assumptions C40_idempotent.

(* The counter over any number of calls. *)
Theorem C40_calls :
  forall (n : nat) (calls : list (list C)),
  cap_calls n calls = (map (fun x => fst (cap 1 x)) calls, (n + nsum (map large calls))%nat).
Proof. intros; apply cap_calls_spec. Qed.
Print Assumptions C40_calls.

Example C40_cap_case : large [RtoC 2; RtoC 1; RtoC 0] = 1%nat.
Proof.
  unfold large; simpl. rewrite !Cmod_R, (Rabs_right 2), Rabs_R1, Rabs_R0 by lra.
  destruct (Rlt_dec 1 2); [|lra]. destruct (Rlt_dec 1 1); [lra|]. destruct (Rlt_dec 1 0); [lra|]. reflexivity.
Qed.

(* The thermal plane-wave propagator has an option for the limit, but rescales
   to modulus one whatever the limit is. *)
Theorem C40_limit_refuted :
  ~ (forall limit x y n, 0 < limit -> cap limit [x] = ([y], n) -> Cmod y <= limit).
Proof. exact cap_limit_refuted. Qed.
Print Assumptions C40_limit_refuted.

Theorem C40_limit_grows_refuted :
  forall (limit : R) (x : C), 0 <= limit -> limit < Cmod x < 1 ->
  exists y, cap limit [x] = ([y], 1%nat) /\ Cmod x < Cmod y.
Proof. exact cap_limit_grows. Qed.
Print Assumptions C40_limit_grows_refuted.
