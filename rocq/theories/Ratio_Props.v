(* C78: the errors of average_tau.  The error of the energy is the one of the delta method. *)

From Coq Require Import Reals List Lra Lia.
From Verif Require Import Base Ratio_Model Ratio_Spec Ratio_Proofs.
Import ListNotations.
Local Open Scope R_scope.

(* The energy is the quotient of the means, and its error the one of the delta method: the number
   under the root is never negative. *)
Theorem C78_energy_partial l : (2 <= length l)%nat ->
  average (map enumer l) <> 0 -> average (map edenom l) <> 0 ->
  r_etotal (average_tau l) = Some (average (map enumer l) / average (map edenom l)) /\
  exists e, r_etotal_error (average_tau l) = Some e /\
    quotient_error (map (fun x => (enumer x, edenom x)) l) e.
Proof.
  intros two. rewrite <- !mean_average. intros hN hD. split; [|now apply energy_error].
  unfold average_tau. cbn [r_etotal]. now rewrite divE.
Qed.
Print Assumptions C78_energy_partial.

(* No error if the energies of all calculations are equal, whatever their weights. *)
Theorem C78_zero_variance l q : (2 <= length l)%nat -> q <> 0 -> average (map edenom l) <> 0 ->
  (forall x, In x l -> enumer x = q * edenom x) ->
  r_etotal (average_tau l) = Some q /\ r_etotal_error (average_tau l) = Some 0.
Proof. intros two hq. rewrite <- mean_average. now apply zero_variance. Qed.
Print Assumptions C78_zero_variance.

(* The projected energy: the standard error of the mean. *)
Theorem C78_projected l : (2 <= length l)%nat ->
  r_eproj (average_tau l) = average (map etotal l) /\
  exists e, r_eproj_error (average_tau l) = Some e /\ standard_error (map etotal l) e.
Proof. intro two. split; [apply mean_average|now apply projected_error]. Qed.
Print Assumptions C78_projected.

(* The errors of the weight and of the numerator are too large by the root of the number of
   calculations. *)
Theorem C78_others_partial l : (2 <= length l)%nat ->
  (exists e, standard_error (map weight l) e /\
     r_weight_error (average_tau l) = Some (sqrt (INR (length l)) * e)) /\
  (exists e, standard_error (map enumer l) e /\
     r_numerator_error (average_tau l) = Some (sqrt (INR (length l)) * e)).
Proof. intro two. split; now apply factor. Qed.
Print Assumptions C78_others_partial.

Theorem C78_weight_refuted : exists l e, (2 <= length l)%nat /\
  r_weight_error (average_tau l) = Some e /\ ~ standard_error (map weight l) e.
Proof.
  set (l := [Row 1 1 1 0; Row 1 1 1 2]).
  assert (two : (2 <= length l)%nat) by (simpl; lia).
  destruct (C78_others_partial l two) as [[e [[e0 he] E]] _].
  exists l, (sqrt (INR (length l)) * e). repeat split; try assumption.
  intros [_ h]. rewrite Rpow_mult_distr, sq_sqrt, he in h by apply pos_INR.
  unfold mean_variance, average, sum, l in h. simpl in h. lra.
Qed.
Print Assumptions C78_weight_refuted.

(* No error at all for an energy of zero, although the delta method has one; nor for a single
   calculation. *)
Theorem C78_zero_refuted : exists l, (2 <= length l)%nat /\ r_etotal (average_tau l) = Some 0 /\
  r_etotal_error (average_tau l) = None /\
  quotient_error (map (fun x => (enumer x, edenom x)) l) 1.
Proof.
  set (l := [Row 1 1 1 1; Row (-1) 1 1 1]).
  assert (two : (2 <= length l)%nat) by (simpl; lia).
  assert (Z : mean l enumer = 0) by (unfold mean, total, size, l; simpl; lra).
  assert (D : mean l edenom = 1) by (unfold mean, total, size, l; simpl; lra).
  exists l. repeat split; try assumption.
  - unfold average_tau. cbn [r_etotal]. rewrite Z, D, divE by lra. f_equal. lra.
  - now apply zero_mean.
  - lra.
  - unfold mean_variance, average, sum, l. simpl. lra.
Qed.
Print Assumptions C78_zero_refuted.

Theorem C78_one x : r_etotal_error (average_tau [x]) = None /\ r_eproj_error (average_tau [x]) = None.
Proof. apply one_row. Qed.
Print Assumptions C78_one.

(* The hypotheses hold together for data that fluctuate. *)
Example C78_example : let l := [Row 2 1 2 1; Row 6 3 2 3; Row 1 1 1 1] in
  (2 <= length l)%nat /\ average (map enumer l) <> 0 /\ average (map edenom l) <> 0.
Proof. unfold average, sum. simpl. repeat split; try lia; lra. Qed.
