(* Proofs about average_tau. *)

From Coq Require Import Reals List Lra Lia.
From Verif Require Import Base Ratio_Model Ratio_Spec.
Import ListNotations.
Local Open Scope R_scope.

Section Group.
Variable l : list row.
Notation total := (total l).
Notation mean := (mean l).
Notation size := (size l).

Lemma total_sum f : total f = sum (map f l).
Proof. unfold Ratio_Model.total, sum. induction l; simpl; congruence. Qed.

Lemma mean_average f : mean f = average (map f l).
Proof. unfold Ratio_Model.mean, average, Ratio_Model.size. now rewrite total_sum, map_length. Qed.

Lemma total_ext f g : (forall x, f x = g x) -> total f = total g.
Proof. intros E. unfold Ratio_Model.total. induction l; simpl; congruence. Qed.
Lemma total_plus f g : total (fun x => f x + g x) = total f + total g.
Proof. unfold Ratio_Model.total. induction l; simpl; lra. Qed.
Lemma total_scal c f : total (fun x => c * f x) = c * total f.
Proof. unfold Ratio_Model.total. induction l; simpl; lra. Qed.
Lemma total_ge0 f : (forall x, 0 <= f x) -> 0 <= total f.
Proof. intros E. unfold Ratio_Model.total. induction l as [|x k IH]; simpl; [lra|]. specialize (E x). lra. Qed.

Hypothesis two : (2 <= length l)%nat.

Lemma size2 : 2 <= size.
Proof. unfold Ratio_Model.size. replace 2 with (INR 2) by (simpl; lra). now apply le_INR. Qed.

Definition cv f g := total (fun x => (f x - mean f) * (g x - mean g)) / (size - 1).
Lemma covE f g : cov l f g = Some (cv f g).
Proof. unfold cov. destruct (Nat.leb_spec (length l) 1); [lia|reflexivity]. Qed.

Lemma cv_ge0 f : 0 <= cv f f.
Proof.
  pose proof size2. unfold cv, Rdiv. apply Rmult_le_pos.
  - apply total_ge0. intro x. apply Rle_0_sqr.
  - apply Rlt_le, Rinv_0_lt_compat. lra.
Qed.

Lemma rootE x : 0 <= x -> root (Some x) = Some (sqrt x).
Proof. intro H. unfold root. destruct (Rlt_dec x 0); [lra|reflexivity]. Qed.
Lemma errE f : err l f = Some (sqrt (cv f f)).
Proof. unfold err. rewrite covE. apply rootE, cv_ge0. Qed.
Lemma divE a b : b <> 0 -> div (Some a) (Some b) = Some (a / b).
Proof. intro H. unfold div. destruct (Req_EM_T b 0); [contradiction|reflexivity]. Qed.

Lemma sq_sqrt x : 0 <= x -> sqrt x ^ 2 = x.
Proof. intro. simpl. rewrite Rmult_1_r. now apply sqrt_sqrt. Qed.

Lemma variance_cv f : mean_variance (map f l) = cv f f / size.
Proof.
  pose proof size2. unfold mean_variance, cv. rewrite map_length, map_map, <- mean_average, <- total_sum.
  fold size. rewrite (total_ext (fun x => (f x - mean f) ^ 2) (fun x => (f x - mean f) * (f x - mean f))).
  2:{ intro. ring. }
  field. lra.
Qed.

Lemma standard f : standard_error (map f l) (sqrt (cv f f) / sqrt size).
Proof.
  pose proof size2. pose proof (cv_ge0 f). assert (0 < sqrt size) by (apply sqrt_lt_R0; lra).
  split.
  - apply Rmult_le_pos; [apply sqrt_pos|]. now apply Rlt_le, Rinv_0_lt_compat.
  - rewrite variance_cv. unfold Rdiv. rewrite Rpow_mult_distr, pow_inv, !sq_sqrt; lra.
Qed.

Lemma mean_lin q f g : mean (fun x => f x - q * g x) = mean f - q * mean g.
Proof.
  pose proof size2. unfold Ratio_Model.mean.
  rewrite (total_ext (fun x => f x - q * g x) (fun x => f x + (- q) * g x)) by (intro; ring).
  rewrite total_plus, total_scal. field. lra.
Qed.

Lemma cv_lin q f g : cv (fun x => f x - q * g x) (fun x => f x - q * g x)
  = cv f f + q ^ 2 * cv g g - 2 * q * cv f g.
Proof.
  pose proof size2. unfold cv. rewrite mean_lin.
  rewrite (total_ext (fun x => (f x - q * g x - (mean f - q * mean g)) * (f x - q * g x - (mean f - q * mean g)))
    (fun x => (f x - mean f) * (f x - mean f) + (q ^ 2 * ((g x - mean g) * (g x - mean g))
              + (- 2 * q) * ((f x - mean f) * (g x - mean g))))) by (intro; ring).
  rewrite !total_plus, !total_scal. field. lra.
Qed.

Lemma energy_error : mean enumer <> 0 -> mean edenom <> 0 ->
  exists e, r_etotal_error (average_tau l) = Some e /\
    quotient_error (map (fun x => (enumer x, edenom x)) l) e.
Proof.
  intros hN hD. pose proof size2 as S.
  assert (0 < sqrt size) by (apply sqrt_lt_R0; lra).
  set (mN := mean enumer) in *. set (mD := mean edenom) in *. set (q := mN / mD).
  assert (rad : (sqrt (cv enumer enumer) / mN) ^ 2 + (sqrt (cv edenom edenom) / mD) ^ 2
      - 2 * cv enumer edenom / (mN * mD)
      = cv (fun x => enumer x - q * edenom x) (fun x => enumer x - q * edenom x) / mN ^ 2).
  { rewrite cv_lin. unfold Rdiv. rewrite !Rpow_mult_distr, !sq_sqrt by apply cv_ge0.
    unfold q. field. split; assumption. }
  assert (pos : 0 <= cv (fun x => enumer x - q * edenom x) (fun x => enumer x - q * edenom x) / mN ^ 2).
  { unfold Rdiv. apply Rmult_le_pos; [apply cv_ge0|]. apply Rlt_le, Rinv_0_lt_compat.
    rewrite <- Rsqr_pow2. now apply Rsqr_pos_lt. }
  eexists. split.
  - unfold average_tau. cbn [r_etotal_error]. fold mN mD.
    rewrite !errE, !covE. cbn [option_map].
    rewrite !divE; try assumption; try lra; [|now apply Rmult_integral_contrapositive].
    cbn [square option_map lift2]. rewrite rad, rootE by exact pos. reflexivity.
  - unfold quotient_error. rewrite !map_map. cbn [fst snd].
    change (map (fun x => enumer x) l) with (map enumer l).
    change (map (fun x => edenom x) l) with (map edenom l).
    rewrite <- !mean_average. fold mN mD. fold q. split.
    + apply Rmult_le_pos; [apply Rabs_pos|apply sqrt_pos].
    + rewrite (variance_cv (fun x => enumer x - q * edenom x)).
      rewrite Rpow_mult_distr, sq_sqrt, RPow_abs by exact pos.
      rewrite Rabs_pos_eq by (rewrite <- Rsqr_pow2; apply Rle_0_sqr).
      unfold Rdiv at 1. rewrite Rpow_mult_distr, pow_inv, sq_sqrt by lra.
      set (c := cv _ _). unfold q. field. repeat split; lra.
Qed.

Lemma projected_error : exists e, r_eproj_error (average_tau l) = Some e /\ standard_error (map etotal l) e.
Proof.
  pose proof size2. assert (0 < sqrt size) by (apply sqrt_lt_R0; lra).
  eexists. split; [|apply standard].
  unfold average_tau. cbn [r_eproj_error]. rewrite errE, divE by lra. reflexivity.
Qed.

Lemma factor f : exists e, standard_error (map f l) e /\ err l f = Some (sqrt size * e).
Proof.
  pose proof size2. assert (0 < sqrt size) by (apply sqrt_lt_R0; lra).
  eexists. split; [apply standard|]. rewrite errE. f_equal. field. lra.
Qed.

Lemma sum_zero (xs : list R) : (forall x, In x xs -> x = 0) -> sum xs = 0.
Proof.
  induction xs as [|x xs IH]; simpl; intro H; [reflexivity|].
  rewrite (H x), IH; [lra| |]; auto.
Qed.

Lemma no_variance (xs : list R) c : (forall x, In x xs -> x = c) -> (1 <= length xs)%nat -> mean_variance xs = 0.
Proof.
  intros H L. assert (A : average xs = c).
  { unfold average. assert (E : sum xs = c * INR (length xs)).
    { clear L. induction xs as [|x xs IH]; [simpl; ring|].
      cbn [sum fold_right]. change (fold_right Rplus 0 xs) with (sum xs).
      rewrite IH by (intros; apply H; simpl; auto). rewrite (H x) by (simpl; auto).
      cbn [length]. rewrite S_INR. ring. }
    rewrite E. field. apply not_0_INR. lia. }
  unfold mean_variance. rewrite A, sum_zero; [unfold Rdiv; ring|].
  intros y Hy. apply in_map_iff in Hy. destruct Hy as [x [<- Hx]]. rewrite (H x Hx). ring.
Qed.

Lemma zero_variance q : q <> 0 -> mean edenom <> 0 -> (forall x, In x l -> enumer x = q * edenom x) ->
  r_etotal (average_tau l) = Some q /\ r_etotal_error (average_tau l) = Some 0.
Proof.
  intros hq hD H. pose proof size2 as S2.
  assert (E : mean enumer = q * mean edenom).
  { unfold Ratio_Model.mean. rewrite !total_sum.
    assert (T : sum (map enumer l) = q * sum (map edenom l)).
    { clear two S2 hD. induction l as [|x k IH]; [simpl; ring|].
      cbn [map sum fold_right]. change (fold_right Rplus 0 (map enumer k)) with (sum (map enumer k)).
      change (fold_right Rplus 0 (map edenom k)) with (sum (map edenom k)).
      rewrite IH by (intros; apply H; simpl; auto). rewrite (H x) by (simpl; auto). ring. }
    rewrite T. field. lra. }
  assert (Q : mean enumer / mean edenom = q) by (rewrite E; field; assumption).
  split.
  - unfold average_tau. cbn [r_etotal]. rewrite divE by assumption. now rewrite Q.
  - assert (hN : mean enumer <> 0) by (rewrite E; now apply Rmult_integral_contrapositive).
    destruct (energy_error hN hD) as [e [-> [e0 he]]]. f_equal.
    rewrite !map_map in he. cbn [fst snd] in he.
    change (map (fun x => enumer x) l) with (map enumer l) in he.
    change (map (fun x => edenom x) l) with (map edenom l) in he.
    rewrite <- !mean_average, Q in he.
    rewrite (no_variance _ 0) in he.
    + unfold Rdiv in he. rewrite Rmult_0_l in he. rewrite <- Rsqr_pow2 in he. now apply Rsqr_0_uniq.
    + intros y Hy. apply in_map_iff in Hy. destruct Hy as [x [<- Hx]]. rewrite (H x Hx). ring.
    + rewrite map_length. lia.
Qed.

Lemma zero_mean : mean enumer = 0 -> r_etotal_error (average_tau l) = None.
Proof.
  intro Z. unfold average_tau. cbn [r_etotal_error]. rewrite Z, errE.
  assert (N : div (Some (sqrt (cv enumer enumer))) (Some 0) = None).
  { unfold div. destruct (Req_EM_T 0 0); [reflexivity|contradiction]. }
  rewrite N. cbn. destruct (option_map Rabs _); reflexivity.
Qed.
End Group.

Lemma one_row x : r_etotal_error (average_tau [x]) = None /\ r_eproj_error (average_tau [x]) = None.
Proof.
  unfold average_tau, err, cov. cbn [r_etotal_error r_eproj_error length Nat.leb root div square option_map lift2].
  split; [|reflexivity]. now destruct (option_map Rabs _).
Qed.
