(* Proofs about phonon wavefunctions. *)

From Coq Require Import Reals List Lra.
From Verif Require Import Base BaseFacts Phonon_Model Phonon_Spec.
Set Warnings "-ambiguous-paths".
From Coquelicot Require Import Coquelicot.
From Coq Require Import Lra Psatz.
Import ListNotations.
Open Scope R_scope.

Lemma nth_upd i (x : R) l d : (i < length l)%nat -> nth i (upd i x l) d = x.
Proof.
  revert i; induction l as [|h t IH]; intros [|i] H; simpl in *; try lia; auto.
  apply IH; lia.
Qed.
Lemma upd_upd i (x y : R) l : upd i x (upd i y l) = upd i x l.
Proof. revert i; induction l as [|h t IH]; intros [|i]; simpl; auto. now rewrite IH. Qed.
Lemma upd_nth i (l : list R) d : upd i (nth i l d) l = l.
Proof. revert i; induction l as [|h t IH]; intros [|i]; simpl; auto. now rewrite IH. Qed.

Lemma each2_length f X s : length X = length s -> length (each2 f X s) = length X.
Proof. intro H; unfold each2; rewrite map_length, combine_length; lia. Qed.
Lemma nth_each2 f X s i d a b : length X = length s -> (i < length X)%nat ->
  nth i (each2 f X s) d = f (nth i X a) (nth i s b).
Proof.
  revert s i; induction X as [|x X IH]; intros [|y s] [|i] E H; simpl in *; try lia; auto.
  apply IH; lia.
Qed.

(* Products: one factor depends on one number. *)
Lemma prod_upd f X s i : length X = length s -> (i < length X)%nat ->
  exists K, forall t, rprod (each2 f (upd i t X) s) = K * f t (nth i s 0).
Proof.
  revert s i; induction X as [|x X IH]; intros [|y s] [|i] E H; simpl in *; try lia.
  - exists (rprod (each2 f X s)). intro t. unfold each2; simpl. unfold rprod; simpl. ring.
  - destruct (IH s i) as [K HK]; try lia.
    exists (f x y * K). intro t. unfold each2 in *; simpl. unfold rprod in *; simpl.
    rewrite HK. ring.
Qed.

(* Gaussian products with exponent -k/2 (x-a)^2. *)
Section Gauss.
Variable k : R.
Definition gval (s X : list R) : R :=
  rprod (each2 (fun x a => exp (- (k / 2) * ((x - a) * (x - a)))) X s).
Definition ggrad (s X : list R) (i : nat) : R := - k * (nth i X 0 - nth i s 0).
Definition glap (s X : list R) (i : nat) : R :=
  k * k * (nth i X 0 - nth i s 0) ^ 2 - k.

Lemma gval_partial s X i : length X = length s -> (i < length X)%nat ->
  partial (gval s) i X (gval s X * ggrad s X i).
Proof.
  intros E H. unfold partial.
  destruct (prod_upd (fun x a => exp (- (k / 2) * ((x - a) * (x - a)))) X s i E H) as [K HK].
  fold (gval s) in HK.
  apply is_derive_ext with (f := fun t => K * exp (- (k / 2) * ((t - nth i s 0) * (t - nth i s 0)))).
  - intro t. unfold gval. now rewrite HK.
  - rewrite <- (upd_nth i X 0) at 2. unfold gval at 1. rewrite HK. unfold ggrad.
    auto_derive; auto. unfold Rminus. field.
Qed.

Lemma gval_partial_2 s X i : length X = length s -> (i < length X)%nat ->
  partial (fun Y => gval s Y * ggrad s Y i) i X (gval s X * glap s X i).
Proof.
  intros E H. unfold partial.
  destruct (prod_upd (fun x a => exp (- (k / 2) * ((x - a) * (x - a)))) X s i E H) as [K HK].
  apply is_derive_ext with (f := fun t =>
    K * exp (- (k / 2) * ((t - nth i s 0) * (t - nth i s 0))) * (- k * (t - nth i s 0))).
  - intro t. unfold gval, ggrad. rewrite HK, nth_upd by auto. reflexivity.
  - rewrite <- (upd_nth i X 0) at 2. unfold gval at 1. rewrite HK. unfold glap.
    auto_derive; auto. unfold Rminus. field.
Qed.

Lemma gval_partial2 s X i : length X = length s -> (i < length X)%nat ->
  partial2 (gval s) i X (gval s X * glap s X i).
Proof.
  intros E H. exists (fun Y => gval s Y * ggrad s Y i). split.
  - intros Y HY. apply gval_partial; congruence.
  - now apply gval_partial_2.
Qed.

Lemma gval_pos s X : 0 < gval s X.
Proof.
  unfold gval, each2. induction (combine X s) as [|p l IH]; simpl; unfold rprod; simpl; try lra.
  apply Rmult_lt_0_compat; auto using exp_pos.
Qed.
End Gauss.

Section Oscillator.
Variables m w : R.

Lemma value_gval s X : value m w s X = gval (m * w) s X.
Proof.
  unfold value, gval, each2. f_equal. apply map_ext. intros [x a]; simpl.
  rewrite Rmult_1_l. f_equal. ring.
Qed.
Lemma value_pos s X : 0 < value m w s X.
Proof. rewrite value_gval. apply gval_pos. Qed.
Lemma value_p_gval s X : m * w <> 0 -> value_p m w s X = gval (1 / (m * w)) s X.
Proof.
  intro H. unfold value_p, gval, each2. f_equal. apply map_ext. intros [x a]; simpl.
  rewrite Rmult_1_l. f_equal. field.
  split; intro E; apply H; rewrite E; ring.
Qed.

Lemma partial_ext f g i X l : (forall Y, f Y = g Y) -> partial f i X l -> partial g i X l.
Proof. intros E H. unfold partial in *. eapply is_derive_ext; [|exact H]. intro; apply E. Qed.
Lemma partial2_ext f g i X l : (forall Y, f Y = g Y) -> partial2 f i X l -> partial2 g i X l.
Proof.
  intros E [h [A B]]. exists h. split; auto.
  intros Y HY. eapply partial_ext; eauto.
Qed.

Lemma gradient_right s X i : length X = length s -> (i < length X)%nat ->
  partial (value m w s) i X (value m w s X * nth i (gradient m w s X) 0).
Proof.
  intros E H. eapply partial_ext; [intro; symmetry; apply value_gval|].
  rewrite value_gval. unfold gradient. rewrite (nth_each2 _ _ _ _ _ 0 0) by auto.
  replace (- m * w * (nth i X 0 - nth i s 0)) with (ggrad (m * w) s X i)
    by (unfold ggrad; ring).
  now apply gval_partial.
Qed.

Lemma laplacian_right s X i : length X = length s -> (i < length X)%nat ->
  partial2 (value m w s) i X (value m w s X * nth i (laplacian m w s X) 0).
Proof.
  intros E H. eapply partial2_ext; [intro; symmetry; apply value_gval|].
  rewrite value_gval. unfold laplacian. rewrite (nth_each2 _ _ _ _ _ 0 0) by auto.
  replace (m * m * w * w * (nth i X 0 - nth i s 0) * (nth i X 0 - nth i s 0) - w * m)
    with (glap (m * w) s X i) by (unfold glap; ring).
  now apply gval_partial2.
Qed.

Lemma gradient_p_right s X i : m * w <> 0 -> length X = length s -> (i < length X)%nat ->
  partial (value_p m w s) i X (value_p m w s X * nth i (gradient_p m w s X) 0).
Proof.
  intros N E H. eapply partial_ext; [intro; symmetry; now apply value_p_gval|].
  rewrite value_p_gval by auto. unfold gradient_p. rewrite (nth_each2 _ _ _ _ _ 0 0) by auto.
  now apply gval_partial.
Qed.
Lemma laplacian_p_right s X i : m * w <> 0 -> length X = length s -> (i < length X)%nat ->
  partial2 (value_p m w s) i X (value_p m w s X * nth i (laplacian_p m w s X) 0).
Proof.
  intros N E H. eapply partial2_ext; [intro; symmetry; now apply value_p_gval|].
  rewrite value_p_gval by auto. unfold laplacian_p. rewrite (nth_each2 _ _ _ _ _ 0 0) by auto.
  replace ((1 / (m * w)) ^ 2 * (nth i X 0 - nth i s 0) * (nth i X 0 - nth i s 0) - 1 / (m * w))
    with (glap (1 / (m * w)) s X i) by (unfold glap; ring).
  now apply gval_partial2.
Qed.

Lemma sum_scal c l : sum_of (map (fun x => c * x) l) = c * rsum l.
Proof. induction l; simpl; unfold sum_of, rsum in *; simpl; [ring|]. rewrite IHl; ring. Qed.

Lemma nth_map0 (c : R) l i : nth i (map (fun x => c * x) l) 0 = c * nth i l 0.
Proof.
  revert i; induction l as [|a l IH]; intros [|i]; simpl; auto; ring.
Qed.

Lemma energy_right s X : m <> 0 -> length X = length s ->
  oscillators m w (value m w s) X (local_energy m w s X * value m w s X).
Proof.
  intros N E. exists (map (fun x => value m w s X * x) (laplacian m w s X)). repeat split.
  - rewrite map_length. unfold laplacian. now apply each2_length.
  - intros i H. rewrite nth_map0. now apply laplacian_right.
  - rewrite sum_scal. unfold local_energy, square_sum. fold sum_of.
    change (sum_of (map (fun x => x * x) X)) with (rsum (map (fun x => x * x) X)). field. auto.
Qed.
Lemma energy_p_right s P : m <> 0 -> w <> 0 -> length P = length s ->
  oscillators_momentum m w (value_p m w s) P (local_energy_p m w s P * value_p m w s P).
Proof.
  intros N N' E. exists (map (fun x => value_p m w s P * x) (laplacian_p m w s P)). repeat split.
  - rewrite map_length. unfold laplacian_p. now apply each2_length.
  - intros i H. rewrite nth_map0. apply laplacian_p_right; auto.
  - rewrite sum_scal. unfold local_energy_p, square_sum.
    change (sum_of (map (fun x => x * x) P)) with (rsum (map (fun x => x * x) P)). field. auto.
Qed.

(* The local energy in closed form. *)
Lemma lap_sum s X : length X = length s ->
  rsum (laplacian m w s X)
  = (m * w) ^ 2 * rsum (each2 (fun x a => (x - a) ^ 2) X s) - INR (length X) * (m * w).
Proof.
  revert s; induction X as [|x X IH]; intros [|a s] E; simpl in E; try lia.
  - unfold laplacian, each2, rsum; simpl. ring.
  - specialize (IH s ltac:(lia)). unfold laplacian, each2, rsum in *.
    change (length (x :: X)) with (S (length X)). rewrite S_INR. simpl in *. rewrite IH. ring.
Qed.
Lemma energy_closed s X : m <> 0 -> length X = length s ->
  local_energy m w s X = m * w ^ 2 * rsum (each2 (fun x a => a * (x - a / 2)) X s).
Proof.
  intros N E. unfold local_energy. rewrite lap_sum by auto.
  assert (A : rsum (map (fun x => x * x) X) - rsum (each2 (fun x a => (x - a) ^ 2) X s)
              = 2 * rsum (each2 (fun x a => a * (x - a / 2)) X s)).
  { clear N. revert s E; induction X as [|x X IH]; intros [|a s] E; simpl in E; try lia.
    - unfold each2, rsum; simpl. ring.
    - specialize (IH s ltac:(lia)). unfold each2, rsum in *; simpl in *. lra. }
  replace (rsum (map (fun x => x * x) X))
    with (2 * rsum (each2 (fun x a => a * (x - a / 2)) X s)
          + rsum (each2 (fun x a => (x - a) ^ 2) X s)) by lra.
  field. auto.
Qed.

Lemma energy_zero X : m <> 0 -> local_energy m w (repeat 0 (length X)) X = 0.
Proof.
  intro N. rewrite energy_closed by (auto; now rewrite repeat_length).
  replace (rsum _) with 0; [ring|]. symmetry.
  induction X as [|x X IH]; unfold each2, rsum in *; simpl; auto. rewrite IH. lra.
Qed.

(* Linear combinations. *)
Lemma partial_const c i X : partial (fun _ => c) i X 0.
Proof. unfold partial. apply is_derive_Reals. apply derivable_pt_lim_const. Qed.
Lemma partial_lin a f g i X l l' : partial f i X l -> partial g i X l' ->
  partial (fun Y => a * f Y + g Y) i X (a * l + l').
Proof.
  unfold partial. intros H H'.
  apply (is_derive_plus (fun t => a * f (upd i t X)) (fun t => g (upd i t X))); auto.
  now apply (is_derive_scal (fun t => f (upd i t X))).
Qed.
Lemma partial2_const c i X : partial2 (fun _ => c) i X 0.
Proof. exists (fun _ => 0). split; intros; apply partial_const. Qed.
Lemma partial2_lin a f g i X l l' : partial2 f i X l -> partial2 g i X l' ->
  partial2 (fun Y => a * f Y + g Y) i X (a * l + l').
Proof.
  intros [f' [A B]] [g' [A' B']]. exists (fun Y => a * f' Y + g' Y). split.
  - intros Y HY. apply partial_lin; auto.
  - now apply partial_lin.
Qed.

Section Sym.
Variable parts : list part.
Variable X : list R.
Hypothesis len : forall p, In p parts -> length X = length (shift p).

Lemma partial_parts (a : part -> R) i : (i < length X)%nat ->
  partial (fun Y => rsum (map (fun p => a p * value m w (shift p) Y) parts)) i X
    (rsum (map (fun p => a p * (value m w (shift p) X * nth i (gradient m w (shift p) X) 0)) parts)).
Proof.
  intro H. induction parts as [|p l IH].
  - simpl. unfold rsum; simpl. exact (partial_const 0 i X).
  - apply (partial_lin (a p) (value m w (shift p))).
    + apply gradient_right; auto. apply len. now left.
    + apply IH. intros q Hq. apply len. now right.
Qed.
Lemma partial2_parts (a : part -> R) i : (i < length X)%nat ->
  partial2 (fun Y => rsum (map (fun p => a p * value m w (shift p) Y) parts)) i X
    (rsum (map (fun p => a p * (value m w (shift p) X * nth i (laplacian m w (shift p) X) 0)) parts)).
Proof.
  intro H. induction parts as [|p l IH].
  - simpl. unfold rsum; simpl. exact (partial2_const 0 i X).
  - apply (partial2_lin (a p) (value m w (shift p))).
    + apply laplacian_right; auto. apply len. now left.
    + apply IH. intros q Hq. apply len. now right.
Qed.

Lemma fst_csum l : fst (csum l) = rsum (map fst l).
Proof. induction l as [|a l IH]; simpl; auto. unfold csum, rsum in *; simpl. now rewrite IH. Qed.
Lemma snd_csum l : snd (csum l) = rsum (map snd l).
Proof. induction l as [|a l IH]; simpl; auto. unfold csum, rsum in *; simpl. now rewrite IH. Qed.

Definition d (p : part) : C := (ots p * Cconj (coeff p))%C.

Lemma sym_fst Y : fst (sym_value m w parts Y)
  = rsum (map (fun p => fst (d p) * value m w (shift p) Y) parts).
Proof.
  unfold sym_value. rewrite fst_csum, map_map. f_equal. apply map_ext. intro p.
  unfold d. simpl. ring.
Qed.
Lemma sym_snd Y : snd (sym_value m w parts Y)
  = rsum (map (fun p => snd (d p) * value m w (shift p) Y) parts).
Proof.
  unfold sym_value. rewrite snd_csum, map_map. f_equal. apply map_ext. intro p.
  unfold d. simpl. ring.
Qed.

Lemma nth_map_seq (f : nat -> C) n i : (i < n)%nat -> nth i (map f (seq 0 n)) 0%C = f i.
Proof.
  intro H. rewrite nth_indep with (d' := f O) by (rewrite map_length, seq_length; auto).
  rewrite map_nth, seq_nth; auto.
Qed.

Lemma sym_laplacian_right i : sym_value m w parts X <> 0%C -> (i < length X)%nat ->
  cpartial2 (sym_value m w parts) i X (nth i (sym_laplacian m w parts X) 0%C * sym_value m w parts X)%C.
Proof.
  intros N H. unfold sym_laplacian. rewrite nth_map_seq by auto.
  match goal with |- cpartial2 _ _ _ (?a / ?b * ?b)%C =>
    replace (a / b * b)%C with a by (field; auto) end.
  split.
  - eapply partial2_ext; [intro; symmetry; apply sym_fst|].
    rewrite fst_csum, map_map.
    match goal with |- partial2 _ _ _ (rsum (map ?f _)) =>
      replace (map f parts) with (map (fun p => fst (d p) * (value m w (shift p) X *
        nth i (laplacian m w (shift p) X) 0)) parts) end.
    + now apply partial2_parts.
    + apply map_ext. intro p. unfold d. simpl. ring.
  - eapply partial2_ext; [intro; symmetry; apply sym_snd|].
    rewrite snd_csum, map_map.
    match goal with |- partial2 _ _ _ (rsum (map ?f _)) =>
      replace (map f parts) with (map (fun p => snd (d p) * (value m w (shift p) X *
        nth i (laplacian m w (shift p) X) 0)) parts) end.
    + now apply partial2_parts.
    + apply map_ext. intro p. unfold d. simpl. ring.
Qed.

Lemma sym_gradient_right i : sym_value m w parts X <> 0%C ->
  (forall p, In p parts -> snd (coeff p) = 0) -> (i < length X)%nat ->
  cpartial (sym_value m w parts) i X (nth i (sym_gradient m w parts X) 0%C * sym_value m w parts X)%C.
Proof.
  intros N R H. unfold sym_gradient. rewrite nth_map_seq by auto.
  match goal with |- cpartial _ _ _ (?a / ?b * ?b)%C =>
    replace (a / b * b)%C with a by (field; auto) end.
  split.
  - eapply partial_ext; [intro; symmetry; apply sym_fst|].
    rewrite fst_csum, map_map.
    match goal with |- partial _ _ _ (rsum (map ?f _)) =>
      replace (map f parts) with (map (fun p => fst (d p) * (value m w (shift p) X *
        nth i (gradient m w (shift p) X) 0)) parts) end.
    + now apply partial_parts.
    + apply map_ext_in. intros p Hp. unfold d. simpl. rewrite R by auto. ring.
  - eapply partial_ext; [intro; symmetry; apply sym_snd|].
    rewrite snd_csum, map_map.
    match goal with |- partial _ _ _ (rsum (map ?f _)) =>
      replace (map f parts) with (map (fun p => snd (d p) * (value m w (shift p) X *
        nth i (gradient m w (shift p) X) 0)) parts) end.
    + now apply partial_parts.
    + apply map_ext_in. intros p Hp. unfold d. simpl. rewrite R by auto. ring.
Qed.

Lemma csum_scal c l : csum (map (fun x => x * c)%C l) = (csum l * c)%C.
Proof.
  induction l as [|a l IH]; unfold csum in *; simpl; [ring|]. rewrite IH. ring.
Qed.

Lemma nth_re (l : list C) i : nth i (map fst l) (0%R) = fst (nth i l 0%C).
Proof. exact (map_nth fst l (RtoC 0) i). Qed.
Lemma nth_im (l : list C) i : nth i (map snd l) (0%R) = snd (nth i l 0%C).
Proof. exact (map_nth snd l (RtoC 0) i). Qed.

Lemma sym_energy_right : m <> 0 -> sym_value m w parts X <> 0%C ->
  oscillators_complex m w (sym_value m w parts) X
    (sym_local_energy m w parts X * sym_value m w parts X)%C.
Proof.
  intros Nm N.
  set (v := sym_value m w parts X) in *.
  set (L := map (fun x => x * v)%C (sym_laplacian m w parts X)).
  assert (LL : length L = length X).
  { unfold L, sym_laplacian. now rewrite !map_length, seq_length. }
  assert (D : forall i, (i < length X)%nat -> cpartial2 (sym_value m w parts) i X (nth i L 0%C)).
  { intros i H. unfold L.
    replace (nth i (map (fun x => (x * v)%C) (sym_laplacian m w parts X)) 0%C)
      with (nth i (sym_laplacian m w parts X) 0%C * v)%C.
    - now apply sym_laplacian_right.
    - rewrite <- (map_nth (fun x => (x * v)%C)). f_equal. ring. }
  assert (S : csum L = (csum (sym_laplacian m w parts X) * v)%C) by apply csum_scal.
  assert (E : (sym_local_energy m w parts X * v)%C
    = (RtoC (- (1 / (2 * m)))%R * csum L
       + RtoC (m * w ^ 2 / 2 * square_sum X - INR (length X) * w / 2)%R * v)%C).
  { rewrite S. unfold sym_local_energy, square_sum.
    change (sum_of (map (fun x => x * x) X)) with (rsum (map (fun x => x * x) X)).
    replace (RtoC (- (1 / (2 * m)))%R) with (RtoC (- (1 / 2))%R / RtoC m)%C.
    2:{ rewrite <- RtoC_div by auto. f_equal. field. auto. }
    replace (RtoC (m * w ^ 2 / 2 * rsum (map (fun x => x * x) X) - INR (length X) * w / 2)%R)
      with (RtoC (1 / 2 * m * w * w * rsum (map (fun x => x * x) X))%R
            - RtoC (1 / 2 * w * INR (length X))%R)%C.
    2:{ rewrite <- RtoC_minus. f_equal. field. }
    field. intro Z. apply Nm. now apply RtoC_inj. }
  rewrite E. split.
  - exists (map fst L). rewrite map_length. repeat split; auto.
    + intros i H. rewrite nth_re. apply D. auto.
    + simpl. rewrite fst_csum. fold v. unfold sum_of, rsum. ring.
  - exists (map snd L). rewrite map_length. repeat split; auto.
    + intros i H. rewrite nth_im. apply D. auto.
    + simpl. rewrite snd_csum. fold v. unfold sum_of, rsum. ring.
Qed.
End Sym.

(* Steps. *)
Lemma last_path next noise : forall (Y d0 d1 : list R),
  last (path next Y noise) d0
  = match path next Y noise with [] => d1 | _ :: _ => last (path next Y noise) d1 end.
Proof.
  induction noise as [|e noise IH]; intros; [reflexivity|].
  simpl. rewrite (IH (next Y e) d0 d1). rewrite (IH (next Y e) d1 d1).
  destruct (path next (next Y e) noise); reflexivity.
Qed.
Lemma steps_right g U dt eshift s wk noise :
  let f := boson_steps m w false g U dt eshift s wk noise in
  let p := path (langevin m dt (gradient m w s)) (wX wk) noise in
  wX f = last p (wX wk) /\
  ot f = (ot wk * RtoC (value m w s (wX f) / value m w s (wX wk)))%C /\
  weight f = weight wk * exp (- dt * (trapezoid (local_energy m w s) p
                                      - INR (length noise) * eshift)).
Proof.
  revert wk. induction noise as [|dx noise IH]; intro wk; simpl.
  - split; [reflexivity|]. split.
    + unfold Rdiv. rewrite Rinv_r by (apply Rgt_not_eq, value_pos). ring.
    + replace (- dt * (0 - 0 * eshift)) with 0 by ring. rewrite exp_0. ring.
  - specialize (IH (boson_step m w false g U dt eshift s wk dx)).
    cbv zeta in IH.
    change (wX (boson_step m w false g U dt eshift s wk dx))
      with (langevin m dt (gradient m w s) (wX wk) dx) in IH.
    set (Y := langevin m dt (gradient m w s) (wX wk) dx) in *.
    fold (boson_steps m w false g U dt eshift s (boson_step m w false g U dt eshift s wk dx) noise).
    destruct IH as [A [B D]].
    change (fold_left (boson_step m w false g U dt eshift s) noise
              (boson_step m w false g U dt eshift s wk dx))
      with (boson_steps m w false g U dt eshift s (boson_step m w false g U dt eshift s wk dx) noise).
    split; [|split].
    + rewrite A. apply last_path.
    + rewrite B. change (ot (boson_step m w false g U dt eshift s wk dx))
        with (ot wk * RtoC (value m w s Y / value m w s (wX wk)))%C.
      rewrite <- Cmult_assoc, <- RtoC_mult. f_equal. f_equal. field.
      split; apply Rgt_not_eq, value_pos.
    + rewrite D.
      change (weight (boson_step m w false g U dt eshift s wk dx)) with
        (weight wk * exp (- (1 / 2) * dt * (local_energy m w s Y + local_energy m w s (wX wk)
                                            - 2 * eshift))).
      rewrite Rmult_assoc, <- exp_plus. f_equal. f_equal.
      match goal with |- _ = - dt * (?T - ?N * eshift) =>
        replace N with (INR (length noise) + 1) by (destruct noise; simpl; ring);
        replace T with ((local_energy m w s (wX wk) + local_energy m w s Y) / 2
              + trapezoid (local_energy m w s) (path (langevin m dt (gradient m w s)) Y noise))
        by (destruct noise; reflexivity) end.
      field.
Qed.

Lemma free_right dt wk noise :
  let f := free_steps m w dt wk noise in
  let p := path add (wX wk) noise in
  wX f = last p (wX wk) /\ ot f = ot wk /\
  weight f = weight wk
    * exp (- dt * trapezoid (fun X => m * w ^ 2 / 2 * square_sum X) p).
Proof.
  revert wk. induction noise as [|dx noise IH]; intro wk; simpl.
  - repeat split; auto. replace (- dt * 0) with 0 by ring. rewrite exp_0. ring.
  - specialize (IH (free_step m w dt wk dx)). cbv zeta in IH.
    change (wX (free_step m w dt wk dx)) with (add (wX wk) dx) in IH.
    set (Y := add (wX wk) dx) in *.
    destruct IH as [A [B D]].
    change (fold_left (free_step m w dt) noise (free_step m w dt wk dx))
      with (free_steps m w dt (free_step m w dt wk dx) noise).
    split; [|split].
    + rewrite A. apply last_path.
    + rewrite B. reflexivity.
    + rewrite D.
      change (weight (free_step m w dt wk dx)) with
        (weight wk * exp (- dt * (1 / 4 * m * w * w * square_sum (wX wk)))
         * exp (- dt * (1 / 4 * m * w * w * square_sum Y))).
      rewrite !Rmult_assoc, <- !exp_plus. f_equal. f_equal.
      match goal with |- _ = - dt * ?T =>
        replace T with ((m * w ^ 2 / 2 * square_sum (wX wk) + m * w ^ 2 / 2 * square_sum Y) / 2
          + trapezoid (fun X => m * w ^ 2 / 2 * square_sum X) (path add Y noise))
        by (destruct noise; simpl; field) end.
      field.
Qed.

Lemma path_length next n noise : forall X, length X = n ->
  (forall X d, length X = n -> length d = n -> length (next X d) = n) ->
  (forall d, In d noise -> length d = n) ->
  forall Y, In Y (path next X noise) -> length Y = n.
Proof.
  induction noise as [|d noise IH]; intros X HX HN HD Y.
  - intros [<-|[]]. auto.
  - intros [<-|H]; auto. apply (IH (next X d)); auto.
    + apply HN; auto. apply HD. now left.
    + intros e He. apply HD. now right.
Qed.
Lemma trapezoid_const e c next noise : forall X,
  (forall Y, In Y (path next X noise) -> e Y = c) ->
  trapezoid e (path next X noise) = INR (length noise) * c.
Proof.
  induction noise as [|d noise IH]; intros X H.
  - simpl. ring.
  - change (path next X (d :: noise)) with (X :: path next (next X d) noise).
    assert (E : trapezoid e (X :: path next (next X d) noise)
      = (e X + e (next X d)) / 2 + trapezoid e (path next (next X d) noise))
      by (destruct noise; reflexivity).
    rewrite E, IH.
    + rewrite (H X) by now left. rewrite (H (next X d)).
      2:{ right. destruct noise; now left. }
      change (length (d :: noise)) with (S (length noise)). rewrite S_INR. field.
    + intros Y HY. apply H. now right.
Qed.

Lemma steps_zero_variance g U dt wk noise : m <> 0 ->
  (forall d, In d noise -> length d = length (wX wk)) ->
  weight (boson_steps m w false g U dt 0 (repeat 0 (length (wX wk))) wk noise) = weight wk.
Proof.
  intros Nm H. set (s := repeat 0 (length (wX wk))).
  destruct (steps_right g U dt 0 s wk noise) as [_ [_ E]]. rewrite E.
  rewrite (trapezoid_const _ 0).
  - match goal with |- context [exp ?x] => replace x with 0 by ring end. rewrite exp_0. ring.
  - intros Y HY. assert (L : length Y = length (wX wk)).
    { eapply path_length; [| | |exact HY]; auto.
      intros A d HA Hd. unfold langevin, add. rewrite map_length, combine_length, !map_length,
        combine_length.
      unfold gradient, each2. rewrite map_length, combine_length. unfold s. rewrite repeat_length. lia. }
    unfold s. rewrite <- L. now apply energy_zero.
Qed.
End Oscillator.

Section Acceptance.
Variables m w : R.

Lemma sq_gauss dt a b e : length b = length e ->
  rsum (map (fun p => (fst (fst p) - snd (fst p) - snd p) ^ 2 / (2 * dt)) (combine (combine a b) e))
  = sum_of (map (fun p => (fst p - snd p) ^ 2 / (2 * dt)) (combine a (add b e))).
Proof.
  revert b e. induction a as [|x a IH]; intros [|y b] [|z e] H; try discriminate; try reflexivity.
  simpl in H. injection H as H. unfold rsum, sum_of, add in *.
  cbn [map combine fold_right fst snd]. rewrite (IH b e H). f_equal. unfold Rdiv. f_equal. ring.
Qed.

Lemma acceptance_right dt s x y dx dy : 0 < dt -> length x = length dx -> length y = length dy ->
  acceptance m w dt s x y dx dy * (gaussian dt (add x dx) y * value m w s x ^ 2)
  = gaussian dt (add y dy) x * value m w s y ^ 2.
Proof.
  intros Hdt Hx Hy. unfold acceptance, gaussian. rewrite !sq_gauss by auto.
  set (a := sum_of _). set (b := sum_of _).
  rewrite exp_plus.
  assert (P : value m w s x <> 0) by apply Rgt_not_eq, value_pos.
  rewrite (exp_Ropp b). assert (Q : exp b <> 0) by apply Rgt_not_eq, exp_pos.
  field. auto.
Qed.
End Acceptance.

Lemma acceptance_witness :
  let s := 0 :: nil in let x := 0 :: nil in let y := 1 :: nil in
  let drift X := map (fun v => 1 / 2 * v) (gradient 2 1 s X) in
  acceptance 2 1 1 s x y (drift x) (drift y)
    * (gaussian (1 / 2) (add x (drift x)) y * value 2 1 s x ^ 2)
  <> gaussian (1 / 2) (add y (drift y)) x * value 2 1 s y ^ 2.
Proof.
  cbv [acceptance gaussian value gradient add each2 rprod rsum sum_of map combine fold_right fst snd].
  unfold Rdiv. rewrite <- !exp_INR || idtac.
  assert (A : forall a, exp a <> 0) by (intro; apply Rgt_not_eq, exp_pos).
  intro H.
  assert (E : forall a, exp a ^ 2 = exp (2 * a)).
  { intro a. replace (2 * a) with (a + a) by ring. rewrite exp_plus. ring. }
  rewrite !Rmult_1_l, !Rmult_1_r, !E, <- !exp_Ropp, <- !exp_plus in H.
  apply exp_inv in H. lra.
Qed.

Lemma sorella_witness :
  step_energy 1 1 true 0 1 (0 :: nil) (2 :: nil) = 4 * (1 / 2) + 9 / 2 /\
  local_energy 1 1 (0 :: nil) (2 :: nil) = 0.
Proof.
  cbv [step_energy local_energy laplacian each2 rsum map combine fold_right fst snd length]. simpl.
  split; field.
Qed.

Definition complex_parts : list part := Part (0 :: nil) 1%C 1%C :: Part (1 :: nil) 1%C Ci :: nil.
Lemma sym_gradient_witness :
  sym_value 1 1 complex_parts (0 :: nil) <> 0%C /\
  ~ cpartial (sym_value 1 1 complex_parts) 0 (0 :: nil)
      (nth 0 (sym_gradient 1 1 complex_parts (0 :: nil)) 0%C * sym_value 1 1 complex_parts (0 :: nil))%C.
Proof.
  assert (N : sym_value 1 1 complex_parts (0 :: nil) <> 0%C).
  { intro H. apply (f_equal fst) in H. rewrite sym_fst in H.
    cbv [complex_parts d map rsum fold_right value each2 combine rprod shift ots coeff fst snd
         Cmult Cconj Ci RtoC] in H.
    match type of H with context [exp ?x] => replace x with 0 in H by field end.
    rewrite exp_0 in H. lra. }
  split; auto. intros [_ H].
  unfold sym_gradient in H. simpl length in H.
  rewrite nth_map_seq in H by auto.
  match type of H with context [(?a / ?b * ?b)%C] =>
    replace (a / b * b)%C with a in H by (field; auto) end.
  assert (P := partial_parts 1 1 complex_parts (0 :: nil)).
  assert (Q : partial (fun Y => snd (sym_value 1 1 complex_parts Y)) 0 (0 :: nil)
    (rsum (map (fun p => snd (d p) * (value 1 1 (shift p) (0 :: nil) * nth 0 (gradient 1 1 (shift p) (0 :: nil)) 0))
      complex_parts))).
  { eapply partial_ext; [intro; symmetry; apply sym_snd|]. apply P; auto.
    intros p [<-|[<-|[]]]; reflexivity. }
  assert (U := is_derive_unique _ _ _ H). assert (U' := is_derive_unique _ _ _ Q).
  assert (U2 := eq_trans (eq_sym U) U'). clear - U2. rename U2 into U'.
  rewrite snd_csum, map_map in U'.
  cbv [complex_parts d map rsum fold_right gradient each2 combine shift ots coeff fst snd
       Cmult Cconj Ci RtoC nth] in U'.
  assert (V := value_pos 1 1 (1 :: nil) (0 :: nil)). lra.
Qed.
