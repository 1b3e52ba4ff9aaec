(* Proofs about the numbers of time slices. *)

From Coq Require Import Reals ZArith.
From Flocq Require Import Core.Core Relative IEEE754.BinarySingleNaN.
From Verif Require Import Base BaseFacts StackSize_Model StackSize_Spec StackSize_Proofs TimeGrid_Model TimeGrid_Spec.
From Coq Require Import Lra Psatz.
Open Scope R_scope.

Notation fexp64 := (SpecFloat.fexp 53 1024).

Local Existing Instance prec_pos.
Local Existing Instance prec_max.
Local Instance valid64 : Valid_exp fexp64 := fexp_correct 53 1024 prec_pos.
Local Instance mono64 : Monotone_exp fexp64 := fexp_monotone 53 1024.

Lemma round_int : forall rnd x, round radix2 (FIX_exp 0) rnd x = IZR (rnd x).
Proof.
  intros rnd x. unfold round, F2R, scaled_mantissa, cexp, FIX_exp; simpl.
  rewrite !Rmult_1_r. reflexivity.
Qed.

Lemma py_int_val : forall x : f64, is_finite x = true -> py_int x = Ok (Ztrunc (B2R x)).
Proof.
  intros x F. assert (E : Btrunc x = Ztrunc (B2R x)).
  { apply eq_IZR. rewrite Btrunc_correct by exact prec_max. apply round_int. }
  rewrite <- E. destruct x; try discriminate; reflexivity.
Qed.

Lemma py_round_val : forall x : f64, is_finite x = true ->
  py_round x = Ok (ZnearestE (B2R x)).
Proof.
  intros x F.
  assert (E : Btrunc (@Bnearbyint 53 1024 prec_max mode_NE x) = ZnearestE (B2R x)).
  { apply eq_IZR. rewrite Btrunc_correct by exact prec_max. rewrite round_int.
    destruct (@Bnearbyint_correct 53 1024 prec_max mode_NE x) as [-> _].
    simpl round_mode. rewrite round_int, Ztrunc_IZR. reflexivity. }
  rewrite <- E. destruct x; try discriminate; reflexivity.
Qed.

Lemma fdiv_val : forall (x y : f64), is_finite x = true -> 0 < B2R y ->
  (in_range (nearest (B2R x / B2R y)) /\
   exists q, fdiv x y = Ok q /\ is_finite q = true /\ B2R q = nearest (B2R x / B2R y))
  \/ (~ in_range (nearest (B2R x / B2R y)) /\ exists s, fdiv x y = Ok (B754_infinity s)).
Proof.
  intros x y F Hy. assert (Zy : B2R y <> 0) by lra.
  assert (E : fdiv x y = Ok (@Bdiv 53 1024 prec_pos prec_max mode_NE x y)).
  { destruct y; try reflexivity. simpl in Zy. lra. }
  pose proof (@Bdiv_correct 53 1024 prec_pos prec_max mode_NE x y Zy) as H.
  simpl round_mode in H. fold (nearest (B2R x / B2R y)) in H.
  destruct (Rlt_bool_spec (Rabs (nearest (B2R x / B2R y))) (bpow radix2 1024)) as [L|L].
  - left. split; auto. destruct H as (H1 & H2 & _). eexists. split; [exact E|].
    split; [rewrite H2; exact F | exact H1].
  - right. split; [unfold in_range; lra|].
    destruct (Bdiv mode_NE x y) eqn:D; try discriminate H.
    eexists. exact E.
Qed.

(* The two counts. *)
Lemma counts : forall (beta dt : f64), is_finite beta = true -> 0 < B2R dt ->
  let q := nearest (B2R beta / B2R dt) in
  (in_range q /\ ntime_slices beta dt = Ok (ZnearestE q)
    /\ num_slices beta dt = Ok (Ztrunc q) /\ neqlb beta dt = Ok (Ztrunc q))
  \/ (~ in_range q /\ ntime_slices beta dt = Err OverflowError
    /\ num_slices beta dt = Err OverflowError /\ neqlb beta dt = Err OverflowError).
Proof.
  intros beta dt F Hd q. unfold ntime_slices, num_slices, neqlb.
  destruct (fdiv_val beta dt F Hd) as [[R (z & -> & Fz & Vz)] | [R (s & ->)]]; fold q in R.
  - left. split; auto. cbn [rbind]. rewrite py_round_val, py_int_val, Vz by auto. auto.
  - right. auto.
Qed.

Lemma nearest_pos : forall x, 0 <= x -> 0 <= nearest x.
Proof. intros x H. unfold nearest. apply round_ge_generic; auto using generic_format_0 with typeclass_instances. Qed.

(* Nearest integer and integer part. *)
Lemma near_floor : forall x, ZnearestE x = Zfloor x \/ ZnearestE x = (Zfloor x + 1)%Z.
Proof.
  intro x. destruct (Znearest_DN_or_UP (fun t => negb (Z.even t)) x) as [E|E]; auto.
  destruct (Req_dec (IZR (Zfloor x)) x) as [D|D].
  - left. rewrite <- D, Zrnd_IZR; auto with typeclass_instances. rewrite Zfloor_IZR; auto.
  - right. rewrite E. apply Zceil_floor_neq; auto.
Qed.

Lemma near_floor_iff : forall x, ZnearestE x = Zfloor x <->
  x - IZR (Zfloor x) < / 2 \/ (x - IZR (Zfloor x) = / 2 /\ Z.even (Zfloor x) = true).
Proof.
  intro x. unfold ZnearestE, Znearest.
  pose proof (Zfloor_lb x) as L.
  destruct (Rcompare_spec (x - IZR (Zfloor x)) (/ 2)) as [C|C|C].
  - split; auto.
  - destruct (Z.even (Zfloor x)) eqn:Ev; cbn [negb].
    + split; auto.
    + split; [|intros [H|[_ H]]; [lra|discriminate]].
      rewrite Zceil_floor_neq by lra. lia.
  - split; [|intros [H|[H _]]; lra].
    rewrite Zceil_floor_neq by lra. lia.
Qed.

Lemma trunc_floor : forall x, 0 <= x -> Ztrunc x = Zfloor x.
Proof. apply Ztrunc_floor. Qed.

Lemma counts_differ : forall (beta dt : f64) d t, is_finite beta = true ->
  0 <= B2R beta -> 0 < B2R dt ->
  ntime_slices beta dt = Ok d -> num_slices beta dt = Ok t -> (d = t \/ d = t + 1)%Z.
Proof.
  intros beta dt d t F Hb Hd E1 E2.
  destruct (counts beta dt F Hd) as [(_ & E3 & E4 & _)|(_ & E3 & _)]; [|congruence].
  rewrite E3 in E1. rewrite E4 in E2. injection E1 as <-. injection E2 as <-.
  rewrite trunc_floor by (apply nearest_pos, Rle_mult_inv_pos; lra).
  apply near_floor.
Qed.

Lemma counts_agree : forall (beta dt : f64), is_finite beta = true ->
  0 <= B2R beta -> 0 < B2R dt ->
  let q := nearest (B2R beta / B2R dt) in
  (ntime_slices beta dt = num_slices beta dt <->
   (in_range q -> q - IZR (Zfloor q) < / 2
      \/ (q - IZR (Zfloor q) = / 2 /\ Z.even (Zfloor q) = true))).
Proof.
  intros beta dt F Hb Hd q.
  assert (Q : 0 <= q) by (apply nearest_pos, Rle_mult_inv_pos; lra).
  destruct (counts beta dt F Hd) as [(R & E3 & E4 & _)|(R & E3 & E4 & _)]; fold q in R, E3, E4;
    rewrite E3, E4.
  - rewrite trunc_floor by auto. rewrite <- near_floor_iff. split; [congruence|].
    intro H; rewrite H; auto.
  - tauto.
Qed.

(* Doubles. *)
Lemma format_scaled : forall m e, (Z.abs m < 2 ^ 53)%Z -> (-1074 <= e)%Z ->
  generic_format radix2 fexp64 (IZR m * bpow radix2 e).
Proof.
  intros m e Hm He. change fexp64 with (FLT_exp (3 - 1024 - 53) 53).
  apply generic_format_FLT. exists (Float radix2 m e); auto.
Qed.

Lemma format_inv : forall x, generic_format radix2 fexp64 x ->
  exists m e, (Z.abs m < 2 ^ 53)%Z /\ (-1074 <= e)%Z /\ x = IZR m * bpow radix2 e.
Proof.
  intros x H. change fexp64 with (FLT_exp (3 - 1024 - 53) 53) in H.
  apply FLT_format_generic in H; [|exact prec_pos].
  destruct H as [[m e] E Hm He]. exists m, e. auto.
Qed.

Lemma format_int : forall m, (Z.abs m < 2 ^ 53)%Z -> generic_format radix2 fexp64 (IZR m).
Proof.
  intros m Hm. rewrite <- (Rmult_1_r (IZR m)). apply (format_scaled m 0); auto. lia.
Qed.

Lemma nearest_format : forall x, generic_format radix2 fexp64 x -> nearest x = x.
Proof. intros; apply round_generic; auto with typeclass_instances. Qed.

Lemma nearest_le : forall x y, x <= y -> nearest x <= nearest y.
Proof. intros; apply round_le; auto with typeclass_instances. Qed.

Lemma range_int : forall m, (Z.abs m < 2 ^ 53)%Z -> in_range (IZR m).
Proof.
  intros m H. unfold in_range. rewrite <- abs_IZR.
  apply Rlt_trans with (IZR (2 ^ 53)); [apply IZR_lt; auto|].
  change (IZR (2 ^ 53)) with (bpow radix2 53). apply bpow_lt; lia.
Qed.

Lemma of_int_val : forall m, (Z.abs m < 2 ^ 53)%Z ->
  exists x, of_int m = Ok x /\ is_finite x = true /\ B2R x = IZR m.
Proof.
  intros m H.
  pose proof (@binary_normalize_correct 53 1024 prec_pos prec_max mode_NE m 0 false) as N.
  cbv zeta in N. simpl round_mode in N.
  assert (E : F2R (Float radix2 m 0) = IZR m) by (unfold F2R; simpl; ring).
  rewrite E in N. fold (nearest (IZR m)) in N.
  rewrite nearest_format in N by (apply format_int; auto).
  rewrite Rlt_bool_true in N by (apply range_int; auto).
  destruct N as (V & Fi & _). unfold of_int. cbv zeta. rewrite Fi. eauto.
Qed.

(* Exact quotients. *)
Lemma exact_counts : forall (beta dt : f64) n, is_finite beta = true -> 0 < B2R dt ->
  (0 <= n < 2 ^ 53)%Z -> B2R beta = IZR n * B2R dt ->
  ntime_slices beta dt = Ok n /\ num_slices beta dt = Ok n /\ neqlb beta dt = Ok n.
Proof.
  intros beta dt n F Hd Hn E.
  assert (Q : B2R beta / B2R dt = IZR n) by (rewrite E; field; lra).
  assert (N : nearest (IZR n) = IZR n) by (apply nearest_format, format_int; lia).
  destruct (counts beta dt F Hd) as [(_ & E1 & E2 & E3)|(R & _)].
  - rewrite Q, N in *. rewrite Ztrunc_IZR in *.
    rewrite Zrnd_IZR in E1 by auto with typeclass_instances. auto.
  - exfalso. apply R. rewrite Q, N. apply range_int. lia.
Qed.

Lemma odd_part : forall a, (0 < a)%Z -> exists o j, (0 < o)%Z /\ (0 <= j)%Z /\
  Z.odd o = true /\ a = (o * 2 ^ j)%Z.
Proof.
  intros a Ha. destruct a as [|p|p]; try lia. clear Ha.
  induction p as [p IH|p IH|].
  - exists (Zpos p~1), 0%Z. repeat split; lia.
  - destruct IH as (o & j & H1 & H2 & H3 & H4). exists o, (j + 1)%Z.
    repeat split; auto; try lia. rewrite Z.pow_add_r by lia.
    change (Zpos p~0) with (2 * Zpos p)%Z. rewrite H4. lia.
  - exists 1%Z, 0%Z. repeat split; lia.
Qed.

Lemma odd_divides : forall o m d, Z.odd o = true -> (0 <= d)%Z ->
  (o | m * 2 ^ d)%Z -> (o | m)%Z.
Proof.
  intros o m d Ho Hd H. rewrite Z.mul_comm in H.
  apply Znumtheory.Gauss with (2 ^ d)%Z; auto.
  apply Zpow_facts.rel_prime_Zpower_r; auto.
  apply Znumtheory.rel_prime_sym.
  apply Znumtheory.prime_rel_prime; [apply Znumtheory.prime_2|].
  intros [c Hc]. rewrite Hc, Z.odd_mul in Ho. simpl in Ho.
  rewrite andb_false_r in Ho. discriminate.
Qed.

(* A factor of a double is a double, if it is a multiple of one. *)
Lemma format_factor : forall k s x, (0 < k)%Z -> (0 < s)%Z -> 0 < x ->
  generic_format radix2 fexp64 x -> generic_format radix2 fexp64 (IZR (k * s) * x) ->
  generic_format radix2 fexp64 (IZR s * x).
Proof.
  intros k s x Hk Hs Hx Fx Fk.
  apply format_inv in Fx as (M & E & HM & HE & ->).
  apply format_inv in Fk as (m & e & Hm & He & Eq).
  assert (PM : (0 < M)%Z).
  { apply lt_IZR. apply Rmult_lt_reg_r with (bpow radix2 E); [apply bpow_gt_0|]. lra. }
  destruct (odd_part (s * M) ltac:(lia)) as (o & j & Po & Pj & Oo & Ea).
  assert (Form : IZR s * (IZR M * bpow radix2 E) = IZR o * bpow radix2 (j + E)).
  { rewrite <- Rmult_assoc, <- mult_IZR, Ea, mult_IZR, bpow_plus.
    rewrite <- (IZR_Zpower radix2 j) by auto. simpl radix_val. ring. }
  rewrite Form. apply format_scaled; [|lia].
  assert (Eq' : IZR (k * o) * bpow radix2 (j + E) = IZR m * bpow radix2 e).
  { rewrite <- Eq, !mult_IZR. rewrite !Rmult_assoc, <- Form. ring. }
  assert (D : (o | m)%Z /\ m <> 0%Z).
  { destruct (Z_le_gt_dec e (j + E)) as [L|L].
    - replace (j + E)%Z with ((j + E - e) + e)%Z in Eq' by lia.
      rewrite bpow_plus, <- (IZR_Zpower radix2 (j + E - e)) in Eq' by lia.
      rewrite <- Rmult_assoc, <- mult_IZR in Eq'.
      apply Rmult_eq_reg_r in Eq'; [|pose proof (bpow_gt_0 radix2 e); lra].
      apply eq_IZR in Eq'. rewrite <- Eq'. split.
      + exists (k * radix2 ^ (j + E - e))%Z. ring.
      + assert (0 < radix2 ^ (j + E - e))%Z by (apply Z.pow_pos_nonneg; simpl; lia). nia.
    - replace e with ((e - (j + E)) + (j + E))%Z in Eq' by lia.
      rewrite (bpow_plus _ (e - (j + E)) (j + E)), <- (IZR_Zpower radix2 (e - (j + E))) in Eq' by lia.
      rewrite <- Rmult_assoc, <- mult_IZR in Eq'.
      apply Rmult_eq_reg_r in Eq'; [|pose proof (bpow_gt_0 radix2 (j + E)); lra].
      apply eq_IZR in Eq'. simpl radix_val in Eq'. split.
      + apply (odd_divides o m (e - (j + E))); auto; [lia|].
        rewrite <- Eq'. exists k. ring.
      + intro Z0; subst m. nia. }
  destruct D as [D Nz]. apply Z.divide_abs_r in D.
  apply Z.divide_pos_le in D; lia.
Qed.

Lemma exact_bins : forall (beta dt : f64) k s, is_finite beta = true -> 0 < B2R dt ->
  (0 < k)%Z -> (0 < s)%Z -> (k * s < 2 ^ 53)%Z -> B2R beta = IZR (k * s) * B2R dt ->
  num_bins beta dt s = Ok k /\
  exists w, bin_step dt s = Ok w /\ is_finite w = true /\ B2R w = IZR s * B2R dt.
Proof.
  intros beta dt k s F Hd Hk Hs Hn E.
  destruct (of_int_val s ltac:(nia)) as (x & Ex & Fx & Vx).
  assert (Fd : is_finite dt = true) by (destruct dt; simpl in Hd; auto; lra).
  assert (Fm : generic_format radix2 fexp64 (IZR s * B2R dt)).
  { apply (format_factor k); auto; [apply generic_format_B2R|].
    rewrite <- E. apply generic_format_B2R. }
  assert (Ps : 0 < IZR s) by (apply IZR_lt; auto).
  assert (Pk : 1 <= IZR k) by (apply IZR_le; lia).
  assert (Pm : 0 < IZR s * B2R dt) by (apply Rmult_lt_0_compat; auto).
  pose proof (@Bmult_correct 53 1024 prec_pos prec_max mode_NE x dt) as N.
  simpl round_mode in N. fold (nearest (B2R x * B2R dt)) in N.
  rewrite Vx, nearest_format in N by auto.
  rewrite Rlt_bool_true in N.
  2:{ apply Rle_lt_trans with (Rabs (B2R beta)); [|apply abs_B2R_lt_emax].
      rewrite E, mult_IZR, !Rabs_pos_eq; nra. }
  destruct N as (Vw & Fw & _). rewrite Fx, Fd in Fw. cbn [andb] in Fw.
  unfold num_bins, bin_step. rewrite Ex. cbn [rbind]. split; [|eauto].
  destruct (exact_counts beta (fmul x dt) k F) as (_ & H & _).
  - unfold fmul. rewrite Vw. auto.
  - nia.
  - unfold fmul. rewrite Vw, E, mult_IZR. ring.
  - exact H.
Qed.

(* Decimal inputs. *)
Notation eps := (bpow radix2 (-53)).

Lemma eps_val : eps = / 9007199254740992.
Proof. reflexivity. Qed.

Lemma nearest_error : forall x, bpow radix2 (-1022) <= x -> Rabs (nearest x - x) <= eps * x.
Proof.
  intros x H. pose proof (bpow_gt_0 radix2 (-1022)) as P.
  pose proof (@relative_error_N_FLT radix2 (3 - 1024 - 53) 53 eq_refl
    (fun t => negb (Z.even t)) x) as N.
  change (FLT_exp (3 - 1024 - 53) 53) with fexp64 in N.
  fold (nearest x) in N. rewrite (Rabs_pos_eq x) in N by lra.
  replace (/ 2 * bpow radix2 (- (53) + 1)) with eps in N.
  - apply N. exact H.
  - change (- (53) + 1)%Z with (-53 + 1)%Z. rewrite bpow_plus. simpl (bpow radix2 1). lra.
Qed.

(* A real number close to k stays close when rounded. *)
Lemma nearest_close : forall x k, (1 <= k <= 2 ^ 49)%Z -> Rabs (x - IZR k) <= / 4 ->
  Rabs (nearest x - IZR k) <= / 4.
Proof.
  intros x k Hk H. apply Rabs_le_inv in H. apply Rabs_le.
  assert (L : nearest (IZR (4 * k - 1) * bpow radix2 (-2)) = IZR (4 * k - 1) * bpow radix2 (-2))
    by (apply nearest_format, format_scaled; lia).
  assert (U : nearest (IZR (4 * k + 1) * bpow radix2 (-2)) = IZR (4 * k + 1) * bpow radix2 (-2))
    by (apply nearest_format, format_scaled; lia).
  change (bpow radix2 (-2)) with (/ 4) in *.
  rewrite minus_IZR, mult_IZR in L. rewrite plus_IZR, mult_IZR in U.
  assert (A : nearest ((4 * IZR k - 1) * / 4) <= nearest x) by (apply nearest_le; lra).
  assert (B : nearest x <= nearest ((4 * IZR k + 1) * / 4)) by (apply nearest_le; lra).
  rewrite L in A. rewrite U in B. lra.
Qed.

Lemma near_int : forall x k, Rabs (x - IZR k) <= / 4 -> ZnearestE x = k.
Proof.
  intros x k H. apply Znearest_imp. lra.
Qed.

Lemma floor_int : forall x k, Rabs (x - IZR k) <= / 4 -> Zfloor x = k \/ Zfloor x = (k - 1)%Z.
Proof.
  intros x k H. apply Rabs_le_inv in H.
  destruct (Rle_lt_dec (IZR k) x) as [L|L]; [left|right]; apply Zfloor_imp.
  - rewrite plus_IZR. lra.
  - rewrite plus_IZR, minus_IZR. lra.
Qed.

Lemma range_close : forall x k, (1 <= k <= 2 ^ 49)%Z -> Rabs (x - IZR k) <= / 4 -> in_range x.
Proof.
  intros x k Hk H. apply Rabs_le_inv in H.
  assert (1 <= IZR k) by (apply IZR_le; lia).
  assert (K : in_range (IZR (k + 1))) by (apply range_int; lia).
  unfold in_range in *. rewrite Rabs_pos_eq in K by (rewrite plus_IZR; lra).
  rewrite plus_IZR in K. rewrite Rabs_pos_eq by lra. lra.
Qed.

Lemma close_counts : forall (beta dt : f64) k, is_finite beta = true -> 0 < B2R dt ->
  0 <= B2R beta ->
  (1 <= k <= 2 ^ 49)%Z -> Rabs (B2R beta / B2R dt - IZR k) <= / 4 ->
  ntime_slices beta dt = Ok k /\
  (num_slices beta dt = Ok k \/ num_slices beta dt = Ok (k - 1)%Z).
Proof.
  intros beta dt k F Hd Hb Hk C. apply nearest_close in C; auto.
  destruct (counts beta dt F Hd) as [(_ & E1 & E2 & _)|(R & _)].
  - rewrite trunc_floor in E2 by (apply nearest_pos, Rle_mult_inv_pos; lra).
    rewrite (near_int _ _ C) in E1. split; auto.
    destruct (floor_int _ _ C) as [E|E]; rewrite E in E2; auto.
  - exfalso. apply R. apply (range_close _ k); auto.
Qed.

Lemma quotient_close : forall b d k c, 0 < d -> Rabs (b - k * d) <= c * d ->
  Rabs (b / d - k) <= c.
Proof.
  intros b d k c Hd H. replace (b / d - k) with ((b - k * d) * / d) by (field; lra).
  rewrite Rabs_mult, (Rabs_pos_eq (/ d)) by (left; apply Rinv_0_lt_compat; auto).
  apply Rmult_le_reg_r with d; auto. rewrite Rmult_assoc, Rinv_l by lra. lra.
Qed.

Lemma decimal_slices : forall (beta dt : f64) h n, (1 <= n <= 2 ^ 49)%Z ->
  normal h -> normal (IZR n * h) -> reads beta (IZR n * h) -> reads dt h ->
  ntime_slices beta dt = Ok n /\
  (num_slices beta dt = Ok n \/ num_slices beta dt = Ok (n - 1)%Z).
Proof.
  intros beta dt h n Hn [Lh Uh] [Lb Ub] [Fb Vb] [Fd Vd].
  pose proof (nearest_error _ Lh) as Eh. pose proof (nearest_error _ Lb) as Eb.
  rewrite <- Vd in Eh. rewrite <- Vb in Eb. rewrite eps_val in *.
  assert (P : 0 < h) by (pose proof (bpow_gt_0 radix2 (-1022)); lra).
  assert (1 <= IZR n <= 562949953421312) by (split; apply IZR_le; lia).
  apply Rabs_le_inv in Eh, Eb.
  assert (Pd : h <= 2 * B2R dt) by lra.
  assert (Pb : 0 <= B2R beta) by nra.
  apply close_counts; auto; [lra|].
  apply quotient_close; [lra|]. apply Rabs_le. split; nra.
Qed.

Lemma decimal_bins : forall (beta dt : f64) h k s, (0 < k)%Z -> (0 < s)%Z ->
  (k * s <= 2 ^ 47)%Z ->
  normal h -> normal (IZR (k * s) * h) -> reads beta (IZR (k * s) * h) -> reads dt h ->
  num_bins beta dt s = Ok k \/ num_bins beta dt s = Ok (k - 1)%Z.
Proof.
  intros beta dt h k s Hk Hs Hn [Lh Uh] [Lb Ub] [Fb Vb] [Fd Vd].
  pose proof (nearest_error _ Lh) as Eh. pose proof (nearest_error _ Lb) as Eb.
  assert (Ld : bpow radix2 (-1022) <= B2R dt).
  { rewrite Vd. rewrite <- (nearest_format (bpow radix2 (-1022))); [apply nearest_le; auto|].
    rewrite <- (Rmult_1_l (bpow _ _)). apply (format_scaled 1 (-1022)); lia. }
  assert (P : 0 < h) by (pose proof (bpow_gt_0 radix2 (-1022)); lra).
  assert (Pd : 0 < B2R dt) by (pose proof (bpow_gt_0 radix2 (-1022)); lra).
  assert (Bs : 1 <= IZR s) by (apply IZR_le; lia).
  assert (Bk : 1 <= IZR k) by (apply IZR_le; lia).
  rewrite mult_IZR in *.
  assert (Bn : IZR k * IZR s <= 140737488355328) by (rewrite <- mult_IZR; apply IZR_le; lia).
  destruct (of_int_val s ltac:(nia)) as (x & Ex & Fx & Vx).
  pose proof (@Bmult_correct 53 1024 prec_pos prec_max mode_NE x dt) as N.
  simpl round_mode in N. fold (nearest (B2R x * B2R dt)) in N. rewrite Vx in N.
  assert (Em : Rabs (nearest (IZR s * B2R dt) - IZR s * B2R dt) <= eps * (IZR s * B2R dt))
    by (apply nearest_error; nra).
  rewrite <- Vd in Eh. rewrite <- Vb in Eb. rewrite eps_val in *.
  apply Rabs_le_inv in Eh, Eb, Em.
  set (w := nearest (IZR s * B2R dt)) in *. set (b := B2R beta) in *. set (d := B2R dt) in *.
  set (S := IZR s) in *. set (K := IZR k) in *.
  assert (Pm : 0 < S * d) by nra.
  assert (Pw : 0 < w) by lra.
  assert (Hd2 : d <= 2 * h) by lra.
  rewrite Rlt_bool_true in N.
  2:{ rewrite Rabs_pos_eq by lra.
      assert (w <= (1 + / 9007199254740992) * (S * d)) by lra.
      assert (S * d <= (1 + / 9007199254740992) * (K * S * h)).
      { assert (d <= (1 + / 9007199254740992) * h) by lra.
        assert (S * d <= S * ((1 + / 9007199254740992) * h)) by (apply Rmult_le_compat_l; lra).
        assert (S * h <= K * S * h) by nra. nra. }
      change 1024%Z with (1 + 1023)%Z. rewrite bpow_plus. simpl (bpow radix2 1).
      pose proof (bpow_gt_0 radix2 1023).
      assert (K * S * h <= bpow radix2 1023) by lra. nra. }
  destruct N as (Vw & Fw & _).
  unfold num_bins. rewrite Ex. cbn [rbind].
  destruct (close_counts beta (fmul x dt) k Fb) as (_ & H).
  - unfold fmul. rewrite Vw. auto.
  - fold b. nra.
  - nia.
  - unfold fmul. rewrite Vw. fold b K. apply quotient_close; auto.
    assert (D1 : Rabs (b - K * S * h) <= / 9007199254740992 * (K * S * h)) by (apply Rabs_le; lra).
    assert (D2 : Rabs (K * S * (h - d)) <= / 9007199254740992 * (K * S * h)).
    { rewrite Rabs_mult, (Rabs_pos_eq (K * S)) by nra.
      assert (Rabs (h - d) <= / 9007199254740992 * h) by (apply Rabs_le; lra). nra. }
    assert (D3 : Rabs (K * (S * d - w)) <= / 9007199254740992 * (K * (S * d))).
    { rewrite Rabs_mult, (Rabs_pos_eq K) by lra.
      assert (Rabs (S * d - w) <= / 9007199254740992 * (S * d)) by (apply Rabs_le; lra). nra. }
    replace (b - K * w) with ((b - K * S * h) + K * S * (h - d) + K * (S * d - w)) by ring.
    assert (D4 : S * d <= 2 * w) by lra.
    assert (D5 : h <= 2 * d) by lra.
    assert (D6 : K * S * h <= 4 * (K * w)) by nra.
    assert (D7 : K * (S * d) <= 2 * (K * w)) by nra.
    assert (D8 : K <= 140737488355328) by nra.
    eapply Rle_trans; [apply Rabs_triang|].
    eapply Rle_trans; [apply Rplus_le_compat_r, Rabs_triang|].
    assert (K * w <= 140737488355328 * w) by nra. lra.
  - exact H.
Qed.

(* Reading fractions. *)
Definition fraction (p q : Z) : res f64 :=
  rbind (of_int p) (fun a => rbind (of_int q) (fun b => fdiv a b)).

Lemma fraction_reads : forall p q x, (Z.abs p < 2 ^ 53)%Z -> (0 < q < 2 ^ 53)%Z ->
  in_range (nearest (IZR p / IZR q)) -> fraction p q = Ok x -> reads x (IZR p / IZR q).
Proof.
  intros p q x Hp Hq R E. unfold fraction in E.
  destruct (of_int_val p Hp) as (a & Ea & Fa & Va).
  destruct (of_int_val q ltac:(lia)) as (b & Eb & Fb & Vb).
  rewrite Ea, Eb in E. cbn [rbind] in E.
  assert (Pq : 0 < IZR q) by (apply IZR_lt; lia).
  destruct (fdiv_val a b Fa) as [[_ (z & Ez & Fz & Vz)] | [N _]]; try (rewrite Va, Vb in *).
  - lra.
  - rewrite Ez in E. injection E as <-. split; auto.
  - contradiction.
Qed.

Lemma range_small : forall x, 0 <= x <= 1 -> in_range (nearest x).
Proof.
  intros x H. unfold in_range. rewrite Rabs_pos_eq by (apply nearest_pos; lra).
  apply Rle_lt_trans with (nearest 1); [apply nearest_le; lra|].
  rewrite nearest_format by (apply (format_int 1); lia).
  apply Rlt_le_trans with (bpow radix2 1); [simpl; lra | apply bpow_le; lia].
Qed.

Definition okb {A} (r : res A) : bool := match r with Ok _ => true | Err _ => false end.
Lemma okb_ok : forall A (r : res A), okb r = true -> exists x, r = Ok x.
Proof. intros A [x|] H; [eauto|discriminate]. Qed.

Lemma slices_witness : exists beta dt, reads beta (3 / 10) /\ reads dt (5 / 100) /\
  ntime_slices beta dt = Ok 6%Z /\ num_slices beta dt = Ok 5%Z.
Proof.
  destruct (okb_ok _ (fraction 3 10) ltac:(vm_compute; reflexivity)) as [b Eb].
  destruct (okb_ok _ (fraction 5 100) ltac:(vm_compute; reflexivity)) as [d Ed].
  exists b, d.
  split; [apply fraction_reads; auto; try lia; apply range_small; lra|].
  split; [apply fraction_reads; auto; try lia; apply range_small; lra|].
  assert (H : rbind (fraction 3 10) (fun b => rbind (fraction 5 100) (fun d =>
    rbind (ntime_slices b d) (fun x => rbind (num_slices b d) (fun y => Ok (x, y)))))
    = Ok (6, 5)%Z) by (vm_compute; reflexivity).
  rewrite Eb, Ed in H. cbn [rbind] in H.
  destruct (ntime_slices b d); try discriminate. destruct (num_slices b d); try discriminate.
  injection H as -> ->. auto.
Qed.

Lemma bins_witness : exists beta dt, reads beta (9 / 10) /\ reads dt (1 / 10) /\
  ntime_slices beta dt = Ok 9%Z /\ trial_grid beta dt 3 = Ok (9%Z, 3%nat, 2%Z).
Proof.
  destruct (okb_ok _ (fraction 9 10) ltac:(vm_compute; reflexivity)) as [b Eb].
  destruct (okb_ok _ (fraction 1 10) ltac:(vm_compute; reflexivity)) as [d Ed].
  exists b, d.
  split; [apply fraction_reads; auto; try lia; apply range_small; lra|].
  split; [apply fraction_reads; auto; try lia; apply range_small; lra|].
  assert (H : rbind (fraction 9 10) (fun b => rbind (fraction 1 10) (fun d =>
    rbind (ntime_slices b d) (fun x => rbind (trial_grid b d 3) (fun y => Ok (x, y)))))
    = Ok (9, (9, 3%nat, 2))%Z) by (vm_compute; reflexivity).
  rewrite Eb, Ed in H. cbn [rbind] in H.
  destruct (ntime_slices b d); try discriminate. destruct (trial_grid b d 3); try discriminate.
  injection H as -> ->. auto.
Qed.

Lemma exact_grid : forall (beta dt : f64) n want, is_finite beta = true -> 0 < B2R dt ->
  (1 <= n < 2 ^ 53)%Z -> (1 <= want)%nat -> B2R beta = IZR n * B2R dt ->
  exists s b, trial_grid beta dt want = Ok (n, s, b) /\
    ntime_slices beta dt = Ok n /\
    closest (Z.to_nat n) want s /\ (b * Z.of_nat s = n)%Z.
Proof.
  intros beta dt n want F Hd Hn Hw E.
  destruct (exact_counts beta dt n F Hd ltac:(lia) E) as (E1 & E2 & _).
  destruct (update_stack_closest want (Z.to_nat n) Hw ltac:(lia)) as (s & Es & C).
  pose proof C as (Ps & [k Ek] & _).
  assert (En : n = (Z.of_nat k * Z.of_nat s)%Z) by lia.
  exists s, (Z.of_nat k).
  unfold trial_grid. rewrite E2. cbn [rbind]. rewrite Es. cbn [rbind].
  destruct (exact_bins beta dt (Z.of_nat k) (Z.of_nat s) F Hd) as [-> _].
  - nia.
  - lia.
  - lia.
  - rewrite <- En. auto.
  - cbn [rbind]. split; auto.
Qed.
