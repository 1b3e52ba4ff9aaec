From Coq Require Import Reals List Lra Bool.
From Coquelicot Require Import Complex.
From Verif Require Import Hirsch_Model Hirsch_Spec.
Import ListNotations.
Open Scope R_scope.

Lemma Cext (a b : C) : fst a = fst b -> snd a = snd b -> a = b.
Proof. destruct a, b; simpl; intros; subst; reflexivity. Qed.

Lemma exp_arccosh x : 1 <= x ->
  let g := ln (x + sqrt (x * x - 1)) in
  exp g = x + sqrt (x * x - 1) /\ exp (- g) = x - sqrt (x * x - 1).
Proof.
  intros Hx g.
  assert (Hs : 0 <= x * x - 1) by nra.
  pose proof (sqrt_pos (x * x - 1)) as Hp.
  assert (Hq : sqrt (x * x - 1) * sqrt (x * x - 1) = x * x - 1)
    by (apply sqrt_sqrt; exact Hs).
  assert (E : exp g = x + sqrt (x * x - 1)) by (apply exp_ln; lra).
  split; [exact E|].
  rewrite exp_Ropp, E.
  field_simplify_eq; [nra|lra].
Qed.

Lemma Cexp_opp z : Cmult (Cexp z) (Cexp (Copp z)) = RtoC 1.
Proof.
  destruct z as [a b]; unfold Cexp, Copp, Cmult, RtoC; simpl.
  rewrite cos_neg, sin_neg.
  assert (E : exp a * exp (- a) = 1) by (rewrite <- exp_plus, Rplus_opp_r; apply exp_0).
  pose proof (sin2_cos2 b) as T; unfold Rsqr in T.
  apply Cext; simpl.
  - replace (exp a * cos b * (exp (- a) * cos b) - exp a * sin b * (exp (- a) * - sin b))
      with ((exp a * exp (- a)) * (sin b * sin b + cos b * cos b)) by ring.
    rewrite E, T; ring.
  - ring.
Qed.

Lemma Cexp_carccosh x : 0 < x ->
  Cplus (Cexp (carccosh x)) (Cexp (Copp (carccosh x))) = RtoC (2 * x).
Proof.
  intros Hx; unfold carccosh; destruct (Rle_dec 1 x) as [L|L].
  - destruct (exp_arccosh x L) as [E1 E2].
    unfold Cexp, Copp, Cplus, RtoC; simpl.
    rewrite Ropp_0, cos_0, sin_0, E1, E2.
    apply Cext; simpl; ring.
  - unfold Cexp, Copp, Cplus, RtoC; simpl.
    rewrite Ropp_0, exp_0, cos_neg, sin_neg, cos_acos by lra.
    apply Cext; simpl; ring.
Qed.

(* e^gamma = a with a b = 1 and a + b = 2 / k or 2 k *)
Lemma base_charge dt U : exists h, base true dt U = Some h /\
  exists a b : C,
    Cmult a b = RtoC 1 /\ Cplus a b = RtoC (2 * exp (- / 2 * dt * U)) /\
    (forall x s, auxf h x s = if x then b else a) /\
    (forall x, aux_wfac h x = Cmult (RtoC (exp (/ 2 * dt * U))) (if x then a else b)).
Proof.
  eexists; split; [reflexivity|].
  exists (Cexp (carccosh (exp (- / 2 * dt * U)))),
         (Cexp (Copp (carccosh (exp (- / 2 * dt * U))))).
  split; [apply Cexp_opp|]. split; [apply Cexp_carccosh, exp_pos|].
  split; reflexivity.
Qed.

Lemma base_spin dt U : 0 <= dt * U -> exists h, base false dt U = Some h /\
  exists a b : R,
    a * b = 1 /\ a + b = 2 * exp (/ 2 * dt * U) /\
    (forall x s, auxf h x s = RtoC (if xorb x s then b else a)) /\
    (forall x, aux_wfac h x = RtoC 1).
Proof.
  intros H. unfold base.
  assert (L : 1 <= exp (/ 2 * dt * U)).
  { rewrite <- exp_0. destruct H as [H|H].
    - left; apply exp_increasing; nra.
    - right; f_equal; nra. }
  unfold arccosh; destruct (Rle_dec 1 (exp (/ 2 * dt * U))) as [_|n]; [|contradiction].
  destruct (exp_arccosh _ L) as [E1 E2].
  eexists; split; [reflexivity|].
  eexists; eexists; split; [|split; [|split; reflexivity]].
  - rewrite <- exp_plus, Rplus_opp_r; apply exp_0.
  - rewrite E1, E2; ring.
Qed.

Lemma base_spin_nan dt U : dt * U < 0 -> base false dt U = None.
Proof.
  intros H; unfold base, arccosh.
  destruct (Rle_dec 1 (exp (/ 2 * dt * U))) as [L|_]; [|reflexivity].
  exfalso. rewrite <- exp_0 in L.
  assert (exp (/ 2 * dt * U) < exp 0) by (apply exp_increasing; nra). lra.
Qed.

Lemma Cprod2 (a b : C) (p : R) :
  Cmult a b = RtoC 1 -> Cplus a b = RtoC (2 * p) ->
  Cplus (Cmult a a) (Cmult b b) = RtoC (4 * p * p - 2).
Proof.
  intros H1 H2.
  assert (E : Cplus (Cmult a a) (Cmult b b)
              = Cminus (Cmult (Cplus a b) (Cplus a b)) (Cplus (Cmult a b) (Cmult a b))) by ring.
  rewrite E, H1, H2. unfold Cminus, Cmult, Copp, Cplus, RtoC; simpl.
  apply Cext; simpl; ring.
Qed.

Lemma average_scale f0 h nu nd :
  average (auxf (scale f0 h)) (aux_wfac (scale f0 h)) nu nd
  = Cmult (RtoC (f0 ^ ((if nu then 1 else 0) + (if nd then 1 else 0))%nat))
      (average (auxf h) (aux_wfac h) nu nd).
Proof.
  unfold average, site; destruct h as [f w]; simpl.
  destruct nu, nd; simpl; rewrite ?RtoC_mult; ring.
Qed.

(* the four values before scaling *)
Lemma average_charge dt U h : base true dt U = Some h -> forall nu nd,
  average (auxf h) (aux_wfac h) nu nd
  = RtoC (exp (- dt * U * (occ nu * occ nd - (occ nu + occ nd) / 2))).
Proof.
  intros Hb nu nd. destruct (base_charge dt U) as (h' & Hb' & a & b & P & Sm & Ha & Hw).
  rewrite Hb in Hb'; injection Hb' as <-.
  assert (E2 : exp (/ 2 * dt * U) * exp (- / 2 * dt * U) = 1).
  { rewrite <- exp_plus, <- exp_0; f_equal; ring. }
  set (e := exp (/ 2 * dt * U)) in *. set (p := exp (- / 2 * dt * U)) in *.
  unfold average, site. rewrite !Hw, !Ha.
  destruct nu, nd; simpl occ.
  - replace (- dt * U * (1 * 1 - (1 + 1) / 2)) with 0 by field. rewrite exp_0.
    transitivity (Cmult (Cmult (RtoC (/ 2)) (Cmult (RtoC e) (Cmult a b))) (Cplus a b)); [ring|].
    rewrite P, Sm. rewrite <- !RtoC_mult. f_equal. 
    transitivity (e * p); [field|exact E2].
  - replace (- dt * U * (1 * 0 - (1 + 0) / 2)) with (/ 2 * dt * U) by field. fold e.
    transitivity (Cmult (RtoC (/ 2))
      (Cplus (Cmult (RtoC e) (Cmult a b)) (Cmult (RtoC e) (Cmult a b)))); [ring|].
    rewrite P, <- !RtoC_mult, <- RtoC_plus, <- RtoC_mult. f_equal; field.
  - replace (- dt * U * (0 * 1 - (0 + 1) / 2)) with (/ 2 * dt * U) by field. fold e.
    transitivity (Cmult (RtoC (/ 2))
      (Cplus (Cmult (RtoC e) (Cmult a b)) (Cmult (RtoC e) (Cmult a b)))); [ring|].
    rewrite P, <- !RtoC_mult, <- RtoC_plus, <- RtoC_mult. f_equal; field.
  - replace (- dt * U * (0 * 0 - (0 + 0) / 2)) with 0 by field. rewrite exp_0.
    transitivity (Cmult (Cmult (RtoC (/ 2)) (RtoC e)) (Cplus a b)); [ring|].
    rewrite Sm, <- !RtoC_mult. f_equal.
    transitivity (e * p); [field|exact E2].
Qed.

Lemma average_spin dt U h : 0 <= dt * U -> base false dt U = Some h -> forall nu nd,
  average (auxf h) (aux_wfac h) nu nd
  = RtoC (exp (- dt * U * (occ nu * occ nd - (occ nu + occ nd) / 2))).
Proof.
  intros H0 Hb nu nd. destruct (base_spin dt U H0) as (h' & Hb' & a & b & P & Sm & Ha & Hw).
  rewrite Hb in Hb'; injection Hb' as <-.
  unfold average, site. rewrite !Hw, !Ha.
  destruct nu, nd; simpl occ; simpl xorb; cbv iota;
    rewrite <- ?RtoC_mult, <- ?RtoC_plus, <- ?RtoC_mult; f_equal.
  - replace (- dt * U * (1 * 1 - (1 + 1) / 2)) with 0 by field. rewrite exp_0.
    replace (/ 2 * (1 * (a * b) + 1 * (b * a))) with (a * b) by field. exact P.
  - replace (- dt * U * (1 * 0 - (1 + 0) / 2)) with (/ 2 * dt * U) by field.
    replace (/ 2 * (1 * (a * 1) + 1 * (b * 1))) with ((a + b) / 2) by field. rewrite Sm; field.
  - replace (- dt * U * (0 * 1 - (0 + 1) / 2)) with (/ 2 * dt * U) by field.
    replace (/ 2 * (1 * (1 * b) + 1 * (1 * a))) with ((a + b) / 2) by field. rewrite Sm; field.
  - replace (- dt * U * (0 * 0 - (0 + 0) / 2)) with 0 by field. rewrite exp_0. field.
Qed.

Lemma exp_pow x k : exp x ^ k = exp (INR k * x).
Proof.
  induction k as [|k IH]; [simpl; rewrite Rmult_0_l, exp_0; reflexivity|].
  rewrite S_INR. simpl pow. rewrite IH, <- exp_plus. f_equal; ring.
Qed.

Definition valid (charge : bool) (dt U : R) : Prop := charge = true \/ 0 <= dt * U.

Lemma average_base charge dt U h : valid charge dt U -> base charge dt U = Some h ->
  forall nu nd, average (auxf h) (aux_wfac h) nu nd
  = RtoC (exp (- dt * U * (occ nu * occ nd - (occ nu + occ nd) / 2))).
Proof.
  intros V Hb. destruct charge; [now apply average_charge|].
  destruct V as [V|V]; [discriminate|]. now apply average_spin.
Qed.

Lemma base_some charge dt U : valid charge dt U -> exists h, base charge dt U = Some h.
Proof.
  intros V; destruct charge; [destruct (base_charge dt U) as (h & H & _); eauto|].
  destruct V as [V|V]; [discriminate|].
  destruct (base_spin dt U V) as (h & H & _); eauto.
Qed.

Lemma hirsch_exact charge dt U : valid charge dt U ->
  exists h, hirsch charge dt U = Some h /\ forall nu nd,
    average (auxf h) (aux_wfac h) nu nd = RtoC (exp (- dt * U * (occ nu * occ nd))).
Proof.
  intros V. destruct (base_some charge dt U V) as [h Hb].
  exists (scale (exp (- / 2 * dt * U)) h). unfold hirsch; rewrite Hb; split; [reflexivity|].
  intros nu nd. rewrite average_scale, (average_base _ _ _ _ V Hb), exp_pow, <- RtoC_mult, <- exp_plus.
  do 2 f_equal. destruct nu, nd; simpl; field.
Qed.

Lemma thermal_exact charge symmetric dt U dmu : valid charge dt U ->
  exists h, thermal_discrete charge symmetric dt U dmu = Some h /\ forall nu nd,
    average (auxf h) (aux_wfac h) nu nd
    = RtoC (exp (- dt * (U * (occ nu * occ nd)
                         - (if symmetric then U * (occ nu + occ nd) / 2 else 0)
                         + dmu * (occ nu + occ nd)))).
Proof.
  intros V. destruct (base_some charge dt U V) as [h Hb].
  unfold thermal_discrete; rewrite Hb; simpl; eexists; split; [reflexivity|].
  intros nu nd. rewrite average_scale. destruct symmetric.
  - rewrite (average_base _ _ _ _ V Hb), exp_pow, <- RtoC_mult, <- exp_plus.
    do 2 f_equal. destruct nu, nd; simpl; field.
  - rewrite average_scale, (average_base _ _ _ _ V Hb), !exp_pow, <- !RtoC_mult, <- !exp_plus.
    do 2 f_equal. destruct nu, nd; simpl; field.
Qed.

(* all configurations of a lattice *)
Lemma csum_app l m : csum (l ++ m) = Cplus (csum l) (csum m).
Proof. unfold csum; induction l as [|x l IH]; simpl; [ring|rewrite IH; ring]. Qed.

Lemma csum_scale (c : C) {A} (f : A -> C) l :
  csum (map (fun x => Cmult c (f x)) l) = Cmult c (csum (map f l)).
Proof. unfold csum; induction l as [|x l IH]; simpl; [ring|rewrite IH; ring]. Qed.

Lemma lattice_product f w ns :
  lattice_average f w ns
  = cprod (map (fun n => average f w (fst n) (snd n)) ns).
Proof.
  unfold lattice_average. induction ns as [|[nu nd] ns IH].
  - simpl. unfold config_factor, cprod; simpl. ring.
  - cbn [length configs map cprod fold_right fst snd]. fold (cprod (map (fun n => average f w (fst n) (snd n)) ns)).
    rewrite <- IH. rewrite map_app, csum_app, !map_map.
    assert (E : forall b, map (fun x => config_factor f w (b :: x) ((nu, nd) :: ns)) (configs (length ns))
        = map (fun xs => Cmult (Cmult (w b) (site (f b) nu nd)) (config_factor f w xs ns)) (configs (length ns)))
      by (intros b; apply map_ext; reflexivity).
    rewrite !E, !csum_scale. unfold average. simpl pow. rewrite RtoC_mult. ring.
Qed.

Lemma lattice_exact charge dt U : valid charge dt U ->
  exists h, hirsch charge dt U = Some h /\ forall ns,
    lattice_average (auxf h) (aux_wfac h) ns
    = RtoC (exp (- dt * U * rsum (map (fun n => occ (fst n) * occ (snd n)) ns))).
Proof.
  intros V. destruct (hirsch_exact charge dt U V) as (h & Hh & E).
  exists h; split; [exact Hh|]. intros ns. rewrite lattice_product.
  induction ns as [|[nu nd] ns IH]; simpl.
  - now rewrite Rmult_0_r, exp_0.
  - unfold cprod in IH; unfold cprod; simpl. rewrite IH, E, <- RtoC_mult, <- exp_plus. do 2 f_equal.
    unfold rsum; simpl. ring.
Qed.

(* without aux_wfac *)
Lemma constrained_charge dt U h symmetric :
  thermal_discrete true symmetric dt U 0 = Some h ->
  (exists Z z : R, forall nu nd,
     average (auxf h) (fun _ => RtoC 1) nu nd
     = RtoC (Z * z ^ ((if nu then 1 else 0) + (if nd then 1 else 0))%nat
             * exp (- dt * U * (occ nu * occ nd))))
  <-> dt * U = 0.
Proof.
  intros Hh. destruct (base_charge dt U) as (b0 & Hb & a & b & P & Sm & Ha & _).
  unfold thermal_discrete in Hh; rewrite Hb in Hh; simpl in Hh; injection Hh as <-.
  rewrite Rmult_0_r, exp_0.
  set (q := if symmetric then 1 else exp (- / 2 * dt * U)).
  set (p := exp (- / 2 * dt * U)) in *.
  assert (HA : forall x s, auxf (scale 1 (if symmetric then b0 else scale p b0)) x s
               = Cmult (if x then b else a) (RtoC q)).
  { intros x s. unfold q; destruct symmetric; simpl; rewrite Ha; [reflexivity|ring]. }
  assert (Pq : 0 < q) by (unfold q; destruct symmetric; [lra|apply exp_pos]).
  assert (Pp : 0 < p) by apply exp_pos.
  assert (Sq := Cprod2 a b p P Sm).
  assert (V00 : average (auxf (scale 1 (if symmetric then b0 else scale p b0))) (fun _ => RtoC 1) false false
                = RtoC 1).
  { unfold average, site. rewrite <- !RtoC_mult, <- RtoC_plus, <- RtoC_mult. f_equal; field. }
  assert (V10 : average (auxf (scale 1 (if symmetric then b0 else scale p b0))) (fun _ => RtoC 1) true false
                = RtoC (p * q)).
  { unfold average, site. rewrite !HA.
    transitivity (Cmult (Cmult (RtoC (/ 2)) (RtoC q)) (Cplus a b)); [ring|].
    rewrite Sm, <- !RtoC_mult. f_equal; field. }
  assert (V11 : average (auxf (scale 1 (if symmetric then b0 else scale p b0))) (fun _ => RtoC 1) true true
                = RtoC ((2 * p * p - 1) * (q * q))).
  { unfold average, site. rewrite !HA.
    transitivity (Cmult (Cmult (RtoC (/ 2)) (Cmult (RtoC q) (RtoC q))) (Cplus (Cmult a a) (Cmult b b))); [ring|].
    rewrite Sq, <- !RtoC_mult. f_equal; field. }
  assert (V01 : average (auxf (scale 1 (if symmetric then b0 else scale p b0))) (fun _ => RtoC 1) false true
                = RtoC (p * q)).
  { unfold average, site. rewrite !HA.
    transitivity (Cmult (Cmult (RtoC (/ 2)) (RtoC q)) (Cplus a b)); [ring|].
    rewrite Sm, <- !RtoC_mult. f_equal; field. }
  assert (Hpp : exp (- dt * U * (1 * 1)) = p * p).
  { unfold p; rewrite <- exp_plus; f_equal; field. }
  split.
  - intros (Z & z & H).
    pose proof (H false false) as E0; rewrite V00 in E0; apply RtoC_inj in E0; simpl in E0.
    pose proof (H true false) as E1; rewrite V10 in E1; apply RtoC_inj in E1; simpl in E1.
    pose proof (H true true) as E2; rewrite V11 in E2; apply RtoC_inj in E2; simpl in E2.
    rewrite Hpp in E2.
    replace (- dt * U * (0 * 0)) with 0 in E0 by ring.
    replace (- dt * U * (1 * 0)) with 0 in E1 by ring.
    rewrite exp_0 in E0, E1.
    assert (EZ : Z = 1) by lra. subst Z.
    assert (Ez : z = p * q) by lra. subst z.
    assert (E3 : (p * p - 1) * (p * p - 1) = 0).
    { assert ((2 * p * p - 1) * (q * q) = (p * p) * (p * p) * (q * q)) by (rewrite E2; ring).
      assert (0 < q * q) by nra.
      assert (2 * p * p - 1 = p * p * (p * p)) by (apply (Rmult_eq_reg_r (q * q)); lra).
      lra. }
    assert (E4 : p * p = 1) by nra.
    assert (E5 : p = 1) by nra.
    unfold p in E5. rewrite <- exp_0 in E5. apply exp_inv in E5. lra.
  - intros H0. exists 1, q.
    assert (E : p = 1).
    { unfold p. rewrite <- exp_0. f_equal. lra. }
    intros nu nd.
    replace (- dt * U * (occ nu * occ nd)) with 0
      by (replace (- dt * U) with (- (dt * U)) by ring; rewrite H0; ring).
    rewrite exp_0.
    destruct nu, nd; [rewrite V11|rewrite V10|rewrite V01|rewrite V00]; simpl; rewrite ?E; f_equal; ring.
Qed.
