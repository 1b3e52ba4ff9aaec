(* C66: thermal Hartree-Fock density matrices are self-consistent. *)

From Verif Require Import Base BaseFacts.
Set Warnings "-notation-overridden,-ambiguous-paths".
From mathcomp Require Import all_ssreflect all_algebra all_field.
From Verif Require Import TGreen_Spec THF_Model THF_Spec THF_Proofs.

Set Implicit Arguments.
Unset Strict Implicit.
Unset Printing Implicit Defensive.

Import Order.TTheory GRing.Theory Num.Theory.
Local Open Scope ring_scope.

Section Props.
Variable C : numClosedFieldType.
Variable n : nat.
Notation M := 'M[C]_n.
Notation mat2 := (M * M)%type.
Variable expm : M -> M.
Variable expo : C -> C.
Variable fock : mat2 -> mat2.
Variable rdm1 : M -> nat -> M.
Variable green1 : M -> M.
Variable find : mat2 -> C -> res (option C).
Variable o : thf_opts C.
Notation dens := (density expm rdm1 (odtau o) (obins o)).
Notation F mu := (fun Q => dens (fock Q) mu).
Notation bins H := (expm (- odtau o *: H.1), expm (- odtau o *: H.2)).

(* The inner loop: mixing until the change is small, or to the end. *)
Theorem C66_scf : forall mu P, overbose o = false -> (0 < oscf o)%N ->
  exists H, scf expm fock rdm1 o mu P = Ok H /\
    scf_result (oalpha o) (odeps o) (oscf o) fock (F mu) P H.
Proof. exact: scf_right. Qed.

(* The outer loop.  P belongs to H and to the chemical potential mus k that H was iterated
   with; the one returned is the next. *)
Theorem C66_run : forall mu0 nav P0 P H mu, exponential expm expo ->
  overbose o = false -> (0 < oscf o)%N ->
  thermal_hartree_fock expm expo fock rdm1 find o mu0 nav P0 = Ok (P, H, mu) ->
  exists k (mus : nat -> C) (Ps Hs : nat -> mat2),
  [/\ (k < omacro o)%N /\ (mus 0%N = mu0 /\ Ps 0%N = P0),
    [/\ P = Ps k.+1, H = Hs k & mu = mus k.+1],
    forall j, (j <= k)%N ->
      [/\ scf_result (oalpha o) (odeps o) (oscf o) fock (F (mus j)) (Ps j) (Hs j),
      Ps j.+1 = dens (Hs j) (mus j)
      & if ofind o then find (bins (Hs j)) nav = Ok (Some (mus j.+1)) else mus j.+1 = mu0],
    forall j, (j < k)%N -> ~~ (`|mus j.+1 - mus j| < odeps o)
    & `|mus k.+1 - mus k| < odeps o \/ k = (omacro o).-1].
Proof.
move=> mu0 nav P0 P H mu ex V s0 R.
have [[it0 //]|[k [mus [Ps [Hs [[km [m0 p0]] [-> -> ->] J D L]]]]]] := macro_result ex V s0 R.
by exists k, mus, Ps, Hs.
Qed.

Theorem C66_ok : forall mu0 nav P0, overbose o = false -> (0 < oscf o)%N -> (0 < omacro o)%N ->
  (forall rho, exists m, find rho nav = Ok (Some m)) ->
  exists r, thermal_hartree_fock expm expo fock rdm1 find o mu0 nav P0 = Ok r.
Proof. by move=> mu0 nav P0 V s0 m0 fd; apply: macro_ok => //; left. Qed.

(* What a small change means: the distance between a point and its image. *)
Theorem C66_change : forall (f : mat2 -> mat2) x,
  distance (mix (oalpha o) f x) x = `|1 - oalpha o| * distance (f x) x.
Proof. exact: mix_step. Qed.

(* If the map brings every point closer to a self-consistent one, the iterates converge to
   it, the loop stops, and where it stops the error is bounded. *)
Theorem C66_converges : forall (f : mat2 -> mat2) (L : C) s x,
  0 <= oalpha o -> oalpha o < 1 -> 0 <= L -> L < 1 -> f s = s ->
  (forall y, distance (f y) s <= L * distance y s) ->
  let q := oalpha o + (1 - oalpha o) * L in
  [/\ forall k, distance (mixed (oalpha o) f k x) s <= q ^+ k * distance x s,
    forall k, distance (mixed (oalpha o) f k.+1 x) (mixed (oalpha o) f k x)
      <= (1 + q) * q ^+ k * distance x s
    & forall y, distance (mix (oalpha o) f y) y < odeps o ->
      distance y s <= odeps o / ((1 - oalpha o) * (1 - L))].
Proof.
move=> f L s x a0 a1 L0 L1 fs c q; split=> [k|k|y].
- exact: mixed_contract.
- exact: mixed_change.
- exact: mix_error.
Qed.

(* A self-consistent density matrix is returned unchanged. *)
Theorem C66_fixed : forall mu0 nav P, exponential expm expo -> 0 < odeps o ->
  (0 < oscf o)%N -> (0 < omacro o)%N -> F mu0 P = P ->
  (ofind o = true -> find (bins (fock P)) nav = Ok (Some mu0)) ->
  thermal_hartree_fock expm expo fock rdm1 find o mu0 nav P = Ok (P, fock P, mu0).
Proof. move=> mu0 nav P ex; exact: thf_fixed. Qed.

(* Zero distance is equality. *)
Theorem C66_distance : forall (P Q R : mat2),
  (distance P Q = 0 <-> P = Q) /\ distance P R <= distance P Q + distance Q R.
Proof.
move=> P Q R; split; last exact: distance_tri.
by split=> [/distance_eq0 //|->]; exact: distancexx.
Qed.

(* alpha = 1: the first density matrix passes as converged. *)
Theorem C66_alpha_refuted : forall mu P, oalpha o = 1 -> 0 < odeps o -> (0 < oscf o)%N ->
  scf expm fock rdm1 o mu P = Ok (fock (F mu P)).
Proof. exact: scf_alpha1. Qed.

(* Without macro iterations, and without a chemical potential. *)
Theorem C66_raises : forall mu0 nav P0, overbose o = false -> (0 < oscf o)%N ->
  (omacro o = 0%N ->
   thermal_hartree_fock expm expo fock rdm1 find o mu0 nav P0 = Err UnboundLocalError) /\
  ((0 < omacro o)%N -> ofind o = true -> (forall rho, find rho nav = Ok None) ->
   thermal_hartree_fock expm expo fock rdm1 find o mu0 nav P0 = Err TypeError).
Proof.
move=> mu0 nav P0 V s0; split=> [z|m0 fo fd]; rewrite /thermal_hartree_fock; first by rewrite z.
rewrite -(prednK m0) /=; have [H [-> _]] := scf_right expm fock rdm1 mu0 P0 V s0; cbn [rbind].
by rewrite fo fd.
Qed.

(* With verbose output the first iteration raises if the two spins differ. *)
Theorem C66_verbose_refuted : forall mu P, overbose o = true -> (0 < oscf o)%N ->
  ~~ (distance (mixed (oalpha o) (F mu) 1 (F mu P)) (F mu P) < odeps o) ->
  ~~ (distance ((fock (F mu P)).1, 0) ((fock (F mu P)).2, 0) < (10%:R ^+ 12)^-1) ->
  scf expm fock rdm1 o mu P = Err AssertionError.
Proof. exact: scf_verbose. Qed.

(* With a chemical potential in the input the number of electrons asked for has no effect. *)
Theorem C66_target_refuted : forall H1 target target' mu,
  mean_field expm expo fock rdm1 green1 find o H1 target (Some mu)
  = mean_field expm expo fock rdm1 green1 find o H1 target' (Some mu).
Proof. by []. Qed.
(* What is stored.  sign is -1 for the alternate convention. *)
Notation slices tau H mu := (expm (- tau *: (H.1 - mu%:M)), expm (- tau *: (H.2 - mu%:M))).
Theorem C66_one_body : forall H1 target mu0 t, exponential expm expo ->
  one_body expm expo rdm1 green1 find o H1 target mu0 = Ok t ->
  exists mu, let s := if oalt o then -1 else 1 in
  [/\ match mu0 with Some m => mu = m | None => find (bins H1) target = Ok (Some mu) end,
      tmu t = mu /\ tnav t = 'Re (electrons (tP t)), tP t = dens H1 (s * mu),
      tdmat t = slices (odt o) H1 (s * mu)
    & tG t = (green1 (tdmat t).1, green1 (tdmat t).2)].
Proof. move=> H1 target mu0 t ex; exact: one_body_right. Qed.

Theorem C66_trial : forall H1 target mu0 t,
  mean_field expm expo fock rdm1 green1 find o H1 target mu0 = Ok t ->
  exists t0 H, [/\ one_body expm expo rdm1 green1 find o H1 target mu0 = Ok t0,
    thermal_hartree_fock expm expo fock rdm1 find o (tmu t0) (tnav t0) (tP t0)
      = Ok (tP t, H, tmu t), tdmat t = slices (odt o) H (tmu t)
    & tG t = (green1 (tdmat t).1, green1 (tdmat t).2) /\ tnav t = 'Re (electrons (tP t))].
Proof. exact: trial_right. Qed.
End Props.

(* One site without interactions; expm1, rdm_exact and green_exact are exact. *)
Section Site.
Variable C : numClosedFieldType.
Variable expo : C -> C.
Hypothesis expoD : forall x y, expo (x + y) = expo x * expo y.
Variable c : C.
Hypothesis Ep : 0 < expo c.
Hypothesis E1 : expo c != 1.
Notation free := (fun=> (0, 0)).
Notation filling x := (x / (1 + x) + x / (1 + x)).

(* The density matrix lags behind the chemical potential: the number of electrons is that
   of the previous one. *)
Theorem C66_number_refuted : exists (o : thf_opts C) P H mu,
  [/\ exponential (expm1 expo) expo,
    thermal_hartree_fock (expm1 expo) expo free (@rdm_exact C) (fun _ _ => Ok (Some c)) o
      0 (filling (expo c)) (0, 0) = Ok (P, H, mu),
    electrons (density (expm1 expo) (@rdm_exact C) (odtau o) (obins o) H mu) = filling (expo c)
    & electrons P != filling (expo c)].
Proof.
have [P [H [mu [A B D]]]] := late_mu expoD Ep E1.
by exists (opts C false 1), P, H, mu; split=> //; exact: expm1P.
Qed.

(* The alternate sign of the chemical potential: without interactions Hartree-Fock has
   another number of electrons than the one-body density matrix. *)
Theorem C66_alt_refuted : exists (o : thf_opts C) t1 t2,
  [/\ oalt o = true,
    one_body (expm1 expo) expo (@rdm_exact C) (@green_exact C) (fun _ _ => Ok (Some c)) o (0, 0)
      (filling (expo c)^-1) None = Ok t1,
    mean_field (expm1 expo) expo free (@rdm_exact C) (@green_exact C) (fun _ _ => Ok (Some c)) o (0, 0)
      (filling (expo c)^-1) None = Ok t2
    & electrons (tP t1) = filling (expo c)^-1 /\ electrons (tP t2) != filling (expo c)^-1].
Proof.
have [t1 [t2 [A B D E]]] := alt_sign expoD Ep.
exists (opts C true 1), t1, t2; split=> //; split=> //; rewrite E.
by rewrite double E_other.
Qed.

(* The Green's function stored is that of one slice and not that of the density matrix. *)
Theorem C66_green_refuted : exists (o : thf_opts C) t,
  one_body (expm1 expo) expo (@rdm_exact C) (@green_exact C) (fun _ _ => Ok None) o (0, 0) 0 (Some c) = Ok t /\
  1%:M - (tG t).1^T != (tP t).1.
Proof. by have [t [A B]] := late_green expoD Ep E1; exists (opts C false 2), t. Qed.
End Site.

(* The exact density matrix of one bin in this section. *)
Example C66_exact : forall (C : numClosedFieldType) (A : 'M[C]_1) L,
  rdm_exact A L = thermal_rdm (mxpow A L) /\ green_exact A = invmx (1%:M + A).
Proof. by []. Qed.

(* Two sites with a repulsive mean field that brings the densities closer together. *)
Example C66_contraction : let half := 2%:R^-1 : algC in
  let f (P : 'M[algC]_2 * 'M[algC]_2) := (half *: P.1, half *: P.2) in
  f (0, 0) = (0, 0) /\
  (forall y, distance (f y) (0, 0) <= half * distance y (0, 0)) /\ half < 1.
Proof.
move=> half f; split; first by rewrite /f /= !scaler0.
have h0 : 0 <= half by rewrite invr_ge0 ler0n.
split; last by rewrite invf_lt1 ?ltr1n ?ltr0n.
move=> y; rewrite !distanceE -[X in _ <= X * _](ger0_norm h0) -len_scale.
by rewrite le_eqVlt; apply/orP; left; apply/eqP; apply: len_ext => -[[i j] []]; rewrite /diff /= !mxE !subr0.
Qed.

Print Assumptions C66_scf.
Print Assumptions C66_run.
Print Assumptions C66_ok.
Print Assumptions C66_change.
Print Assumptions C66_converges.
Print Assumptions C66_fixed.
Print Assumptions C66_distance.
Print Assumptions C66_alpha_refuted.
Print Assumptions C66_raises.
Print Assumptions C66_verbose_refuted.
Print Assumptions C66_target_refuted.
Print Assumptions C66_one_body.
Print Assumptions C66_trial.
Print Assumptions C66_number_refuted.
Print Assumptions C66_alt_refuted.
Print Assumptions C66_green_refuted.
