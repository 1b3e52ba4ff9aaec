(* Property theorems: local energies (C44), the Hubbard energy (C45) and the
   stochastic exchange energy (C60). *)

From Verif Require Import Base.
Set Warnings "-notation-overridden,-ambiguous-paths".
From mathcomp Require Import all_ssreflect all_algebra.
From Verif Require Import Ortho_Model LEnergy_Model LEnergy_Spec LEnergy_Proofs.

Set Implicit Arguments.
Unset Strict Implicit.
Unset Printing Implicit Defensive.

Import Order.TTheory GRing.Theory Num.Theory.
Local Open Scope ring_scope.

(* C44.  All routines return the energies of Wick's theorem for the integrals
   (pr|qu) = hijkl(p,q,r,u).  G is conj(psi) Ghalf for each spin, as every
   Green's function routine builds it (C42). *)

Theorem C44_generic : forall (C : numClosedFieldType) M
    (h1e : 'M[C]_M * 'M[C]_M) eri ecore G,
  local_energy_generic h1e eri G ecore = energies h1e eri ecore G.
Proof. by move=> C M h1e eri ec G; exact: generic_right. Qed.

Theorem C44_cholesky : forall (C : numClosedFieldType) M naux
    (sys : system C M naux) G,
  local_energy_generic_cholesky sys G
  = energies (H1 sys) (fun p r q u => hijkl sys p q r u) (ecore sys) G.
Proof. exact: cholesky_right. Qed.

Theorem C44_half_rotated : forall (C : numClosedFieldType) M naux
    (sys : system C M naux) na nb
    (psia : 'M[C]_(M, na)) (psib : 'M[C]_(M, nb)) Gha Ghb,
  let G := (map_mx conjC psia *m Gha, map_mx conjC psib *m Ghb) in
  local_energy_generic_cholesky_opt sys G (Gha, Ghb)
    (half_rotate psia psib sys)
  = energies (H1 sys) (fun p r q u => hijkl sys p q r u) (ecore sys) G.
Proof. exact: opt_right. Qed.

Theorem C44_exact_eri : forall (C : numClosedFieldType) M naux
    (sys : system C M naux) na nb
    (psia : 'M[C]_(M, na)) (psib : 'M[C]_(M, nb)) Gha Ghb,
  let G := (map_mx conjC psia *m Gha, map_mx conjC psib *m Ghb) in
  local_energy_generic_opt sys G (Gha, Ghb) (exact_eri psia psib sys)
  = energies (H1 sys) (fun p r q u => hijkl sys p q r u) (ecore sys) G.
Proof. exact: exact_right. Qed.

(* Pair-natural orbitals: for any exact factorisation of the pair matrices,
   the error is that of the reference energy e0. *)
Theorem C44_pno : forall (C : numClosedFieldType) M naux
    (sys : system C M naux) na nb
    (psia : 'M[C]_(M, na)) (psib : 'M[C]_(M, nb)) Gha Ghb C0 e0 UVT,
  map (@uvt_prod C M) UVT.1.1 = map (Vab psia psia sys) (ij_same na) ->
  map (@uvt_prod C M) UVT.1.2 = map (Vab psib psib sys) (ij_same nb) ->
  map (@uvt_prod C M) UVT.2 = map (Vab psia psib sys) (ij_opp na nb) ->
  let v := fun p r q u => hijkl sys p q r u in
  let G := (map_mx conjC psia *m Gha, map_mx conjC psib *m Ghb) in
  let G0 := (map_mx conjC psia *m C0.1^T, map_mx conjC psib *m C0.2^T) in
  let e2 := wick2 v G + (1 / 2%:R * (e0.1.1 - e0.1.2 - e0.2) - wick2 v G0) in
  local_energy_generic_pno sys G (Gha, Ghb) C0 e0 UVT
  = (wick1 (H1 sys) G + e2 + ecore sys, wick1 (H1 sys) G + ecore sys, e2).
Proof.
by move=> C M naux sys na nb psia psib Gha Ghb C0 e0 UVT ha hb hab;
  exact: pno_general.
Qed.

(* What a walker obtains, for every combination of options. *)
Theorem C44_walker : forall (C : numClosedFieldType) M naux
    (sys : system C M naux) na nb
    (psia : 'M[C]_(M, na)) (psib : 'M[C]_(M, nb)) Gha Ghb C0 UVT sw rest,
  map (@uvt_prod C M) UVT.1.1 = map (Vab psia psia sys) (ij_same na) ->
  map (@uvt_prod C M) UVT.1.2 = map (Vab psib psib sys) (ij_same nb) ->
  map (@uvt_prod C M) UVT.2 = map (Vab psia psib sys) (ij_opp na nb) ->
  let G := (map_mx conjC psia *m Gha, map_mx conjC psib *m Ghb) in
  (2 <= na * M)%N ->
  walker_local_energy sys sw rest G (Gha, Ghb) (half_rotate psia psib sys)
    (exact_eri psia psib sys) C0
    (local_energy_2body (half_rotate psia psib sys) (C0.1^T, C0.2^T)) UVT
  = if stochastic_ri sw then
      Err (if control_variate sw then AttributeError else ValueError)
    else if pno sw && ~~ (exact sw && control_variate sw) then
      Err AssertionError
    else if control_variate sw && ~~ exact sw then Err TypeError
    else Ok (energies (H1 sys) (fun p r q u => hijkl sys p q r u)
               (ecore sys) G).
Proof.
by move=> C M naux sys na nb psia psib Gha Ghb C0 UVT sw rest ha hb hab;
  exact: walker_right.
Qed.

Theorem C44_core : forall (C : numClosedFieldType) M naux
    (chol : 'I_naux -> 'M[C]_M) G,
  core_contribution (fun p q r s => \sum_n chol n p q * chol n r s) G
  = core_contribution_cholesky chol G.
Proof. exact: core_agree. Qed.

(* Several determinants: the weighted mean. *)
Theorem C44_multi_det : forall (C : numClosedFieldType) M
    (le : 'M[C]_M * 'M[C]_M -> C * C * C) dets,
  let tot (f : C * C * C -> C) := \sum_(wG <- dets) wG.1 * f (le wG.2) in
  let den := \sum_(wG <- dets) wG.1 in
  local_energy_multi_det le dets
  = (tot (fun e => e.1.1) / den, tot (fun e => e.1.2) / den,
     tot (fun e => e.2) / den).
Proof. exact: multi_det_right. Qed.

(* The Green's functions of C42 have the form used above. *)
Example C44_example : forall (C : numClosedFieldType) M na
    (psi phi : 'M[C]_(M, na)),
  (gab_mod psi phi).1 = map_mx conjC psi *m (gab_mod psi phi).2.
Proof. by []. Qed.

(* Exact factorisations of the pair matrices exist. *)
Example C44_pno_example : forall (C : numClosedFieldType) M (V : 'M[C]_M),
  uvt_prod (existT _ M (V, 1%:M)) = V.
Proof. by move=> C M V; rewrite /= mulmx1. Qed.

(* C45 *)
Theorem C45_hubbard : forall (C : numClosedFieldType) M (U : C)
    (T : 'M[C]_M * 'M[C]_M) symmetric G,
  local_energy_hubbard T U symmetric G
  = energies T (fun p r q u => hijkl_hubbard U p q r u) 0 G /\
  wick2 (fun p r q u => hijkl_hubbard U p q r u) G
  = U * \sum_i G.1 i i * G.2 i i.
Proof.
move=> C M U T symmetric G; split; first exact: hubbard_right.
rewrite -hubbard_wick2 /wick2; congr (_ * _).
by do 6 (apply: eq_bigr => ? _); rewrite hijkl_onsite.
Qed.

Theorem C45_ghf : forall (C : numClosedFieldType) M (U : C)
    (T : 'M[C]_M * 'M[C]_M) nd (Gi : 'I_nd -> 'M[C]_(M + M)) w denom,
  let t i := sum_prod (block_mx T.1 0 0 T.2) (Gi i) in
  let u i := wick2_so (onsite_so U) (Gi i) in
  local_energy_hubbard_ghf T U Gi w denom
  = ((\sum_i w i * t i) / denom + (\sum_i w i * u i) / denom,
     (\sum_i w i * t i) / denom, (\sum_i w i * u i) / denom).
Proof. exact: ghf_right. Qed.

(* The symmetric Hamiltonian has a further -U/2 per electron; the routine
   computes that term and then overwrites it. *)
Theorem C45_symmetric_refuted : forall C : numClosedFieldType,
  exists (T G : 'M[C]_1 * 'M[C]_1) (U : C),
  (local_energy_hubbard T U true G).2
  <> U * (\sum_i G.1 i i * G.2 i i) - 1 / 2%:R * U * (\tr G.1 + \tr G.2).
Proof.
move=> C; exists (0, 0), (1%:M, 1%:M), 1 => /=.
rewrite !big_ord_recl !big_ord0 !mxE /= !mxtrace1 !mulr1 !addr0 mul1r.
rewrite -mulr2n mul1r mulVf ?pnatr_eq0 // subrr.
by move/eqP; rewrite oner_eq0.
Qed.

(* C60: for independent fair signs the stochastic energy has the exact energy
   as its mean, with and without the control variate; the one-body energy is
   exact. *)
Theorem C60_unbiased : forall (C : numClosedFieldType) M naux
    (sys : system C M naux) na nb ns
    (psia : 'M[C]_(M, na)) (psib : 'M[C]_(M, nb)) Gha Ghb sq control,
  (0 < ns)%N -> sq * sq * ns%:R = 1 ->
  (forall c, control = Some c ->
     c.2 = (exx_half (rotate psia sys) c.1.1^T,
            exx_half (rotate psib sys) c.1.2^T)) ->
  let G := (map_mx conjC psia *m Gha, map_mx conjC psib *m Ghb) in
  let v := fun p r q u => hijkl sys p q r u in
  exists E : 'M[C]_(naux, ns) -> C * C * C,
  [/\ forall theta, local_energy_stochastic sys G (Gha, Ghb)
        (rotate psia sys) (rotate psib sys) control theta sq = Ok (E theta),
      forall theta, (E theta).1.2 = (energies (H1 sys) v (ecore sys) G).1.2,
      mean (fun theta => (E theta).2)
        = (energies (H1 sys) v (ecore sys) G).2 &
      mean (fun theta => (E theta).1.1)
        = (energies (H1 sys) v (ecore sys) G).1.1].
Proof.
by move=> C M naux sys na nb ns psia psib Gha Ghb sq control;
  exact: stochastic_right.
Qed.

(* The default number of samples is zero. *)
Theorem C60_no_samples : forall (C : numClosedFieldType) M naux
    (sys : system C M naux) na nb G Gh (ra : 'M[C]_(na * M, naux))
    (rb : 'M[C]_(nb * M, naux)) control (theta : 'M[C]_(naux, 0)) sq,
  local_energy_stochastic sys G Gh ra rb control theta sq
  = Err ZeroDivisionError.
Proof. by []. Qed.

(* But no walker can use it: the vectors arrive in the wrong shape. *)
Theorem C60_call_refuted : forall (C : numClosedFieldType) M naux
    (sys : system C M naux) na nb sw rest G Gh rchol eri C0 e0 UVT,
  stochastic_ri sw -> (2 <= na * M)%N ->
  is_ok (@walker_local_energy C M naux na nb sys sw rest G Gh rchol eri C0 e0
           UVT) = false.
Proof.
move=> C M naux sys na nb sw rest G Gh rchol eri C0 e0 UVT hs h2.
by rewrite /walker_local_energy /local_energy hs /stochastic_call h2;
  case: (control_variate sw).
Qed.

Example C60_example : forall C : numClosedFieldType,
  (sqrtC (4%:R)^-1 : C) * sqrtC (4%:R)^-1 * 4%:R = 1.
Proof. by move=> C; rewrite -expr2 sqrtCK mulVf ?pnatr_eq0. Qed.

Print Assumptions C44_generic.
Print Assumptions C44_cholesky.
Print Assumptions C44_half_rotated.
Print Assumptions C44_exact_eri.
Print Assumptions C44_pno.
Print Assumptions C44_walker.
Print Assumptions C44_core.
Print Assumptions C44_multi_det.
Print Assumptions C45_hubbard.
Print Assumptions C45_ghf.
Print Assumptions C45_symmetric_refuted.
Print Assumptions C60_unbiased.
Print Assumptions C60_no_samples.
Print Assumptions C60_call_refuted.
