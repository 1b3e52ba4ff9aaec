(* Property theorems: expectation values with multi-determinant trial wavefunctions (C54). *)

From Verif Require Import Base.
Set Warnings "-notation-overridden,-ambiguous-paths".
From mathcomp Require Import all_ssreflect all_algebra.
From Verif Require Import Rank1_Spec Ortho_Model Ortho_Spec Ortho_Proofs
  MultiDet_Model MultiDet_Spec MultiDet_Proofs.

Set Implicit Arguments.
Unset Strict Implicit.
Unset Printing Implicit Defensive.

Import Order.TTheory GRing.Theory Num.Theory.
Local Open Scope ring_scope.

(** One-body operators and Green's functions. *)

(* <psi|t|phi> is the overlap times the contraction of t with the Green's function,
   whenever the overlap matrix can be inverted. *)
Theorem C54_one_body : forall (C : numClosedFieldType) n m (t : 'M[C]_n) (psi phi : 'M[C]_(n, m)),
  ovlp_mx (@conjC C) psi phi \in unitmx ->
  one_body t psi phi
  = overlap (@conjC C) psi phi * dot_mx t (green (@conjC C) psi phi).
Proof. exact one_body_green. Qed.

(* Also when it cannot, the matrix element need not vanish. *)
Example one_body_singular (C : numClosedFieldType) :
  overlap (@conjC C) (e2 C 1) (e2 C 0) = 0 /\
  one_body (delta_mx 1 0) (e2 C 1) (e2 C 0) = 1.
Proof. by rewrite overlap_e2 one_body_e2. Qed.

(** The walker. *)

(* overlap_direct and calc_overlap: sum_i conj(c_i) <D_i|phi>. *)
Theorem C54_overlap : forall (C : numClosedFieldType) n nu nd
    (trial : list (C * 'M[C]_(n, nu) * 'M[C]_(n, nd))) (phiu : 'M[C]_(n, nu))
    (phid : 'M[C]_(n, nd)),
  (overlap_direct trial phiu phid).2 = overlap_sum trial phiu phid /\
  forall sts, length sts = length trial ->
    (calc_overlap trial phiu phid sts).2 = overlap_sum trial phiu phid.
Proof.
move=> C n nu nd trial phiu phid; split; first exact: direct_sum.
by move=> sts; apply: calc_overlap_sum.
Qed.

(* Right when every determinant is at or above the threshold, whether the Green's function
   follows the construction of the walker or a calculation of the overlap. *)
Theorem C54_mixed_partial : forall (C : numClosedFieldType) n nu nd (eps : C)
    (trial : list (C * 'M[C]_(n, nu) * 'M[C]_(n, nd))) (phiu : 'M[C]_(n, nu))
    (phid : 'M[C]_(n, nd)) (t : 'M[C]_n),
  0 < eps ->
  (forall d, List.In d trial -> seen eps phiu phid d) ->
  overlap_sum trial phiu phid != 0 ->
  (let sts := (overlap_direct trial phiu phid).1 in
   contract_walker t trial (green_dets eps trial phiu phid sts 0).1
   = Some (mixed_sum t trial phiu phid / overlap_sum trial phiu phid)) /\
  forall sts0, length sts0 = length trial ->
  let sts := (calc_overlap trial phiu phid sts0).1 in
  contract_walker t trial (green_dets eps trial phiu phid sts 0).1
  = Some (mixed_sum t trial phiu phid / overlap_sum trial phiu phid).
Proof.
move=> C n nu nd eps trial phiu phid t e0 H nz.
have K : List.filter (keeps phiu phid) trial = trial.
  by apply: mixed_all => d hd; apply: above_keeps e0 (H d hd).
have H' : forall d, List.In d trial -> clear eps phiu phid d by move=> d hd; left; apply: H.
split=> [|sts0 hl].
- have [F _] := green_dets_clear 0 e0 H' (direct_stores trial phiu phid).
  by have := contract_stores t F nz; rewrite K.
- have [F _] := green_dets_clear 0 e0 H' (calc_stores phiu phid hl).
  by have := contract_stores t F nz; rewrite K.
Qed.

(* Determinants without overlap with the walker are left out. *)
Theorem C54_zero : forall (C : numClosedFieldType) n nu nd (eps : C)
    (trial : list (C * 'M[C]_(n, nu) * 'M[C]_(n, nd))) (phiu : 'M[C]_(n, nu))
    (phid : 'M[C]_(n, nd)) (t : 'M[C]_n),
  0 < eps ->
  (forall d, List.In d trial -> clear eps phiu phid d) ->
  overlap_sum trial phiu phid != 0 ->
  (let sts := (overlap_direct trial phiu phid).1 in
   contract_walker t trial (green_dets eps trial phiu phid sts 0).1
   = Some (mixed_sum t (List.filter (keeps phiu phid) trial) phiu phid
           / overlap_sum trial phiu phid)) /\
  forall sts0, length sts0 = length trial ->
  let sts := (calc_overlap trial phiu phid sts0).1 in
  contract_walker t trial (green_dets eps trial phiu phid sts 0).1
  = Some (mixed_sum t (List.filter (keeps phiu phid) trial) phiu phid
          / overlap_sum trial phiu phid).
Proof.
move=> C n nu nd eps trial phiu phid t e0 H nz; split=> [|sts0 hl].
- have [F _] := green_dets_clear 0 e0 H (direct_stores trial phiu phid).
  exact: contract_stores F nz.
- have [F _] := green_dets_clear 0 e0 H (calc_stores phiu phid hl).
  exact: contract_stores F nz.
Qed.

(* A walker on the first determinant, and an operator that takes it to the second:
   0 instead of 1. *)
Theorem C54_mixed_refuted : forall (C : numClosedFieldType) (eps : C), 0 < eps -> eps <= 1 ->
  exists (trial : list (C * 'M[C]_(2, 1) * 'M[C]_(2, 0))) (phiu : 'M[C]_(2, 1))
    (phid : 'M[C]_(2, 0)) (t : 'M[C]_2),
  [/\ overlap_sum trial phiu phid = 1, mixed_sum t trial phiu phid = 1
    & let sts := (overlap_direct trial phiu phid).1 in
      contract_walker t trial (green_dets eps trial phiu phid sts 0).1 = Some 0].
Proof.
move=> C eps e0 e1.
pose trial : list (C * 'M[C]_(2, 1) * 'M[C]_(2, 0)) :=
  (cons (1, e2 C 0, none2 C) (cons (1, e2 C 1, none2 C) nil)).
have S1 : overlap_sum trial (e2 C 0) (none2 C) = 1.
  rewrite /overlap_sum /trial !big_cons big_nil /= /overlap2 !overlap0 !overlap_e2 conjC1.
  by rewrite !mul1r !mulr1 !addr0.
exists trial, (e2 C 0), (none2 C), (delta_mx 1 0).
have M : forall c k, c^* * one_body2 (delta_mx 1 0) (e2 C k) (e2 C 0) (none2 C) (none2 C)
    = c^* * (k == 1)%:R.
  move=> c k; rewrite /one_body2 !overlap0 one_body0 one_body_e2 mulr0 addr0 mulr1.
  by rewrite eqxx andbT.
split=> //.
- rewrite /mixed_sum /trial !big_cons big_nil /= !M conjC1 !mul1r addr0.
  by rewrite -natrD.
- have H : forall d, List.In d trial -> clear eps (e2 C 0) (none2 C) d.
    move=> d [<-|[<-|[]]]; [left | right]; rewrite /seen /= /overlap2 !overlap0 !overlap_e2 /=.
    + by rewrite mulr1 normr1.
    + by rewrite mul0r.
  have nz : overlap_sum trial (e2 C 0) (none2 C) != 0 by rewrite S1 oner_eq0.
  have [E _] := C54_zero (delta_mx 1 0) e0 H nz; rewrite /= in E; rewrite /= E S1 divr1.
  rewrite /keeps /= /overlap2 !overlap0 !overlap_e2 /= !mulr1 oner_eq0 eqxx /=.
  by rewrite /mixed_sum big_cons big_nil /= M /= mulr0 addr0.
Qed.

(** The trial with itself: contract_one_body. *)

(* Both coefficients are conjugated: the value is a transition between the trial and the
   trial with conjugated coefficients. *)
Theorem C54_trial_conj : forall (C : numClosedFieldType) N (c : 'I_N -> C),
  (forall (Det : Type) (matel : Det -> Det -> C) (occs : 'I_N -> Det),
    contract_ortho c matel occs
    = let a := sesq (fun i j => matel (occs i) (occs j)) c (fun j => (c j)^*) in
      let b := sesq (@delta C N) c (fun j => (c j)^*) in
      if b == 0 then None else Some (a / b)) /\
  forall n nu nd (psiu : 'I_N -> 'M[C]_(n, nu)) (psid : 'I_N -> 'M[C]_(n, nd)) (t : 'M[C]_n),
    (forall i j, pair_overlap psiu psid i j != 0) ->
    contract_general c psiu psid t
    = let a := sesq (fun i j => one_body2 t (psiu i) (psiu j) (psid i) (psid j))
                 c (fun j => (c j)^*) in
      let b := sesq (pair_overlap psiu psid) c (fun j => (c j)^*) in
      Ok (if b == 0 then None else Some (a / b)).
Proof.
move=> C N c; split=> [Det matel occs|n nu nd psiu psid t H].
- by rewrite /contract_ortho ortho_denom /quotient.
- by rewrite general_ok.
Qed.

(* Right for real coefficients, and those that are real up to a common phase. *)
Theorem C54_trial_partial : forall (C : numClosedFieldType) N (c : 'I_N -> C),
  common_phase c ->
  (forall (Det : Type) (matel : Det -> Det -> C) (occs : 'I_N -> Det),
    sesq (@delta C N) c c != 0 ->
    contract_ortho c matel occs
    = Some (expectation (fun i j => matel (occs i) (occs j)) (@delta C N) c)) /\
  forall n nu nd (psiu : 'I_N -> 'M[C]_(n, nu)) (psid : 'I_N -> 'M[C]_(n, nd)) (t : 'M[C]_n),
    (forall i j, pair_overlap psiu psid i j != 0) ->
    sesq (pair_overlap psiu psid) c c != 0 ->
    contract_general c psiu psid t
    = Ok (Some (expectation (fun i j => one_body2 t (psiu i) (psiu j) (psid i) (psid j))
                  (pair_overlap psiu psid) c)).
Proof.
move=> C N c P; split=> [Det matel occs nz|n nu nd psiu psid t H nz].
- by rewrite /contract_ortho ortho_denom; apply: quotient_phase.
- by rewrite general_ok // quotient_phase.
Qed.

Lemma two_sum (C : numClosedFieldType) (f : 'I_2 -> C) : \sum_i f i = f 0 + f 1.
Proof. by rewrite big_ord_recl big_ord1; congr (_ + f _); apply: val_inj. Qed.

Lemma i_i (C : numClosedFieldType) : 'i * 'i = -1 :> C.
Proof. by rewrite -expr2 sqrCi. Qed.

Lemma two_i_norm (C : numClosedFieldType) : (2%:R * 'i)^* * (2%:R * 'i) = 4%:R :> C.
Proof. by rewrite rmorphM /= conjC_nat conjCi mulrACA mulNr i_i opprK mulr1 -natrM. Qed.

Lemma two_i_square (C : numClosedFieldType) : (2%:R * 'i)^* * (2%:R * 'i)^* = - 4%:R :> C.
Proof. by rewrite rmorphM /= conjC_nat conjCi mulrACA mulrNN i_i mulrN1 -natrM. Qed.

(* Coefficients 1 and 2i, the number of electrons in the first determinant's orbital. *)
Theorem C54_trial_refuted : forall C : numClosedFieldType,
  exists (c : 'I_2 -> C) (matel : 'I_2 -> 'I_2 -> C),
  [/\ forall i j, matel j i = (matel i j)^*,
      expectation matel (@delta C 2) c = 5%:R^-1
    & contract_ortho c matel id = Some (- 3%:R^-1)].
Proof.
move=> C; exists (fun i => if i == 0 then 1 else 2%:R * 'i),
  (fun i j => ((i == 0) && (j == 0))%:R); split.
- by move=> i j; rewrite andbC; case: (_ && _); rewrite ?conjC1 ?conjC0.
- rewrite /expectation sesq_delta /sesq !two_sum /= conjC1 !mulr0 !addr0 !mulr1.
  by rewrite two_i_norm -[1]/(1%:R) -natrD div1r.
- rewrite /contract_ortho /quotient !two_sum /= conjC1 !mulr1 !mulr0 !addr0 add0r.
  rewrite two_i_square.
  have -> : 1 - 4%:R = - 3%:R :> C by rewrite -[1]/(1%:R) -opprB -natrB.
  by rewrite oppr_eq0 pnatr_eq0 /= div1r invrN.
Qed.

(* Coefficients 1 and i: the denominator is zero. *)
Theorem C54_trial_nan_refuted : forall C : numClosedFieldType,
  exists c : 'I_2 -> C, sesq (@delta C 2) c c = 2%:R /\
    forall matel : 'I_2 -> 'I_2 -> C, contract_ortho c matel id = None.
Proof.
move=> C; exists (fun i => if i == 0 then 1 else 'i); split.
- rewrite sesq_delta two_sum /= conjC1 mulr1 conjCi mulNr i_i opprK.
  by rewrite -[1]/(1%:R) -natrD.
- move=> matel; rewrite /contract_ortho /quotient.
  suff -> : \sum_(i < 2) \sum_(j < 2)
     (if i == j then (if i == 0 then 1 else 'i)^* * (if i == 0 then 1 else 'i)^* else 0)
     = 0 :> C by rewrite eqxx.
  by rewrite !two_sum /= conjC1 mulr1 addr0 add0r conjCi mulrNN i_i subrr.
Qed.

(* Expansions in determinants two of which are orthogonal, not marked as orthogonal, raise. *)
Theorem C54_trial_singular_refuted : forall (C : numClosedFieldType) N (c : 'I_N -> C) n nu nd
    (psiu : 'I_N -> 'M[C]_(n, nu)) (psid : 'I_N -> 'M[C]_(n, nd)) i j,
  pair_overlap psiu psid i j = 0 ->
  (forall t, contract_general c psiu psid t = Err ValueError) /\
  forall le, variational_multi c psiu psid le = Err ValueError.
Proof.
move=> C N c n nu nd psiu psid i j z; split=> [t|le].
- exact: general_singular z.
- exact: variational_singular z.
Qed.

Example pair_orthogonal (C : numClosedFieldType) :
  pair_overlap (e2 C) (fun _ => none2 C) 0 1 = 0.
Proof. by rewrite /pair_overlap /overlap2 overlap_e2 mul0r. Qed.

(** The energy of the trial. *)

(* variational_energy_multi_det, for determinants no two of which are orthogonal.  le is one
   component of the local energy, so that S_ij le(G_ij) is the matrix element. *)
Theorem C54_energy_partial : forall (C : numClosedFieldType) N (c : 'I_N -> C) n nu nd
    (psiu : 'I_N -> 'M[C]_(n, nu)) (psid : 'I_N -> 'M[C]_(n, nd)) le,
  (forall i j, pair_overlap psiu psid i j != 0) ->
  sesq (pair_overlap psiu psid) c c != 0 ->
  variational_multi c psiu psid le
  = Ok (Some (expectation
      (fun i j => pair_overlap psiu psid i j
                  * le (green (@conjC C) (psiu i) (psiu j)) (green (@conjC C) (psid i) (psid j)))
      (pair_overlap psiu psid) c)).
Proof. by move=> C N c n nu nd psiu psid le H nz; apply: variational_ok. Qed.

(* variational_energy_ortho_det visits the lower triangle only, and counts it twice: the
   value for a Hermitian matrix, exactly. *)
Theorem C54_ortho_energy : forall (C : numClosedFieldType) N (c : 'I_N -> C) (Det : Type)
    (h : Det -> Det -> C) (occs : 'I_N -> Det),
  (forall a b, h b a = (h a b)^*) -> \sum_i `|c i| ^+ 2 != 0 ->
  let H := fun i j => h (occs i) (occs j) in
  variational_ortho c h occs
  = Some (expectation H (@delta C N) c + 'i * (odd_part H c *+ 2 / \sum_i `|c i| ^+ 2)).
Proof.
move=> C N c Det h occs Hh; rewrite -norm_sum => nz; exact: ortho_energy.
Qed.

(* Its real part is right. *)
Theorem C54_ortho_energy_re : forall (C : numClosedFieldType) N (c : 'I_N -> C) (Det : Type)
    (h : Det -> Det -> C) (occs : 'I_N -> Det) (z : C),
  (forall a b, h b a = (h a b)^*) -> \sum_i `|c i| ^+ 2 != 0 ->
  variational_ortho c h occs = Some z ->
  'Re z = expectation (fun i j => h (occs i) (occs j)) (@delta C N) c.
Proof.
move=> C N c Det h occs z Hh; rewrite -norm_sum => nz; exact: ortho_energy_re.
Qed.

(* All of it is exactly when the imaginary parts of the lower triangle cancel. *)
Theorem C54_ortho_energy_iff : forall (C : numClosedFieldType) N (c : 'I_N -> C) (Det : Type)
    (h : Det -> Det -> C) (occs : 'I_N -> Det),
  (forall a b, h b a = (h a b)^*) -> \sum_i `|c i| ^+ 2 != 0 ->
  let H := fun i j => h (occs i) (occs j) in
  variational_ortho c h occs = Some (expectation H (@delta C N) c) <-> odd_part H c = 0.
Proof.
move=> C N c Det h occs Hh; rewrite -norm_sum => nz; exact: ortho_energy_iff.
Qed.

(* So for real coefficients and matrix elements. *)
Theorem C54_ortho_energy_partial : forall (C : numClosedFieldType) N (c : 'I_N -> C) (Det : Type)
    (h : Det -> Det -> C) (occs : 'I_N -> Det),
  (forall a b, h b a = h a b) -> (forall a b, h a b \is Num.real) ->
  (forall i, c i \is Num.real) -> \sum_i `|c i| ^+ 2 != 0 ->
  variational_ortho c h occs
  = Some (expectation (fun i j => h (occs i) (occs j)) (@delta C N) c).
Proof.
move=> C N c Det h occs Hs Hr cr nz; apply/C54_ortho_energy_iff => //.
- by move=> a b; rewrite Hs; apply/esym/CrealP/Hr.
- rewrite /odd_part big1 // => i _; rewrite big1 // => j _; apply/Creal_ImP.
  by rewrite !rpredM // ?conj_Creal.
Qed.

(* Coefficients 1 and i, and the Hamiltonian that exchanges the two determinants:
   -i instead of 0. *)
Theorem C54_ortho_energy_refuted : forall C : numClosedFieldType,
  exists (c : 'I_2 -> C) (h : 'I_2 -> 'I_2 -> C),
  [/\ forall a b, h b a = (h a b)^*, expectation h (@delta C 2) c = 0
    & variational_ortho c h id = Some (- 'i)].
Proof.
move=> C; exists (fun i => if i == 0 then 1 else 'i), (fun i j => (i != j)%:R); split.
- by move=> a b; rewrite eq_sym conjC_nat.
- rewrite /expectation /sesq !two_sum /= conjC1 !mulr0 !mul1r !mulr1 addr0 add0r.
  by rewrite conjCi addrN mul0r.
- rewrite /variational_ortho /quotient !two_sum /=.
  rewrite !(big_mkcond (fun j : 'I_2 => (j <= _)%N)) /= !two_sum /= conjC1 conjCi.
  rewrite !mulr0 !mulr1 !addr0 !add0r mulNr i_i opprK.
  rewrite -[1]/(1%:R) -natrD pnatr_eq0 /= -opprD -mulr2n -mulr_natr mulNr mulfK //.
  by rewrite pnatr_eq0.
Qed.

(** The local energy from the largest determinant (multi_det_energy given). *)

(* The weight is that of the first determinant of the trial, the Green's functions are
   those of the largest; since there is one, the weight cancels, unless it is zero. *)
Theorem C54_split_partial : forall (C : numClosedFieldType) n nu nd
    (le : 'M[C]_n -> 'M[C]_n -> C) (eps : C)
    (trial : list (C * 'M[C]_(n, nu) * 'M[C]_(n, nd))) (phiu : 'M[C]_(n, nu))
    (phid : 'M[C]_(n, nd)) s0 sts,
  trial <> nil -> 0 < eps ->
  exists d, [/\ List.In d trial, (forall t, List.In t trial -> `|t.1.1| <= `|d.1.1|)
   & (seen eps phiu phid d ->
      let w := (d.1.1)^* * d_ovlp s0 in
      split_energy le eps trial phiu phid (cons s0 sts)
      = Ok (Some (w, if w == 0 then None
                     else Some (le (green (@conjC C) d.1.2 phiu) (green (@conjC C) d.2 phid)))))].
Proof. by move=> C n nu nd le eps trial phiu phid s0 sts; apply: split_right. Qed.

(* A walker on the largest determinant, orthogonal to the first: no energy. *)
Theorem C54_split_refuted : forall (C : numClosedFieldType) (eps : C)
    (le : 'M[C]_2 -> 'M[C]_2 -> C), 0 < eps -> eps <= 1 ->
  exists (trial : list (C * 'M[C]_(2, 1) * 'M[C]_(2, 0))) (phiu : 'M[C]_(2, 1))
    (phid : 'M[C]_(2, 0)),
  overlap_sum trial phiu phid = 2%:R /\
  let sts := (overlap_direct trial phiu phid).1 in
  split_energy le eps trial phiu phid (green_dets eps trial phiu phid sts 0).1
  = Ok (Some (0, None)).
Proof.
move=> C eps le e0 e1.
pose trial : list (C * 'M[C]_(2, 1) * 'M[C]_(2, 0)) :=
  (cons (1, e2 C 0, none2 C) (cons (2%:R, e2 C 1, none2 C) nil)).
exists trial, (e2 C 1), (none2 C); split.
  rewrite /overlap_sum /trial !big_cons big_nil /= /overlap2 !overlap0 !overlap_e2 conjC_nat.
  by rewrite /= !mulr1 mulr0 add0r addr0.
have H : forall d, List.In d trial -> clear eps (e2 C 1) (none2 C) d.
  move=> d [<-|[<-|[]]]; [right | left]; rewrite /seen /= /overlap2 !overlap0 !overlap_e2 /=.
  - by rewrite mul0r.
  - by rewrite mulr1 normr1.
have [F _] := green_dets_clear 0 e0 H (direct_stores trial (e2 C 1) (none2 C)).
move: F; cbv zeta; case: (green_dets _ _ _ _ _ _) => r tot F; cbn [fst].
inversion F as [|? s0 ? sts [Fo _] _ E1 E2]; subst.
rewrite /= /overlap2 overlap_e2 mul0r in Fo.
have nn : trial <> nil by [].
have [d [hd mx E]] := split_right le (e2 C 1) (none2 C) s0 sts nn e0.
case: hd mx E => [<-|[<-|[]]] /= mx E.
- have := mx _ (or_intror (or_introl erefl)); rewrite /= normr1 normr_nat.
  by rewrite -[1]/(1%:R) ler_nat.
- move: E2 E => /= <-; rewrite Fo mulr0 eqxx; apply.
  by rewrite /above /= /overlap2 !overlap0 !overlap_e2 /= mulr1 normr1.
Qed.

(** Generalised walkers: calc_otrial of multi_ghf does not conjugate the coefficients. *)
Theorem C54_ghf : forall (C : numClosedFieldType) n m N (c : 'I_N -> C)
    (psi : 'I_N -> 'M[C]_(n, m)) (phi : 'M[C]_(n, m)),
  ghf_otrial (fun i => (c i)^*) psi phi = \sum_i (c i)^* * overlap (@conjC C) (psi i) phi.
Proof. by move=> C n m N c psi phi; apply: ghf_right. Qed.

(** The hypotheses hold. *)
Example common_phase_ok (C : numClosedFieldType) :
  common_phase (fun i : 'I_2 => if i == 0 then 'i else 2%:R * 'i : C).
Proof.
exists 'i; first exact: neq0Ci.
move=> i; case: ifP => _; rewrite ?mulfK ?divff ?neq0Ci ?rpred1 //.
exact: realn.
Qed.

Example pair_overlaps_ok (C : numClosedFieldType) :
  forall i j : 'I_2, pair_overlap (fun _ => e2 C 0) (fun _ => none2 C) i j != 0.
Proof. by move=> i j; rewrite /pair_overlap /overlap2 overlap_e2 overlap0 mulr1 oner_eq0. Qed.

Print Assumptions C54_one_body.
Print Assumptions C54_overlap.
Print Assumptions C54_mixed_partial.
Print Assumptions C54_zero.
Print Assumptions C54_mixed_refuted.
Print Assumptions C54_trial_conj.
Print Assumptions C54_trial_partial.
Print Assumptions C54_trial_refuted.
Print Assumptions C54_trial_nan_refuted.
Print Assumptions C54_trial_singular_refuted.
Print Assumptions C54_energy_partial.
Print Assumptions C54_ortho_energy.
Print Assumptions C54_ortho_energy_re.
Print Assumptions C54_ortho_energy_iff.
Print Assumptions C54_ortho_energy_partial.
Print Assumptions C54_ortho_energy_refuted.
Print Assumptions C54_split_partial.
Print Assumptions C54_split_refuted.
Print Assumptions C54_ghf.
