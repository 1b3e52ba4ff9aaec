(* C35: the fast updates equal recomputation.
   C36: a sweep of single-site updates keeps the stored overlap right. *)

From Verif Require Import Base.
Set Warnings "-notation-overridden,-ambiguous-paths".
From mathcomp Require Import all_ssreflect all_algebra.
From Verif Require Import Rank1_Model Rank1_Spec Rank1_Proofs.

Set Implicit Arguments.
Unset Strict Implicit.
Unset Printing Implicit Defensive.

Import GRing.Theory Num.Theory.
Local Open Scope ring_scope.

(* Sherman-Morrison, for every size, field, matrix and pair of vectors. *)
Theorem C35_sherman_morrison :
  forall (K : fieldType) n (A : 'M[K]_n) (u v : 'rV[K]_n),
  A \in unitmx -> 1 + (v *m invmx A *m u^T) 0 0 != 0 ->
  (A + u^T *m v \in unitmx) /\
  sherman_morrison (invmx A) u v = invmx (A + u^T *m v).
Proof. exact sm_correct. Qed.

(* The denominator is the ratio of the determinants; when it vanishes the
   updated matrix is singular. *)
Theorem C35_determinant :
  forall (K : fieldType) n (A : 'M[K]_n) (u v : 'rV[K]_n),
  A \in unitmx ->
  \det (A + u^T *m v) = (1 + (v *m invmx A *m u^T) 0 0) * \det A.
Proof. exact det_rank1. Qed.

(* The inverse overlap after adding v to row i of the walker. *)
Theorem C35_inverse_overlap :
  forall (K : fieldType) (cj : K -> K) n m (psi phi : 'M[K]_(n, m)) i
    (v : 'rV[K]_m),
  ovlp_mx cj psi phi \in unitmx ->
  1 + (v *m inverse_overlap cj psi phi *m (map_mx cj (row i psi))^T) 0 0 != 0 ->
  (ovlp_mx cj psi (add_row phi i v) \in unitmx) /\
  update_inverse_overlap cj psi (inverse_overlap cj psi phi) v i
  = inverse_overlap cj psi (add_row phi i v).
Proof. exact inverse_overlap_update. Qed.

(* The diagonal element of the Green's function obtained from the stored
   inverse is that of the full Green's function. *)
Theorem C35_green :
  forall (K : fieldType) (cj : K -> K) n m (psi phi : 'M[K]_(n, m)) i,
  greens_function cj psi phi = green cj psi phi /\
  fast_gii cj psi phi (inverse_overlap cj psi phi) i = green cj psi phi i i.
Proof.
intros K cj n m psi phi i.
exact (conj (green_tr cj psi phi)
  (etrans (fast_gii_green cj psi phi i)
     (congr1 (fun G : 'M_n => G i i) (green_tr cj psi phi)))).
Qed.

(* One factor of the overlap ratio: multiplying row i by 1 + d. *)
Theorem C35_ratio :
  forall (K : fieldType) (cj : K -> K) n m (psi phi : 'M[K]_(n, m)) i d,
  ovlp_mx cj psi phi \in unitmx ->
  overlap cj psi (scale_row phi i (1 + d))
  = (1 + d * fast_gii cj psi phi (inverse_overlap cj psi phi) i)
    * overlap cj psi phi.
Proof. exact overlap_scale. Qed.

(* Multi-determinant trials. *)
Theorem C35_ratio_multi_det :
  forall (K : fieldType) (cj : K -> K) n mu md N
    (psiu : 'I_N -> 'M[K]_(n, mu)) (psid : 'I_N -> 'M[K]_(n, md))
    (phiu : 'M[K]_(n, mu)) (phid : 'M[K]_(n, md)) (c : 'I_N -> K) i du dd,
  (forall x, ovlp_mx cj (psiu x) phiu \in unitmx) ->
  (forall x, ovlp_mx cj (psid x) phid \in unitmx) ->
  ratio_multi_det c (fun x => overlap cj (psiu x) phiu)
    (fun x => overlap cj (psid x) phid)
    (fun x => greens_function cj (psiu x) phiu i i)
    (fun x => greens_function cj (psid x) phid i i)
    (\sum_x c x * (overlap cj (psiu x) phiu * overlap cj (psid x) phid)) du dd
  = 2%:R^-1 *
    ((\sum_x c x * (overlap cj (psiu x) (scale_row phiu i (1 + du))
                    * overlap cj (psid x) (scale_row phid i (1 + dd))))
     / (\sum_x c x * (overlap cj (psiu x) phiu * overlap cj (psid x) phid))).
Proof. exact ratio_multi_det_correct. Qed.

(* Generalised (GHF) walkers: both spins of site i live in one matrix. *)
Theorem C35_ratio_ghf :
  forall (K : fieldType) (cj : K -> K) n m (psi phi : 'M[K]_(n + n, m))
    (i : 'I_n) du dd,
  ovlp_mx cj psi phi \in unitmx ->
  overlap cj psi (scale_row (scale_row phi (lshift n i) (1 + du))
                            (rshift n i) (1 + dd))
  = ratio_ghf (greens_function cj psi phi) i du dd * overlap cj psi phi.
Proof. exact ratio_ghf_correct. Qed.

Theorem C35_ratio_multi_ghf :
  forall (K : fieldType) (cj : K -> K) n m N (psi : 'I_N -> 'M[K]_(n + n, m))
    (phi : 'M[K]_(n + n, m)) (c : 'I_N -> K) (i : 'I_n) du dd,
  (forall x, ovlp_mx cj (psi x) phi \in unitmx) ->
  ratio_multi_ghf c (fun x => overlap cj (psi x) phi)
    (fun x => greens_function cj (psi x) phi)
    (\sum_x c x * overlap cj (psi x) phi) i du dd
  = 2%:R^-1 *
    ((\sum_x c x * overlap cj (psi x)
         (scale_row (scale_row phi (lshift n i) (1 + du)) (rshift n i) (1 + dd)))
     / (\sum_x c x * overlap cj (psi x) phi)).
Proof. exact ratio_multi_ghf_correct. Qed.

(* The thermal Green's function after the row of one site of the density
   matrix is multiplied by 1 + d. *)
Theorem C35_thermal_update :
  forall (K : fieldType) n (A : 'M[K]_n) (i : 'I_n) d,
  1%:M + A \in unitmx -> 1 + (1 - tgreen A i i) * d != 0 ->
  (1%:M + scale_row A i (1 + d) \in unitmx) /\
  thermal_update (tgreen A) i d = tgreen (scale_row A i (1 + d)).
Proof. exact thermal_update_correct. Qed.

Theorem C35_thermal_ratio :
  forall (K : fieldType) n (A Ad : 'M[K]_n) (i : 'I_n) du dd,
  1%:M + A \in unitmx -> 1%:M + Ad \in unitmx ->
  thermal_ratio (tgreen A) (tgreen Ad) i du dd
  = 2%:R^-1 * ((zpart (scale_row A i (1 + du)) / zpart A)
               * (zpart (scale_row Ad i (1 + dd)) / zpart Ad)).
Proof. exact thermal_ratio_correct. Qed.

(* The whole sweep over the sites of a time slice: the Green's function kept
   by the updates is that of the density matrix with the new diagonal. *)
Theorem C35_thermal_sweep :
  forall (K : fieldType) (R : realFieldType) (re : K -> R) n
    (dl : bool -> bool -> K), re 0 = 0 ->
  forall (A Ad : 'M[K]_n) rs (w : twalker K R n),
  List.Forall (fun r => is_true (0 <= r < 1)) rs ->
  size rs = n ->
  1%:M + A \in unitmx -> 1%:M + Ad \in unitmx ->
  gu w = tgreen A -> gd w = tgreen Ad ->
  let w' := thermal_sweep re dl (enum 'I_n) rs w in
  twt w' != 0 ->
  [/\ 1%:M + diag_mx (bvu w') *m A \in unitmx,
      1%:M + diag_mx (bvd w') *m Ad \in unitmx,
      gu w' = tgreen (diag_mx (bvu w') *m A) &
      gd w' = tgreen (diag_mx (bvd w') *m Ad)].
Proof. exact thermal_full_sweep. Qed.

(* Identity orbitals of any size: everything is invertible and the ratio for
   scaling a row by 1 + d is 1 + d. *)
Example C35_example : forall n (i : 'I_n) (d : rat), 1 + d != 0 ->
  ovlp_mx (@id rat) (1%:M : 'M[rat]_n) 1%:M \in unitmx /\
  1 + ((d *: row i 1%:M) *m inverse_overlap (@id rat) 1%:M 1%:M
        *m (map_mx (@id rat) (row i (1%:M : 'M[rat]_n)))^T) 0 0 != 0.
Proof. exact identity_example. Qed.

(* A = 1 and the whole row doubled: G = 1/2 before and 1/3 after. *)
Example C35_thermal_example : forall n (i : 'I_n),
  1%:M + (1%:M : 'M[rat]_n) \in unitmx /\
  1 + (1 - tgreen (1%:M : 'M[rat]_n) i i) * 1 != 0.
Proof. exact thermal_example. Qed.

(* ---------------------------------------------------------------- C36 *)

(* The sweep, for any list of sites: the stored inverses stay exact, and the
   stored overlap is the true one times the product of the field factors. *)
Theorem C36_sweep_factor :
  forall (K : fieldType) (cj : K -> K) (R : realFieldType) (re : K -> R)
    n nu nd (psiu : 'M[K]_(n, nu)) (psid : 'M[K]_(n, nd))
    (dl : bool -> bool -> K) (wfac : bool -> K),
  2%:R != 0 :> K -> re 0 = 0 ->
  forall sites rs (w w' : walker K R n nu nd) x,
  List.Forall (fun r => is_true (0 <= r < 1)) rs ->
  stored_right cj psiu (phiu w) psid (phid w) (invu w) (invd w) (ot w) x ->
  sweep cj re psiu psid dl wfac sites rs w = Ok w' ->
  exists xs, fields w' = (xs ++ fields w)%list /\
    stored_right cj psiu (phiu w') psid (phid w') (invu w') (invd w') (ot w')
      (x * \prod_(xi <- xs) wfac xi).
Proof. exact sweep_consistent. Qed.

(* With the spin decomposition (all factors 1) the stored overlap is exact
   after the sweep, whether or not the walker was killed on the way. *)
Theorem C36_spin :
  forall (K : fieldType) (cj : K -> K) (R : realFieldType) (re : K -> R)
    n nu nd (psiu : 'M[K]_(n, nu)) (psid : 'M[K]_(n, nd))
    (dl : bool -> bool -> K) (wfac : bool -> K),
  2%:R != 0 :> K -> re 0 = 0 -> (forall xi, wfac xi = 1) ->
  forall rs (w w' : walker K R n nu nd),
  List.Forall (fun r => is_true (0 <= r < 1)) rs ->
  stored_right cj psiu (phiu w) psid (phid w) (invu w) (invd w) (ot w) 1 ->
  two_body_single_site cj re psiu psid dl wfac rs w = Ok w' ->
  stored_right cj psiu (phiu w') psid (phid w') (invu w') (invd w') (ot w') 1.
Proof. exact sweep_spin. Qed.

(* The orbitals after a sweep that was not cut short: every row k multiplied
   by the factors of the field chosen for site k. *)
Theorem C36_orbitals :
  forall (K : fieldType) (cj : K -> K) (R : realFieldType) (re : K -> R)
    n nu nd (psiu : 'M[K]_(n, nu)) (psid : 'M[K]_(n, nd))
    (dl : bool -> bool -> K) (wfac : bool -> K)
    rs (w w' : walker K R n nu nd),
  two_body_single_site cj re psiu psid dl wfac rs w = Ok w' ->
  wt w' = 0 \/
  exists xs : 'I_n -> bool,
    [/\ fields w' = (List.rev (map xs (enum 'I_n)) ++ fields w)%list,
     forall k a, phiu w' k a = (1 + dl (xs k) false) * phiu w k a &
     forall k a, phid w' k a = (1 + dl (xs k) true) * phid w k a].
Proof. exact sweep_full_orbitals. Qed.

(* A whole time step: half kinetic, sweep, half kinetic.  Either the walker
   is dead or its stored quantities are exact. *)
Theorem C36_step :
  forall (K : fieldType) (cj : K -> K) (R : realFieldType) (re : K -> R)
    n nu nd (psiu : 'M[K]_(n, nu)) (psid : 'M[K]_(n, nd))
    (dl : bool -> bool -> K) (wfac : bool -> K),
  2%:R != 0 :> K -> re 0 = 0 ->
  forall (keep : K -> bool) (btu btd : 'M[K]_n) (es : R)
    rs (w w' : walker K R n nu nd),
  (forall xi, wfac xi = 1) ->
  List.Forall (fun r => is_true (0 <= r < 1)) rs ->
  stored_right cj psiu (phiu w) psid (phid w) (invu w) (invd w) (ot w) 1 ->
  propagate_walker_constrained cj re psiu psid dl wfac keep 1 btu btd es rs w
    = Ok w' ->
  wt w' = 0 \/
  stored_right cj psiu (phiu w') psid (phid w') (invu w') (invd w') (ot w') 1.
Proof. exact step_consistent. Qed.

(* With the charge decomposition (cosh gamma = exp(-dt U / 2) = eu) the
   stored overlap is wrong after one site. *)
Theorem C36_charge_refuted :
  exists (eg eu : rat) (dl : bool -> bool -> rat) (wfac : bool -> rat)
    (w w' : walker [fieldType of rat] [realFieldType of rat] 1 1 1) rs,
  (eg + eg^-1) / 2%:R = eu /\
  (forall xi s, dl xi s = (if xi then eg^-1 else eg) * eu - 1) /\
  (forall xi, wfac xi = eu^-1 * (if xi then eg else eg^-1)) /\
  List.Forall (fun r : rat => is_true (0 <= r < 1)) rs /\
  stored_right id 1%:M (phiu w) 1%:M (phid w) (invu w) (invd w) (ot w) 1 /\
  two_body_single_site id id 1%:M 1%:M dl wfac rs w = Ok w' /\
  wt w' != 0 /\
  ot w' <> overlap id 1%:M (phiu w') * overlap id 1%:M (phid w').
Proof. exact charge_refuted. Qed.

(* Fully polarised systems cannot be swept at all. *)
Theorem C36_polarised :
  forall (K : fieldType) (cj : K -> K) (R : realFieldType) (re : K -> R)
    n nu (psiu : 'M[K]_(n.+1, nu.+1)) (psid : 'M[K]_(n.+1, 0))
    (dl : bool -> bool -> K) (wfac : bool -> K) r rs w,
  two_body_single_site cj re psiu psid dl wfac (r :: rs) w = Err ValueError.
Proof. exact polarised. Qed.

(* The two ways of computing the overlap: from the inverses ... *)
Theorem C36_calc_otrial :
  forall (K : fieldType) (cj : K -> K) n mu md (psiu phiu : 'M[K]_(n, mu))
    (psid phid : 'M[K]_(n, md)) s,
  ovlp_mx cj psiu phiu \in unitmx -> ovlp_mx cj psid phid \in unitmx ->
  calc_otrial (inverse_overlap cj psiu phiu) (inverse_overlap cj psid phid) s
  = overlap cj psiu phiu * overlap cj psid phid / s.
Proof. exact calc_otrial_correct. Qed.

(* ... and from the orbitals, when nup = ndown. *)
Theorem C36_calc_overlap :
  forall (K : fieldType) (cj : K -> K) n m (psi phi : 'M[K]_(n, m + m)) s,
  calc_overlap cj psi phi s
  = overlap cj (lsubmx psi) (lsubmx phi)
    * overlap cj (rsubmx psi) (rsubmx phi) * s.
Proof. exact calc_overlap_correct. Qed.

(* With a log shift the two disagree unless exp(-log_shift) is 1 or -1. *)
Theorem C36_log_shift :
  forall (K : fieldType) (cj : K -> K) n m (psi phi : 'M[K]_(n, m + m)) s,
  ovlp_mx cj (lsubmx psi) (lsubmx phi) \in unitmx ->
  ovlp_mx cj (rsubmx psi) (rsubmx phi) \in unitmx -> s != 0 ->
  (calc_otrial (inverse_overlap cj (lsubmx psi) (lsubmx phi))
     (inverse_overlap cj (rsubmx psi) (rsubmx phi)) s
   = calc_overlap cj psi phi s) <-> s ^+ 2 = 1.
Proof. exact log_shift_iff. Qed.

(* With nup <> ndown calc_overlap is not the overlap. *)
Theorem C36_calc_overlap_refuted :
  exists psi phi : 'M[rat]_(1, 1 + 0),
  ovlp_mx id (lsubmx psi) (lsubmx phi) \in unitmx /\
  calc_overlap id psi phi 1
  <> overlap id (lsubmx psi) (lsubmx phi)
     * overlap id (rsubmx psi) (rsubmx phi).
Proof. exact calc_overlap_refuted. Qed.

(* A starting point for a sweep of any size. *)
Example C36_example : forall n,
  stored_right (@id rat) 1%:M (phiu (unit_walker n)) 1%:M (phid (unit_walker n))
    (invu (unit_walker n)) (invd (unit_walker n)) (ot (unit_walker n)) 1.
Proof. exact unit_walker_consistent. Qed.

Print Assumptions C35_sherman_morrison.
Print Assumptions C35_determinant.
Print Assumptions C35_inverse_overlap.
Print Assumptions C35_green.
Print Assumptions C35_ratio.
Print Assumptions C35_ratio_multi_det.
Print Assumptions C35_ratio_ghf.
Print Assumptions C35_ratio_multi_ghf.
Print Assumptions C35_thermal_update.
Print Assumptions C35_thermal_ratio.
Print Assumptions C35_thermal_sweep.
Print Assumptions C36_sweep_factor.
Print Assumptions C36_spin.
Print Assumptions C36_orbitals.
Print Assumptions C36_step.
Print Assumptions C36_charge_refuted.
Print Assumptions C36_polarised.
Print Assumptions C36_calc_otrial.
Print Assumptions C36_calc_overlap.
Print Assumptions C36_log_shift.
Print Assumptions C36_calc_overlap_refuted.
