(* Rank-one updates: the Sherman-Morrison formula, inverse overlaps, Green's
   functions and overlap ratios after a single-site change, and the site
   sweeps that use them.

   Sources (all under /repo/pauxy):
     utils/linalg.py 6-31                   sherman_morrison
     walkers/single_det.py 96-213           inverse_overlap,
                                            update_inverse_overlap,
                                            calc_otrial, calc_overlap,
                                            update_overlap
     walkers/single_det.py 292-321          greens_function
     propagation/hubbard.py 104-128         update_greens_function_uhf
     propagation/hubbard.py 146-220         kinetic_importance_sampling,
                                            two_body_single_site
     propagation/hubbard.py 277-301         propagate_walker_constrained
     propagation/hubbard.py 483-551         calculate_overlap_ratio_*
     thermal_propagation/hubbard.py 91-142  update_greens_function,
                                            calculate_overlap_ratio,
                                            propagate_walker_constrained

   Simplifications: numbers are elements of an arbitrary field K (exact
   arithmetic); complex conjugation is any function cj : K -> K; 0.5 is the
   inverse of 2.  Division by zero is total in the model (x / 0 = 0), so all
   theorems carry the non-vanishing conditions.  scipy.linalg.inv of a
   singular matrix raises in the code; invmx is total in the model, and the
   theorems assume unitmx.  log-determinants are modelled as determinants,
   with s standing for exp(-log_shift).  The back-propagation field store is
   a list of the pushed fields.  The random numbers are an input list. *)

From Verif Require Import Base.
Set Warnings "-notation-overridden,-ambiguous-paths".
From mathcomp Require Import all_ssreflect all_algebra.

Set Implicit Arguments.
Unset Strict Implicit.
Unset Printing Implicit Defensive.

Import GRing.Theory Num.Theory.
Local Open Scope ring_scope.

Section Updates.
Variable K : fieldType.
Variable cj : K -> K.

(* linalg.py 29-31.  u and vt are one-dimensional arrays, here row vectors. *)
Definition sherman_morrison n (Ainv : 'M[K]_n) (u vt : 'rV[K]_n) : 'M[K]_n :=
  Ainv - (1 + (vt *m Ainv *m u^T) 0 0)^-1 *: (Ainv *m (u^T *m vt) *m Ainv).

(* phi[i,:] = phi[i,:] + v *)
Definition add_row n m (phi : 'M[K]_(n, m)) (i : 'I_n) (v : 'rV[K]_m)
  : 'M[K]_(n, m) :=
  \matrix_(k, a) (phi k a + (if k == i then v 0 a else 0)).

(* single_det.py 107-115: inv(psi.conj().T.dot(phi)) for one spin. *)
Definition inverse_overlap n m (psi phi : 'M[K]_(n, m)) : 'M[K]_m :=
  invmx ((map_mx cj psi)^T *m phi).

(* single_det.py 134-139, one spin. *)
Definition update_inverse_overlap n m (psi : 'M[K]_(n, m)) (inv : 'M[K]_m)
    (vt : 'rV[K]_m) (i : 'I_n) : 'M[K]_m :=
  sherman_morrison inv (map_mx cj (row i psi)) vt.

(* hubbard.py 121-124, one spin: vup.dot(inv_ovlp.T.dot(uup)). *)
Definition fast_gii n m (psi phi : 'M[K]_(n, m)) (inv : 'M[K]_m) (i : 'I_n)
  : K :=
  (map_mx cj (row i psi) *m (inv^T *m (row i phi)^T)) 0 0.

(* single_det.py 308-311, one spin. *)
Definition greens_function n m (psi phi : 'M[K]_(n, m)) : 'M[K]_n :=
  let ovlp := phi^T *m map_mx cj psi in
  let Gmod := invmx ovlp *m phi^T in
  map_mx cj psi *m Gmod.

(* hubbard.py 549-551 for one field, given G[s][i,i]. *)
Definition ratio_single_det (du dd gu gd : K) : K :=
  2%:R^-1 * ((1 + du * gu) * (1 + dd * gd)).

(* hubbard.py 528-535 for one field: the sum over the determinants of the
   trial.  ots.[0] and ots.[1] are the overlaps of the two spins. *)
Definition ratio_multi_det N (coeffs : 'I_N -> K) (otu otd : 'I_N -> K)
    (gu gd : 'I_N -> K) (ot du dd : K) : K :=
  2%:R^-1 *
  ((\sum_x coeffs x * (((1 + du * gu x) * otu x) * ((1 + dd * gd x) * otd x)))
   / ot).

(* hubbard.py 498-511 for one field.  The Green's function of each
   determinant is 2 nbasis x 2 nbasis. *)
Definition ratio_ghf n (G : 'M[K]_(n + n)) (i : 'I_n) (du dd : K) : K :=
  let guu := G (lshift n i) (lshift n i) in
  let gdd := G (rshift n i) (rshift n i) in
  let gud := G (lshift n i) (rshift n i) in
  let gdu := G (rshift n i) (lshift n i) in
  (1 + du * guu) * (1 + dd * gdd) - du * gud * dd * gdu.

Definition ratio_multi_ghf n N (coeffs ots : 'I_N -> K)
    (G : 'I_N -> 'M[K]_(n + n)) (ot : K) (i : 'I_n) (du dd : K) : K :=
  2%:R^-1 * ((\sum_x coeffs x * ratio_ghf (G x) i du dd * ots x) / ot).

(* thermal_propagation/hubbard.py 91-99, one spin. *)
Definition thermal_update n (G : 'M[K]_n) (i : 'I_n) (d : K) : 'M[K]_n :=
  let g := col i G in
  let gbar := delta_mx 0 i - row i G in
  let denom := 1 + (1 - G i i) * d in
  G - (d / denom) *: (g *m gbar).

(* thermal_propagation/hubbard.py 106-111 for one field. *)
Definition thermal_ratio n (Gu Gd : 'M[K]_n) (i : 'I_n) (du dd : K) : K :=
  2%:R^-1 * ((1 + (1 - Gu i i) * du) * (1 + (1 - Gd i i) * dd)).

(* single_det.py 156-162 and 183-192 (no bosons); s = exp(-log_shift).
   calc_overlap slices both spins at na = self.ndown. *)
Definition calc_otrial nu nd (invu : 'M[K]_nu) (invd : 'M[K]_nd) (s : K) : K :=
  let det :=
    \det invu * (if (nd == 0)%N then 1 else \det invd) * s in
  1 / det.

Definition calc_overlap n nu nd (psi phi : 'M[K]_(n, nu + nd)) (s : K) : K :=
  let psi' := castmx (erefl n, addnC nu nd) psi in
  let phi' := castmx (erefl n, addnC nu nd) phi in
  let Oalpha := (map_mx cj (lsubmx psi'))^T *m lsubmx phi' in
  let Obeta := (map_mx cj (rsubmx psi'))^T *m rsubmx phi' in
  \det Oalpha * (if (nd == 0)%N then 1 else \det Obeta) * s.

End Updates.

(* ------------------------------------------------------------------ *)
(* The zero-temperature sweep. *)
Section Sweep.
Variable K : fieldType.
Variable cj : K -> K.
Variable R : realFieldType.
Variable re : K -> R.          (* .real *)
Variables n nu nd : nat.       (* nbasis, nup, ndown *)
Variables (psiu : 'M[K]_(n, nu)) (psid : 'M[K]_(n, nd)).  (* trial.psi *)
Variable dl : bool -> bool -> K.   (* delta[xi, spin]; false = 0, true = 1 *)
Variable wfac : bool -> K.         (* aux_wfac[xi] *)

Record walker := Walker {
  phiu : 'M[K]_(n, nu);
  phid : 'M[K]_(n, nd);
  invu : 'M[K]_nu;
  invd : 'M[K]_nd;
  ot : K;
  wt : R;
  fields : list bool          (* pushed fields, most recent first *)
}.

(* hubbard.py 197-198: the two entries of probs for site i. *)
Definition probs (w : walker) (i : 'I_n) (xi : bool) : K :=
  ratio_single_det (dl xi false) (dl xi true)
    (fast_gii cj psiu (phiu w) (invu w) i)
    (fast_gii cj psid (phid w) (invd w) i) * wfac xi.

Definition choose (p : bool -> K) (r : R) : option (R * bool) :=
  let p0 := Num.max (re (p false)) 0 in
  let p1 := Num.max (re (p true)) 0 in
  let norm := p0 + p1 in
  if (0 < norm) then Some (norm, ~~ (r < p0 / norm)) else None.

Definition apply_field (w : walker) (i : 'I_n) (p : bool -> K) (norm : R)
    (xi : bool) : walker :=
  let vtup := dl xi false *: row i (phiu w) in
  let vtdown := dl xi true *: row i (phid w) in
  Walker (add_row (phiu w) i vtup) (add_row (phid w) i vtdown)
    (update_inverse_overlap cj psiu (invu w) vtup i)
    (update_inverse_overlap cj psid (invd w) vtdown i)
    (2%:R * ot w * p xi) (wt w * norm) (xi :: fields w).

Definition kill (w : walker) : walker :=
  Walker (phiu w) (phid w) (invu w) (invd w) (ot w) 0 (fields w).

(* two_body_single_site 190-220 over the remaining sites.  inv_ovlp[1] is a
   nup x nup array of zeros when ndown = 0 (single_det.py 111), so that
   update_greens_function_uhf raises on the product with the empty row. *)
Fixpoint sweep (sites : list 'I_n) (rs : list R) (w : walker) : res walker :=
  match sites, rs with
  | [::], _ => Ok w
  | i :: sites', r :: rs' =>
      if ((nd == 0) && (nu != 0))%N then Err ValueError
      else
        let p := probs w i in
        match choose p r with
        | Some (norm, xi) => sweep sites' rs' (apply_field w i p norm xi)
        | None => Ok (kill w)
        end
  | _, [::] => Err OutOfFuel      (* the caller supplies one number per site *)
  end.

Definition two_body_single_site (rs : list R) (w : walker) : res walker :=
  sweep (enum 'I_n) rs w.

(* kinetic_importance_sampling 160-170.  keep is the test
   abs(phase) < pi/2; s is exp(-log_shift). *)
Variable keep : K -> bool.
Variable s : K.
Variables (btu btd : 'M[K]_n).

Definition kinetic_importance_sampling (w : walker) : walker :=
  let phiu' := btu *m phiu w in
  let phid' := btd *m phid w in
  let iu := inverse_overlap cj psiu phiu' in
  let id := inverse_overlap cj psid phid' in
  let ot_new := calc_otrial iu id s in
  let ratio := ot_new / ot w in
  if keep ratio
  then Walker phiu' phid' iu id ot_new (wt w * re ratio) (fields w)
  else Walker phiu' phid' iu id (ot w) 0 (fields w).

(* propagate_walker_constrained 295-301; es = exp(dt * eshift). *)
Variable es : R.

Definition propagate_walker_constrained (rs : list R) (w : walker)
  : res walker :=
  let w1 := if wt w == 0 then w else kinetic_importance_sampling w in
  rbind (if wt w1 == 0 then Ok w1 else two_body_single_site rs w1) (fun w2 =>
  let w3 := if wt w2 == 0 then w2 else kinetic_importance_sampling w2 in
  Ok (Walker (phiu w3) (phid w3) (invu w3) (invd w3) (ot w3)
        (wt w3 * es) (fields w3))).

End Sweep.

(* ------------------------------------------------------------------ *)
(* The thermal sweep, thermal_propagation/hubbard.py 117-135: the fields of
   one time slice are chosen site by site; G is updated after each choice,
   and BV collects the chosen diagonal.  eshift = 0. *)
Section ThermalSweep.
Variable K : fieldType.
Variable R : realFieldType.
Variable re : K -> R.
Variable n : nat.
Variable dl : bool -> bool -> K.      (* delta[xi, spin] = auxf[xi, spin] - 1 *)

Record twalker := TWalker {
  gu : 'M[K]_n;
  gd : 'M[K]_n;
  twt : R;
  bvu : 'rV[K]_n;
  bvd : 'rV[K]_n
}.

Definition set_entry (v : 'rV[K]_n) (i : 'I_n) (x : K) : 'rV[K]_n :=
  \row_k (if k == i then x else v 0 k).

Definition thermal_site (w : twalker) (i : 'I_n) (r : R) : twalker :=
  let p := fun xi => thermal_ratio (gu w) (gd w) i (dl xi false) (dl xi true) in
  match choose re p r with
  | Some (norm, xi) =>
      TWalker (thermal_update (gu w) i (dl xi false))
        (thermal_update (gd w) i (dl xi true)) (twt w * norm)
        (set_entry (bvu w) i (dl xi false + 1))
        (set_entry (bvd w) i (dl xi true + 1))
  | None => TWalker (gu w) (gd w) 0 (bvu w) (bvd w)
  end.

Fixpoint thermal_sweep (sites : list 'I_n) (rs : list R) (w : twalker)
  : twalker :=
  match sites, rs with
  | i :: sites', r :: rs' => thermal_sweep sites' rs' (thermal_site w i r)
  | _, _ => w
  end.

End ThermalSweep.
