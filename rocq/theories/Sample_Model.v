(* Importance sampling of auxiliary fields.

   Sources (all under /repo/pauxy):
     propagation/hubbard.py 190-220     two_body_single_site
     propagation/hubbard.py 237-275     two_body_direct
     propagation/hubbard.py 320-345     propagate_walker_free
     propagation/continuous.py 131-156  two_body_propagator (xshifted, cfb)

   Simplifications: exact real arithmetic.  A Slater determinant is a value
   of an arbitrary type S, on which field x of site i acts by apply s i x.
   The overlap ratio of the code is a function of the determinant, the site
   and the field (C35 shows that it is a ratio of determinants).  Overlaps
   are real.  The random numbers are an input list, one per site; numpy draws
   them from [0, 1). *)

From Coq Require Import Reals List.
Import ListNotations.
Open Scope R_scope.

Section Discrete.
Variable S : Type.
Variable apply : S -> nat -> bool -> S.
Variable ratio : S -> nat -> bool -> R.    (* calculate_overlap_ratio, without 0.5 *)
Variable wfac : bool -> R.                 (* aux_wfac *)

Definition probs (s : S) (i : nat) (x : bool) : R := / 2 * ratio s i x * wfac x.

(* Sites in order; r < phaseless_ratio[0]/norm selects field 0 (false). *)
Fixpoint single_site (sites : list nat) (rs : list R) (w : R) (s : S) : R * S :=
  match sites, rs with
  | i :: sites', r :: rs' =>
      let p0 := Rmax (probs s i false) 0 in
      let p1 := Rmax (probs s i true) 0 in
      let norm := p0 + p1 in
      if Rlt_dec 0 norm then
        let xi := if Rlt_dec r (p0 / norm) then false else true in
        single_site sites' rs' (w * norm) (apply s i xi)
      else (0, s)
  | _, _ => (w, s)
  end.

(* two_body_direct 238-256.  ep i and em i are the real parts of
   exp(gamma * fb_term[i]) and exp(-gamma * fb_term[i]).  Returns the fields
   and fb_fac. *)
Variables ep em : nat -> R.

Fixpoint direct_fields (sites : list nat) (rs : list R) (fb : R)
  : list bool * R :=
  match sites, rs with
  | i :: sites', r :: rs' =>
      let pp := / 2 * ep i in
      let pm := / 2 * em i in
      let norm := pp + pm in
      let (xi, fac) :=
        if Rlt_dec r (pp / norm) then (false, / 2 * norm * em i)
        else (true, / 2 * norm * ep i) in
      let (xs, fb') := direct_fields sites' rs' (fb * fac) in
      (xi :: xs, fb')
  | _, _ => ([], fb)
  end.

Fixpoint apply_all (s : S) (sites : list nat) (xs : list bool) : S :=
  match sites, xs with
  | i :: sites', x :: xs' => apply_all (apply s i x) sites' xs'
  | _, _ => s
  end.

(* two_body_direct 258-275; keep is the test abs(phase) < pi/2, which for a
   real ratio is 0 <= ratio. *)
Variable ov : S -> R.

Definition direct (sites : list nat) (rs : list R) (w : R) (s : S) : R * S :=
  let (fields, fb_fac) := direct_fields sites rs 1 in
  let s' := apply_all s sites fields in
  let wf := fold_left (fun a x => a * wfac x) fields 1 in
  let rt := wf * ov s' / ov s in
  if Rle_dec 0 rt then (w * (fb_fac * rt), s') else (0, s').

(* propagate_walker_free 321-335 for a walker of non-zero weight, without the
   one-body half steps and the constant exp(dt*eshift).  wf is the running
   product of the factors, which multiplies the weight at the end. *)
Fixpoint free (sites : list nat) (rs : list R) (wf : R) (s : S) : R * S :=
  match sites, rs with
  | i :: sites', r :: rs' =>
      let xi := if Rlt_dec r (/ 2) then false else true in
      free sites' rs' (wf * wfac xi) (apply s i xi)
  | _, _ => (wf, s)
  end.

End Discrete.

(* continuous.py 151-156 *)
Fixpoint dot (a b : list R) : R :=
  match a, b with
  | x :: a', y :: b' => x * y + dot a' b'
  | _, _ => 0
  end.

Fixpoint vminus (a b : list R) : list R :=
  match a, b with
  | x :: a', y :: b' => (x - y) :: vminus a' b'
  | _, _ => []
  end.

Definition xshifted (xi xbar : list R) : list R := vminus xi xbar.
Definition cfb (xi xbar : list R) : R := dot xi xbar - / 2 * dot xbar xbar.
