(* Searching for the chemical potential.

   Sources (all under /repo/pauxy):
     trial_density_matrices/chem_pot.py 7-58   find_chemical_potential
     trial_density_matrices/chem_pot.py 60-61  delta_nav
     analysis/thermal.py 43-102                nav_mu, find_chem_pot

   Simplifications: exact real arithmetic.  The particle number minus the
   target, as computed from the density matrix at mu (chem_pot.py 19-24,
   42-44), is a real function dn of mu.  The widening loop has no bound in the
   code; here it has fuel.  Of the verbose output, the line of each iteration
   (45-47) is kept, as a pair (mu, dmu).  In find_chem_pot, numpy.polyfit and
   scipy.optimize.brentq are arguments, and plotting is left out. *)

From Coq Require Import Reals.
From Verif Require Import Base.
Open Scope R_scope.

Section Search.
Variable dn : R -> R.

(* 18-37.  numpy.sign(a)*numpy.sign(b) > 0 and < 0 are a*b > 0 and a*b < 0.
   Returns mu1, mu2, dmu1, dmu2 after the loop. *)
Fixpoint widen (fuel : nat) (mu1 mu2 dmu1 dmu2 : R) : res (R * R * R * R) :=
  if Rlt_dec 0 (dmu1 * dmu2) then
    match fuel with
    | O => Err OutOfFuel
    | S fuel' =>
        let dmu1 := dn mu1 in
        let dmu2 := dn mu2 in
        if Rlt_dec (dmu1 * dmu2) 0 then Ok (mu1, mu2, dmu1, dmu2)
        else widen fuel' (mu1 - 2) (mu2 + 2) dmu1 dmu2
    end
  else Ok (mu1, mu2, dmu1, dmu2).

(* 41-55. *)
Fixpoint bisect (deps : R) (it : nat) (mu1 mu2 dmu1 dmu2 : R)
  : option R * list (R * R) :=
  match it with
  | O => (None, [])
  | S it' =>
      let mu := / 2 * (mu1 + mu2) in
      let dmu := dn mu in
      if Rlt_dec (Rabs dmu) deps then (Some mu, [(mu, dmu)])
      else
        let (r, out) :=
          if Rlt_dec 0 (dmu * dmu1) then bisect deps it' mu mu2 dmu1 dmu2
          else if Rlt_dec 0 (dmu * dmu2) then bisect deps it' mu1 mu dmu1 dmu2
          else bisect deps it' mu1 mu2 dmu1 dmu2 in
        (r, (mu, dmu) :: out)
  end.

Definition find_chemical_potential (deps : R) (max_it fuel : nat)
  : res (option R * list (R * R)) :=
  rbind (widen fuel (-1) 1 1 1) (fun '(mu1, mu2, dmu1, dmu2) =>
  Ok (bisect deps max_it mu1 mu2 dmu1 dmu2)).

End Search.

(* thermal.py 46-102.  A data point is (mu, delta, error); the division by the
   volume and the replacement of zero errors happen before.  polyfit returns
   the coefficients and the array of residuals (empty when the fit is rank
   deficient); brentq returns the root and r.converged, or None for the
   ValueError of an interval without sign change. *)
Section Fit.
Variable Coef : Type.
Variable order : nat.
Variable polyfit : list (R * R * R) -> Coef * list R.
Variable brentq : Coef -> R -> R -> option (R * bool).

Definition lowest (l : list R) (d : R) : R := fold_right Rmin d l.
Definition highest (l : list R) (d : R) : R := fold_right Rmax d l.

Record vars : Type := MkVars
  { v_rmin : option R ; v_mumin : option R ;
    v_mu : option (option R) ;              (* None: not bound *)
    v_conv : option bool }.                 (* r.converged *)

(* 60-81; s = k and e = length data - k. *)
Fixpoint fit_loop (data : list (R * R * R)) (fuel s e : nat) (v : vars)
  : res vars :=
  if (order + 1 <? e - s)%nat then
    match fuel with
    | O => Err OutOfFuel
    | S fuel' =>
        let w := firstn (e - s) (skipn s data) in
        let mus := map (fun x => fst (fst x)) w in
        let '(fit, r) := polyfit w in
        let a := lowest mus (hd 0 mus) in
        let b := highest mus (hd 0 mus) in
        let next := fit_loop data fuel' (s + 1) (e - 1) in
        match brentq fit a b with
        | Some (mu, conv) =>
            match r with
            | [] => Err IndexError                       (* res[0] *)
            | r0 :: _ =>
                match v_rmin v with
                | None =>
                    next (MkVars (Some r0) (Some mu) (Some (Some mu)) (Some conv))
                | Some rm =>
                    if Rlt_dec r0 rm
                    then next (MkVars (Some rm) (Some mu) (Some (Some mu)) (Some conv))
                    else next (MkVars (Some rm) (v_mumin v) (Some (Some mu)) (Some conv))
                end
            end
        | None => next (MkVars (v_rmin v) (v_mumin v) (Some None) (v_conv v))
        end
    end
  else Ok v.

(* 98-102. *)
Definition find_chem_pot (data : list (R * R * R)) : res (option R) :=
  rbind (fit_loop data (length data) 0 (length data) (MkVars None None None None))
  (fun v =>
  match v_mu v with
  | None => Err UnboundLocalError
  | Some None => Ok None
  | Some (Some _) =>
      match v_conv v with
      | None => Err UnboundLocalError
      | Some true =>
          match v_mumin v with
          | None => Err UnboundLocalError
          | Some m => Ok (Some m)
          end
      | Some false => Ok None
      end
  end).

End Fit.
Arguments fit_loop {Coef}.
Arguments find_chem_pot {Coef}.
