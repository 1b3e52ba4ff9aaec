(* The discrete Hubbard-Stratonovich transformation.

   Sources (all under /repo/pauxy):
     propagation/hubbard.py 62-81            Hirsch.__init__
     thermal_propagation/hubbard.py 24-49    ThermalDiscrete.__init__
     propagation/hubbard.py 192-220          two_body_single_site (aux_wfac)
     thermal_propagation/hubbard.py 117-142  propagate_walker_constrained
     thermal_propagation/hubbard.py 144-155  propagate_walker_free

   Simplifications: exact real and complex numbers.  numpy.arccosh of a real
   number below one is nan; the model returns None and every value computed
   from it is absent.  A field value is a bool (false = 0, true = 1), a spin
   likewise (false = up). *)

From Coq Require Import Reals List.
From Coquelicot Require Import Complex.

Open Scope R_scope.

Definition arccosh (x : R) : option R :=
  if Rle_dec 1 x then Some (ln (x + sqrt (x * x - 1))) else None.

(* numpy.arccosh(x + 0j) for real x > 0. *)
Definition carccosh (x : R) : C :=
  if Rle_dec 1 x then (ln (x + sqrt (x * x - 1)), 0) else (0, acos x).

Definition Cexp (z : C) : C :=
  (exp (fst z) * cos (snd z), exp (fst z) * sin (snd z)).

Record hs := HS {
  auxf : bool -> bool -> C;      (* [field, spin] *)
  aux_wfac : bool -> C
}.

(* hubbard.py 64-77 / thermal 25-39: before the common factors. *)
Definition base (charge : bool) (dt U : R) : option hs :=
  if charge then
    let gamma := carccosh (exp (- / 2 * dt * U)) in
    Some (HS
      (fun x _ => if x then Cexp (Copp gamma) else Cexp gamma)
      (fun x => Cmult (RtoC (exp (/ 2 * dt * U)))
                  (if x then Cexp gamma else Cexp (Copp gamma))))
  else
    match arccosh (exp (/ 2 * dt * U)) with
    | None => None
    | Some gamma => Some (HS
        (fun x s => RtoC (if xorb x s then exp (- gamma) else exp gamma))
        (fun _ => RtoC 1))
    end.

Definition scale (f : R) (h : hs) : hs :=
  HS (fun x s => Cmult (auxf h x s) (RtoC f)) (aux_wfac h).

(* hubbard.py 62-78 *)
Definition hirsch (charge : bool) (dt U : R) : option hs :=
  option_map (scale (exp (- / 2 * dt * U))) (base charge dt U).

(* thermal_propagation/hubbard.py 24-43 *)
Definition thermal_discrete (charge symmetric : bool) (dt U dmu : R)
  : option hs :=
  option_map (fun h =>
    scale (exp (- dt * dmu))
      (if symmetric then h else scale (exp (- / 2 * dt * U)) h))
    (base charge dt U).
