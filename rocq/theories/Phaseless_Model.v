(* Weight updates of the phaseless approximation and the force-bias cap.

   Sources (all under /repo/pauxy):
     propagation/continuous.py 136-156   two_body_propagator
     propagation/continuous.py 202-214   apply_bound_hybrid
     propagation/continuous.py 216-230   apply_bound_local_energy
     propagation/continuous.py 264-292   update_weight_hybrid
     propagation/continuous.py 294-318   update_weight_local_energy
     propagation/pw.py 188-195, 218-249  apply_bound, propagate_walker_phaseless
     propagation/operations.py 92-117    local_energy_bound
     propagation/hubbard.py 160-171      kinetic_importance_sampling
     thermal_propagation/continuous.py 105-110, 231-256
     thermal_propagation/planewave.py 248-261, 495-514

   Simplifications: exact real and complex numbers.  The largest float is a
   parameter big: cmath.exp raises OverflowError beyond it (the module does
   not return inf) and numpy.exp returns inf.  The random numbers, the fields
   and the overlaps of the new determinant are inputs.  A zero old overlap
   makes numpy produce nan; the model returns an error there. *)

From Coq Require Import Reals List.
From Verif Require Import Base.
Set Warnings "-ambiguous-paths".
From Coquelicot Require Import Complex.
Import ListNotations.
Open Scope R_scope.

(* cmath.phase *)
Definition arg (z : C) : R :=
  if Req_EM_T (Cmod z) 0 then 0
  else let a := acos (fst z / Cmod z) in if Rle_dec 0 (snd z) then a else - a.

Record walker := W {
  weight : R;
  hyb : C;          (* hybrid_energy *)
  eloc : C;
  ot : C;
  wfac : C * R      (* what field_configs.update receives *)
}.

(* apply_bound_hybrid; the second component is the change of nhe_trig *)
Definition bound_hybrid (ebound : R) (e eshift : C) : C * nat :=
  if Rlt_dec (Cmod eshift) (/ 10 ^ 10) then (e, 0%nat)
  else if Rlt_dec (fst eshift + ebound) (fst e) then ((fst eshift + ebound, snd e), 1%nat)
  else if Rlt_dec (fst e) (fst eshift - ebound) then ((fst eshift - ebound, snd e), 1%nat)
  else (e, 0%nat).

(* pw.py 188-195: no exception for a small shift *)
Definition bound_pw (ebound : R) (e eshift : C) : C * nat :=
  if Rlt_dec (fst eshift + ebound) (fst e) then ((fst eshift + ebound, snd e), 1%nat)
  else if Rlt_dec (fst e) (fst eshift - ebound) then ((fst eshift - ebound, snd e), 1%nat)
  else (e, 0%nat).

(* apply_bound_local_energy: the clipped value is real *)
Definition bound_local (ebound : R) (e eshift : C) : C * nat :=
  if Rlt_dec (Cmod eshift) (/ 10 ^ 10) then (e, 0%nat)
  else if Rlt_dec (fst eshift + ebound) (fst e) then (RtoC (fst eshift + ebound), 1%nat)
  else if Rlt_dec (fst e) (fst eshift - ebound) then (RtoC (fst eshift - ebound), 1%nat)
  else (e, 0%nat).

(* operations.py local_energy_bound *)
Definition local_energy_bound (e mean threshold : R) : R :=
  if Rle_dec (mean + threshold) e then mean + threshold
  else if Rlt_dec e (mean - threshold) then mean - threshold
  else e.

Definition tiny : R := / 10 ^ 16.

(* update_weight_hybrid, given the function that bounds the energy *)
Definition update_hybrid (big dt : R) (bound : C -> C -> C * nat) (w : walker)
    (ovlp ovlp_new cfb cmf eshift : C) : res (walker * nat) :=
  if Req_EM_T (Cmod ovlp) 0 then Err ZeroDivisionError
  else
    let r := Cdiv ovlp_new ovlp in
    if Req_EM_T (Cmod r) 0 then Err ValueError
    else
      let log : C := (ln (Cmod r), arg r) in
      let h := Cdiv (Copp (Cplus (Cplus log cfb) cmf)) (RtoC dt) in
      let (h', trig) := bound h eshift in
      let ex := Cmult (RtoC (- dt))
                  (Cminus (Cmult (RtoC (/ 2)) (Cplus h' (hyb w))) eshift) in
      let magn := exp (fst ex) in
      if Rlt_dec big magn then Err OverflowError
      else
        let dtheta := snd (Cminus (Cmult (RtoC (- dt)) h') cfb) in
        let cosine := Rmax 0 (cos dtheta) in
        Ok (W (weight w * (magn * cosine)) h' (eloc w) ovlp_new
              (if Rlt_dec tiny magn then ((cos (snd ex), sin (snd ex)), cosine)
               else (RtoC 0, 0)), trig).

(* A sequence of steps of one walker; the inputs of a step are the old and new
   overlap, cfb, cmf and the shift. *)
Fixpoint run_hybrid (big dt : R) (bound : C -> C -> C * nat)
    (steps : list (C * C * C * C * C)) (w : walker) : res walker :=
  match steps with
  | [] => Ok w
  | (ovlp, ovlp_new, cfb, cmf, eshift) :: rest =>
      match update_hybrid big dt bound w ovlp ovlp_new cfb cmf eshift with
      | Ok (w', _) => run_hybrid big dt bound rest w'
      | Err e => Err e
      end
  end.

(* update_weight_local_energy; e is the local energy of the new determinant *)
Definition update_local (big dt ebound : R) (w : walker)
    (ovlp ovlp_new e eshift : C) : res (walker * nat) :=
  if Req_EM_T (Cmod ovlp) 0 then Err ZeroDivisionError
  else
    let r := Cdiv ovlp_new ovlp in
    let (re, trig) := bound_local ebound e eshift in
    let magn := exp (- / 2 * dt * fst (Cminus (Cplus re (eloc w)) eshift)) in
    let wfac_imag := exp (- / 2 * dt * snd (Cminus (Cplus e (eloc w)) eshift)) in
    if Rlt_dec big magn then Err NameError      (* walker.ot = ot_new *)
    else
      let cosine := Rmax 0 (cos (arg r)) in
      Ok (W (weight w * (magn * cosine)) (hyb w) e ovlp_new
            (if Rlt_dec tiny magn then (RtoC wfac_imag, cosine) else (RtoC 0, 0)), trig).

(* The thermal update: oratio is the ratio of determinants; the returned
   value is the new weight.  mf is mf_const_fac. *)
Definition update_thermal (big mf : R) (weight : R) (m0 mnew cfb cmf : C) : res R :=
  if Req_EM_T (Cmod mnew) 0 then Ok 0
  else
    let r := Cdiv m0 mnew in
    if Req_EM_T (Cmod r) 0 then Err ValueError
    else
      let h := Cplus (Cplus (ln (Cmod r), arg r) cfb) cmf in
      if Rlt_dec big (exp (fst h)) then Err OverflowError
      else
        let magn := Rabs mf * exp (fst h) in
        if Rlt_dec big magn then Ok 0
        else
          let dtheta := snd (Cminus h cfb) in
          Ok (weight * (magn * Rmax 0 (cos dtheta))).

(* kinetic_importance_sampling: half pi is excluded *)
Definition update_kinetic (w : R) (otold otnew : C) : res (R * C) :=
  if Req_EM_T (Cmod otold) 0 then Err ZeroDivisionError
  else
    let r := Cdiv otnew otold in
    if Rlt_dec (Rabs (arg r)) (/ 2 * PI) then Ok (w * fst r, otnew)
    else Ok (0, otold).

(* The loop over the force bias: the new force bias and the number of
   rescalings.  The limit is 1 except in thermal_propagation/planewave.py. *)
Fixpoint cap (limit : R) (xbar : list C) : list C * nat :=
  match xbar with
  | [] => ([], 0%nat)
  | x :: rest =>
      let (rest', n) := cap limit rest in
      if Rlt_dec limit (Cmod x) then (Cdiv x (RtoC (Cmod x)) :: rest', S n)
      else (x :: rest', n)
  end.

(* Many calls: nfb_trig is kept on the propagator. *)
Definition cap_calls (nfb_trig : nat) (calls : list (list C)) : list (list C) * nat :=
  fold_left (fun st x => let (y, n) := cap 1 x in (fst st ++ [y], (snd st + n)%nat))
            calls ([], nfb_trig).
