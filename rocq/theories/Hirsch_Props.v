(* C37: the discrete Hubbard-Stratonovich transformation is exact. *)

From Coq Require Import Reals List Lra.
From Coquelicot Require Import Complex.
From Verif Require Import Hirsch_Model Hirsch_Spec Hirsch_Proofs.
Import ListNotations.
Open Scope R_scope.

(* One site, zero temperature: charge decomposition for every U, spin
   decomposition for dt U >= 0. *)
Theorem C37_hirsch : forall charge dt U, charge = true \/ 0 <= dt * U ->
  exists h, hirsch charge dt U = Some h /\ forall nu nd,
    average (auxf h) (aux_wfac h) nu nd
    = RtoC (exp (- dt * U * (occ nu * occ nd))).
Proof. exact hirsch_exact. Qed.

(* Any number of sites, all field configurations. *)
Theorem C37_lattice : forall charge dt U, charge = true \/ 0 <= dt * U ->
  exists h, hirsch charge dt U = Some h /\ forall ns,
    lattice_average (auxf h) (aux_wfac h) ns
    = RtoC (exp (- dt * U
                 * rsum (map (fun n => occ (fst n) * occ (snd n)) ns))).
Proof. exact lattice_exact. Qed.

(* The spin decomposition has no fields (nan) for an attractive interaction. *)
Theorem C37_attractive_spin : forall dt U, dt * U < 0 ->
  base false dt U = None.
Proof. exact base_spin_nan. Qed.

(* Thermal: with the symmetric convention and a shifted chemical potential. *)
Theorem C37_thermal : forall charge symmetric dt U dmu,
  charge = true \/ 0 <= dt * U ->
  exists h, thermal_discrete charge symmetric dt U dmu = Some h /\
  forall nu nd,
    average (auxf h) (aux_wfac h) nu nd
    = RtoC (exp (- dt * (U * (occ nu * occ nd)
                         - (if symmetric then U * (occ nu + occ nd) / 2 else 0)
                         + dmu * (occ nu + occ nd)))).
Proof. exact thermal_exact. Qed.

(* The constrained thermal propagator leaves aux_wfac out.  With the charge
   decomposition the average is then not exp(-dt U nu nd), for any
   normalisation Z and any fugacity z, unless there is no interaction. *)
Theorem C37_constrained_charge_refuted : forall dt U h symmetric,
  thermal_discrete true symmetric dt U 0 = Some h ->
  (exists Z z : R, forall nu nd,
     average (auxf h) (fun _ => RtoC 1) nu nd
     = RtoC (Z * z ^ ((if nu then 1 else 0) + (if nd then 1 else 0))%nat
             * exp (- dt * U * (occ nu * occ nd))))
  <-> dt * U = 0.
Proof. exact constrained_charge. Qed.

(* dt = 1/100, U = 4 (repulsive) and U = -4 (attractive). *)
Example C37_example :
  (false = true \/ 0 <= / 100 * 4) /\ (true = true \/ 0 <= / 100 * -4) /\
  / 100 * -4 < 0.
Proof. repeat split; [right; lra|left; reflexivity|lra]. Qed.

Print Assumptions C37_hirsch.
Print Assumptions C37_lattice.
Print Assumptions C37_attractive_spin.
Print Assumptions C37_thermal.
Print Assumptions C37_constrained_charge_refuted.
