(* Wavefunctions of lattice phonons and their imaginary time steps.

   Sources (all under /repo/pauxy):
     trial_wavefunction/harmonic_oscillator.py 7-44    HarmonicOscillator
     trial_wavefunction/harmonic_oscillator.py 46-78   HarmonicOscillatorMomentum
     trial_wavefunction/coherent_state.py 530-600      CoherentState.value, gradient,
                                                       laplacian, bosonic_local_energy
     propagation/hubbard_holstein.py 304-313           HirschDMC.acceptance
     propagation/hubbard_holstein.py 315-363           boson_importance_sampling
     propagation/hubbard_holstein.py 440-462           boson_free_propagation

   Simplifications: exact real and complex numbers.  Displacements are lists with one
   number per site.  The permuted or given shifts of a symmetrized trial, the overlaps
   of the electrons with each of its parts (walker.ots) and the coefficients come as one
   list.  Displacements stay real: numpy would make them complex with a complex drift, so
   the step is modelled for trials with one coherent state.  The normal random numbers are
   inputs. *)

From Coq Require Import Reals List.
From Verif Require Import Base.
Set Warnings "-ambiguous-paths".
From Coquelicot Require Import Complex.
Import ListNotations.
Open Scope R_scope.

(* numpy arithmetic on two arrays of one length *)
Definition each2 (f : R -> R -> R) (X s : list R) : list R :=
  map (fun p => f (fst p) (snd p)) (combine X s).
Definition rsum (l : list R) : R := fold_right Rplus 0 l.
Definition rprod (l : list R) : R := fold_right Rmult 1 l.

Section Oscillator.
Variables m w : R.

(* harmonic_oscillator.py 20-44 *)
Definition value (s X : list R) : R :=
  rprod (each2 (fun x a => 1 * exp (- (m * w / 2) * (x - a) * (x - a))) X s).
Definition gradient (s X : list R) : list R :=
  each2 (fun x a => - m * w * (x - a)) X s.
Definition laplacian (s X : list R) : list R :=
  each2 (fun x a => m * m * w * w * (x - a) * (x - a) - w * m) X s.
Definition local_energy (s X : list R) : R :=
  let nsites := INR (length X) in
  let ke := - (1 / 2) * rsum (laplacian s X) / m in
  let pot := 1 / 2 * m * w * w * rsum (map (fun x => x * x) X) in
  ke + pot - 1 / 2 * w * nsites.

(* harmonic_oscillator.py 46-78 *)
Definition value_p (s P : list R) : R :=
  rprod (each2 (fun p a => 1 * exp (- (1 / (2 * m * w)) * (p - a) * (p - a))) P s).
Definition gradient_p (s P : list R) : list R :=
  each2 (fun p a => - (1 / (m * w)) * (p - a)) P s.
Definition laplacian_p (s P : list R) : list R :=
  each2 (fun p a => (1 / (m * w)) ^ 2 * (p - a) * (p - a) - 1 / (m * w)) P s.
Definition local_energy_p (s P : list R) : R :=
  let nsites := INR (length P) in
  let ke := 1 / (2 * m) * rsum (map (fun p => p * p) P) in
  let pot := - (1 / 2) * m * w * w * rsum (laplacian_p s P) in
  ke + pot - 1 / 2 * w * nsites.

(* A part of a symmetrized trial: its shift, the overlap of the electrons and the
   coefficient. *)
Record part := Part { shift : list R; ots : C; coeff : C }.
Definition csum (l : list C) : C := fold_right Cplus 0%C l.

(* coherent_state.py 530-547 *)
Definition sym_value (parts : list part) (X : list R) : C :=
  csum (map (fun p => RtoC (value (shift p) X) * ots p * Cconj (coeff p))%C parts).

(* coherent_state.py 549-569 *)
Definition sym_gradient (parts : list part) (X : list R) : list C :=
  map (fun i => csum (map (fun p =>
         RtoC (value (shift p) X) * RtoC (nth i (gradient (shift p) X) 0)
         * ots p * coeff p)%C parts) / sym_value parts X)%C
      (seq 0 (length X)).

(* coherent_state.py 571-592 *)
Definition sym_laplacian (parts : list part) (X : list R) : list C :=
  map (fun i => csum (map (fun p =>
         RtoC (value (shift p) X) * RtoC (nth i (laplacian (shift p) X) 0)
         * ots p * Cconj (coeff p))%C parts) / sym_value parts X)%C
      (seq 0 (length X)).

(* coherent_state.py 594-600 *)
Definition sym_local_energy (parts : list part) (X : list R) : C :=
  (RtoC (- (1 / 2))%R * csum (sym_laplacian parts X) / RtoC m
   + RtoC (1 / 2 * m * w * w * rsum (map (fun x => x * x) X))%R
   - RtoC (1 / 2 * w * INR (length X))%R)%C.

(* hubbard_holstein.py 304-313; drifts come from the caller *)
Definition acceptance (dt : R) (s posold posnew driftold driftnew : list R) : R :=
  let sq a b d := rsum (map (fun p => (fst (fst p) - snd (fst p) - snd p) ^ 2 / (2 * dt))
                            (combine (combine a b) d)) in
  let gfratio := exp (- sq posold posnew driftnew + sq posnew posold driftold) in
  let ratio := value s posnew ^ 2 / value s posold ^ 2 in
  ratio * gfratio.

Record walker := W { wX : list R; weight : R; ot : C }.

(* The energy used for the weight, hubbard_holstein.py 325-333 *)
Definition step_energy (sorella : bool) (g U : R) (s X : list R) : R :=
  if sorella then
    let Ev := 1 / 2 * m * w ^ 2 * (1 - 2 * g ^ 2 / (w * U)) * rsum (map (fun x => x * x) X) in
    let Ev2 := - (1 / 2) * sqrt (2 * m * w) * g * rsum X in
    let Ek := 1 / 2 / m * rsum (map (fun l => l * l) (laplacian s X)) in
    Ev + Ev2 + Ek
  else local_energy s X.

(* hubbard_holstein.py 315-363 with the random numbers dX *)
Definition boson_step (sorella : bool) (g U dt eshift : R) (s : list R) (wk : walker) (dX : list R)
  : walker :=
  let phiold := value s (wX wk) in
  let driftold := map (fun x => dt / m * x) (gradient s (wX wk)) in
  let elocold := step_energy sorella g U s (wX wk) in
  let Xnew := each2 Rplus (each2 Rplus (wX wk) dX) driftold in
  let phinew := value s Xnew in
  let eloc := step_energy sorella g U s Xnew in
  W Xnew (weight wk * exp (- (1 / 2) * dt * (eloc + elocold - 2 * eshift)))
    (ot wk * RtoC (phinew / phiold))%C.
Definition boson_steps sorella g U dt eshift s (wk : walker) (noise : list (list R)) : walker :=
  fold_left (boson_step sorella g U dt eshift s) noise wk.

(* hubbard_holstein.py 440-462 *)
Definition free_step (dt : R) (wk : walker) (dX : list R) : walker :=
  let pot X := 1 / 4 * m * w * w * rsum (map (fun x => x * x) X) in
  let w1 := weight wk * exp (- dt * pot (wX wk)) in
  let Xnew := each2 Rplus (wX wk) dX in
  W Xnew (w1 * exp (- dt * pot Xnew)) (ot wk).
Definition free_steps dt (wk : walker) (noise : list (list R)) : walker :=
  fold_left (free_step dt) noise wk.
End Oscillator.
