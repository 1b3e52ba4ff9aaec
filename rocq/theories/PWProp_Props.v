(* C72: the propagator of plane waves by fast Fourier transforms. *)

From Verif Require Import Base BaseFacts.
Set Warnings "-notation-overridden,-ambiguous-paths".
From mathcomp Require Import all_ssreflect all_algebra all_field zify.
From Verif Require Import Taylor_Spec Reorder_Spec LEnergy_Spec UEGEnergy_Spec Kspace_Spec PWFFT_Spec PWProp_Spec.
From Verif Require Import PWFFT_Model PWProp_Model PWProp_Last PWFFT_Props.

Set Implicit Arguments.
Unset Strict Implicit.
Unset Printing Implicit Defensive.

Import Order.TTheory GRing.Theory Num.Theory.
Local Open Scope ring_scope.

Section Props.
Variable C : numClosedFieldType.
Variable w : nat -> C.
Hypothesis wP : roots w.
Variable next_fast_len : nat -> nat.
Hypothesis nflP : forall n, (n <= next_fast_len n)%N.

(* The valid part of the convolution of cubes of any two sizes. *)
Theorem C72_convolve : forall n1 n2 (f g : seq C),
  (0 < n2 <= n1)%N -> size f = (n1 ^ 3)%N -> size g = (n2 ^ 3)%N ->
  exists c, fftconvolve_valid w next_fast_len f n1 g n2 = Ok c /\ valid_convolution_of n1 n2 f g c.
Proof. exact: valid_spec. Qed.

Theorem C72_convolve_swap : forall n1 n2 (f g : seq C), (n1 < n2)%N ->
  fftconvolve_valid w next_fast_len f n1 g n2 = fftconvolve_valid w next_fast_len g n2 f n1.
Proof. exact: valid_swap. Qed.

Theorem C72_convolve_raises : forall n1 n2 (f g : seq C),
  size f <> (n1 ^ 3)%N \/ size g <> (n2 ^ 3)%N ->
  fftconvolve_valid w next_fast_len f n1 g n2 = Err ValueError.
Proof. exact: valid_raises. Qed.

Variables (pi kfac : C) (kt : C * C * C) (vol sqrt_dt : C).
Hypothesis vol0 : 0 < vol.
Hypothesis kfacP : (10%:R ^+ 10)^-1 <= kfac ^+ 2.

(* A step of the propagator.  The fields are shifted by the expectations of the two
   operators of each momentum transfer, cut to length 1; the factor is the ratio of the
   Gaussian weights; and the new orbitals are the Taylor polynomial of the operator of
   the shifted fields, applied to the old ones: the convolutions and masks never lose
   or wrap around a plane wave of the basis. *)
Theorem C72_step : forall ecut sys, pw_system pi kfac kt ecut = Ok sys ->
  let M := size (basis sys) in
  let q := qvecs sys : seq wave in
  let nq := size q in
  let k := fun a : 'I_M => nth 0 (basis sys) a : wave in
  forall (ragged force_bias : bool) exp_nmax nup ndown (xi : seq C)
    (Ga : 'M[C]_(nup, M)) (Gb : 'M[C]_(ndown, M)) (A : 'M[C]_(M, nup)) (B : 'M[C]_(M, ndown))
    (phi : 'M[C]_(M, nup + ndown)),
  size xi = (2 * nq)%N -> force_bias = false \/ nup = ndown \/ ragged ->
  let G := map_mx conjC A *m Ga + map_mx conjC B *m Gb in
  exists cfb xs new,
  [/\ apply_two_body_propagator w next_fast_len vol sqrt_dt ragged force_bias exp_nmax
        xi Ga Gb (row_mx A B) phi = Ok (0, cfb, xs, new),
      size xs = (2 * nq)%N,
      forall b, (b < nq)%N ->
        nth 0 xs b = nth 0 xi b - (if force_bias then
          capped (- sqrt_dt * expectation (vplus pi vol kfac k (nth 0 q b)) G) else 0) /\
        nth 0 xs (nq + b) = nth 0 xi (nq + b) - (if force_bias then
          capped (- sqrt_dt * expectation (vminus pi vol kfac k (nth 0 q b)) G) else 0),
      cfb = 2%:R^-1 * (\sum_(b < 2 * nq) nth 0 xi b ^+ 2 - \sum_(b < 2 * nq) nth 0 xs b ^+ 2) &
      forall i, exists c, [/\ new i = Ok c, size c = M & forall a : 'I_M, nth 0 c a
        = (taylor exp_nmax (field_operator pi vol kfac k sqrt_dt q xs) *m phi) a i]].
Proof. exact: step_spec. Qed.

Theorem C72_capped : forall x : C, `|capped x| <= 1 /\ (`|x| <= 1 -> capped x = x).
Proof. by move=> x; split; [exact: capped_le|rewrite /capped => /le_gtF ->]. Qed.

(* The Hamiltonian is the modified one-body part minus half the squares of the operators
   of the fields, which is what the propagator exponentiates. *)
Theorem C72_hamiltonian : forall ecut sys, pw_system pi kfac kt ecut = Ok sys ->
  let M := size (basis sys) in
  let k := fun a : 'I_M => nth 0 (basis sys) a : wave in
  forall (A : algType C) (cd c : 'I_M -> bool -> A) (T : 'M[C]_M), car cd c ->
  let h := mod_one_body vol pi kfac T in
  hamiltonian cd c (by_spin (T, T))
    (coulomb k (bare pi vol (fun Q : wave => kfac ^+ 2 * (len2 Q)%:~R)))
  = one_body_op cd c (by_spin (h, h))
    - (1 / 2%:R) *: \sum_(Q <- qvecs sys : seq wave)
        (op cd c (vplus pi vol kfac k Q) ^+ 2 + op cd c (vminus pi vol kfac k Q) ^+ 2).
Proof. exact: hamiltonian_spec. Qed.

(* Where numpy.array does not take lists of arrays of different shapes, open shells
   raise as soon as the force bias is used. *)
Theorem C72_open_shell_refuted : forall (sys : system C) exp_nmax nup ndown (xi : seq C)
    (Ga : 'M[C]_(nup, size (basis sys))) (Gb : 'M[C]_(ndown, _))
    (psi phi : 'M[C]_(_, nup + ndown)), nup <> ndown ->
  apply_two_body_propagator w next_fast_len vol sqrt_dt false true exp_nmax xi Ga Gb psi phi
  = Err ValueError.
Proof. exact: open_shell. Qed.
End Props.

(* A case: the smallest system with force bias and one electron of each spin. *)
Example C72_assumptions : exists (w : nat -> [numClosedFieldType of algC]) sys,
  roots w /\ (forall n, (n <= id n)%N) /\ 0 < (1 : algC) /\ (10%:R ^+ 10)^-1 <= (1 : algC) ^+ 2 /\
  pw_system (1 : [numClosedFieldType of algC]) 1 (0, 0, 0) 2%:R^-1 = Ok sys.
Proof.
have [w [w1 [w2 w3]]] := C71_assumptions; have [sys [E _]] := C71_seven (0, 0, 0).
exact (ex_intro _ w (ex_intro _ sys (conj w1 (conj w2 (conj ltr01 (conj w3 E)))))).
Qed.
(* One electron in the plane wave 0 of two, 0 and 1: the second operator moves it. *)
Example C72_vplus : forall (C : numClosedFieldType) (pi vol : C),
  let k (a : 'I_2) : wave := ((a : nat)%:Z, 0, 0) in
  (vplus pi vol 1 k (1, 0, 0)) (lift ord0 ord0) ord0 = sqrtC (pi / (vol * (1 ^+ 2 * 1%:~R))) * 'i
  /\ (vplus pi vol 1 k (1, 0, 0)) ord0 ord0 = 0.
Proof.
move=> C pi vol k; rewrite /vplus /strength; split; rewrite !mxE /=.
  by rewrite addr0 mulr1.
by rewrite addr0 mulr0.
Qed.

Print Assumptions C72_convolve.
Print Assumptions C72_convolve_swap.
Print Assumptions C72_convolve_raises.
Print Assumptions C72_step.
Print Assumptions C72_capped.
Print Assumptions C72_hamiltonian.
Print Assumptions C72_open_shell_refuted.
