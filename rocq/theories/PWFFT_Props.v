(* C71: the plane wave system on a grid, and its energy by fast Fourier transforms. *)

From Verif Require Import Base BaseFacts.
Set Warnings "-notation-overridden,-ambiguous-paths".
From mathcomp Require Import all_ssreflect all_algebra all_field zify.
From Verif Require Import LEnergy_Spec UEGEnergy_Spec Kspace_Spec PWFFT_Spec PWFFT_Model.
From Verif Require Import PWLookup_Proofs PWFFT_Last Kspace_Props.

Set Implicit Arguments.
Unset Strict Implicit.
Unset Printing Implicit Defensive.

Import Order.TTheory GRing.Theory Num.Theory.
Local Open Scope ring_scope.

Section Props.
Variable C : numClosedFieldType.
Variables (pi kfac : C) (kt : C * C * C).

(* With a cutoff of at least one half the system is made: the plane waves are exactly
   those below the cutoff, the momentum transfers exactly those below four times the
   cutoff, and the eigenvalues are the kinetic energies. *)
Theorem C71_system : forall ecut, 2%:R^-1 <= ecut ->
  exists sys, pw_system pi kfac kt ecut = Ok sys /\
    sphere ecut (basis sys) /\ sphere (4%:R * ecut) (qvecs sys) /\
    sp_eigv sys = [seq kinetic_energy kfac kt k | k <- basis sys].
Proof. exact: system_spec. Qed.

(* With a lower cutoff, which leaves the plane wave 0 alone, it raises. *)
Theorem C71_system_raises : forall ecut, ecut < 2%:R^-1 ->
  pw_system pi kfac kt ecut = Err ValueError.
Proof. exact: system_raises. Qed.

(* Every difference of plane waves is among the momentum transfers. *)
Theorem C71_transfers : forall ecut sys, pw_system pi kfac kt ecut = Ok sys ->
  forall k k', k \in basis sys -> k' \in basis sys -> k - k' \in qvecs sys.
Proof. exact: transfers_spec. Qed.

(* The lookup table finds the plane waves of the basis, and only those, although its
   radix 2 nmax is less than the 2 nmax + 1 values of each component. *)
Theorem C71_lookup : forall ecut sys k i, pw_system pi kfac kt ecut = Ok sys ->
  lookup_basis (nmax sys) (basis sys) k = Some i <->
  (i < size (basis sys))%N /\ nth 0 (basis sys) i = k.
Proof. exact: lookup_right. Qed.

Section Energy.
Variable w : nat -> C.
Hypothesis wP : roots w.
Variable next_fast_len : nat -> nat.
Hypothesis nflP : forall n, (n <= next_fast_len n)%N.

(* The product of the transforms is the convolution without wrapping around. *)
Theorem C71_convolve : forall n (f g : seq C),
  (0 < n)%N -> size f = (n ^ 3)%N -> size g = (n ^ 3)%N ->
  exists c, convolve w next_fast_len f g n = Ok c /\ convolution_of n f g c.
Proof. exact: convolve_spec. Qed.

Theorem C71_convolve_raises : forall n (f g : seq C),
  size f <> (n ^ 3)%N \/ size g <> (n ^ 3)%N -> convolve w next_fast_len f g n = Err ValueError.
Proof. exact: convolve_raises. Qed.

Variable vol : C.
Hypothesis kfacP : (10%:R ^+ 10)^-1 <= kfac ^+ 2.

(* The energies of a walker are the Wick contractions of the plane wave Hamiltonian with
   the full Green's functions, for every trial wavefunction. *)
Theorem C71_energy : forall ecut sys, pw_system pi kfac kt ecut = Ok sys ->
  let M := size (basis sys) in
  let v := coulomb (fun a : 'I_M => nth 0 (basis sys) a : wave)
             (bare pi vol (fun Q : wave => kfac ^+ 2 * (len2 Q)%:~R)) in
  forall ma mb (ragged diagH1 : bool) (H1 : 'M[C]_M * 'M[C]_M)
    (A : 'M[C]_(M, ma)) (B : 'M[C]_(M, mb)) (Ga : 'M[C]_(ma, M)) (Gb : 'M[C]_(mb, M)),
  ma = mb \/ ragged -> (diagH1 -> diagonal H1.1 /\ diagonal H1.2) ->
  let G := (map_mx conjC A *m Ga, map_mx conjC B *m Gb) in
  local_energy_pw_fft w next_fast_len sys vol ragged diagH1 H1 G Ga Gb (row_mx A B)
  = Ok (energies H1 v 0 G).
Proof. exact: energy_spec. Qed.

Theorem C71_no_cython : forall ecut sys, pw_system pi kfac kt ecut = Ok sys ->
  let M := size (basis sys) in
  let v := coulomb (fun a : 'I_M => nth 0 (basis sys) a : wave)
             (bare pi vol (fun Q : wave => kfac ^+ 2 * (len2 Q)%:~R)) in
  forall nup ndown (ragged : bool) (H1 : 'M[C]_M * 'M[C]_M)
    (A : 'M[C]_(M, nup)) (B : 'M[C]_(M, ndown)) (Ga : 'M[C]_(nup, M)) (Gb : 'M[C]_(ndown, M)),
  nup = ndown \/ ragged ->
  let G := (map_mx conjC A *m Ga, map_mx conjC B *m Gb) in
  local_energy_no_cython w next_fast_len sys vol ragged H1 G Ga Gb (row_mx A B)
  = Ok (energies H1 v 0 G).
Proof. exact: no_cython_spec. Qed.

(* Where numpy.array does not take lists of arrays of different shapes, open shells raise. *)
Theorem C71_open_shell_refuted : forall (sys : system C) nup ndown (diagH1 : bool)
    (H1 G : 'M[C]_(size (basis sys)) * 'M[C]_(size (basis sys)))
    (Ga : 'M[C]_(nup, _)) (Gb : 'M[C]_(ndown, _)) (T : 'M[C]_(_, nup + ndown)),
  nup <> ndown ->
  local_energy_pw_fft w next_fast_len sys vol false diagH1 H1 G Ga Gb T = Err ValueError
  /\ local_energy_no_cython w next_fast_len sys vol false H1 G Ga Gb T = Err ValueError.
Proof. exact: ragged_raises. Qed.

Theorem C71_assert_raises : forall (sys : system C) ma mb nt (ragged diagH1 : bool)
    (H1 G : 'M[C]_(size (basis sys)) * 'M[C]_(size (basis sys)))
    (Ga : 'M[C]_(ma, _)) (Gb : 'M[C]_(mb, _)) (T : 'M[C]_(_, nt)),
  (ma + mb)%N <> nt ->
  local_energy_pw_fft w next_fast_len sys vol ragged diagH1 H1 G Ga Gb T = Err AssertionError.
Proof. exact: assert_raises. Qed.
End Energy.
End Props.

(* The mixed estimator leaves out the argument for the trial wavefunction, so it raises
   whatever the function would return. *)
Theorem C71_dispatch_refuted : forall (A : Type) (value : res A),
  local_energy_dispatch value = Err TypeError.
Proof. by []. Qed.

(* A case: the smallest system has seven plane waves, and meets the assumptions. *)
Example C71_seven : forall kt : algC * algC * algC,
  exists sys, pw_system (1 : [numClosedFieldType of algC]) 1 kt 2%:R^-1 = Ok sys /\
    perm_eq (basis sys)
      [:: (-1, 0, 0); (0, -1, 0); (0, 0, -1); (0, 0, 0); (0, 0, 1); (0, 1, 0); (1, 0, 0)].
Proof.
move=> kt; have [sys [E [s _]]] := @C71_system [numClosedFieldType of algC] 1 1 kt 2%:R^-1 (lexx _).
exact (ex_intro _ sys (conj E (sphere_seven s))).
Qed.
Example C71_assumptions : exists w : nat -> [numClosedFieldType of algC],
  roots w /\ (forall n, (n <= id n)%N) /\ (10%:R ^+ 10)^-1 <= (1 : algC) ^+ 2.
Proof.
have [w wP] := C65_roots; exists w; split; [exact: wP|split; [by []|]].
by rewrite expr1n invf_le1 ?exprn_gt0 ?ltr0n // exprn_ege1 // ler1n.
Qed.

Print Assumptions C71_system.
Print Assumptions C71_system_raises.
Print Assumptions C71_transfers.
Print Assumptions C71_lookup.
Print Assumptions C71_convolve.
Print Assumptions C71_convolve_raises.
Print Assumptions C71_energy.
Print Assumptions C71_no_cython.
Print Assumptions C71_open_shell_refuted.
Print Assumptions C71_assert_raises.
Print Assumptions C71_dispatch_refuted.
