(* Continuous Hubbard-Stratonovich transformations: mean-field shifts, one-body
   propagators, force bias and fields.

   Sources (all under /repo/pauxy):
     propagation/generic.py 29-60           GenericContinuous.__init__
     propagation/generic.py 66-106          construct_mean_field_shift(_multi_det),
                                            construct_one_body_propagator
     propagation/generic.py 109-178         construct_force_bias_{slow,fast,multi_det},
                                            construct_VHS_{slow,fast}
     propagation/hubbard.py 361-415         HubbardContinuous
     propagation/hubbard.py 434-482         HubbardContinuousSpin
     propagation/planewave.py 14-110        PlaneWave
     propagation/continuous.py 110-168      two_body_propagator
     thermal_propagation/generic.py 61-169  GenericContinuous
     thermal_propagation/hubbard.py 200-250 HubbardContinuous
     thermal_propagation/planewave.py 34-108, 178-213  PlaneWave
     thermal_propagation/continuous.py 78-120, planewave.py 219-276  two_body_propagator
     estimators/thermal.py                  one_rdm_from_G

   Simplifications: numbers are elements of an arbitrary numerically closed
   field; x**0.5 is its square root.  BH1 is expm(-0.5*dt*H1); here H1 is kept.
   Potentials are one matrix for each spin (the same one twice where the code
   returns one matrix).  The fields are an argument.  Walkers are given by their
   Green's functions.  The Hamiltonian's operators are those of LEnergy_Model
   and Reorder_Model.  einsum raises ValueError for the wrong number of axes, as
   do products of arrays of different lengths.  Counters of rescaled biases
   and output are left out. *)

From Verif Require Import Base.
Set Warnings "-notation-overridden,-ambiguous-paths".
From mathcomp Require Import all_ssreflect all_algebra.
From Verif Require Import LEnergy_Model Reorder_Model.

Set Implicit Arguments.
Unset Strict Implicit.
Unset Printing Implicit Defensive.

Import Order.TTheory GRing.Theory Num.Theory.
Local Open Scope ring_scope.

Section MFShift.
Variable C : numClosedFieldType.
Variable M : nat.
Notation mat2 := ('M[C]_M * 'M[C]_M)%type.

(* What the driver uses of a propagator. *)
Record cont N := MkCont {
  c_shift : 'cV[C]_N;             (* mf_shift *)
  c_core : C;                     (* mf_core *)
  c_one : mat2;                   (* BH1 = expm(-0.5*dt*c_one) *)
  c_VHS : 'cV[C]_N -> mat2;       (* construct_VHS *)
  c_bias : mat2 -> 'cV[C]_N }.    (* construct_force_bias *)

(* estimators/thermal.py: I - G.T *)
Definition rdm_of (G : mat2) : mat2 := (1%:M - G.1^T, 1%:M - G.2^T).

Section Generic.
Variable naux : nat.
Variable hs_pot : 'M[C]_(M * M, naux).

(* generic.py 66-80 *)
Definition mean_field_shift (sparse : bool) (G : mat2) : 'cV[C]_naux :=
  if sparse then
    'i *: ((ravel G.1)^T *m hs_pot)^T + 'i *: ((ravel G.2)^T *m hs_pot)^T
  else 'i *: (hs_pot^T *m ravel (G.1 + G.2)).

(* generic.py 82-86; contract is trial.contract_one_body *)
Definition mean_field_shift_multi_det (contract : 'M[C]_M -> C) : 'cV[C]_naux :=
  \col_n ('i * contract (reshape (row n hs_pot^T))).

(* hs_pot.dot(x).reshape(nb,nb) *)
Definition pot (x : 'cV[C]_naux) : 'M[C]_M := reshape (hs_pot *m x)^T.

(* generic.py 88-106 *)
Definition one_body_generic (h1e_mod : mat2) (mf : 'cV[C]_naux) : mat2 :=
  let shift := 'i *: pot mf in
  (h1e_mod.1 - shift, h1e_mod.2 - shift).

(* generic.py 109-128 *)
Definition bias_slow (sqrt_dt : C) (mf : 'cV[C]_naux) (G : mat2) : 'cV[C]_naux :=
  let vbias := hs_pot^T *m ravel G.1 + hs_pot^T *m ravel G.2 in
  - sqrt_dt *: ('i *: vbias - mf).

(* generic.py 154-157; contract is walker.contract_one_body *)
Definition bias_multi_det (sqrt_dt : C) (mf : 'cV[C]_naux) (contract : 'M[C]_M -> C)
  : 'cV[C]_naux :=
  - sqrt_dt *: ('i *: (\col_n contract (reshape (row n hs_pot^T))) - mf).

(* generic.py 159-178 *)
Definition VHS_generic (sqrt_dt : C) (x : 'cV[C]_naux) : mat2 :=
  let V := ('i * sqrt_dt) *: pot x in (V, V).

Definition core_generic (ecore : C) (mf : 'cV[C]_naux) : C := ecore + half C * dot mf mf.

Definition generic (sqrt_dt ecore : C) (h1e_mod : mat2) (sparse : bool) (G : mat2) : cont naux :=
  let mf := mean_field_shift sparse G in
  MkCont mf (core_generic ecore mf) (one_body_generic h1e_mod mf)
    (VHS_generic sqrt_dt) (bias_slow sqrt_dt mf).

(* several determinants; the bias is bias_multi_det *)
Definition generic_multi_det (sqrt_dt ecore : C) (h1e_mod : mat2) (contract : 'M[C]_M -> C)
    (bias : mat2 -> 'cV[C]_naux) : cont naux :=
  let mf := mean_field_shift_multi_det contract in
  MkCont mf (core_generic ecore mf) (one_body_generic h1e_mod mf) (VHS_generic sqrt_dt) bias.

(* generic.py 130-152 *)
Definition bias_fast nu nd (sparse : bool) (sqrt_dt : C) (mf : 'cV[C]_naux)
    (rot0 : 'M[C]_(nu * M, naux)) (rot1 : 'M[C]_(nd * M, naux))
    (Gmod : 'M[C]_(nu, M) * 'M[C]_(nd, M)) : res 'cV[C]_naux :=
  let out vbias := Ok (- sqrt_dt *: ('i *: vbias - mf)) in
  if sparse then
    match @eqP _ nd nu with
    | ReflectT e =>
        out (((ravel Gmod.1)^T *m rot0)^T
             + ((ravel (castmx (e, erefl M) Gmod.2))^T *m rot0)^T)
    | ReflectF _ => Err ValueError
    end
  else out (rot0^T *m ravel Gmod.1 + rot1^T *m ravel Gmod.2).

(* thermal_propagation/generic.py 61-169, the fast routines *)
Definition t_generic (sqrt_dt ecore mu : C) (h1e_mod : mat2) (sparse : bool) (G : mat2)
  : res (cont naux) :=
  let P := rdm_of G in
  if sparse then
    let mf := 'i *: ((ravel P.1)^T *m hs_pot)^T + 'i *: ((ravel P.2)^T *m hs_pot)^T in
    let shift := 'i *: pot mf in
    let H1 := (h1e_mod.1 - (shift + mu%:M), h1e_mod.2 - (shift + mu%:M)) in
    Ok (MkCont mf (core_generic ecore mf) H1 (VHS_generic sqrt_dt)
          (fun P => - sqrt_dt *: ('i *: (((ravel P.1)^T *m hs_pot)^T
                                        + ((ravel P.2)^T *m hs_pot)^T) - mf)))
  else Err ValueError.

End Generic.

Section Hubbard.
Variables (sqrt_dt U : C).
Let iu_fac := 'i * sqrtC U.

(* hubbard.py 361-415 *)
Definition shift_hubbard (G : mat2) : 'cV[C]_M := \col_i (iu_fac * (G.1 i i + G.2 i i)).

Definition VHS_hubbard (x : 'cV[C]_M) : mat2 :=
  let V := diag_mx (\row_i (sqrt_dt * iu_fac * x i 0)) in (V, V).

Definition hubbard (h1e_mod : mat2) (G : mat2) : cont M :=
  let mf := shift_hubbard G in
  let vi1b := iu_fac *: diag_mx mf^T in
  MkCont mf (half C * dot mf mf) (h1e_mod.1 - vi1b, h1e_mod.2 - vi1b) VHS_hubbard
    (fun G => - sqrt_dt *: (shift_hubbard G - mf)).

(* hubbard.py 434-482; ut_fac = (dt*U)**0.5 *)
Definition shift_spin (G : mat2) : 'cV[C]_M := \col_i (sqrtC U * (G.1 - G.2) i i).

Definition hubbard_spin (ut_fac : C) (H1 : mat2) (G : mat2) : cont M :=
  let mf := shift_spin G in
  let vi1b := sqrtC U *: diag_mx mf^T in
  let h A := A + (half C * U) *: 1%:M - vi1b in
  MkCont mf (half C * dot mf mf) (h H1.1, h H1.2)
    (fun x => (diag_mx (\row_i (- ut_fac * x i 0)), diag_mx (\row_i (ut_fac * x i 0))))
    (fun G => - sqrt_dt *: (shift_spin G - mf)).

(* thermal_propagation/hubbard.py 200-250 *)
Definition t_hubbard (alt : bool) (mu : C) (h1e_mod : mat2) (G : mat2) : cont M :=
  let P := rdm_of G in
  let mf := shift_hubbard P in
  let vi1b := iu_fac *: diag_mx mf^T in
  let sign := if alt then 1 else -1 in
  let h A := A - (vi1b - (sign * mu)%:M) in
  MkCont mf (half C * dot mf mf) (h h1e_mod.1, h h1e_mod.2) VHS_hubbard
    (fun P => - sqrt_dt *: (shift_hubbard P - mf)).

End Hubbard.

Section PlaneWave.
Variable V : zmodType.
Variables sqrt_dt pi vol : C.
Variable norm2 : V -> C.
Variable basis : 'I_M -> V.
Variable lookup_basis : V -> option 'I_M.
Variable qvecs : seq V.
Let nq := size qvecs.
Let iAq (n : 'I_nq) := iA pi vol norm2 basis lookup_basis (tnth (in_tuple qvecs) n).
Let iBq (n : 'I_nq) := iB pi vol norm2 basis lookup_basis (tnth (in_tuple qvecs) n).

(* planewave.py 78-110 *)
Definition VHS_planewave (x : 'cV[C]_(nq + nq)) : mat2 :=
  let W := \sum_n usubmx x n 0 *: iAq n + \sum_n dsubmx x n 0 *: iBq n in
  (sqrt_dt *: W, sqrt_dt *: W).

(* planewave.py 73-75: Gvec[0].T*iA + Gvec[1].T*iA, then iB *)
Definition expect_planewave (G : mat2) : 'cV[C]_(nq + nq) :=
  col_mx (\col_n (sum_prod G.1 (iAq n) + sum_prod G.2 (iAq n)))
         (\col_n (sum_prod G.1 (iBq n) + sum_prod G.2 (iBq n))).

Definition planewave (h1e_mod : mat2) : cont (nq + nq) :=
  MkCont 0 0 h1e_mod VHS_planewave (fun G => - sqrt_dt *: expect_planewave G).

(* thermal_propagation/planewave.py: -0.5*dt*H1 + 0.5*dt*mu*I in the exponent *)
Definition t_planewave (mu : C) (h1e_mod : mat2) (G : mat2) : cont (nq + nq) :=
  MkCont (expect_planewave (rdm_of G)) 0 (h1e_mod.1 - mu%:M, h1e_mod.2 - mu%:M)
    VHS_planewave (fun P => - sqrt_dt *: expect_planewave P).

End PlaneWave.

(* continuous.py 131-158: G is the walker's Green's function (zero
   temperature) or one-body density matrix *)
Definition bound N (bd : C) (xbar : 'cV[C]_N) : 'cV[C]_N :=
  \col_i (if bd < `|xbar i 0| then xbar i 0 / `|xbar i 0| else xbar i 0).

Definition two_body_propagator N (p : cont N) (sqrt_dt bd : C) (force_bias : bool)
    (xi : 'cV[C]_N) (G : mat2) : C * C * 'cV[C]_N * mat2 :=
  let xbar := bound bd (if force_bias then c_bias p G else 0) in
  let xshifted := xi - xbar in
  let cmf := - sqrt_dt * dot xshifted (c_shift p) in
  let cfb := dot xi xbar - half C * dot xbar xbar in
  (cmf, cfb, xshifted, c_VHS p xshifted).

End MFShift.
