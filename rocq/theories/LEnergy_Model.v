(* Local energies of generic, Hubbard and multi-determinant systems.

   Sources (all under /repo/pauxy):
     estimators/generic.py 4-32, 34-128, 130-154, 156-221, 293-396, 398-434
       local_energy_generic, _pno, _opt, _cholesky_opt,
       _cholesky_opt_stochastic, _cholesky
     estimators/generic.py 436-456   core_contribution(_cholesky)
     estimators/hubbard.py 93-114, 117-145
       local_energy_hubbard, local_energy_hubbard_ghf
     estimators/mixed.py 383-437     local_energy (the branches for generic
       systems)
     estimators/mixed.py 439-448     local_energy_multi_det
     systems/generic.py 168-171      hijkl
     systems/hubbard.py 157-162      hijkl
     systems/generic.py 88-107       ij_list_aa, ij_list_ab
     trial_wavefunction/multi_slater.py 269-288, 397-407  half_rotate
     walkers/single_det.py 338-410   local_energy, local_energy_2body

   Simplifications: numbers are elements of an arbitrary numerically closed
   field (exact arithmetic).  Arrays are matrices; two adjacent indices
   flattened by ravel or reshape are one index i * n + j, as in numpy.  The
   rotated Cholesky vectors are the two blocks of rows of one matrix, and the
   explicit rotated integrals three blocks of one row; their lengths are
   written na * M * (na * M) rather than na**2 * M**2.  einsum and tensordot
   are sums over all indices.  Singular values are not modelled: the PNO
   routine takes the lists of factors it is given.  The random signs of the
   stochastic routine are an argument, and so is the square root of 1.0 /
   nsamples. *)

From Verif Require Import Base.
Set Warnings "-notation-overridden,-ambiguous-paths".
From mathcomp Require Import all_ssreflect all_algebra.

Set Implicit Arguments.
Unset Strict Implicit.
Unset Printing Implicit Defensive.

Import Order.TTheory GRing.Theory Num.Theory.
Local Open Scope ring_scope.

(* Row-major flattening. *)
Section Flat.
Variables m n : nat.

Lemma flat_proof (i : 'I_m) (j : 'I_n) : (i * n + j < m * n)%N.
Proof.
apply: leq_trans (_ : (i.+1 * n <= m * n)%N).
  by rewrite mulSn [(n + _)%N]addnC ltn_add2l.
by rewrite leq_mul2r ltn_ord orbT.
Qed.

Definition flat (i : 'I_m) (j : 'I_n) : 'I_(m * n) := Ordinal (flat_proof i j).

Lemma flat_row_proof (x : 'I_(m * n)) : (x %/ n < m)%N.
Proof.
case: n x => [|n'] x; first by case: x => x; rewrite muln0.
by rewrite ltn_divLR.
Qed.

Lemma flat_col_proof (x : 'I_(m * n)) : (x %% n < n)%N.
Proof.
case: n x => [|n'] x; first by case: x => x; rewrite muln0.
by rewrite ltn_mod.
Qed.

Definition flat_row (x : 'I_(m * n)) : 'I_m := Ordinal (flat_row_proof x).
Definition flat_col (x : 'I_(m * n)) : 'I_n := Ordinal (flat_col_proof x).

End Flat.

Section LEnergy.
Variable C : numClosedFieldType.

Definition ravel m n (A : 'M[C]_(m, n)) : 'cV[C]_(m * n) :=
  \col_x A (flat_row x) (flat_col x).
Definition reshape m n (v : 'rV[C]_(m * n)) : 'M[C]_(m, n) :=
  \matrix_(i, j) v 0 (flat i j).
Definition dot n (u v : 'cV[C]_n) : C := \sum_i u i 0 * v i 0.
(* numpy.sum(A * B), einsum('ij,ij->') *)
Definition sum_prod m n (A B : 'M[C]_(m, n)) : C :=
  \sum_i \sum_j A i j * B i j.

Definition half : C := 1 / 2%:R.

Definition energy := (C * C * C)%type.

Section Generic.
Variable M : nat.                        (* nbasis *)

Definition eri4 := 'I_M -> 'I_M -> 'I_M -> 'I_M -> C.

(* generic.py 4-32 *)
Definition local_energy_generic (h1e : 'M[C]_M * 'M[C]_M) (eri : eri4)
    (G : 'M[C]_M * 'M[C]_M) (ecore : C) : energy :=
  let e1 := sum_prod h1e.1 G.1 + sum_prod h1e.2 G.2 in
  let coul (A B : 'M[C]_M) :=
    \sum_p \sum_r \sum_q \sum_s eri p r q s * A p r * B q s in
  let exch (A B : 'M[C]_M) :=
    \sum_p \sum_r \sum_q \sum_s eri p r q s * A p s * B q r in
  let euu := half * (coul G.1 G.1 - exch G.1 G.1) in
  let edd := half * (coul G.2 G.2 - exch G.2 G.2) in
  let eud := half * coul G.1 G.2 in
  let edu := half * coul G.2 G.1 in
  let e2 := euu + edd + eud + edu in
  (e1 + e2 + ecore, e1 + ecore, e2).

Variable naux : nat.                     (* nchol *)

Record system := MkSystem {
  H1 : 'M[C]_M * 'M[C]_M;
  chol_vecs : 'M[C]_(M * M, naux);
  ecore : C
}.

(* systems/generic.py 168-171 *)
Definition hijkl (sys : system) (i j k l : 'I_M) : C :=
  \sum_n chol_vecs sys (flat i k) n * chol_vecs sys (flat j l) n.

Definition one_body (sys : system) (G : 'M[C]_M * 'M[C]_M) : C :=
  sum_prod (H1 sys).1 G.1 + sum_prod (H1 sys).2 G.2.

(* generic.py 398-434 *)
Definition local_energy_generic_cholesky (sys : system)
    (G : 'M[C]_M * 'M[C]_M) : energy :=
  let e1b := one_body sys G in
  let Xa := (chol_vecs sys)^T *m ravel G.1 in
  let Xb := (chol_vecs sys)^T *m ravel G.2 in
  let ecoul := dot Xa Xa + dot Xb Xb + 2%:R * dot Xa Xb in
  let cv i k n := chol_vecs sys (flat i k) n in
  let T (G : 'M[C]_M) (l k : 'I_M) (n : 'I_naux) := \sum_i G i l * cv i k n in
  let exx1 (G : 'M[C]_M) :=
    \sum_l \sum_k \sum_n T G l k n * T G k l n in
  let exx := exx1 G.1 + exx1 G.2 in
  let e2b := half * (ecoul - exx) in
  (e1b + e2b + ecore sys, e1b + ecore sys, e2b).

Variables na nb : nat.                   (* nup, ndown *)

(* multi_slater.py 397-407, one determinant, all vectors on one process *)
Definition rotate n (psi : 'M[C]_(M, n)) (sys : system)
  : 'M[C]_(n * M, naux) :=
  \matrix_(x, c) \sum_m (psi m (flat_row x))^*
                  * chol_vecs sys (flat m (flat_col x)) c.

Definition half_rotate (psia : 'M[C]_(M, na)) (psib : 'M[C]_(M, nb))
    (sys : system) : 'M[C]_(na * M + nb * M, naux) :=
  col_mx (rotate psia sys) (rotate psib sys).

(* single_det.py 366-410, and the two-body part of generic.py 156-221 *)
Definition exx_half n (rchol : 'M[C]_(n * M, naux)) (Gh : 'M[C]_(n, M)) : C :=
  let T (x : 'I_naux) := reshape (row x rchol^T) *m Gh^T in
  \sum_x \sum_a \sum_b T x a b * T x b a.

Definition local_energy_2body (rchol : 'M[C]_(na * M + nb * M, naux))
    (Gh : 'M[C]_(na, M) * 'M[C]_(nb, M)) : C * C * C :=
  let ra := usubmx rchol in
  let rb := dsubmx rchol in
  let Xa := ra^T *m ravel Gh.1 in
  let Xb := rb^T *m ravel Gh.2 in
  let ecoul := dot Xa Xa + dot Xb Xb + 2%:R * dot Xa Xb in
  (ecoul, exx_half ra Gh.1, exx_half rb Gh.2).

(* generic.py 156-221 *)
Definition local_energy_generic_cholesky_opt (sys : system)
    (G : 'M[C]_M * 'M[C]_M) (Gh : 'M[C]_(na, M) * 'M[C]_(nb, M))
    (rchol : 'M[C]_(na * M + nb * M, naux)) : energy :=
  let e1b := one_body sys G in
  let '(ecoul, exxa, exxb) := local_energy_2body rchol Gh in
  let exx := exxa + exxb in
  let e2b := half * (ecoul - exx) in
  (e1b + e2b + ecore sys, e1b + ecore sys, e2b).

(* multi_slater.py 283-288 *)
Definition vipjq m n (A : 'M[C]_(M, m)) (B : 'M[C]_(M, n)) (sys : system)
    (i : 'I_m) (p : 'I_M) (j : 'I_n) (q : 'I_M) : C :=
  \sum_k \sum_r \sum_x chol_vecs sys (flat k p) x * chol_vecs sys (flat r q) x
                       * (A k i)^* * (B r j)^*.

Definition ravel4 m n (v : 'I_m -> 'I_M -> 'I_n -> 'I_M -> C)
  : 'rV[C]_((m * M) * (n * M)) :=
  \row_x v (flat_row (flat_row x)) (flat_col (flat_row x))
           (flat_row (flat_col x)) (flat_col (flat_col x)).

Definition reshape4 m n (v : 'rV[C]_((m * M) * (n * M)))
    (i : 'I_m) (p : 'I_M) (j : 'I_n) (q : 'I_M) : C :=
  v 0 (flat (flat i p) (flat j q)).

Definition eri_row :=
  'rV[C]_((na * M) * (na * M) + (nb * M) * (nb * M) + (na * M) * (nb * M)).

Definition exact_eri (psia : 'M[C]_(M, na)) (psib : 'M[C]_(M, nb))
    (sys : system) : eri_row :=
  row_mx (row_mx (ravel4 (vipjq psia psia sys)) (ravel4 (vipjq psib psib sys)))
         (ravel4 (vipjq psia psib sys)).

(* generic.py 130-154 *)
Definition local_energy_generic_opt (sys : system)
    (G : 'M[C]_M * 'M[C]_M) (Gh : 'M[C]_(na, M) * 'M[C]_(nb, M))
    (eri : eri_row) : energy :=
  let vaa := reshape4 (lsubmx (lsubmx eri)) in
  let vbb := reshape4 (rsubmx (lsubmx eri)) in
  let vab := reshape4 (rsubmx eri) in
  let coul m n (v : 'I_m -> 'I_M -> 'I_n -> 'I_M -> C)
           (A : 'M[C]_(m, M)) (B : 'M[C]_(n, M)) :=
    \sum_i \sum_r \sum_j \sum_s v i r j s * A i r * B j s in
  let exch m (v : 'I_m -> 'I_M -> 'I_m -> 'I_M -> C) (A : 'M[C]_(m, M)) :=
    \sum_i \sum_r \sum_j \sum_s v i r j s * A i s * A j r in
  let e1b := one_body sys G in
  let eJaa := half * coul _ _ vaa Gh.1 Gh.1 in
  let eJbb := half * coul _ _ vbb Gh.2 Gh.2 in
  let eJab := coul _ _ vab Gh.1 Gh.2 in
  let eKaa := - half * exch _ vaa Gh.1 in
  let eKbb := - half * exch _ vbb Gh.2 in
  let e2b := eJaa + eJbb + eJab + eKaa + eKbb in
  (e1b + e2b + ecore sys, e1b + ecore sys, e2b).

(* generic.py 34-128.  A factor pair is any U, VT with a common number of
   columns and rows; the lists are walked together with zip. *)
Definition uvt := {k : nat & ('M[C]_(M, k) * 'M[C]_(k, M))%type}.

Definition thetaUV (u : 'rV[C]_M) (f : uvt) (v : 'rV[C]_M) : C :=
  let '(existT k (U, VT)) := f in
  let thetaU := u *m U in
  let thetaV := v *m VT^T in
  \sum_x thetaU 0 x * thetaV 0 x.

(* one spin: 61-88 and 90-113; returns (eJ, eK) *)
Definition pno_same n (Gh GT : 'M[C]_(n, M)) (ijs : seq ('I_n * 'I_n))
    (fs : seq uvt) : C * C :=
  foldl (fun e x =>
    let '(i, j, f) := x in
    let c := if i == j then half else 1 in
    (e.1 + c * (thetaUV (row i Gh) f (row j Gh)
                - thetaUV (row i GT) f (row j GT)),
     e.2 - c * (thetaUV (row j Gh) f (row i Gh)
                - thetaUV (row j GT) f (row i GT))))
    (0, 0) (zip ijs fs).

(* 115-125 *)
Definition pno_opp (Gh GT : 'M[C]_(na, M) * 'M[C]_(nb, M))
    (ijs : seq ('I_na * 'I_nb)) (fs : seq uvt) : C :=
  foldl (fun e x =>
    let '(i, j, f) := x in
    e + (thetaUV (row i Gh.1) f (row j Gh.2)
         - thetaUV (row i GT.1) f (row j GT.2)))
    0 (zip ijs fs).

(* systems/generic.py 88-103 *)
Definition ij_same n : seq ('I_n * 'I_n) :=
  [seq (i, j) | i <- enum 'I_n, j <- [seq j <- enum 'I_n | (val i <= val j)%N]].
Definition ij_opp : seq ('I_na * 'I_nb) :=
  [seq (i, j) | i <- enum 'I_na, j <- enum 'I_nb].

Definition local_energy_generic_pno (sys : system) (G : 'M[C]_M * 'M[C]_M)
    (Gh : 'M[C]_(na, M) * 'M[C]_(nb, M))
    (C0 : 'M[C]_(M, na) * 'M[C]_(M, nb))
    (e0 : C * C * C)
    (UVT : seq uvt * seq uvt * seq uvt) : energy :=
  let GT := (C0.1^T, C0.2^T) in
  let '(ecoul0, exxa0, exxb0) := e0 in
  let '(UVT_aa, UVT_bb, UVT_ab) := UVT in
  let e1b := one_body sys G in
  let '(eJaa, eKaa) := pno_same Gh.1 GT.1 (ij_same na) UVT_aa in
  let '(eJbb, eKbb) := pno_same Gh.2 GT.2 (ij_same nb) UVT_bb in
  let eJab := pno_opp Gh GT ij_opp UVT_ab in
  let e2b := half * (ecoul0 - exxa0 - exxb0) + eJaa + eJbb + eJab + eKaa + eKbb in
  (e1b + e2b + ecore sys, e1b + ecore sys, e2b).

(* generic.py 293-396.  theta are the signs, sq is sqrt(1.0 / nsamples).
   The control variates are (C0, ecoul0, exxa0, exxb0). *)
Section Stochastic.
Variable ns : nat.                       (* nsamples *)

Definition sample n (rchol : 'M[C]_(n * M, naux)) (theta : 'M[C]_(naux, ns))
    (sq : C) : 'M[C]_(n * M, ns) := sq *: (rchol *m theta).

Definition exx_sample n (r : 'M[C]_(n * M, ns)) (Gh : 'M[C]_(n, M)) : C :=
  let T (x : 'I_ns) := reshape (row x r^T) *m Gh^T in
  \sum_x \sum_a \sum_b T x a b * T x b a.

Definition local_energy_stochastic (sys : system) (G : 'M[C]_M * 'M[C]_M)
    (Gh : 'M[C]_(na, M) * 'M[C]_(nb, M))
    (ra : 'M[C]_(na * M, naux)) (rb : 'M[C]_(nb * M, naux))
    (control : option (('M[C]_(M, na) * 'M[C]_(M, nb)) * (C * C)))
    (theta : 'M[C]_(naux, ns)) (sq : C) : res energy :=
  let e1b := one_body sys G in
  let Xa := ra^T *m ravel Gh.1 in
  let Xb := rb^T *m ravel Gh.2 in
  let ecoul := dot Xa Xa + dot Xb Xb + 2%:R * dot Xa Xb in
  if ns == 0%N then Err ZeroDivisionError    (* 1.0 / nsamples *)
  else
  let sa := sample ra theta sq in
  let sb := sample rb theta sq in
  let '(exxa, exxb) :=
    match control with
    | Some ((C0a, C0b), (exxa0, exxb0)) =>
        (exxa0 + (exx_sample sa Gh.1 - exx_sample sa C0a^T),
         exxb0 + (exx_sample sb Gh.2 - exx_sample sb C0b^T))
    | None => (exx_sample sa Gh.1, exx_sample sb Gh.2)
    end in
  let exx := exxa + exxb in
  let e2b := half * (ecoul - exx) in
  Ok (e1b + e2b + ecore sys, e1b + ecore sys, e2b).

End Stochastic.

(* multi_slater.py 296-352: the matrices V[i,:,j,:] that are factorised *)
Definition Vab m n (A : 'M[C]_(M, m)) (B : 'M[C]_(M, n)) (sys : system)
    (ij : 'I_m * 'I_n) : 'M[C]_M :=
  \matrix_(p, q) vipjq A B sys ij.1 p ij.2 q.

(* mixed.py 413-437: which routine is used. *)
Record switches := MkSwitches {
  stochastic_ri : bool; control_variate : bool;
  exact : bool; pno : bool }.

(* The stochastic routine takes rchol[0] and rchol[1] for the vectors of the
   two spins (generic.py 319-325, 340-376); in the stacked array that callers
   pass these are its first two rows.  A row has naux numbers: the product
   with Ga.ravel() needs naux = na * M, and the reshape to (na, M, ..) that
   follows fails unless na * M is one.  That last case is the argument rest.
   Without rchol it reads system.rchol_vecs, which does not exist. *)
Definition stochastic_call (rchol : option 'M[C]_(na * M + nb * M, naux))
    (rest : res energy) : res energy :=
  match rchol with
  | None => Err AttributeError
  | Some _ => if (2 <= na * M)%N then Err ValueError else rest
  end.

Definition local_energy (sys : system) (sw : switches) (rest : res energy)
    (G : 'M[C]_M * 'M[C]_M)
    (Gh : option ('M[C]_(na, M) * 'M[C]_(nb, M)))
    (rchol : option 'M[C]_(na * M + nb * M, naux)) (eri : eri_row)
    (C0 : 'M[C]_(M, na) * 'M[C]_(M, nb)) (e0 : C * C * C)
    (UVT : seq uvt * seq uvt * seq uvt) : res energy :=
  match Gh with
  | Some Gh =>
      if stochastic_ri sw then stochastic_call rchol rest
      else if exact sw && ~~ pno sw then
        Ok (local_energy_generic_opt sys G Gh eri)
      else if pno sw then
        if exact sw && control_variate sw then
          Ok (local_energy_generic_pno sys G Gh C0 e0 UVT)
        else Err AssertionError
      else match rchol with
           | Some r => Ok (local_energy_generic_cholesky_opt sys G Gh r)
           | None => Err TypeError          (* rchol[:nalpha*nbasis] *)
           end
  | None => Ok (local_energy_generic_cholesky sys G)
  end.

(* walkers/single_det.py 338-364, other systems than Hubbard-Holstein *)
Definition walker_local_energy (sys : system) (sw : switches)
    (rest : res energy) (G : 'M[C]_M * 'M[C]_M)
    (Gmod : 'M[C]_(na, M) * 'M[C]_(nb, M))
    (rchol : 'M[C]_(na * M + nb * M, naux)) (eri : eri_row)
    (C0 : 'M[C]_(M, na) * 'M[C]_(M, nb)) (e0 : C * C * C)
    (UVT : seq uvt * seq uvt * seq uvt) : res energy :=
  if control_variate sw then
    local_energy sys sw rest G (Some Gmod) None eri C0 e0 UVT
  else
    local_energy sys sw rest G (Some Gmod) (Some rchol) eri C0 e0 UVT.

(* generic.py 436-442: h2e with the index order of the code *)
Definition core_contribution1 (h2e : eri4) (Gc : 'M[C]_M) : 'M[C]_M :=
  \matrix_(r, s) ((\sum_p \sum_q h2e p q r s * Gc p q)
                  - half * \sum_p \sum_q h2e p r s q * Gc p q).
Definition core_contribution (h2e : eri4) (Gc : 'M[C]_M * 'M[C]_M) :=
  (core_contribution1 h2e Gc.1, core_contribution1 h2e Gc.2).

(* generic.py 444-456: chol[n,p,q] *)
Definition core_cholesky1 (chol : 'I_naux -> 'M[C]_M) (G : 'M[C]_M)
  : 'M[C]_M :=
  let cmat := \matrix_(n, x) chol n (flat_row x) (flat_col x)
              : 'M[C]_(naux, M * M) in
  let X := cmat *m ravel G in
  let J := reshape (cmat^T *m X)^T : 'M[C]_M in
  let T n := (chol n)^T *m G in
  let K := \matrix_(k, i) \sum_n \sum_q T n k q * chol n i q in
  J - half *: K.
Definition core_contribution_cholesky (chol : 'I_naux -> 'M[C]_M)
    (G : 'M[C]_M * 'M[C]_M) :=
  (core_cholesky1 chol G.1, core_cholesky1 chol G.2).

End Generic.

(* hubbard.py 93-114 *)
Section Hubbard.
Variable M : nat.

Definition local_energy_hubbard (T : 'M[C]_M * 'M[C]_M) (U : C)
    (symmetric : bool) (G : 'M[C]_M * 'M[C]_M) : energy :=
  let ke := \sum_i \sum_j (T.1 i j * G.1 i j + T.2 i j * G.2 i j) in
  let pe0 := if symmetric then Some (- half * U * (\tr G.1 + \tr G.2))
             else None in
  let pe := U * \sum_i G.1 i i * G.2 i i in
  (ke + pe, ke, pe).

(* systems/hubbard.py 157-162 *)
Definition hijkl_hubbard (U : C) (i j k l : 'I_M) : C :=
  if [&& i == j, j == k & k == l] then U else 0.

(* hubbard.py 117-145; Text is T.1 (+) T.2 *)
Definition local_energy_hubbard_ghf (T : 'M[C]_M * 'M[C]_M) (U : C) nd
    (Gi : 'I_nd -> 'M[C]_(M + M)) (weights : 'I_nd -> C) (denom : C)
  : energy :=
  let Text := block_mx T.1 0 0 T.2 in
  let ke := (\sum_i \sum_k \sum_l weights i * Gi i k l * Text k l) / denom in
  let guu i (k : 'I_M) := ulsubmx (Gi i) k k in
  let gdd i k := drsubmx (Gi i) k k in
  let gud i k := dlsubmx (Gi i) k k in
  let gdu i k := ursubmx (Gi i) k k in
  let pe := U * (\sum_j \sum_k weights j
                  * (guu j k * gdd j k - gud j k * gdu j k)) / denom in
  (ke + pe, ke, pe).

End Hubbard.

(* mixed.py 439-448.  numpy division of an array by a zero number does not
   raise; x / 0 is 0 here, and the theorems assume the denominator nonzero. *)
Definition local_energy_multi_det M (le : 'M[C]_M * 'M[C]_M -> energy)
    (dets : seq (C * ('M[C]_M * 'M[C]_M))) : energy :=
  let '(e, t, v, denom) :=
    foldl (fun acc wG =>
      let '(e, t, v, d) := acc in
      let '(w, G) := wG in
      let '(e', t', v') := le G in
      (e + w * e', t + w * t', v + w * v', d + w)) (0, 0, 0, 0) dets in
  (e / denom, t / denom, v / denom).

End LEnergy.
