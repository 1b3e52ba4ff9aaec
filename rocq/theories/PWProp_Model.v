(* The propagator of plane waves by fast Fourier transforms.

   Sources (all under /repo/pauxy):
     estimators/utils.py 148-258    scipy_fftconvolve, mode 'valid'
     estimators/ueg_kernels.pyx 19-43   mod_one_body
     propagation/pw.py 76-155       apply_two_body_propagator
     propagation/pw.py 273-320      construct_force_bias_fft

   Simplifications: as in PWFFT_Model.  The columns of the walker are handled one
   after the other; in the code every order of the series runs over all columns, which
   do not depend on each other.  The fields xi are an argument.  The counter of
   rescaled biases is not kept. *)

From Verif Require Import Base.
Set Warnings "-notation-overridden,-ambiguous-paths".
From mathcomp Require Import all_ssreflect all_algebra.
From Verif Require Import PWFFT_Model.

Set Implicit Arguments.
Unset Strict Implicit.
Unset Printing Implicit Defensive.

Import Order.TTheory GRing.Theory Num.Theory.
Local Open Scope ring_scope.

Section Propagator.
Variable C : numClosedFieldType.
Variable w : nat -> C.
Variable next_fast_len : nat -> nat.

Notation cube L := ('I_L * 'I_L * 'I_L)%type.

(* the entries start, ..., start + m - 1 along each axis, as a list *)
Definition window (start m L : nat) (f : cube L -> C) : seq C :=
  [seq at3 f (start + i %/ m %/ m) (start + i %/ m %% m) (start + i %% m) | i <- iota 0 (m ^ 3)].

(* utils.py 186-258 for cubes in1, in2 with n1, n2 entries along each axis *)
Definition fftconvolve_valid (in1 : seq C) (n1 : nat) (in2 : seq C) (n2 : nat) : res (seq C) :=
  if (size in1 == n1 ^ 3)%N && (size in2 == n2 ^ 3)%N then
    if (n1 == 0%N) || (n2 == 0%N) then Ok [::] else
    let shape := (n1 + n2 - 1)%N in
    let: (a1, s1, a2, s2) := if (n1 < n2)%N then (in2, n2, in1, n1) else (in1, n1, in2, n2) in
    let fshape := next_fast_len shape in
    let sp1 := fftn w (@padded C s1 fshape a1) in
    let sp2 := fftn w (@padded C s2 fshape a2) in
    let ret := ifftn w (fun p => sp1 p * sp2 p) in
    let valid := (s1 - s2 + 1)%N in
    Ok (window ((shape - valid) %/ 2) valid ret)
  else Err ValueError.

Variable sys : system C.
Variable vol : C.
Variable sqrt_dt : C.
Notation M := (size (basis sys)).

(* ueg_kernels.pyx 19-43 *)
Definition mod_one_body (pi kfac : C) (T : 'M[C]_M) : 'M[C]_M :=
  \matrix_(i, i') if i == i' then
    foldl (fun h (j : 'I_M) => if i != j
             then h - 1 / (2%:R * vol) * vq pi kfac (nth 0 (basis sys) i - nth 0 (basis sys) j)
             else h) (T i i) (enum 'I_M)
  else T i i'.

Definition ngrid : nat := ((nmax sys * 2 + 1) ^ 3)%N.
Definition nqgrid : nat := ((qnmax sys * 2 + 1) ^ 3)%N.
Definition num_vplus : nat := (2 * size (qvecs sys) %/ 2)%N.

(* pw.py 296-318: one orbital of one spin *)
Definition bias_term m (CT Gh : 'M[C]_(m, M)) (i : 'I_m) : res (seq C) :=
  let n := (nmax sys * 2 + 1)%N in
  rbind (scatter ngrid (gmap sys) (arow Gh i)) (fun Gc =>
  rbind (scatter ngrid (gmap sys) (arow CT i)) (fun CTc =>
  rbind (convolve w next_fast_len Gc (rev CTc) n) (fun l1 =>
  rbind (gather (rev l1) (qmap sys)) (fun lQ1 =>
  rbind (convolve w next_fast_len CTc (rev Gc) n) (fun l2 =>
  rbind (gather (rev l2) (qmap sys)) (fun lQ2 =>
  Ok ([seq (p.1 + p.2) * 'i | p <- zip lQ1 lQ2] ++ [seq - p.1 + p.2 | p <- zip lQ1 lQ2]))))))).

(* pw.py 273-320 *)
Definition construct_force_bias (ragged : bool) nup ndown (Ga : 'M[C]_(nup, M)) (Gb : 'M[C]_(ndown, M))
    (psi : 'M[C]_(M, nup + ndown)) : res (seq C) :=
  if (nup != ndown) && ~~ ragged then Err ValueError else
  rbind (accumulate (bias_term (CTdagger psi 0 nup) Ga) (enum 'I_nup)
           (nseq (2 * size (qvecs sys)) 0)) (fun va =>
  rbind (accumulate (bias_term (CTdagger psi nup ndown) Gb) (enum 'I_ndown) va) (fun vbias =>
  let factor := sqrtC (1 / (4%:R * vol)) in
  let scale (l : seq C) := [seq p.1 * (factor * sqrtC p.2) | p <- zip l (vqvec sys)] in
  Ok [seq - sqrt_dt * x | x <- scale (take num_vplus vbias) ++ scale (drop num_vplus vbias)])).

(* pw.py 129-147: one order of the series, before and after the mask *)
Definition apply_V (xp xm : seq C) (n : nat) (phi : seq C) : res (seq C) :=
  let conv x f := fftconvolve_valid x (qnmax sys * 2 + 1) f (nmax sys * 2 + 1) in
  rbind (conv xp phi) (fun l1 =>
  rbind (conv xp (rev phi)) (fun l2 =>
  rbind (conv xm phi) (fun l3 =>
  rbind (conv xm (rev phi)) (fun l4 =>
  Ok [seq ('i * (p.1.1 + p.1.2) - (p.2.1 - p.2.2)) / n%:R
     | p <- zip (zip l1 (rev l2)) (zip l3 (rev l4))])))).

Definition mask (grid : seq C) : res (seq C) :=
  rbind (gather grid (gmap sys)) (fun v => scatter ngrid (gmap sys) v).

(* orders n0, n0 + 1, ..., n0 + N - 1 *)
Fixpoint series (xp xm : seq C) (n0 N : nat) (grid acc : seq C) : res (seq C) :=
  match N with
  | O => Ok acc
  | S N' =>
      rbind (apply_V xp xm n0 grid) (fun V =>
      rbind (mask V) (fun grid' =>
      rbind (gather grid' (gmap sys)) (fun v =>
      series xp xm n0.+1 N' grid' [seq p.1 + p.2 | p <- zip acc v])))
  end.

Definition acol N (phi : 'M[C]_(M, N)) (i : 'I_N) : seq C := [seq phi a i | a <- enum 'I_M].

(* pw.py 113-153; the new columns *)
Definition apply_exp (exp_nmax : nat) N (xshifted : seq C) (phi : 'M[C]_(M, N))
  : 'I_N -> res (seq C) := fun i =>
  let vqfactor := [seq sqrt_dt * sqrtC (1 / (4%:R * vol)) * sqrtC v | v <- vqvec sys] in
  let times a b := [seq p.1 * p.2 | p <- zip a b] in
  rbind (scatter nqgrid (qmap sys) (times (take num_vplus xshifted) vqfactor)) (fun xp =>
  rbind (scatter nqgrid (qmap sys) (times (drop num_vplus xshifted) vqfactor)) (fun xm =>
  rbind (scatter ngrid (gmap sys) (acol phi i)) (fun grid =>
  series xp xm 1 exp_nmax grid (acol phi i)))).

(* pw.py 98-106 *)
Definition rescale (xbar : seq C) : seq C := [seq if 1 < `|x| then x / `|x| else x | x <- xbar].

Definition dotl (a b : seq C) : C := \sum_(p <- zip a b) p.1 * p.2.

(* pw.py 93-112: (cmf, cfb, xshifted) *)
Definition shift_fields (xi xbar : seq C) : C * C * seq C :=
  let xbar := rescale xbar in
  let xs := [seq p.1 - p.2 | p <- zip xi xbar] in
  let mf_shift := nseq (2 * size (qvecs sys)) 0 in
  (- sqrt_dt * dotl xs mf_shift, dotl xi xbar - 2%:R^-1 * dotl xbar xbar, xs).

(* pw.py 76-155 *)
Definition apply_two_body_propagator (ragged force_bias : bool) (exp_nmax : nat) nup ndown
    (xi : seq C) (Ga : 'M[C]_(nup, M)) (Gb : 'M[C]_(ndown, M)) (psi : 'M[C]_(M, nup + ndown))
    (phi : 'M[C]_(M, nup + ndown)) : res (C * C * seq C * ('I_(nup + ndown) -> res (seq C))) :=
  rbind (if force_bias then construct_force_bias ragged Ga Gb psi
         else Ok (nseq (2 * size (qvecs sys)) 0)) (fun xbar =>
  let: (cmf, cfb, xs) := shift_fields xi xbar in
  Ok (cmf, cfb, xs, apply_exp exp_nmax xs phi)).
End Propagator.
