(* Matrix exponentials by truncated Taylor series.

   Sources (all under /repo/pauxy):
     utils/linalg.py 163-170                     exponentiate_matrix
     propagation/continuous.py 37, 82-111        exp_nmax, apply_exponential
     thermal_propagation/continuous.py 146-153,
     thermal_propagation/planewave.py 299-306    exponentiate (on the identity)
     propagation/pw.py 132-154                   the plane-wave loop on a grid

   Simplifications: numbers are elements of an arbitrary field with the
   integers invertible where the theorems ask for it (exact arithmetic); array
   types are not kept, so the failing cast of a complex term into a real phi is
   not modelled; the debugging branches, which only print, are left out.
   range(1, n+1) is empty for n <= 0, so the order is an integer.  In pw.py the
   four convolutions of a step are one linear map on the grid. *)

From Verif Require Import Base.
Set Warnings "-notation-overridden,-ambiguous-paths".
From mathcomp Require Import all_ssreflect all_algebra.

Set Implicit Arguments.
Unset Strict Implicit.
Unset Printing Implicit Defensive.

Import GRing.Theory.
Local Open Scope ring_scope.

Section Taylor.
Variable K : fieldType.

Definition divn_mx n m (A : 'M[K]_(n, m)) (k : nat) : 'M[K]_(n, m) :=
  (k%:R)^-1 *: A.

(* linalg.py 167-169: k more passes, the current one numbered i *)
Fixpoint expm_loop n (M T E : 'M[K]_n) (i k : nat) : 'M[K]_n :=
  match k with
  | 0%N => E
  | k'.+1 => expm_loop M (divn_mx (M *m T) i.+1) (E + T) i.+1 k'
  end.

(* linalg.py 163-170 *)
Definition exponentiate_matrix n (M : 'M[K]_n) (order : Z) : 'M[K]_n :=
  expm_loop M M 1%:M 1 (Z.to_nat order).

(* continuous.py 104-106 *)
Fixpoint apply_loop n m (V : 'M[K]_n) (T phi : 'M[K]_(n, m)) (i k : nat)
  : 'M[K]_(n, m) :=
  match k with
  | 0%N => phi
  | k'.+1 =>
      let T := divn_mx (V *m T) i in
      apply_loop V T (phi + T) i.+1 k'
  end.

(* continuous.py 100-111 *)
Definition apply_exponential n m (nmax : Z) (phi : 'M[K]_(n, m))
    (V : 'M[K]_n) : 'M[K]_(n, m) :=
  apply_loop V phi phi 1 (Z.to_nat nmax).

(* thermal_propagation: the same loop on the identity *)
Definition exponentiate n (nmax : Z) (V : 'M[K]_n) : 'M[K]_n :=
  apply_loop V 1%:M 1%:M 1 (Z.to_nat nmax).

(* pw.py: rows gmap of the grid hold the orbitals *)
Definition to_grid ng n m (gmap : 'I_n -> 'I_ng) (phi : 'M[K]_(n, m))
  : 'M[K]_(ng, m) :=
  \matrix_(g, j)
    (if [pick i | gmap i == g] is Some i then phi i j else 0).

Definition of_grid ng n m (gmap : 'I_n -> 'I_ng) (G : 'M[K]_(ng, m))
  : 'M[K]_(n, m) := \matrix_(i, j) G (gmap i) j.

(* pw.py 135-150 *)
Fixpoint grid_loop ng n m (gmap : 'I_n -> 'I_ng) (V : 'M[K]_ng)
    (G : 'M[K]_(ng, m)) (phi : 'M[K]_(n, m)) (i k : nat) : 'M[K]_(n, m) :=
  match k with
  | 0%N => phi
  | k'.+1 =>
      let tmp := divn_mx (V *m G) i in
      let G := to_grid gmap (of_grid gmap tmp) in
      grid_loop gmap V G (phi + of_grid gmap G) i.+1 k'
  end.

Definition apply_grid ng n m (nmax : Z) (gmap : 'I_n -> 'I_ng) (V : 'M[K]_ng)
    (phi : 'M[K]_(n, m)) : 'M[K]_(n, m) :=
  grid_loop gmap V (to_grid gmap phi) phi 1 (Z.to_nat nmax).

End Taylor.
