(* Freezing core orbitals.

   Sources (all under /repo/pauxy):
     utils/from_pyscf.py 195-220        freeze_core
     estimators/generic.py 398-434      local_energy_generic_cholesky
     estimators/generic.py 444-456      core_contribution_cholesky

   Simplifications: the basis has nc core, ncas active and nv further
   orbitals, in that order.  Numbers are elements of an arbitrary numerically
   closed field.  chol[n,p,q] is a function of n.  Other printing is left
   out. *)

From Verif Require Import Base.
Set Warnings "-notation-overridden,-ambiguous-paths".
From mathcomp Require Import all_ssreflect all_algebra.
From Verif Require Import Ortho_Model LEnergy_Model.

Set Implicit Arguments.
Unset Strict Implicit.
Unset Printing Implicit Defensive.

Import Order.TTheory GRing.Theory Num.Theory.
Local Open Scope ring_scope.

Section Freeze.
Variable C : numClosedFieldType.
Variables nc ncas nv naux : nat.
Let M := (nc + (ncas + nv))%N.

(* index nc + i *)
Definition active (i : 'I_ncas) : 'I_M := rshift nc (lshift nv i).

(* A[nc:nc+ncas,nc:nc+ncas] *)
Definition slice (A : 'M[C]_M) : 'M[C]_ncas :=
  \matrix_(i, j) A (active i) (active j).

(* 204-205: identity(nbasis)[:,:nc] *)
Definition psi_core : 'M[C]_(M, nc) := col_mx 1%:M 0.
Definition Gcore : 'M[C]_M := gab psi_core psi_core.

(* 207-211 *)
Definition frozen_h1e (h1e : 'M[C]_M) (chol : 'I_naux -> 'M[C]_M)
  : 'M[C]_ncas * 'M[C]_ncas :=
  let hc := core_contribution_cholesky chol (Gcore, Gcore) in
  (slice (h1e + 2%:R *: hc.1), slice (h1e + 2%:R *: hc.2)).

(* 213 *)
Definition frozen_chol (chol : 'I_naux -> 'M[C]_M) (n : 'I_naux)
  : 'M[C]_ncas := slice (chol n).

(* 206: the vectors have shape (nchol, nbasis, nbasis), while the energy
   routine expects (nbasis*nbasis, nchol).  chol_vecs.T has shape (nbasis,
   nbasis, nchol), and its product with the nbasis*nbasis numbers of
   Ga.ravel() raises unless nchol is nbasis*nbasis.  In that case Xa is a
   matrix, numpy.dot(Xa,Xa) a matrix product, and the energy an array: the
   argument rest.  219: with verbose (the default) the array is printed with
   %13.8e, which raises unless it has one element. *)
Definition frozen_energy (verbose : bool) (rest : 'M[C]_M) : res 'M[C]_M :=
  if naux == (M * M)%N then
    if verbose && (M != 1%N) then Err TypeError else Ok rest
  else Err ValueError.

Definition freeze_core (verbose : bool) (rest : 'M[C]_M) (h1e : 'M[C]_M)
    (chol : 'I_naux -> 'M[C]_M)
  : res (('M[C]_ncas * 'M[C]_ncas) * ('I_naux -> 'M[C]_ncas) * 'M[C]_M) :=
  rbind (frozen_energy verbose rest) (fun ecore =>
  Ok (frozen_h1e h1e chol, frozen_chol chol, ecore)).

End Freeze.
