(* Orthogonal atomic orbitals and the orbitals of a Fock matrix.

   Sources: /repo/pauxy/utils/linalg.py 172-175 molecular_orbitals_rhf, 186-189 get_orthoAO,
   191-199 get_ortho_ao_mod; /repo/pauxy/utils/from_pyscf.py 632-651 get_ortho_ao, the same as
   get_orthoAO.

   Simplifications: exact numbers of any numerically closed field; d and U are the result of eigh,
   an argument.  Boolean indexing keeps the columns in their order.  Printing is left out. *)

From Verif Require Import Base.
Set Warnings "-notation-overridden,-ambiguous-paths".
From mathcomp Require Import all_ssreflect all_algebra.

Set Implicit Arguments.
Unset Strict Implicit.
Unset Printing Implicit Defensive.

Import Order.TTheory GRing.Theory Num.Theory.
Local Open Scope ring_scope.

Section OrthoAO.
Variables (C : numClosedFieldType) (n : nat).
Local Notation "A ^c" := (map_mx (@conjC C) A) (at level 2, format "A ^c").

(* sdiag > LINDEP_CUTOFF *)
Definition kept (d : 'rV[C]_n) (cutoff : C) : {set 'I_n} := [set i | cutoff < d 0 i].
(* Us[:,keep] *)
Definition columns (K : {set 'I_n}) (U : 'M[C]_n) : 'M[C]_(n, #|K|) := \matrix_(i, j) U i (enum_val j).
Definition scaled (K : {set 'I_n}) (d : 'rV[C]_n) (U : 'M[C]_n) : 'M[C]_(n, #|K|) :=
  \matrix_(i, j) (columns K U i j / sqrtC (d 0 (enum_val j))).

Definition get_orthoAO (d : 'rV[C]_n) (U : 'M[C]_n) (cutoff : C) : 'M[C]_(n, #|kept d cutoff|) :=
  scaled (kept d cutoff) d U.

(* sdiag[sdiag<LINDEP_CUTOFF] = 0.0 *)
Definition zeroed (d : 'rV[C]_n) (cutoff : C) : 'rV[C]_n := \row_i if d 0 i < cutoff then 0 else d 0 i.

Definition get_ortho_ao_mod (d : 'rV[C]_n) (U : 'M[C]_n) (cutoff : C)
  : 'M[C]_n * 'M[C]_(n, #|kept (zeroed d cutoff) cutoff|) :=
  let sdiag := zeroed d cutoff in
  let K := kept sdiag cutoff in
  (columns K U *m diag_mx (\row_j sdiag 0 (enum_val j)) *m ((columns K U)^T)^c, scaled K sdiag U).

Definition molecular_orbitals_rhf k (eigh : 'M[C]_k -> 'rV[C]_k * 'M[C]_k) (fock : 'M[C]_n) (X : 'M[C]_(n, k))
  : 'rV[C]_k * 'M[C]_k := eigh ((X^c)^T *m (fock *m X)).
End OrthoAO.
