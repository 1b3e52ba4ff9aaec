(* Ionisation potentials and electron affinities by the extended Koopmans theorem.

   Source: /repo/pauxy/analysis/blocking.py 343-365 analyse_ekt_ipea.

   Simplifications: exact numbers of any numerically closed field; the averages and errors of
   average_rdm and the function eigh are arguments.  eigh reads the lower triangle of its argument
   and the real part of the diagonal. *)

From Verif Require Import Base.
Set Warnings "-notation-overridden,-ambiguous-paths".
From mathcomp Require Import all_ssreflect all_algebra.
From Verif Require Import OrthoAO_Model.

Set Implicit Arguments.
Unset Strict Implicit.
Unset Printing Implicit Defensive.

Import Order.TTheory GRing.Theory Num.Theory.
Local Open Scope ring_scope.

Section EktIpea.
Variables (C : numClosedFieldType) (n : nat).
Variable eigh : forall k, 'M[C]_k -> 'rV[C]_k * 'M[C]_k.
Variables (cutoff screen_factor : C).
Local Notation "A ^c" := (map_mx (@conjC C) A) (at level 2, format "A ^c").

Definition lower k (A : 'M[C]_k) : 'M[C]_k :=
  \matrix_(i, j) if (j < i)%N then A i j else if (i < j)%N then (A j i)^* else 'Re (A i i).
Definition np_eigh k (A : 'M[C]_k) := eigh (lower A).

(* av[numpy.abs(av) < screen_factor*err] = 0.0 *)
Definition screen (av err : 'M[C]_n) : 'M[C]_n :=
  \matrix_(i, j) if `|av i j| < screen_factor * err i j then 0 else av i j.

(* the sum of both spins, its Hermitian and real part *)
Definition spin_average (up down : 'M[C]_n) : 'M[C]_n :=
  let rdm := up + down in \matrix_(i, j) (2%:R^-1 * 'Re (rdm i j + (rdm j i)^*)).

(* lines 352-355 and 359-361: the eigenvalues and vectors, and X *)
Definition koopmans (S F : 'M[C]_n) :=
  let: X := (get_ortho_ao_mod (np_eigh S).1 (np_eigh S).2 cutoff).2 in
  np_eigh ((X^c)^T *m (F *m X)).

Definition analyse_ekt_ipea (rdm_up rdm_down err_up err_down fock_1h err_1h fock_1p err_1p : 'M[C]_n) :=
  let rdm := spin_average (screen rdm_up err_up) (screen rdm_down err_down) in
  let gamma := 2%:R *: 1%:M - rdm^T in
  (koopmans rdm (screen fock_1h err_1h), koopmans gamma (screen fock_1p err_1p)).
End EktIpea.
