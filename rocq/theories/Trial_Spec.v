(* Determinants of lowest energy and self-consistent fields, for C70.  Nothing here refers to
   the model. *)

From Verif Require Import Base.
Set Warnings "-notation-overridden,-ambiguous-paths".
From mathcomp Require Import all_ssreflect all_fingroup all_algebra.
From Verif Require Import Ortho_Spec.

Set Implicit Arguments.
Unset Strict Implicit.
Unset Printing Implicit Defensive.

Import Order.TTheory GRing.Theory Num.Theory.
Local Open Scope ring_scope.

Section Spec.
Variable C : numClosedFieldType.
Variable M : nat.
Notation mat := 'M[C]_M.
Notation dens := 'rV[C]_M.

Definition hermitian (H : mat) : Prop := adj H = H.
Definition real_row (n : dens) : Prop := forall i, n 0 i \is Num.real.

(* What is assumed of the two numerical routines. *)
Definition eigh_right (eigh : mat -> dens * mat) : Prop :=
  forall H, hermitian H ->
    [/\ real_row (eigh H).1, orthonormal (eigh H).2
      & H *m (eigh H).2 = (eigh H).2 *m diag_mx (eigh H).1].
Definition argsort_right (argsort : dens -> 'S_M) : Prop :=
  forall e, real_row e -> forall i j : 'I_M, (i <= j)%N -> e 0 (argsort e i) <= e 0 (argsort e j).

(* Energy of k independent electrons in the orbitals X. *)
Definition one_body_energy k (H : mat) (X : 'M[C]_(M, k)) : C := \tr (adj X *m H *m X).

(* Orthonormal eigenvectors, and no other orthonormal orbitals have a lower energy. *)
Definition ground_orbitals k (H : mat) (X : 'M[C]_(M, k)) : Prop :=
  [/\ orthonormal X, exists e : 'rV[C]_k, H *m X = X *m diag_mx e
    & forall Y : 'M[C]_(M, k), orthonormal Y -> one_body_energy H X <= one_body_energy H Y].

(* Electrons on each site. *)
Definition sites k (X : 'M[C]_(M, k)) : dens := \row_i \sum_j `|X i j| ^+ 2.

(* Energy of a determinant for the Hubbard Hamiltonian, by Wick's theorem. *)
Definition hubbard_energy nup ndn (T : mat * mat) (U : C) (up : 'M[C]_(M, nup)) (dn : 'M[C]_(M, ndn))
  : C :=
  one_body_energy T.1 up + one_body_energy T.2 dn + U * \sum_i sites up 0 i * sites dn 0 i.

(* The Hamiltonian seen by the electrons of one spin. *)
Definition mean_field (T : mat) (U : C) (n : dens) : mat := T + diag_mx (U *: n).

(* Expectation value of the total spin squared: contractions of
   S^2 = S_z^2 + N/2 - sum_ij c+_iu c_ju c+_jd c_id. *)
Definition total_spin nup ndn (up : 'M[C]_(M, nup)) (dn : 'M[C]_(M, ndn)) : C :=
  ((nup%:R - ndn%:R) / 2%:R) ^+ 2 + (nup%:R + ndn%:R) / 2%:R
  - \tr ((up *m adj up) *m (dn *m adj dn)).

(* Average difference over the sites. *)
Definition dist (a b : dens) : C := (\sum_i `|a 0 i - b 0 i|) / M%:R.

(* A self-consistent iteration with outputs F and energies E.  The input of each step mixes
   the last two outputs; the start counts as output before the first step. *)
Section Iteration.
Variable F : dens * dens -> dens * dens.
Variable E : dens * dens -> C.
Variables alpha deps : C.
Variable s : dens * dens.
Variable e0 : C.

Definition mixed2 (h : (dens * dens) * (dens * dens)) : dens * dens :=
  ((1 - alpha) *: h.1.1 + alpha *: h.2.1, (1 - alpha) *: h.1.2 + alpha *: h.2.2).
Fixpoint outputs (k : nat) : (dens * dens) * (dens * dens) :=
  match k with 0%N => (s, s) | k'.+1 => (F (mixed2 (outputs k')), (outputs k').1) end.
Definition input (k : nat) : dens * dens := mixed2 (outputs k).
Definition energy (k : nat) : C := E (input k).
Definition energy_before (k : nat) : C := match k with 0%N => e0 | k'.+1 => energy k' end.
Definition small_change (k : nat) : Prop :=
  [/\ `|energy k - energy_before k| < deps,
      dist (F (input k)).1 (outputs k).1.1 < sqrtC deps
    & dist (F (input k)).2 (outputs k).1.2 < sqrtC deps].
(* converged in step k and not before *)
Definition converges (max k : nat) : Prop :=
  [/\ (k < max)%N, small_change k & forall j, (j < k)%N -> ~ small_change j].
End Iteration.

(* The steps of unrestricted Hartree-Fock, for a choice of the lowest orbitals. *)
Section UHF.
Variable low : forall k, mat -> 'M[C]_(M, k).
Variables nup ndn : nat.
Variable T : mat * mat.
Variable U : C.
Definition uhf_up (n : dens * dens) : 'M[C]_(M, nup) := low nup (mean_field T.1 U n.2).
Definition uhf_dn (n : dens * dens) : 'M[C]_(M, ndn) := low ndn (mean_field T.2 U n.1).
Definition uhf_out (n : dens * dens) : dens * dens := (sites (uhf_up n), sites (uhf_dn n)).
Definition uhf_energy (n : dens * dens) : C := hubbard_energy T U (uhf_up n) (uhf_dn n).
(* The starting point: lowest orbitals of two random symmetric matrices. *)
Definition symmetrised (R : mat) : mat := 2%:R^-1 *: (R + R^T).
Definition start_up (R : mat * mat) : 'M[C]_(M, nup) := low nup (symmetrised R.1).
Definition start_dn (R : mat * mat) : 'M[C]_(M, ndn) := low ndn (symmetrised R.2).
Definition uhf_start (R : mat * mat) : dens * dens := (sites (start_up R), sites (start_dn R)).
Definition start_energy (R : mat * mat) : C :=
  one_body_energy (symmetrised R.1) (start_up R) + one_body_energy (symmetrised R.2) (start_dn R).
Definition uhf_converges (alpha deps : C) (max : nat) (R : mat * mat) (k : nat) : Prop :=
  converges uhf_out uhf_energy alpha deps (uhf_start R) (start_energy R) max k.
Definition uhf_input (alpha : C) (R : mat * mat) (k : nat) : dens * dens :=
  input uhf_out alpha (uhf_start R) k.
End UHF.

(* A determinant that is the ground state of its own mean field. *)
Definition self_consistent nup ndn (T : mat * mat) (U : C) (up : 'M[C]_(M, nup))
    (dn : 'M[C]_(M, ndn)) : Prop :=
  ground_orbitals (mean_field T.1 U (sites dn)) up /\ ground_orbitals (mean_field T.2 U (sites up)) dn.

(* One site of a lattice with nx columns: its coordinates, and whether two sites are next to
   each other with open boundaries. *)
Definition even_site (nx i : nat) : bool := ~~ odd (i %% nx + i %/ nx).
Definition adjacent (nx i j : nat) : bool :=
  ((i %/ nx == j %/ nx) && ((i %% nx).+1 == j %% nx))%N
  || ((i %% nx == j %% nx) && ((i %/ nx).+1 == j %/ nx))%N.
End Spec.
