(* New coefficients for a multi-determinant trial wavefunction.

   Sources (all under /repo/pauxy):
     trial_wavefunction/multi_slater.py 193-231  recompute_ci_coeffs
     trial_wavefunction/utils.py 75-88           the option recompute_ci

   Simplifications: numbers as in Ortho_Model.  There is at least one determinant (the
   constructor reads psi[0]).  scipy.linalg.eigh is an argument, in its two forms, and returns
   eigenvalues and eigenvectors or raises.  scipy.linalg.inv of a singular matrix raises
   LinAlgError, here ValueError.  get_hmatel is that of CI_Model; local_energy is an argument,
   one component of the energy is followed.  The loops visit the pairs i <= j in the order of
   the code and stop at the first exception; what they store is written as a matrix. *)

From Verif Require Import Base.
Set Warnings "-notation-overridden,-ambiguous-paths".
From mathcomp Require Import all_ssreflect all_algebra.
From Verif Require Import Ortho_Model CI_Model MultiDet_Model.

Set Implicit Arguments.
Unset Strict Implicit.
Unset Printing Implicit Defensive.

Import Order.TTheory GRing.Theory Num.Theory.
Local Open Scope ring_scope.

(* for i in range(n): for j in range(i, n) *)
Definition upper_pairs n : seq ('I_n * 'I_n) :=
  filter (fun p : 'I_n * 'I_n => p.1 <= p.2)%N [seq (i, j) | i <- enum 'I_n, j <- enum 'I_n].

Fixpoint first_err (A : Type) (l : seq (res A)) : option err :=
  match l with
  | [::] => None
  | Ok _ :: l' => first_err l'
  | Err e :: _ => Some e
  end.

Definition value (A : Type) (d : A) (r : res A) : A :=
  match r with Ok x => x | Err _ => d end.

Section Rediag.
Variable C : numClosedFieldType.
Local Notation "A ^c" := (map_mx (@conjC C) A) (at level 2, format "A ^c").
Variable m : nat.                       (* ndets = m + 1 *)
Local Notation N := m.+1.

(* ev[:,0] *)
Definition first_col (r : res ('rV[C]_N * 'M[C]_N)) : res ('cV[C]_N) :=
  rbind r (fun p => Ok (col 0 p.2)).

(* 194-205: the lower triangle of H stays zero *)
Definition recompute_ortho (eigh : 'M[C]_N -> res ('rV[C]_N * 'M[C]_N)) (s : system C)
    (spin_occs : 'I_N -> seq nat) : res ('cV[C]_N) :=
  let h i j := get_hmatel s (spin_occs i) (spin_occs j) in
  match first_err [seq h p.1 p.2 | p <- upper_pairs N] with
  | Some e => Err e
  | None =>
      let H := \matrix_(i, j) (if (i <= j)%N then (value (0, 0, 0) (h i j)).1.1 else 0) in
      first_col (eigh H)
  end.

(* 206-226: one pair of determinants; rchol when the vectors have been half rotated *)
Definition pair_entry n nu nd (eps : C) (rchol : bool) (le : 'M[C]_n -> 'M[C]_n -> C)
    (dui duj : 'M[C]_(n, nu)) (ddi ddj : 'M[C]_(n, nd)) : res (C * C) :=
  if (duj^T *m dui^c \in unitmx) && (ddj^T *m ddi^c \in unitmx) then
    let: (ga, _, ioa) := gab_mod_ovlp dui duj in
    let: (gb, _, iob) := gab_mod_ovlp ddi ddj in
    let ovlp := 1 / (\det ioa * \det iob) in
    if eps < `|ovlp| then
      if rchol then Err AttributeError
      else Ok (ovlp * le ga gb, ovlp)
    else Ok (0, 0)
  else Err ValueError.

Definition recompute_general (eigh : 'M[C]_N -> 'M[C]_N -> res ('rV[C]_N * 'M[C]_N))
    n nu nd (eps : C) (rchol : bool) (le : 'M[C]_n -> 'M[C]_n -> C)
    (psiu : 'I_N -> 'M[C]_(n, nu)) (psid : 'I_N -> 'M[C]_(n, nd)) : res ('cV[C]_N) :=
  let e i j := pair_entry eps rchol le (psiu i) (psiu j) (psid i) (psid j) in
  match first_err [seq e p.1 p.2 | p <- upper_pairs N] with
  | Some x => Err x
  | None =>
      (* the entry (j,i) is stored after (i,j), also on the diagonal *)
      let fill (f : C * C -> C) := \matrix_(i, j)
        (if (i < j)%N then f (value (0, 0) (e i j)) else (f (value (0, 0) (e j i)))^*) in
      first_col (eigh (fill fst) (fill snd))
  end.
End Rediag.
