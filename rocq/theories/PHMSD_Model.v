(* Trial wavefunctions from particle-hole expansions.

   Sources (all under /repo/pauxy):
     trial_wavefunction/multi_slater.py 172-191  from_phmsd

   Simplifications: numbers as in Ortho_Model; orbital indices are not negative.  A determinant
   is a pair of matrices, the columns before and after nup of psi[idet].  Fancy indexing with an
   index out of range raises IndexError, an assignment of the wrong shape ValueError; a single
   column is broadcast to any number of columns.  The name I is bound only without orbs:
   otherwise the first determinant raises UnboundLocalError. *)

From Verif Require Import Base.
Set Warnings "-notation-overridden,-ambiguous-paths".
From mathcomp Require Import all_ssreflect all_algebra.

Set Implicit Arguments.
Unset Strict Implicit.
Unset Printing Implicit Defensive.

Import GRing.Theory.
Local Open Scope ring_scope.

Section PHMSD.
Variable C : ringType.
Variables nb nup ndown : nat.
Definition pair_t : Type := ('M[C]_(nb, nup) * 'M[C]_(nb, ndown))%type.

(* I[:,occ] *)
Definition fetch (orbs : bool) (occ : seq nat) : res (seq nat) :=
  if orbs then Err UnboundLocalError else
  if all (fun o => o < nb)%N occ then Ok occ else Err IndexError.

(* the assignment of these columns of the identity to k columns *)
Definition assign (k : nat) (occ : seq nat) : res ('M[C]_(nb, k)) :=
  if (size occ != k) && (size occ != 1%N) then Err ValueError else
  Ok (\matrix_(i, j) (val i == nth 0%N occ (if size occ == 1%N then 0%N else j))%:R).

(* 189-191: the determinants idet, idet + 1, ...; ndets of them have a place *)
Fixpoint fill_dets (orbs : bool) (ndets idet : nat) (l : seq (seq nat * seq nat)) : res (seq pair_t) :=
  match l with
  | [::] => Ok (nseq (ndets - idet) (0, 0))
  | (a, c) :: l' =>
      rbind (fetch orbs a) (fun a' =>
      if (ndets <= idet)%N then Err IndexError else
      rbind (assign nup a') (fun ua =>
      rbind (fetch orbs c) (fun c' =>
      rbind (assign ndown c') (fun uc =>
      rbind (fill_dets orbs ndets idet.+1 l') (fun ps => Ok ((ua, uc) :: ps))))))
  end.

(* (spin_occs, psi) *)
Definition from_phmsd (orbs : bool) (ndets : nat) (occa occb : seq (seq nat))
  : res (seq (seq nat) * seq pair_t) :=
  let ac := zip occa occb in
  let spin_occs := [seq sort leq (d.1 ++ [seq (i + nb)%N | i <- d.2]) | d <- ac] in
  rbind (fill_dets orbs ndets 0 ac) (fun psi => Ok (spin_occs, psi)).
End PHMSD.
