(* The transformation of plane waves to real orbitals.

   Sources (all under /repo/pauxy):
     systems/ueg.py 458-485   compute_real_transformation
     systems/ueg.py 495-505   eri_8, the transformation of the integrals

   Simplifications: exact numbers of any numerically closed field; the integrals of eri_4 are an
   argument.  diff == 0 and numpy.sum(b*b) == 0 are exact in the code too, the basis being
   integer. *)

From Verif Require Import Base.
Set Warnings "-notation-overridden,-ambiguous-paths".
From mathcomp Require Import all_ssreflect all_algebra.

Set Implicit Arguments.
Unset Strict Implicit.
Unset Printing Implicit Defensive.

Import Order.TTheory GRing.Theory Num.Theory.
Local Open Scope ring_scope.

Section RealUEG.
Variables (C : numClosedFieldType) (n : nat) (basis : 'I_n -> 'rV[int]_3).

Definition sq (v : 'rV[int]_3) : int := \sum_c v 0 c ^+ 2.
Definition upd (U : 'M[C]_n) (i j : 'I_n) (x : C) : 'M[C]_n :=
  \matrix_(a, b) if (a == i) && (b == j) then x else U a b.

(* numpy.argwhere(diff == 0) *)
Definition partners (i : 'I_n) : seq 'I_n := [seq j <- enum 'I_n | sq (basis j - - basis i) == 0].

Definition set_pair (U : 'M[C]_n) (i : 'I_n) : res 'M[C]_n :=
  if sq (basis i) == 0 then Ok (upd U i i 1) else
  if partners i is [:: j] then
    if (i < j)%N then
      let r := (sqrtC 2%:R)^-1 in
      Ok (upd (upd (upd (upd U i i r) i j r) j i (- 'i * r)) j j ('i * r))
    else Ok U
  else Err AssertionError.

Fixpoint set_pairs (s : seq 'I_n) (U : 'M[C]_n) : res 'M[C]_n :=
  if s is i :: s' then rbind (set_pair U i) (set_pairs s') else Ok U.

Definition compute_real_transformation : res 'M[C]_n :=
  rbind (set_pairs (enum 'I_n) 0) (fun U => Ok U^T).

(* eri3 before .real is taken *)
Definition eri_transformed (U : 'M[C]_n) (eri : 'I_n -> 'I_n -> 'I_n -> 'I_n -> C) (p q r t : 'I_n) : C :=
  \sum_s U s t * (\sum_l (U l r)^* * (\sum_k U k q * (\sum_m (U m p)^* * eri m k l s))).

Definition eri_8 (eri : 'I_n -> 'I_n -> 'I_n -> 'I_n -> C) : res ('I_n -> 'I_n -> 'I_n -> 'I_n -> C) :=
  rbind compute_real_transformation (fun U => Ok (fun p q r t => 'Re (eri_transformed U eri p q r t))).
End RealUEG.
