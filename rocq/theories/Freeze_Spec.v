(* States with a doubly occupied core. *)

From Verif Require Import Base.
Set Warnings "-notation-overridden,-ambiguous-paths".
From mathcomp Require Import all_ssreflect all_algebra.

Set Implicit Arguments.
Unset Strict Implicit.
Unset Printing Implicit Defensive.

Import Order.TTheory GRing.Theory Num.Theory.
Local Open Scope ring_scope.

Section Spec.
Variable C : numClosedFieldType.
Variables nc ncas nv : nat.

(* Density matrix of the core alone, and of core and active electrons. *)
Definition core_only : 'M[C]_(nc + (ncas + nv)) :=
  block_mx 1%:M 0 0 0.
Definition with_core (g : 'M[C]_ncas) : 'M[C]_(nc + (ncas + nv)) :=
  block_mx 1%:M 0 0 (block_mx g 0 0 0).

End Spec.

(* (pr|qu) from Cholesky vectors. *)
Definition integrals (C : numClosedFieldType) M naux (L : 'I_naux -> 'M[C]_M)
    (p r q u : 'I_M) : C := \sum_n L n p r * L n q u.
