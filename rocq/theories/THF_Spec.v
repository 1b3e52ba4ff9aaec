(* Self-consistent density matrices, for C66. *)

From Verif Require Import Base.
Set Warnings "-notation-overridden,-ambiguous-paths".
From mathcomp Require Import all_ssreflect all_algebra.

Set Implicit Arguments.
Unset Strict Implicit.
Unset Printing Implicit Defensive.

Import Order.TTheory GRing.Theory Num.Theory.
Local Open Scope ring_scope.

Section Spec.
Variable C : numClosedFieldType.
Variable n : nat.
Notation M := 'M[C]_n.
Notation mat2 := (M * M)%type.

(* The law of the exponential that is used: constants can be taken out. *)
Definition exponential (expm : M -> M) (expo : C -> C) : Prop :=
  forall A c, expm (A + c%:M) = expo c *: expm A.

(* Distance of two pairs of matrices: all entries. *)
Definition distance (P Q : mat2) : C :=
  sqrtC (\sum_i \sum_j (`|P.1 i j - Q.1 i j| ^+ 2 + `|P.2 i j - Q.2 i j| ^+ 2)).

Definition electrons (P : mat2) : C := \tr P.1 + \tr P.2.

(* The density matrix of independent electrons with the Hamiltonian H: rdm is that of a
   number of equal bins, tau their length. *)
Definition density (expm : M -> M) (rdm : M -> nat -> M) (tau : C) (bins : nat) (H : mat2) (mu : C)
  : mat2 :=
  (rdm (expm (- tau *: (H.1 - mu%:M))) bins, rdm (expm (- tau *: (H.2 - mu%:M))) bins).

(* (1 - a) F x + a x, repeated *)
Definition mix (a : C) (F : mat2 -> mat2) (x : mat2) : mat2 :=
  ((1 - a) *: (F x).1 + a *: x.1, (1 - a) *: (F x).2 + a *: x.2).
Definition mixed (a : C) (F : mat2 -> mat2) (k : nat) (x : mat2) : mat2 := iter k (mix a F) x.

(* Iterations stop at the first small change or after max steps; H belongs to the last point. *)
Definition scf_result (a deps : C) (max : nat) (fock : mat2 -> mat2) (F : mat2 -> mat2) (P H : mat2)
  : Prop :=
  exists k, [/\ (k < max)%N, H = fock (mixed a F k (F P)),
    forall j, (j < k)%N -> ~~ (distance (mixed a F j.+1 (F P)) (mixed a F j (F P)) < deps)
    & distance (mixed a F k.+1 (F P)) (mixed a F k (F P)) < deps \/ k = max.-1].
End Spec.
