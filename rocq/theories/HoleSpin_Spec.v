(* Hole and spin densities.  Nothing here refers to the functions of the model. *)

From Coq Require Import Reals List.
From Verif Require Import Ratio_Spec.
Import ListNotations.
Local Open Scope R_scope.

(* A sample for two spins: g s i j. *)
Definition density (g : nat -> nat -> nat -> R) (s i : nat) : R := g s i i.
Definition hole_at (i : nat) (g : nat -> nat -> nat -> R) : R := 1 - (density g 0 i + density g 1 i).
Definition spin_at (i : nat) (g : nat -> nat -> nat -> R) : R := (density g 0 i - density g 1 i) / 2.

(* The number of particles of one spin. *)
Definition particles (M : nat) (s : nat) (g : nat -> nat -> nat -> R) : R :=
  sum (map (fun i => density g s i) (seq 0 M)).

(* The values m and errors e of a quantity on the M sites. *)
Definition estimates (M : nat) (gf : list (nat -> nat -> nat -> R)) (q : nat -> (nat -> nat -> nat -> R) -> R)
    (ms es : list (option R)) : Prop :=
  length ms = M /\ length es = M /\
  forall i, (i < M)%nat -> nth i ms None = Some (average (map (q i) gf)) /\
    exists e, nth i es None = Some e /\ standard_error (map (q i) gf) e.
