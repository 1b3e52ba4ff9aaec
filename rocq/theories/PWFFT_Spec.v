(* Plane waves below a cutoff and convolutions on a grid.  Nothing here refers to the
   model. *)

From Verif Require Import Base.
Set Warnings "-notation-overridden,-ambiguous-paths".
From mathcomp Require Import all_ssreflect all_algebra.

Set Implicit Arguments.
Unset Strict Implicit.
Unset Printing Implicit Defensive.

Import Order.TTheory GRing.Theory Num.Theory.
Local Open Scope ring_scope.

Notation wave := (int * int * int)%type.

(* |k|^2 *)
Definition len2 (k : wave) : int := k.1.1 ^+ 2 + k.1.2 ^+ 2 + k.2 ^+ 2.

(* The list has exactly the plane waves with |k|^2 / 2 up to the cutoff, each once. *)
Definition sphere (ecut : rat) (s : seq wave) : Prop :=
  uniq s /\ forall k, k \in s <-> (len2 k)%:~R <= 2%:R * ecut.

(* |kfac (k + kt)|^2 / 2 *)
Definition kinetic_energy (C : numClosedFieldType) (kfac : C) (kt : C * C * C) (k : wave) : C :=
  ((kfac * (k.1.1%:~R + kt.1.1)) ^+ 2 + (kfac * (k.1.2%:~R + kt.1.2)) ^+ 2
   + (kfac * (k.2%:~R + kt.2)) ^+ 2) / 2%:R.

(* Coordinates of the entries of an array of shape (n, n, n) as a list. *)
Definition coords (n i : nat) : nat * nat * nat := (i %/ n %/ n, i %/ n %% n, i %% n)%N.

(* c has the shape (2n-1, 2n-1, 2n-1) and c_r = sum of f_i g_j for i + j = r *)
Definition convolution_of (C : numClosedFieldType) (n : nat) (f g c : seq C) : Prop :=
  let m := (n + n - 1)%N in
  size c = (m ^ 3)%N /\
  forall r, (r < m ^ 3)%N -> nth 0 c r = \sum_(i < n ^ 3) \sum_(j < n ^ 3)
    (if ((coords n i).1.1 + (coords n j).1.1, (coords n i).1.2 + (coords n j).1.2,
         (coords n i).2 + (coords n j).2)%N == coords m r
     then nth 0 f i * nth 0 g j else 0).
