(** Vocabulary for C28. *)
From Verif Require Import Base.
Open Scope nat_scope.

(** equal entries for all orbitals below m and columns below n *)
Definition mat_eq {K : Type} (m n : nat) (f g : nat -> nat -> K) : Prop :=
  forall i j, i < m -> j < n -> f i j = g i j.

(** a Slater determinant given by an alpha and a beta block side by side *)
Definition side {K : Type} (na : nat) (a b : nat -> nat -> K) : nat -> nat -> K :=
  fun i j => if j <? na then a i j else b i (j - na).

Definition alpha {K : Type} (w : nat -> nat -> K) : nat -> nat -> K := w.
Definition beta {K : Type} (na : nat) (w : nat -> nat -> K) : nat -> nat -> K := fun i j => w i (na + j).

(** rows of occupations *)
Definition shaped (n na nb : nat) (occa occb : list (list nat)) : Prop :=
  length occa = n /\ length occb = n /\
  Forall (fun o => length o = na) occa /\ Forall (fun o => length o = nb) occb.

(** values below the threshold of the file count as zero *)
Definition cut {K : Type} (zero : K) (small : K -> bool) (w : nat -> nat -> K) : nat -> nat -> K :=
  fun i j => if small (w i j) then zero else w i j.
