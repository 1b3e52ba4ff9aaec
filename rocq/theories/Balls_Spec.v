(** Vocabulary for C30: an admissible occupation. *)
From Verif Require Import Base.
Open Scope Z_scope.

Definition zsum (l : list Z) : Z := fold_right Z.add 0 l.

Definition admissible (balls : Z) (sizes : list Z) (d : list nat) : Prop :=
  Forall2 (fun x s => Z.of_nat x <= s) d sizes /\ zsum (map Z.of_nat d) = balls.

(** larger numbers of balls in the first box that differs come first *)
Inductive before : list nat -> list nat -> Prop :=
| before_here : forall x y a b, (y < x)%nat -> before (x :: a) (y :: b)
| before_next : forall x a b, before a b -> before (x :: a) (x :: b).
