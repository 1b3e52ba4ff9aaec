(** The size that should be chosen. *)
From Verif Require Import Base.
Open Scope nat_scope.

(** d is the divisor of num closest to want, the smaller one if two are equally close *)
Definition closest (num want d : nat) : Prop :=
  1 <= d /\ Nat.divide d num /\
  forall e, 1 <= e -> Nat.divide e num ->
    (Z.abs (Z.of_nat d - Z.of_nat want) < Z.abs (Z.of_nat e - Z.of_nat want) \/
     Z.abs (Z.of_nat d - Z.of_nat want) = Z.abs (Z.of_nat e - Z.of_nat want) /\ (d <= e)%nat)%Z.
