(* Doubles as real numbers. *)

From Coq Require Import Reals ZArith.
From Flocq Require Import Core.Core IEEE754.BinarySingleNaN.
Open Scope R_scope.

(* The double nearest to a real number, ties to even; when it is in range. *)
Definition nearest (x : R) : R := round radix2 (SpecFloat.fexp 53 1024) ZnearestE x.
Definition in_range (x : R) : Prop := Rabs x < bpow radix2 1024.
(* Real numbers for which the relative error of rounding is bounded. *)
Definition normal (x : R) : Prop := bpow radix2 (-1022) <= x /\ x <= bpow radix2 1023.
(* The double x is what a program gets that reads the real number r. *)
Definition reads (x : binary_float 53 1024) (r : R) : Prop :=
  is_finite x = true /\ B2R x = nearest r.
