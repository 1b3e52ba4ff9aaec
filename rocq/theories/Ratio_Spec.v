(* The standard error of a mean, and of a quotient of two means.  Nothing here refers to the
   model. *)

From Coq Require Import Reals List.
Import ListNotations.
Local Open Scope R_scope.

Definition sum (xs : list R) : R := fold_right Rplus 0 xs.
Definition average (xs : list R) : R := sum xs / INR (length xs).

(* The unbiased estimate of the variance of the mean. *)
Definition mean_variance (xs : list R) : R :=
  sum (map (fun x => (x - average xs) ^ 2) xs) / (INR (length xs) * (INR (length xs) - 1)).

Definition standard_error (xs : list R) (e : R) : Prop := 0 <= e /\ e ^ 2 = mean_variance xs.

(* For the quotient q of two means: the standard error of the mean of x - q y, over the mean
   of y (the delta method). *)
Definition quotient_error (xys : list (R * R)) (e : R) : Prop :=
  let q := average (map fst xys) / average (map snd xys) in
  0 <= e /\ e ^ 2 = mean_variance (map (fun p => fst p - q * snd p) xys)
                    / (average (map snd xys)) ^ 2.
