(* Estimators for series of samples. *)

From Verif Require Import Base Cplx.
Open Scope Q_scope.

Definition average (l : list Q) : Q := Qsum l / q_of_nat (length l).
(* Square of the standard error of the mean of independent samples. *)
Definition std_err2 (l : list Q) : Q :=
  Qsum (map (fun x => (x - average l) * (x - average l)) l)
  / (q_of_nat (length l) * (q_of_nat (length l) - 1)).
Definition Caverage (l : list C) : C := Cdiv (Csum l) (Cof (q_of_nat (length l))).

(* A ratio of averages of real samples, and the square of its error to first order:
   the standard error of a - r b, divided by the average of b. *)
Definition ratio (l : list (Q * Q)) : Q := average (map fst l) / average (map snd l).
Definition ratio_err2 (l : list (Q * Q)) : Q :=
  Qsum (map (fun p => (fst p - ratio l * snd p) * (fst p - ratio l * snd p)) l)
  / (q_of_nat (length l) * (q_of_nat (length l) - 1))
  / (average (map snd l) * average (map snd l)).

(* Real parts, and the samples of an iteration. *)
Definition reals (data : list (C * C)) : list (Q * Q) :=
  map (fun p => (re (fst p), re (snd p))) data.
Definition at_iteration (rows : list (nat * C * C)) (k : nat) : list (C * C) :=
  map (fun r => (snd (fst r), snd r)) (filter (fun r => (fst (fst r) =? k)%nat) rows).

(* Integrated correlation time of a series up to lag k. *)
Definition lagged (y : list Q) (k : nat) : Q :=
  Qsum (map (fun p => (fst p - average y) * (snd p - average y)) (combine y (skipn k y))).
Definition correlation_time (y : list Q) (k : nat) : Q :=
  1 + 2 * Qsum (map (fun i => lagged y i / lagged y 0) (seq 1 k)).

Definition constant (y : list Q) : Prop := forall a b, In a y -> In b y -> a == b.

(* k is the first window that is at least c times the correlation time. *)
Definition first_window (y : list Q) (c : Q) (k : nat) : Prop :=
  (k < length y)%nat /\ c * correlation_time y k <= q_of_nat k /\
  (forall j, (j < k)%nat -> q_of_nat j < c * correlation_time y j).

(* Averages of consecutive blocks of b samples. *)
Definition block_means (b : nat) (y : list Q) : list Q :=
  map (fun i => average (firstn b (skipn (i * b) y))) (seq 0 (length y / b)).

(* Samples taken after a time, when sample k is taken at (first + k) T. *)
Definition taken_after (T : Q) (first : nat) (start : Q) (rows : list Q) : list Q :=
  map snd (filter (fun p => Qltb start (q_of_nat (first + fst p) * T))
             (combine (seq 0 (length rows)) rows)).
