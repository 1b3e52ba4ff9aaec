(** Common vocabulary of the model: python exceptions as values, lists of
    rationals, list update. Nothing here models a particular source line. *)
From Coq Require Export List Arith ZArith QArith Qround Lia Bool.
Export ListNotations.

(** Python exceptions (and non-termination of a fuelled loop) as values. *)
Inductive err : Type :=
| IndexError | ZeroDivisionError | KeyError | AssertionError | TypeError
| ValueError | UnboundLocalError | NameError | SystemExit | OSError
| OverflowError | AttributeError | OutOfFuel.

Inductive res (A : Type) : Type := Ok (a : A) | Err (e : err).
Arguments Ok {A} a.
Arguments Err {A} e.

Definition rbind {A B} (x : res A) (f : A -> res B) : res B :=
  match x with Ok a => f a | Err e => Err e end.

Definition is_ok {A} (x : res A) : bool := match x with Ok _ => true | Err _ => false end.

(** Sum of a list of rationals / naturals. *)
Definition Qsum (l : list Q) : Q := fold_right Qplus 0%Q l.
Definition nsum (l : list nat) : nat := fold_right Nat.add 0%nat l.

(** Strict comparison of rationals as a boolean. *)
Definition Qltb (x y : Q) : bool := negb (Qle_bool y x).

(** [l[i] = x] on an existing index; out of range leaves the list unchanged
    (callers guard the index and raise [IndexError] themselves). *)
Fixpoint upd {A} (i : nat) (x : A) (l : list A) : list A :=
  match l, i with
  | [], _ => []
  | _ :: t, O => x :: t
  | h :: t, S j => h :: upd j x t
  end.

Definition q_of_nat (n : nat) : Q := inject_Z (Z.of_nat n).
