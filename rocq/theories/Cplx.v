(** Complex numbers with exact rational parts (python complex128 without rounding). *)
From Verif Require Import Base.
From Coq Require Import Setoid Morphisms Ring Field Lqa QArith Qfield.

Record C := mkC { re : Q; im : Q }.
Definition Ceq (x y : C) : Prop := re x == re y /\ im x == im y.
Declare Scope C_scope.
Delimit Scope C_scope with C.
Infix "=c=" := Ceq (at level 70, no associativity).

Definition C0 := mkC 0 0.
Definition C1 := mkC 1 0.
Definition Ci := mkC 0 1.
Definition Cadd (x y : C) := mkC (re x + re y) (im x + im y).
Definition Cmul (x y : C) := mkC (re x * re y - im x * im y) (re x * im y + im x * re y).
Definition Copp (x : C) := mkC (- re x) (- im x).
Definition Csub (x y : C) := mkC (re x - re y) (im x - im y).
Definition Cabs2 (x : C) : Q := re x * re x + im x * im x.
Definition Cinv (x : C) := mkC (re x / Cabs2 x) (- im x / Cabs2 x).
Definition Cdiv (x y : C) := Cmul x (Cinv y).
Definition Cconj (x : C) := mkC (re x) (- im x).
Definition Cof (q : Q) := mkC q 0.
Definition Ceqb (x y : C) : bool := Qeq_bool (re x) (re y) && Qeq_bool (im x) (im y).

Notation "x + y" := (Cadd x y) : C_scope.
Notation "x * y" := (Cmul x y) : C_scope.
Notation "x - y" := (Csub x y) : C_scope.
Notation "- x" := (Copp x) : C_scope.
Notation "x / y" := (Cdiv x y) : C_scope.

Definition Csum (l : list C) : C := fold_right Cadd C0 l.
Definition Cprod (l : list C) : C := fold_right Cmul C1 l.
