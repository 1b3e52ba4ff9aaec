(* What a continuous transformation with mean-field shifts must satisfy.  The
   potential of a field and the factor that goes with it are arguments. *)

From Verif Require Import Base.
Set Warnings "-notation-overridden,-ambiguous-paths".
From mathcomp Require Import all_ssreflect all_algebra.
From Verif Require Import Reorder_Spec.

Set Implicit Arguments.
Unset Strict Implicit.
Unset Printing Implicit Defensive.

Import Order.TTheory GRing.Theory Num.Theory.
Local Open Scope ring_scope.

Section Spec.
Variable C : numClosedFieldType.
Variable A : algType C.

(* e + h - 1/2 sum_n (v_n - m_n)^2 *)
Definition completed N (e : C) (h : A) (v : 'I_N -> A) (m : 'I_N -> C) : A :=
  e%:A + h - (1 / 2%:R) *: \sum_n (v n - (m n)%:A) ^+ 2.

Section Orbitals.
Variable M : nat.
Variables cd c : 'I_M -> bool -> A.
Notation mat2 := ('M[C]_M * 'M[C]_M)%type.
Notation obop x := (one_body_op cd c (by_spin x)).

(* The n-th field alone, with strength one. *)
Definition unit_field N (n : 'I_N) : 'cV[C]_N := delta_mx n 0.

(* The Hamiltonian of a step: a field x has the potential V x and the factor
   exp (f x), both of order sqrt dt and linear in x; the average of
   exp (f x) exp (V x) over normal x is that of exp (1/2 (V + f)^2). *)
Definition of_step N (sqrt_dt e : C) (h : mat2) (V : 'cV[C]_N -> mat2) (f : 'cV[C]_N -> C) : A :=
  completed e (obop h)
    (fun n => sqrt_dt^-1 *: obop (V (unit_field n)))
    (fun n => - (sqrt_dt^-1 * f (unit_field n))).

(* The number of electrons. *)
Definition electrons : A := \sum_p (number cd c p false + number cd c p true).

End Orbitals.

Definition linear_fields N (T : lmodType C) (f : 'cV[C]_N -> T) : Prop :=
  forall x, f x = \sum_n x n 0 *: f (unit_field n).

(* The trace of a potential with the density matrices of a walker. *)
Definition trace2 M (V G : 'M[C]_M * 'M[C]_M) : C :=
  \sum_i \sum_j V.1 i j * G.1 i j + \sum_i \sum_j V.2 i j * G.2 i j.

Definition sprod N (x y : 'cV[C]_N) : C := \sum_n x n 0 * y n 0.

(* Formal series in s = sqrt dt with coefficients in an algebra. *)
Definition texp (k : nat) (p : {poly A}) : {poly A} :=
  \sum_(i < k.+1) ((i`!%:R : C)^-1)%:A *: p ^+ i.

(* One step: half a step of h, the factor and the potential of a field (the
   exponential of the potential cut off at order k), half a step of h. *)
Definition one_step N (K k : nat) (h : A) (v : 'I_N -> A) (m : 'I_N -> C)
    (x : 'I_N -> C) : {poly A} :=
  let half_h := texp K ((- (1 / 2%:R))%:A *: (h *: 'X^2)) in
  half_h * texp K ((- \sum_n x n * m n)%:A *: 'X)
         * texp k ((\sum_n x n *: v n) *: 'X) * half_h.

(* A weighted list of fields with the moments of normal fields up to the
   third. *)
Record like_normal N (D : seq (C * ('I_N -> C))) : Prop := LikeNormal {
  ln0 : \sum_(d <- D) d.1 = 1;
  ln1 : forall i, \sum_(d <- D) d.1 * d.2 i = 0;
  ln2 : forall i j, \sum_(d <- D) d.1 * (d.2 i * d.2 j) = (i == j)%:R;
  ln3 : forall i j k, \sum_(d <- D) d.1 * (d.2 i * d.2 j * d.2 k) = 0 }.

End Spec.
