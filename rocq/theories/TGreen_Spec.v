(* What the factorisation routines may return, and the quantities the thermal
   Green's functions are compared with.  Nothing here refers to the model. *)

From Verif Require Import Base.
Set Warnings "-notation-overridden,-ambiguous-paths".
From mathcomp Require Import all_ssreflect all_fingroup all_algebra.
From Verif Require Import Ortho_Spec.

Set Implicit Arguments.
Unset Strict Implicit.
Unset Printing Implicit Defensive.

Import Order.TTheory GRing.Theory Num.Theory.
Local Open Scope ring_scope.

Section Spec.
Variable C : numClosedFieldType.
Variable n : nat.

(* Singular value decomposition: real singular values, unitary factors. *)
Definition svd_right (svd : 'M[C]_n -> 'M[C]_n * 'rV[C]_n * 'M[C]_n) : Prop :=
  forall A, let '(U, Sv, V) := svd A in
  [/\ A = U *m diag_mx Sv *m V, orthonormal U, orthonormal V
    & forall i, Sv 0 i \is Num.real].

(* QR with a unitary and an upper triangular factor. *)
Definition qr_right (qr : 'M[C]_n -> 'M[C]_n * 'M[C]_n) : Prop :=
  forall A, let '(Q, R) := qr A in
  [/\ A = Q *m R, orthonormal Q & upper R].

(* Pivoted QR: A with its columns permuted. *)
Definition qrp_right (qrp : 'M[C]_n -> 'M[C]_n * 'M[C]_n * 'S_n) : Prop :=
  forall A, let '(Q, R, P) := qrp A in
  [/\ col_perm P A = Q *m R, orthonormal Q, upper R
    & forall i, R i i \is Num.real].

(* <c_i^+ c_j> of the density matrix A: A / (1 + A), transposed. *)
Definition thermal_rdm (A : 'M[C]_n) : 'M[C]_n := (A *m invmx (1%:M + A))^T.

(* The product of matrices, later ones on the left. *)
Fixpoint prod_mx (l : list 'M[C]_n) : 'M[C]_n :=
  match l with
  | nil => 1%:M
  | cons B tl => prod_mx tl *m B
  end.

Fixpoint mxpow (A : 'M[C]_n) (k : nat) : 'M[C]_n :=
  match k with 0%N => 1%:M | k'.+1 => A *m mxpow A k' end.

Definition is_diag (B : 'M[C]_n) : Prop := forall i j, i != j -> B i j = 0.

End Spec.
