(* What re-orthogonalisation and mixed Green's functions are compared with:
   orthonormal bases, spans, projectors and overlaps.  Nothing here refers to
   the model. *)

From Verif Require Import Base.
Set Warnings "-notation-overridden,-ambiguous-paths".
From mathcomp Require Import all_ssreflect all_algebra.
From Verif Require Import Rank1_Spec.

Set Implicit Arguments.
Unset Strict Implicit.
Unset Printing Implicit Defensive.

Import Order.TTheory GRing.Theory Num.Theory.
Local Open Scope ring_scope.

Section Spec.
Variable C : numClosedFieldType.

Definition adj n m (A : 'M[C]_(n, m)) : 'M[C]_(m, n) :=
  (map_mx (@conjC C) A)^T.

(* The columns are orthonormal. *)
Definition orthonormal n m (Q : 'M[C]_(n, m)) : Prop := adj Q *m Q = 1%:M.

(* The columns are linearly independent. *)
Definition full_rank n m (A : 'M[C]_(n, m)) : Prop := \rank A = m.

Definition upper n (R : 'M[C]_n) : Prop :=
  forall i j : 'I_n, (j < i)%N -> R i j = 0.

(* An economic QR factorisation with a real diagonal. *)
Definition is_qr n m (A : 'M[C]_(n, m)) (Q : 'M[C]_(n, m)) (R : 'M[C]_m)
  : Prop :=
  [/\ A = Q *m R, orthonormal Q, upper R
    & forall i, R i i \is Num.real].

(* The two sets of orbitals span the same space. *)
Definition same_span n m (A B : 'M[C]_(n, m)) : Prop :=
  exists2 X : 'M[C]_m, X \in unitmx & A = B *m X.

(* The overlap of the trial with the two spins of a walker. *)
Definition overlap2 n nu nd (psiu phiu : 'M[C]_(n, nu))
    (psid phid : 'M[C]_(n, nd)) : C :=
  overlap (@conjC C) psiu phiu * overlap (@conjC C) psid phid.

(* The overlap with a linear combination of determinants. *)
Definition overlap_sum n nu nd
    (trial : list (C * 'M[C]_(n, nu) * 'M[C]_(n, nd)))
    (phiu : 'M[C]_(n, nu)) (phid : 'M[C]_(n, nd)) : C :=
  \sum_(t <- trial) (t.1.1)^* * overlap2 t.1.2 phiu t.2 phid.

(* The half-rotated Green's function (psi^+ phi)^-1 phi, transposed. *)
Definition green_half n m (psi phi : 'M[C]_(n, m)) : 'M[C]_(m, n) :=
  (phi *m invmx (ovlp_mx (@conjC C) psi phi))^T.

(* The sum of the products of the entries of two matrices: einsum('ij,ij'). *)
Definition dot_mx n m (A B : 'M[C]_(n, m)) : C :=
  \sum_i \sum_j A i j * B i j.

End Spec.
