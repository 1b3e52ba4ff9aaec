(* C49: matrix exponentials are the Taylor polynomial of the order asked
   for. *)

From Verif Require Import Base.
Set Warnings "-notation-overridden,-ambiguous-paths".
From mathcomp Require Import all_ssreflect all_algebra.
From Verif Require Import Ortho_Spec Taylor_Model Taylor_Spec Taylor_Proofs.

Set Implicit Arguments.
Unset Strict Implicit.
Unset Printing Implicit Defensive.

Import Order.TTheory GRing.Theory Num.Theory.
Local Open Scope ring_scope.

(* Orders below 0 count as 0. *)
Theorem C49_exponentiate : forall (K : fieldType) n (M : 'M[K]_n) order,
  exponentiate_matrix M order = taylor (Z.to_nat order) M.
Proof. exact: exponentiate_matrixE. Qed.

Theorem C49_apply : forall (K : fieldType) n m nmax (phi : 'M[K]_(n, m)) V,
  apply_exponential nmax phi V = taylor (Z.to_nat nmax) V *m phi.
Proof. exact: apply_exponentialE. Qed.

(* Acting on a walker is multiplying by the matrix. *)
Theorem C49_agree : forall (K : fieldType) n m order (phi : 'M[K]_(n, m)) V,
  apply_exponential order phi V = exponentiate_matrix V order *m phi
  /\ exponentiate order V = exponentiate_matrix V order.
Proof.
by move=> K n m order phi V; rewrite apply_exponentialE exponentiate_matrixE
  exponentiateE.
Qed.

(* The plane-wave loop on a grid: the part of the operator on the rows that
   hold orbitals. *)
Theorem C49_grid : forall (K : fieldType) ng n m nmax (gmap : 'I_n -> 'I_ng)
    (V : 'M[K]_ng) (phi : 'M[K]_(n, m)),
  injective gmap ->
  apply_grid nmax gmap V phi
  = taylor (Z.to_nat nmax) (restrict gmap V) *m phi.
Proof. exact: apply_gridE. Qed.

(* What holds of the exponential and survives the truncation. *)
Theorem C49_adjoint : forall (C : numClosedFieldType) n (M : 'M[C]_n) order,
  adj (exponentiate_matrix M order) = exponentiate_matrix (adj M) order.
Proof. by move=> C n M order; rewrite !exponentiate_matrixE taylor_adj. Qed.

Theorem C49_basis : forall (K : fieldType) n (P M : 'M[K]_n) order,
  P \in unitmx ->
  exponentiate_matrix (P *m M *m invmx P) order
  = P *m exponentiate_matrix M order *m invmx P.
Proof. by move=> K n P M order u; rewrite !exponentiate_matrixE taylor_conj. Qed.

Theorem C49_commute : forall (K : fieldType) n (A B : 'M[K]_n) order,
  A *m B = B *m A ->
  exponentiate_matrix A order *m B = B *m exponentiate_matrix A order.
Proof. by move=> K n A B order e; rewrite exponentiate_matrixE taylor_commute. Qed.

Theorem C49_diagonal : forall (K : fieldType) n (d : 'rV[K]_n) order,
  exponentiate_matrix (diag_mx d) order
  = diag_mx (map_mx (taylor1 (Z.to_nat order)) d).
Proof. by move=> K n d order; rewrite exponentiate_matrixE taylor_diag. Qed.

(* The documentation calls the result Exp(VHS) phi.  The exponential of an
   antihermitian matrix is unitary; the result is not, at any order above 0. *)
Theorem C49_unitary_refuted : forall (C : numClosedFieldType) order,
  Z.lt Z0 order ->
  exists A : 'M[C]_1, adj A = - A
    /\ adj (exponentiate_matrix A order) *m exponentiate_matrix A order <> 1%:M.
Proof.
move=> C order h; have [|A [a b]] := @not_unitary C (Z.to_nat order).
  by apply/ssrnat.ltP; change (lt (Z.to_nat Z0) (Z.to_nat order));
     apply Z2Nat.inj_lt; lia.
by exists A; split => //; rewrite exponentiate_matrixE.
Qed.

(* The second-order polynomial of the 1 x 1 matrix 2 is 1 + 2 + 2. *)
Example taylor_instance :
  exponentiate_matrix ((2%:R : rat)%:M : 'M_1) (Z.of_nat 2) = (5%:R)%:M.
Proof.
by apply/matrixP => i j; rewrite (ord1 i) (ord1 j) exponentiate_matrixE
  -diag_const_mx taylor_diag !mxE /taylor1 !big_ord_recr big_ord0 /=.
Qed.

Print Assumptions C49_exponentiate.
Print Assumptions C49_agree.
Print Assumptions C49_grid.
Print Assumptions C49_adjoint.
Print Assumptions C49_basis.
Print Assumptions C49_diagonal.
Print Assumptions C49_unitary_refuted.
