(* Property theorems: finite-temperature Green's functions (C43).  The
   factorisation routines are arbitrary functions with the properties that a
   factorisation has. *)

From Verif Require Import Base.
Set Warnings "-notation-overridden,-ambiguous-paths".
From mathcomp Require Import all_ssreflect all_fingroup all_algebra.
From Verif Require Import PropStack_Model Ortho_Spec TGreen_Model TGreen_Spec.
From Verif Require Import TGreen_Proofs.

Set Implicit Arguments.
Unset Strict Implicit.
Unset Printing Implicit Defensive.

Import Order.TTheory GRing.Theory Num.Theory.
Local Open Scope ring_scope.

(* greens_function(A) *)
Theorem C43_greens_function : forall (C : numClosedFieldType) n svd
    (A : 'M[C]_n),
  svd_right svd -> 1%:M + A \in unitmx ->
  greens_function svd A = invmx (1%:M + A).
Proof. move=> C n svd A h; exact: greens_function_right. Qed.

(* The direct inverse. *)
Theorem C43_unstable : forall (C : numClosedFieldType) n svd (A : 'M[C]_n),
  svd_right svd -> 1%:M + A \in unitmx ->
  greens_function_unstable A *m (1%:M + A) = 1%:M /\
  greens_function_unstable A = greens_function svd A.
Proof.
move=> C n svd A h u; rewrite /greens_function_unstable mulVmx //.
by rewrite greens_function_right.
Qed.

(* The walkers' routines.  path_product is the ordered product of the slices
   (C15); a failure to read the stack is passed on unchanged. *)
Theorem C43_svd : forall (C : numClosedFieldType) n svd (p : pstack C n)
    slice_ix A,
  svd_right svd -> path_product p slice_ix = Ok A -> 1%:M + A \in unitmx ->
  greens_function_svd svd p slice_ix = Ok (invmx (1%:M + A)).
Proof. move=> C n svd p ix A h; exact: svd_loop. Qed.

Theorem C43_qr : forall (C : numClosedFieldType) n qr (p : pstack C n)
    slice_ix A,
  qr_right qr -> path_product p slice_ix = Ok A ->
  A \in unitmx -> 1%:M + A \in unitmx ->
  greens_function_qr qr p slice_ix = Ok (invmx (1%:M + A)).
Proof. move=> C n qr p ix A h; exact: qr_loop. Qed.

Theorem C43_strat : forall (C : numClosedFieldType) n qrp (p : pstack C n)
    slice_ix A,
  qrp_right qrp -> path_product p slice_ix = Ok A ->
  A \in unitmx -> 1%:M + A \in unitmx ->
  greens_function_qr_strat qrp p slice_ix = Ok (invmx (1%:M + A)).
Proof. move=> C n qrp p ix A h; exact: strat_loop. Qed.

Theorem C43_errors : forall (C : numClosedFieldType) n svd qr qrp
    (p : pstack C n) slice_ix e,
  path_product p slice_ix = Err e ->
  [/\ greens_function_svd svd p slice_ix = Err e,
      greens_function_qr qr p slice_ix = Err e &
      greens_function_qr_strat qrp p slice_ix = Err e].
Proof.
move=> C n svd qr qrp p ix e h.
by split; rewrite /greens_function_svd /greens_function_qr
  /greens_function_qr_strat (walk_err _ _ h).
Qed.

(* The centre bin with stored right and left factors, the left bins being
   diagonal: the splitting of large and small scales is exact. *)
Theorem C43_left_right : forall (C : numClosedFieldType) n qrp
    (Rs Ls : list 'M[C]_n) (Bc : 'M[C]_n),
  qrp_right qrp -> (forall B, List.In B Ls -> is_diag B) ->
  let A := prod_mx Ls *m (Bc *m prod_mx Rs) in
  A \in unitmx -> 1%:M + A \in unitmx ->
  left_right qrp (compute_right qrp Rs) (compute_left Ls) Bc
  = invmx (1%:M + A).
Proof. move=> C n qrp Rs Ls Bc h; exact: left_right_right. Qed.

(* With fewer scales than basis functions: the exact Green's function of the
   truncated product. *)
Theorem C43_woodbury : forall (C : numClosedFieldType) n m
    (Q : 'M[C]_(n, m)) (D : 'rV[C]_m) (T : 'M[C]_(m, n)),
  (forall i, D 0 i \is Num.real) -> T *m Q \in unitmx ->
  let A := Q *m diag_mx D *m T in
  1%:M + A \in unitmx -> woodbury Q D T = invmx (1%:M + A).
Proof. exact: woodbury_right. Qed.

(* Density matrix and particle number. *)
Theorem C43_rdm : forall (C : numClosedFieldType) n svd (A : 'M[C]_n),
  svd_right svd -> 1%:M + A \in unitmx ->
  one_rdm svd A = thermal_rdm A /\
  one_rdm_from_G (invmx (1%:M + A)) = thermal_rdm A.
Proof.
move=> C n svd A h hA; split; [exact: one_rdm_right|exact: rdm_G].
Qed.

Theorem C43_rdm_stable : forall (C : numClosedFieldType) n qrp
    (BT : 'M[C]_n) k,
  qrp_right qrp ->
  mxpow BT k.+1 \in unitmx -> 1%:M + mxpow BT k.+1 \in unitmx ->
  one_rdm_stable qrp BT k.+1 = thermal_rdm (mxpow BT k.+1).
Proof. move=> C n qrp BT k h; exact: rdm_stable_right. Qed.

(* With no slices it behaves as with one. *)
Theorem C43_rdm_stable_zero : forall (C : numClosedFieldType) n qrp
    (BT : 'M[C]_n),
  one_rdm_stable qrp BT 0 = one_rdm_stable qrp BT 1.
Proof. by []. Qed.

Theorem C43_number : forall (C : numClosedFieldType) n (A B : 'M[C]_n),
  1%:M + A \in unitmx -> 1%:M + B \in unitmx ->
  particle_number (thermal_rdm A, thermal_rdm B)
  = n%:R + n%:R - \tr (invmx (1%:M + A)) - \tr (invmx (1%:M + B)).
Proof. exact: number_right. Qed.

(* The inverse: right with QR ... *)
Theorem C43_inverse_qr : forall (C : numClosedFieldType) n qr (A : 'M[C]_n),
  qr_right qr -> A \in unitmx ->
  inverse_greens_function_qr qr A = 1%:M + A.
Proof. move=> C n qr A h; exact: inverse_qr_right. Qed.

(* ... but with SVD it is the Hermitian conjugate, so it is right exactly for
   Hermitian A. *)
Theorem C43_inverse_svd_partial : forall (C : numClosedFieldType) n svd
    (A : 'M[C]_n),
  svd_right svd ->
  inverse_greens_function svd A = adj (1%:M + A) /\
  (inverse_greens_function svd A = 1%:M + A <-> adj A = A).
Proof.
move=> C n svd A h; split; [exact: inverse_right|exact: inverse_iff].
Qed.

Theorem C43_inverse_svd_refuted : forall C : numClosedFieldType,
  exists2 svd, svd_right svd &
  inverse_greens_function svd ('i%:M : 'M[C]_1) <> 1%:M + 'i%:M.
Proof.
move=> C; exists (@svd1 C); [exact: svd1_right|exact: inverse_refuted].
Qed.

(* Factorisations of every one by one matrix, for the hypotheses above. *)
Example C43_example : forall C : numClosedFieldType,
  svd_right (@svd1 C) /\ qr_right (@qr1 C) /\ qrp_right (@qrp1 C).
Proof.
by move=> C; split; [exact: svd1_right|split; [exact: qr1_right|exact: qrp1_right]].
Qed.

Print Assumptions C43_greens_function.
Print Assumptions C43_unstable.
Print Assumptions C43_svd.
Print Assumptions C43_qr.
Print Assumptions C43_strat.
Print Assumptions C43_errors.
Print Assumptions C43_left_right.
Print Assumptions C43_woodbury.
Print Assumptions C43_rdm.
Print Assumptions C43_rdm_stable.
Print Assumptions C43_rdm_stable_zero.
Print Assumptions C43_number.
Print Assumptions C43_inverse_qr.
Print Assumptions C43_inverse_svd_partial.
Print Assumptions C43_inverse_svd_refuted.
