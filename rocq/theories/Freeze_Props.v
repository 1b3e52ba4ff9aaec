(* C56: freezing core orbitals. *)

From Verif Require Import Base.
Set Warnings "-notation-overridden,-ambiguous-paths".
From mathcomp Require Import all_ssreflect all_algebra.
From Verif Require Import Ortho_Model LEnergy_Model LEnergy_Spec LEnergy_Proofs.
From Verif Require Import Freeze_Model Freeze_Spec Freeze_Proofs.

Set Implicit Arguments.
Unset Strict Implicit.
Unset Printing Implicit Defensive.

Import Order.TTheory GRing.Theory Num.Theory.
Local Open Scope ring_scope.

Theorem C56_core_density : forall (C : numClosedFieldType) nc ncas nv,
  Gcore C nc ncas nv = core_only C nc ncas nv.
Proof. by move=> C nc ncas nv; exact: Gcore_right. Qed.

(* Symmetric Cholesky vectors: the active electrons of the frozen Hamiltonian
   have the energy of all electrons, whatever the active density matrices, when
   the constant is the energy of the core. *)
Theorem C56_energy_partial : forall (C : numClosedFieldType) nc ncas nv naux
    (L : 'I_naux -> 'M[C]_(nc + (ncas + nv))) h ga gb ecore,
  (forall n, (L n)^T = L n) ->
  let core := core_only C nc ncas nv in
  let e0 := (energies (h, h) (integrals L) ecore (core, core)).1.1 in
  (energies (frozen_h1e h L) (integrals (frozen_chol L)) e0 (ga, gb)).1.1
  = (energies (h, h) (integrals L) ecore
       (with_core nc nv ga, with_core nc nv gb)).1.1.
Proof.
move=> C nc ncas nv naux L h ga gb ecore H /=.
have /(exact_iff L h) E := symmetric_exact H; exact/esym/E.
Qed.

(* The constant is what the energy routine gives for the core, if it is handed
   the vectors in the shape it expects. *)
Theorem C56_constant : forall (C : numClosedFieldType) nc ncas nv naux
    (L : 'I_naux -> 'M[C]_(nc + (ncas + nv))) h ecore,
  let core := core_only C nc ncas nv in
  let sys := MkSystem (h, h)
    (\matrix_(x, n) L n (flat_row x) (flat_col x)) ecore in
  local_energy_generic_cholesky sys (Gcore C nc ncas nv, Gcore C nc ncas nv)
  = energies (h, h) (integrals L) ecore (core, core).
Proof. by move=> C nc ncas nv naux L h ecore; exact: constant_right. Qed.

(* General vectors: exactly when core exchange, as seen by the active
   orbitals, is symmetric. *)
Theorem C56_exact_iff : forall (C : numClosedFieldType) nc ncas nv naux
    (L : 'I_naux -> 'M[C]_(nc + (ncas + nv))) h,
  let core := core_only C nc ncas nv in
  let X := slice (\sum_n L n *m core *m L n) in
  (forall ga gb ecore,
     let e0 := (energies (h, h) (integrals L) ecore (core, core)).1.1 in
     (energies (h, h) (integrals L) ecore
        (with_core nc nv ga, with_core nc nv gb)).1.1
     = (energies (frozen_h1e h L) (integrals (frozen_chol L)) e0
          (ga, gb)).1.1)
  <-> X^T = X.
Proof.
move=> C nc ncas nv naux L h core X.
rewrite (_ : X = core_exchange L); first exact: exact_iff.
congr slice; apply: eq_bigr => n _.
by rewrite tr_block_mx trmx1 !trmx0.
Qed.

(* freeze_core itself hands over the vectors in another shape. *)
Theorem C56_refuted : forall (C : numClosedFieldType) nc ncas nv naux verbose
    rest h (L : 'I_naux -> 'M[C]_(nc + (ncas + nv))),
  let nb := (nc + (ncas + nv))%N in
  naux != (nb * nb)%N ->
  freeze_core verbose rest h L = Err ValueError.
Proof.
move=> C nc ncas nv naux verbose rest h L nb H.
by rewrite /freeze_core /frozen_energy (negPf H).
Qed.

Theorem C56_verbose_refuted : forall (C : numClosedFieldType) nc ncas nv naux
    rest h (L : 'I_naux -> 'M[C]_(nc + (ncas + nv))),
  (2 <= nc + (ncas + nv))%N ->
  is_ok (freeze_core true rest h L) = false.
Proof.
move=> C nc ncas nv naux rest h L H.
rewrite /freeze_core /frozen_energy; case: eqP => // _.
by rewrite gtn_eqF.
Qed.

(* What is returned when nothing is raised. *)
Theorem C56_result : forall (C : numClosedFieldType) nc ncas nv naux verbose
    rest h (L : 'I_naux -> 'M[C]_(nc + (ncas + nv))) h1 L1 e1,
  freeze_core verbose rest h L = Ok (h1, L1, e1) ->
  [/\ naux = ((nc + (ncas + nv)) * (nc + (ncas + nv)))%N,
      h1 = frozen_h1e h L, h1.1 = h1.2 & L1 = frozen_chol L].
Proof.
move=> C nc ncas nv naux verbose rest h L h1 L1 e1.
rewrite /freeze_core /frozen_energy; case: eqP => // E.
case: (verbose && _) => //= -[<- <- _]; split=> //.
Qed.

Section Example.
Variable C : numClosedFieldType.

(* One core and two active orbitals. *)
Definition L_sym (n : 'I_1) : 'M[C]_(1 + (2 + 0)) := const_mx 1.

Example C56_symmetric_example : forall n, (L_sym n)^T = L_sym n.
Proof. by move=> n; apply/matrixP => i j; rewrite !mxE. Qed.

Theorem C56_skew_refuted : let core := core_only C 1 2 0 in
  let X := slice (\sum_n L_skew C n *m core *m L_skew C n) in X^T <> X.
Proof. exact: skew_exchange. Qed.

End Example.

Print Assumptions C56_core_density.
Print Assumptions C56_energy_partial.
Print Assumptions C56_constant.
Print Assumptions C56_exact_iff.
Print Assumptions C56_refuted.
Print Assumptions C56_verbose_refuted.
Print Assumptions C56_result.
Print Assumptions C56_skew_refuted.
