(* C57: generalised Fock matrices of the extended Koopmans' theorem. *)

From Verif Require Import Base.
Set Warnings "-notation-overridden,-ambiguous-paths".
From mathcomp Require Import all_ssreflect all_algebra.
From Verif Require Import Reorder_Spec Reorder_Proofs Freeze_Spec.
From Verif Require Import Ekt_Model Ekt_Spec Ekt_Proofs.

Set Implicit Arguments.
Unset Strict Implicit.
Unset Printing Implicit Defensive.

Import Order.TTheory GRing.Theory Num.Theory.
Local Open Scope ring_scope.

(* The two matrices of gen_fock are averages of commutators with the
   Hamiltonian, in any state that obeys Wick's theorem. *)
Theorem C57_hole : forall (C : numClosedFieldType) (A : algType C) M naux
    (cd c : 'I_M -> bool -> A) h (L : 'I_naux -> 'M[C]_M) E P,
  car cd c -> wick_state cd c E P -> forall p q s,
  by_spin (gen_fock_1h h L (P false) (P true)) s p q
  = hole_matrix cd c E (hamiltonian cd c (fun _ => h) (integrals L)) p q s.
Proof.
by move=> C A M naux cd c h L E P H W p q s; exact: (gen_1h_right H _ _ W).
Qed.

Theorem C57_particle : forall (C : numClosedFieldType) (A : algType C) M naux
    (cd c : 'I_M -> bool -> A) h (L : 'I_naux -> 'M[C]_M) E P,
  car cd c -> wick_state cd c E P -> forall p q s,
  by_spin (gen_fock_1p h L (P false) (P true)) s p q
  = particle_matrix cd c E (hamiltonian cd c (fun _ => h) (integrals L)) p q s.
Proof.
by move=> C A M naux cd c h L E P H W p q s; exact: (gen_1p_right H _ _ W).
Qed.

(* Exchanging the spins exchanges them. *)
Theorem C57_exchange : forall (C : numClosedFieldType) M naux h
    (L : 'I_naux -> 'M[C]_M) (a b : 'M[C]_M),
  gen_fock_1h h L b a = ((gen_fock_1h h L a b).2, (gen_fock_1h h L a b).1) /\
  gen_fock_1p h L b a = ((gen_fock_1p h L a b).2, (gen_fock_1p h L a b).1).
Proof. by move=> C M naux h L a b; rewrite !gen_1hE !gen_1pE. Qed.

(* The optimised routines are the sums over spin for closed shells. *)
Theorem C57_closed_shell_partial : forall (C : numClosedFieldType) M naux h
    (L : 'I_naux -> 'M[C]_M) a,
  (forall n, (L n)^T = L n) ->
  ekt_1h_fock_opt h L a a
  = (gen_fock_1h h L a a).1 + (gen_fock_1h h L a a).2 /\
  ekt_1p_fock_opt h L a a
  = (gen_fock_1p h L a a).1 + (gen_fock_1p h L a a).2.
Proof.
move=> C M naux h L a Ls; rewrite gen_1hE gen_1pE opt_1h // opt_1p //.
by rewrite !subrr !addr0.
Qed.

(* In general they differ by this much. *)
Theorem C57_open_shell_partial : forall (C : numClosedFieldType) M naux h
    (L : 'I_naux -> 'M[C]_M) (a b : 'M[C]_M),
  (forall n, (L n)^T = L n) ->
  let Xa := \sum_n (\sum_i \sum_k L n i k * a i k) *: L n in
  let Xb := \sum_n (\sum_i \sum_k L n i k * b i k) *: L n in
  ekt_1h_fock_opt h L a b
  = (gen_fock_1h h L a b).1 + (gen_fock_1h h L a b).2
    + (b *m Xa - a *m Xb + \sum_n (a - b) *m L n *m b *m L n) /\
  ekt_1p_fock_opt h L a b
  = (gen_fock_1p h L a b).1 + (gen_fock_1p h L a b).2
    + (b^T *m Xa - a^T *m Xb).
Proof. by move=> C M naux h L a b Ls; exact: open_shell. Qed.

(* So that exchanging the spins changes them. *)
Theorem C57_exchange_iff : forall (C : numClosedFieldType) M naux h
    (L : 'I_naux -> 'M[C]_M) (a b : 'M[C]_M),
  let Xa := \sum_n (\sum_i \sum_k L n i k * a i k) *: L n in
  let Xb := \sum_n (\sum_i \sum_k L n i k * b i k) *: L n in
  ekt_1p_fock_opt h L a b = ekt_1p_fock_opt h L b a
  <-> a^T *m Xb^T = b^T *m Xa^T.
Proof.
by move=> C M naux h L a b; rewrite -!XcholE; exact: swap_1p_iff.
Qed.

Theorem C57_hole_change : forall (C : numClosedFieldType) M naux h
    (L : 'I_naux -> 'M[C]_M) (a b : 'M[C]_M),
  let Xa := \sum_n (\sum_i \sum_k L n i k * a i k) *: L n in
  let Xb := \sum_n (\sum_i \sum_k L n i k * b i k) *: L n in
  ekt_1h_fock_opt h L a b - ekt_1h_fock_opt h L b a
  = 2%:R *: (b *m Xa - a *m Xb)
    + \sum_n (a - b) *m (L n)^T *m (a + b) *m L n.
Proof.
by move=> C M naux h L a b; rewrite -!XcholE; exact: swap_1h.
Qed.

Theorem C57_hole_refuted : forall (C : numClosedFieldType) (h : 'M[C]_1),
  let L (_ : 'I_1) := 1%:M in
  ekt_1h_fock_opt h L 1%:M 0 <> ekt_1h_fock_opt h L 0 1%:M.
Proof. by move=> C h; exact: swap_1h_wrong. Qed.

Theorem C57_particle_refuted : forall (C : numClosedFieldType) (h : 'M[C]_2),
  let L (_ : 'I_1) := 1%:M in
  ekt_1p_fock_opt h L (delta_mx 0 0) (delta_mx 1 1)
  <> ekt_1p_fock_opt h L (delta_mx 1 1) (delta_mx 0 0).
Proof. by move=> C h; exact: swap_1p_wrong. Qed.

(* States that obey Wick's theorem exist: any set of occupied modes. *)
Example C57_state : forall (C : numClosedFieldType) M (B : {set 'I_(M.*2)}),
  wick_state (fun p s => @create C _ (mode p s))
    (fun p s => @annihilate C _ (mode p s))
    (product_mean B) (product_density C B).
Proof. by move=> C M B; exact: product_wick. Qed.

Print Assumptions C57_hole.
Print Assumptions C57_particle.
Print Assumptions C57_exchange.
Print Assumptions C57_closed_shell_partial.
Print Assumptions C57_open_shell_partial.
Print Assumptions C57_exchange_iff.
Print Assumptions C57_hole_change.
Print Assumptions C57_hole_refuted.
Print Assumptions C57_particle_refuted.
