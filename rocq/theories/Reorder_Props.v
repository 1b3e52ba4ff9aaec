(* Property theorems: reordering the two-body operator (C46). *)

From Verif Require Import Base.
Set Warnings "-notation-overridden,-ambiguous-paths".
From mathcomp Require Import all_ssreflect all_algebra.
From Verif Require Import LEnergy_Model Reorder_Model Reorder_Spec Reorder_Proofs.

Set Implicit Arguments.
Unset Strict Implicit.
Unset Printing Implicit Defensive.

Import Order.TTheory GRing.Theory Num.Theory.
Local Open Scope ring_scope.

(* The operators may live in any algebra that satisfies the anticommutation
   relations; C46_example gives one for every number of orbitals. *)

(* Symmetric Cholesky vectors. *)
Theorem C46_generic : forall (C : numClosedFieldType) (A : algType C) M
    (cd c : 'I_M -> bool -> A), car cd c ->
  forall naux (sys : system C M naux),
  let L n := \matrix_(p, r) chol_vecs sys (flat p r) n in
  (forall n p r, L n p r = L n r p) ->
  hamiltonian cd c (by_spin (H1 sys)) (fun p r q u => hijkl sys p q r u)
  = one_body_op cd c (by_spin (construct_h1e_mod (chol_vecs sys) (H1 sys)))
    + (1 / 2%:R) *: \sum_n op cd c (L n) ^+ 2.
Proof.
move=> C A M cd c hc naux sys L sym; apply: (generic_right hc) => n.
by apply/matrixP => p r; rewrite [LHS]mxE; exact: sym.
Qed.

(* Any vectors: what the routine gets wrong. *)
Theorem C46_generic_gap : forall (C : numClosedFieldType) (A : algType C) M
    (cd c : 'I_M -> bool -> A), car cd c ->
  forall naux (sys : system C M naux),
  let L n := \matrix_(p, r) chol_vecs sys (flat p r) n in
  one_body_op cd c (by_spin (construct_h1e_mod (chol_vecs sys) (H1 sys)))
    + (1 / 2%:R) *: (\sum_n op cd c (L n) ^+ 2)
  = hamiltonian cd c (by_spin (H1 sys)) (fun p r q u => hijkl sys p q r u)
    + op cd c ((1 / 2%:R) *: \sum_n L n *m (L n - (L n)^T)).
Proof. by move=> C A M cd c hc naux sys L; exact: (generic_gap hc). Qed.

(* In every algebra, with two orbitals or more, there are vectors that are
   treated wrongly. *)
Theorem C46_generic_refuted : forall (C : numClosedFieldType) (A : algType C) M
    (cd c : 'I_M -> bool -> A), car cd c -> (2 <= M)%N ->
  exists sys : system C M 1,
  let L n := \matrix_(p, r) chol_vecs sys (flat p r) n in
  one_body_op cd c (by_spin (construct_h1e_mod (chol_vecs sys) (H1 sys)))
    + (1 / 2%:R) *: (\sum_n op cd c (L n) ^+ 2)
  <> hamiltonian cd c (by_spin (H1 sys)) (fun p r q u => hijkl sys p q r u).
Proof.
move=> C A [|[|M]] // cd c hc _.
have [//|chol [h1e E]] := @generic_wrong C A _ cd c hc ord0 (lift ord0 ord0).
by exists (MkSystem h1e chol 0); exact: E.
Qed.

Theorem C46_hubbard : forall (C : numClosedFieldType) (A : algType C) M
    (cd c : 'I_M -> bool -> A), car cd c ->
  forall (U : C) (H1 : 'M[C]_M * 'M[C]_M),
  let n p := number cd c p false + number cd c p true in
  let H := one_body_op cd c (by_spin H1)
           + \sum_p U *: (number cd c p false * number cd c p true) in
  H = hamiltonian cd c (by_spin H1) (fun p r q u => hijkl_hubbard U p q r u) /\
  H = one_body_op cd c (by_spin (construct_h1e_mod_hubbard false U H1))
      + \sum_p (1 / 2%:R * U) *: n p ^+ 2.
Proof.
move=> C A M cd c hc U H1 n H.
have E : H = hamiltonian cd c (by_spin H1) (fun p r q u => hijkl_hubbard U p q r u).
  by rewrite /hamiltonian (hubbard_interaction hc).
split=> //; rewrite E (hubbard_right hc); congr (_ + _).
by apply: eq_bigr => p _; rewrite big_bool /= addrC.
Qed.

(* The symmetric option leaves out the subtraction: the operator obtained
   exceeds the Hamiltonian by U/2 times the number of particles. *)
Theorem C46_hubbard_symmetric : forall (C : numClosedFieldType) (A : algType C)
    M (cd c : 'I_M -> bool -> A), car cd c ->
  forall (U : C) (H1 : 'M[C]_M * 'M[C]_M),
  let n p := number cd c p false + number cd c p true in
  one_body_op cd c (by_spin (construct_h1e_mod_hubbard true U H1))
    + \sum_p (1 / 2%:R * U) *: n p ^+ 2
  = hamiltonian cd c (by_spin H1) (fun p r q u => hijkl_hubbard U p q r u)
    + (1 / 2%:R * U) *: \sum_p n p.
Proof.
move=> C A M cd c hc U H1 n; have := hubbard_symmetric hc U H1.
rewrite (eq_bigr (fun p => (1 / 2%:R * U) *: n p ^+ 2)) => [->|p _]; last first.
  by rewrite big_bool /= addrC.
by congr (_ + _ *: _); apply: eq_bigr => p _; rewrite big_bool /= addrC.
Qed.

(* The electron gas, for any set of transfers that contains every difference
   of basis vectors (C34). *)
Theorem C46_ueg : forall (C : numClosedFieldType) (A : algType C) M
    (cd c : 'I_M -> bool -> A), car cd c ->
  forall (V : zmodType) (pi vol : C) (norm2 : V -> C) (basis : 'I_M -> V)
    (lookup : V -> option 'I_M) (qvecs : seq V) (T : 'M[C]_M),
  injective basis ->
  (forall k i, lookup k = Some i <-> basis i = k) ->
  uniq qvecs -> (0 \notin qvecs) ->
  (forall i j, i != j -> basis i - basis j \in qvecs) ->
  (forall q, norm2 (- q) = norm2 q) ->
  let h := mod_one_body pi vol norm2 basis T in
  hamiltonian cd c (by_spin (T, T))
    (fun p r q u => hijkl_ueg pi vol norm2 basis p q r u)
  = one_body_op cd c (by_spin (h, h))
    - (1 / 2%:R) *: \sum_(q <- qvecs)
        (op cd c (iA pi vol norm2 basis lookup q) ^+ 2
         + op cd c (iB pi vol norm2 basis lookup q) ^+ 2).
Proof.
move=> C A M cd c hc V pi vol norm2 basis lookup qvecs T inj look uq q0 full nN h.
exact: ueg_right.
Qed.

(* Fock space with M orbitals. *)
Example C46_example : forall (C : numClosedFieldType) M,
  car (fun (p : 'I_M) s => create C (mode p s))
      (fun p s => annihilate C (mode p s)).
Proof. exact: fock_car. Qed.

(* Basis vectors 0 and 1 among the integers. *)
Example C46_ueg_example :
  let basis (i : 'I_2) := (i : nat)%:Z in
  [/\ injective basis,
      forall k i, (if k == 0 then Some ord0 else
                   if k == 1 then Some (lift ord0 ord0) else None) = Some i
                  <-> basis i = k &
      forall i j, i != j -> basis i - basis j \in [:: 1; -1]].
Proof.
split.
- by move=> i j [] /val_inj.
- move=> k i; split=> [|<-].
    by case: eqP => [->|_]; [case=> <-|case: eqP => // -> [] <-].
  by case: i => -[|[|]] // h; congr Some; apply: val_inj.
- by case=> -[|[|]] // h [[|[|]]] // h'.
Qed.

Print Assumptions C46_generic.
Print Assumptions C46_generic_gap.
Print Assumptions C46_generic_refuted.
Print Assumptions C46_hubbard.
Print Assumptions C46_hubbard_symmetric.
Print Assumptions C46_ueg.
