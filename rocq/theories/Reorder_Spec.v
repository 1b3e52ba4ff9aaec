(* Fermion operators in any algebra, and Hamiltonians built from them. *)

From Verif Require Import Base.
Set Warnings "-notation-overridden,-ambiguous-paths".
From mathcomp Require Import all_ssreflect all_algebra.

Set Implicit Arguments.
Unset Strict Implicit.
Unset Printing Implicit Defensive.

Import Order.TTheory GRing.Theory Num.Theory.
Local Open Scope ring_scope.

Section Spec.
Variable C : numClosedFieldType.
Variable A : algType C.                  (* an associative algebra over C *)
Variable M : nat.                        (* orbitals *)
Variable S : finType.                    (* spins *)

(* Creation and annihilation operators satisfy the canonical
   anticommutation relations. *)
Record car (cd c : 'I_M -> S -> A) : Prop := MkCar {
  car_cc : forall p s q t, c p s * c q t + c q t * c p s = 0;
  car_dd : forall p s q t, cd p s * cd q t + cd q t * cd p s = 0;
  car_cd : forall p s q t,
    c p s * cd q t + cd q t * c p s = ((p == q) && (s == t))%:R
}.

Variables cd c : 'I_M -> S -> A.

(* sum_s sum_pr h^s_pr c+_ps c_rs *)
Definition one_body_op (h : S -> 'M[C]_M) : A :=
  \sum_s \sum_p \sum_r h s p r *: (cd p s * c r s).

(* The same matrix for every spin. *)
Definition op (X : 'M[C]_M) : A := one_body_op (fun _ => X).

(* 1/2 sum (pr|qu) c+_ps c+_qt c_ut c_rs *)
Definition two_body_op (v : 'I_M -> 'I_M -> 'I_M -> 'I_M -> C) : A :=
  \sum_s \sum_t \sum_p \sum_r \sum_q \sum_u
    (1 / 2%:R * v p r q u) *: (cd p s * cd q t * c u t * c r s).

Definition hamiltonian (h : S -> 'M[C]_M)
    (v : 'I_M -> 'I_M -> 'I_M -> 'I_M -> C) : A :=
  one_body_op h + two_body_op v.

(* Number operator of site p. *)
Definition number (p : 'I_M) (s : S) : A := cd p s * c p s.

End Spec.

(* Two spins. *)
Definition by_spin (T : Type) (x : T * T) (s : bool) : T :=
  if s then x.2 else x.1.

(* A model of the relations: matrices on the Fock space of n modes.  A basis
   state is the set of its occupied modes. *)
Section Fock.
Variable C : numClosedFieldType.
Variable n : nat.
Let dim := #|{set 'I_n}|.-1.

Lemma dim_proof : #|{set 'I_n}| = dim.+1.
Proof. by rewrite prednK //; apply/card_gt0P; exists set0. Qed.

Definition state (a : 'I_dim.+1) : {set 'I_n} :=
  enum_val (cast_ord (esym dim_proof) a).

Definition parity (B : {set 'I_n}) (i : 'I_n) : C :=
  (-1) ^+ #|[set j in B | (j < i)%N]|.

Definition annihilate (i : 'I_n) : 'M[C]_dim.+1 :=
  \matrix_(a, b)
    if (i \in state b) && (state a == state b :\ i)
    then parity (state b) i else 0.
Definition create (i : 'I_n) : 'M[C]_dim.+1 := (annihilate i)^T.

End Fock.
