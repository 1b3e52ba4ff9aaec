(* Real orbitals made of plane waves.  Nothing here refers to the model. *)

From Verif Require Import Base.
Set Warnings "-notation-overridden,-ambiguous-paths".
From mathcomp Require Import all_ssreflect all_algebra.

Set Implicit Arguments.
Unset Strict Implicit.
Unset Printing Implicit Defensive.

Import Order.TTheory GRing.Theory Num.Theory.
Local Open Scope ring_scope.

Section Spec.
Variables (C : numClosedFieldType) (n : nat) (basis : 'I_n -> 'rV[int]_3).

(* With every wave vector the basis has its opposite. *)
Definition inversion_closed : Prop := forall i, exists j, basis j = - basis i.

Definition unitary (U : 'M[C]_n) : Prop := (map_mx (@conjC C) U)^T *m U = 1%:M.

(* The orbital sum_m U m p exp(i k_m r) is real: opposite wave vectors have conjugate
   coefficients. *)
Definition real_orbitals (U : 'M[C]_n) : Prop :=
  forall m m' p, basis m' = - basis m -> U m' p = (U m p)^*.

(* Real integrals that do not change when all wave vectors are inverted. *)
Definition inversion_symmetric (eri : 'I_n -> 'I_n -> 'I_n -> 'I_n -> C) : Prop :=
  (forall m k l s, (eri m k l s)^* = eri m k l s) /\
  forall m k l s m' k' l' s', basis m' = - basis m -> basis k' = - basis k ->
    basis l' = - basis l -> basis s' = - basis s -> eri m' k' l' s' = eri m k l s.

(* The integrals in the basis of the columns of U, (pq|rt). *)
Definition in_basis (U : 'M[C]_n) (eri : 'I_n -> 'I_n -> 'I_n -> 'I_n -> C) (p q r t : 'I_n) : C :=
  \sum_s \sum_l \sum_k \sum_m U s t * (U l r)^* * U k q * (U m p)^* * eri m k l s.

(* The integrals (mk|ls) of a potential over plane waves: v at the transferred wave vector, if the
   total is conserved. *)
Definition plane_wave_eri (v : 'rV[int]_3 -> C) (m k l s : 'I_n) : C :=
  if basis k - basis m == basis l - basis s then v (basis k - basis m) else 0.

Definition eightfold (f : 'I_n -> 'I_n -> 'I_n -> 'I_n -> C) : Prop :=
  forall p q r t, f q p r t = f p q r t /\ f p q t r = f p q r t /\ f r t p q = f p q r t.
End Spec.
