(* Half rotated Cholesky vectors. *)

From Verif Require Import Base.
Open Scope nat_scope.

Section Spec.
Variable K : Type.
Variables (k0 : K) (kadd kmul : K -> K -> K) (conj : K -> K).
Variables (M nchol : nat).
Variable psi : nat -> nat -> nat -> K.
Variable chol : nat -> nat -> nat -> K.

(* sum_p conj(psi_i[p,a]) L^n[p,q] *)
Definition half (i a q n : nat) : K :=
  fold_left kadd (map (fun p => kmul (conj (psi i p a)) (chol p q n)) (seq 0 M)) k0.
(* All vectors for one orbital of a determinant, one row per q; for a range of
   orbitals. *)
Definition orbital (i a : nat) : list (list K) :=
  map (fun q => map (half i a q) (seq 0 nchol)) (seq 0 M).
Definition orbitals (i a0 na : nat) : list (list K) :=
  flat_map (orbital i) (seq a0 na).
Definition determinants (ndets norb : nat) : list (list K) :=
  flat_map (fun i => orbitals i 0 norb) (seq 0 ndets).

End Spec.
Arguments orbitals {K}.
Arguments determinants {K}.
