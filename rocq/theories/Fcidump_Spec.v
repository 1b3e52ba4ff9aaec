(** Permutational symmetry of two-electron integrals in chemists' notation:
    v i k j l = (ik|jl). *)
From Verif Require Import Base.
Open Scope nat_scope.

(** the index tuples equivalent to (i,k,j,l) *)
Definition orbit (sym : nat) (q : nat * nat * nat * nat) : list (nat * nat * nat * nat) :=
  match q with
  | (i, k, j, l) =>
      if sym =? 1 then [(i, k, j, l)]
      else if sym =? 4 then [(i, k, j, l); (j, l, i, k); (k, i, l, j); (l, j, k, i)]
      else [(i, k, j, l); (j, l, i, k); (k, i, l, j); (l, j, k, i);
            (k, i, j, l); (l, j, i, k); (i, k, l, j); (j, l, k, i)]
  end.

Definition in_range (n : nat) (q : nat * nat * nat * nat) : Prop :=
  match q with (i, k, j, l) => i < n /\ k < n /\ j < n /\ l < n end.

Section Spec.
  Context {K : Type} (conj : K -> K).

  (** symmetry 4: exchange of the electrons and hermiticity; 8: also real orbitals *)
  Definition has_sym (sym : nat) (v : nat -> nat -> nat -> nat -> K) : Prop :=
    sym = 1 \/
    ((sym = 4 \/ (sym = 8 /\ forall i k j l, v k i j l = v i k j l)) /\
     forall i k j l, v j l i k = v i k j l /\ v k i l j = conj (v i k j l)).
End Spec.
