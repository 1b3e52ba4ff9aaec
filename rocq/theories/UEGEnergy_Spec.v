(* Derivatives of energies with respect to the density matrix. *)

From Verif Require Import Base.
Set Warnings "-notation-overridden,-ambiguous-paths".
From mathcomp Require Import all_ssreflect all_algebra.
From Verif Require Import LEnergy_Spec.

Set Implicit Arguments.
Unset Strict Implicit.
Unset Printing Implicit Defensive.

Import Order.TTheory GRing.Theory Num.Theory.
Local Open Scope ring_scope.

Section Spec.
Variable C : numClosedFieldType.
Variable M : nat.
Notation mat2 := ('M[C]_M * 'M[C]_M)%type.

(* G + t X *)
Definition along (G X : mat2) (t : C) : mat2 := (G.1 + t *: X.1, G.2 + t *: X.2).

(* F is the derivative at G of the quadratic function E:
   E(G + t X) = E(G) + t sum_s sum_ij F^s_ij X^s_ij + O(t^2). *)
Definition derivative (E : mat2 -> C) (G F : mat2) : Prop :=
  forall X, exists q, forall t, E (along G X t) = E G + t * wick1 F X + t ^+ 2 * q.

(* Rows from n on vanish. *)
Definition rows_below (n : nat) (G : 'M[C]_M) : Prop := forall i j : 'I_M, (n <= i)%N -> G i j = 0.

(* The matrix with these rows set to zero. *)
Definition cut (n : nat) (A : 'M[C]_M) : 'M[C]_M :=
  \matrix_(i, j) (if (i < n)%N then A i j else 0).

(* Electrons with momentum-conserving interaction w: (pr|qu) for momenta basis p etc.;
   the term without momentum transfer is left out. *)
Definition coulomb (V : zmodType) (basis : 'I_M -> V) (w : V -> C) (p r q u : 'I_M) : C :=
  if (p != r) && (basis p + basis q == basis r + basis u) then w (basis r - basis p) else 0.

(* The total energy. *)
Definition energy (h : mat2) (v : 'I_M -> 'I_M -> 'I_M -> 'I_M -> C) (G : mat2) : C :=
  wick1 h G + wick2 v G.

(* Mean-field potentials of a density matrix. *)
Definition direct (v : 'I_M -> 'I_M -> 'I_M -> 'I_M -> C) (A : 'M[C]_M) : 'M[C]_M :=
  \matrix_(i, j) (1 / 2%:R * \sum_q \sum_u (v i j q u + v q u i j) * A q u).
Definition exchange (v : 'I_M -> 'I_M -> 'I_M -> 'I_M -> C) (A : 'M[C]_M) : 'M[C]_M :=
  \matrix_(i, j) (1 / 2%:R * \sum_q \sum_u (v i u q j + v q j i u) * A q u).
Definition mean_field (h : mat2) (v : 'I_M -> 'I_M -> 'I_M -> 'I_M -> C) (G : mat2) : mat2 :=
  (h.1 + direct v (G.1 + G.2) - exchange v G.1, h.2 + direct v (G.1 + G.2) - exchange v G.2).

Definition diagonal (A : 'M[C]_M) : Prop := forall i j, i != j -> A i j = 0.
Definition symmetric (A : 'M[C]_M) : Prop := A^T = A.
Definition hermitian (A : 'M[C]_M) : Prop := map_mx conjC (A^T) = A.
End Spec.

(* A plane wave basis and its momentum transfers: lookup finds exactly the basis, and
   the transfers are all differences of different plane waves, each once, perhaps with
   some more. *)
Definition plane_waves M (V : zmodType) (basis : 'I_M -> V) (lookup : V -> option 'I_M)
    (qvecs : seq V) : Prop :=
  injective basis /\ (forall k i, lookup k = Some i <-> basis i = k) /\
  uniq qvecs /\ (forall i j, i != j -> basis i - basis j \in qvecs) /\ 0 \notin qvecs.

(* The interaction 4 pi / (vol |q|^2). *)
Definition bare (C : numClosedFieldType) (V : zmodType) (pi vol : C) (norm2 : V -> C) (q : V) : C :=
  4%:R * pi / (vol * norm2 q).
