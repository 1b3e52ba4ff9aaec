(** Integrals between Bloch orbitals, for C74.  Orbitals are numbered k point after k
    point; an integral (IK|JL) is nonzero only if one momentum transfer takes the k
    point of I to that of K and the k point of L to that of J. *)
From Verif Require Import Base.
Open Scope nat_scope.

(** the k point of an orbital and its number there *)
Fixpoint locate (npk : list nat) (x : nat) : nat * nat :=
  match npk with
  | [] => (0, x)
  | n :: npk' => if x <? n then (0, x) else let '(k, i) := locate npk' (x - n) in (S k, i)
  end.

Section Spec.
  Context {K : Type} (zero : K) (npk : list nat) (nq : nat) (qk : nat -> nat -> nat).

  Definition kp (x : nat) : nat := fst (locate npk x).
  Definition at_k (x : nat) : nat := snd (locate npk x).

  (** the momentum transfer of two pairs of k points *)
  Definition transfer (ki kk kl kj : nat) : option nat :=
    if forallb (fun k => k <? length npk) [ki; kk; kl; kj]
    then find (fun q => (qk q ki =? kk) && (qk q kl =? kj)) (seq 0 nq) else None.

  (** (IK|JL) when W q ki kl i k l j is the integral of the transfer q between the pairs
      (i of ki, k) and (l of kl, j) *)
  Definition bloch_integral (W : nat -> nat -> nat -> nat -> nat -> nat -> nat -> K) (I K' J L : nat) : K :=
    match transfer (kp I) (kp K') (kp L) (kp J) with
    | Some q => W q (kp I) (kp L) (at_k I) (at_k K') (at_k L) (at_k J)
    | None => zero
    end.

  (** block diagonal one-body matrix *)
  Definition bloch_one_body (h : nat -> nat -> nat -> K) (I J : nat) : K :=
    if kp I =? kp J then h (kp I) (at_k I) (at_k J) else zero.

  (** the integral of a transfer from Cholesky vectors vec q k (row) m *)
  Definition cholesky_integral (ad mu : K -> K -> K) (conj : K -> K) (ncol : nat -> nat) (vec : nat -> nat -> nat -> nat -> K)
      (q ki kl i k l j : nat) : K :=
    fold_right (fun m acc => ad (mu (vec q ki (i * nth (qk q ki) npk 0 + k) m) (conj (vec q kl (l * nth (qk q kl) npk 0 + j) m))) acc)
      zero (seq 0 (ncol q)).

  (** every transfer stays within the k points, and two transfers never take a k point to the same one *)
  Definition transfers_ok : Prop :=
    (forall q k, q < nq -> k < length npk -> qk q k < length npk) /\
    (forall q q' k, q < nq -> q' < nq -> k < length npk -> qk q k = qk q' k -> q = q').

  (** the Cholesky vectors of opposite transfers are those of exchanged orbitals, conjugated:
      row k' * n_k + i of the k point of k' belongs to row i * n_k' + k' of the k point k *)
  Definition opposite_pairs (conj : K -> K) (ncol : nat -> nat) (vec : nat -> nat -> nat -> nat -> K) : Prop :=
    forall q, q < nq -> exists q', q' < nq /\ ncol q' = ncol q /\
      forall k, k < length npk -> qk q' (qk q k) = k /\
      forall i k' m, i < nth k npk 0 -> k' < nth (qk q k) npk 0 ->
        vec q' (qk q k) (k' * nth k npk 0 + i) m = conj (vec q k (i * nth (qk q k) npk 0 + k') m).
End Spec.
