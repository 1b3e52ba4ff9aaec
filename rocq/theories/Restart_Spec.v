(** What a restart should restore. *)
From Verif Require Import Base Restart_Model.
Open Scope nat_scope.

Section Spec.
  Context {V R : Type}.
  Notation walker := (walker V R).

  (** the stored part of w', on top of what w already was *)
  Definition restored (w w' : walker) : walker :=
    Walker (weight w') (phase w') (ot w') (phi w') (rest w).

  (** population of a run: one list of nw walkers for every process *)
  Definition layout (nw : nat) (pop : list (list walker)) : Prop :=
    Forall (fun ws => length ws = nw) pop.

  Definition shape (size : nat) (ws : list walker) : Prop := Forall (fun w => length (phi w) = size) ws.

  (** the writes of a whole population, rank by rank *)
  Definition rank_writes (rank : nat) (ws : list walker) : list (nat * nat * walker) :=
    map (fun p => (rank, fst p, snd p)) (combine (seq 0 (length ws)) ws).

  Definition all_writes (pop : list (list walker)) : list (nat * nat * walker) :=
    flat_map (fun p => rank_writes (fst p) (snd p)) (combine (seq 0 (length pop)) pop).

  (** after reading, walker number g (counted over all processes) holds what
      number g of the written population held; others are as they were *)
  Definition read_back (pop : list (list walker)) (nw rank : nat) (ws ws' : list walker) : Prop :=
    length ws' = length ws /\
    forall i w, nth_error ws i = Some w ->
      nth_error ws' i =
        Some (match nth_error (concat pop) (i + nw * rank) with
              | Some w0 => restored w w0
              | None => w
              end).
End Spec.
