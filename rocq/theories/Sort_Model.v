(** numpy.argsort(kind='mergesort'): the stable sort permutation, as insertion sort
    (any stable sort gives the same permutation). Used by
    pauxy/walkers/handler.py:348-349 and pauxy/systems/ueg.py:194-239. *)
From Verif Require Import Base.
Open Scope nat_scope.

Section Sort.
  Context {A : Type}.
  Variable leb : A -> A -> bool.
  Fixpoint insert (x : A * nat) (l : list (A * nat)) : list (A * nat) :=
    match l with
    | [] => [x]
    | y :: t => if leb (fst x) (fst y) then x :: l else y :: insert x t
    end.
  Definition sort_pairs (l : list (A * nat)) : list (A * nat) := fold_right insert [] l.
  Definition argsort (l : list A) : list nat :=
    map snd (sort_pairs (combine l (seq 0 (length l)))).
End Sort.

(** Fancy indexing [a[ix]] with every index in range ([d] is never reached then). *)
Definition take {A} (d : A) (l : list A) (ix : list nat) : list A := map (fun i => nth i l d) ix.
