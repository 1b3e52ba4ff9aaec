(** Matrices and chunkings. *)
From Coq Require Import Permutation.
From Verif Require Import Base Qmcpack_Model.
Open Scope nat_scope.

Section Spec.
  Context {K : Type} (zero : K) (big : K -> bool).

  (** entries below the cutoff are not stored *)
  Definition kept (f : nat -> nat -> K) : nat -> nat -> K :=
    fun r c => if big (f r c) then f r c else zero.

  (** a file holding the matrix f in chunks of any sizes, empty ones included:
      the chunks, one after the other, list the stored positions of f in any order *)
  Definition chunked (nmo nchol : nat) (f : nat -> nat -> K) (h : h5 K) : Prop :=
    exists ps : list (list (nat * nat)),
      Permutation (concat ps) (nonzero K big (nmo * nmo) nchol f) /\
      block_sizes K h = map (@length _) ps /\
      chunks K h = map (fun p => (flat_map (fun rc => [fst rc; snd rc]) p, map (fun rc => f (fst rc) (snd rc)) p)) ps /\
      d_nmo K h = nmo /\ d_nchol K h = nchol.

  (** csr arrays of a matrix given by its rows of (column, value) *)
  Definition arrays (rows : list (list (nat * K))) : csr_arrays K :=
    (map (fun k => nsum (map (@length _) (firstn k rows))) (seq 0 (S (length rows))),
     map fst (concat rows), map snd (concat rows)).
End Spec.
