(** Sparse QMCPACK integrals (C27). *)
From Coq Require Import Permutation.
From Verif Require Import Base BaseFacts Qmcpack_Model Qmcpack_Spec Qmcpack_Proofs.
Open Scope nat_scope.

(** Any way of cutting the stored entries into chunks, in any order, reads back as
    the matrix (entries below the cutoff are zero). *)
Theorem C27_chunks : forall (K : Type) (zero : K) (add : K -> K -> K) (conj : K -> K) (big : K -> bool),
  (forall x, add x zero = x) -> (forall x, add zero x = x) -> forall nmo nchol f h, chunked big nmo nchol f h ->
  exists g, read_cholesky K zero add h = Ok g /\
    forall r c, r < nmo * nmo -> c < nchol -> g r c = kept zero big f r c.
Proof. exact read_any_chunking. Qed.
Print Assumptions C27_chunks.

(** What the writer produces is such a file. *)
Theorem C27_writer : forall (K : Type) (big : K -> bool) nmo nchol f,
  chunked big nmo nchol f (write_sparse K big nmo nchol f).
Proof. exact write_chunked. Qed.
Print Assumptions C27_writer.

Theorem C27_roundtrip : forall (K : Type) (zero : K) (add : K -> K -> K) (conj : K -> K) (big : K -> bool),
  (forall x, add x zero = x) -> (forall x, add zero x = x) -> forall nmo nchol f,
  exists g, read_cholesky K zero add (write_sparse K big nmo nchol f) = Ok g /\
    forall r c, r < nmo * nmo -> c < nchol -> g r c = kept zero big f r c.
Proof. exact sparse_roundtrip. Qed.
Print Assumptions C27_roundtrip.

(** Interleaved indices are taken apart exactly. *)
Theorem C27_interleave : forall l, evens (interleave l) = map fst l /\ odds (interleave l) = map snd l.
Proof. exact (fun l => conj (evens_interleave l) (odds_interleave l)). Qed.
Print Assumptions C27_interleave.

(** The index list made from csr arrays names every stored entry, row by row. *)
Theorem C27_csr_index : forall (K : Type) (rows : list (list (nat * K))) off,
  to_qmcpack_index K (arrays rows) off =
  (map snd (concat rows),
   interleave (flat_map (fun p => map (fun e => (fst p, fst e + off)) (snd p)) (combine (seq 0 (length rows)) rows))).
Proof. exact to_index_ok. Qed.
Print Assumptions C27_csr_index.

(** The one-body matrix of the old format is rebuilt from its lower triangle. *)
Theorem C27_old_hcore : forall (K : Type) (zero : K) (add : K -> K -> K) (conj : K -> K),
  (forall x, add x zero = x) -> (forall x, add zero x = x) -> forall h : nat -> nat -> K,
  conj zero = zero -> (forall i j, h j i = conj (h i j)) ->
  forall i j, unpack_old K zero add conj h i j = h i j.
Proof. exact unpack_old_ok. Qed.
Print Assumptions C27_old_hcore.

(** A 4 x 2 matrix in three chunks, one of them empty, out of order. *)
Example C27_case :
  let f r c := nth (2 * r + c) [5; 0; 0; 7; 8; 9; 0; 3] 0 in
  let h := H5 nat [2; 0; 3] [([3; 1; 0; 0], [3; 5]); ([], []); ([1; 1; 2; 1; 2; 0], [7; 9; 8])] 2 2 in
  match read_cholesky nat 0 Nat.add h with
  | Ok g => map (fun p => g (fst p) (snd p)) (positions 4 2) = [5; 0; 0; 7; 8; 9; 0; 3]
  | Err _ => False
  end /\ chunked (fun x => 0 <? x) 2 2 f h.
Proof.
  split; [reflexivity|]. exists [[(3, 1); (0, 0)]; []; [(1, 1); (2, 1); (2, 0)]]. split; [|auto].
  cbv. apply (Permutation_sym (l := [(0, 0); (1, 1); (2, 0); (2, 1); (3, 1)])).
  apply (Permutation_cons_app [(3, 1)]). apply (Permutation_cons_app [(3, 1)]).
  apply (Permutation_cons_app [(3, 1); (2, 1)] []). apply (Permutation_cons_app [(3, 1)] []). apply Permutation_refl.
Qed.
