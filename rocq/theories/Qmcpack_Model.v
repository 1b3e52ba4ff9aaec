(** pauxy/utils/io.py to_qmcpack_index 50-71, to_sparse 73-79, write_qmcpack_sparse
    81-124, from_qmcpack_sparse 129-174; pauxy/utils/hamiltonian_converter.py
    read_cholesky 213-238.
    Numbers are any type K with zero and addition; big x is abs(x) > cutoff.
    Complex numbers stored as pairs of floats, 32-bit overflow of indices and the
    detection of the real format are not modelled. *)
From Verif Require Import Base.
Open Scope nat_scope.

Section Qmcpack.
  Variables (K : Type) (zero : K) (add : K -> K -> K) (conj : K -> K) (big : K -> bool).

  Definition positions (m n : nat) : list (nat * nat) :=
    flat_map (fun r => map (fun c => (r, c)) (seq 0 n)) (seq 0 m).

  (** numpy.where(abs(vals) > cutoff), row by row *)
  Definition nonzero (m n : nat) (f : nat -> nat -> K) : list (nat * nat) :=
    filter (fun p => big (f (fst p) (snd p))) (positions m n).

  (** ix[0::2] = rows; ix[1::2] = cols *)
  Definition interleave (l : list (nat * nat)) : list nat := flat_map (fun p => [fst p; snd p]) l.

  Definition to_sparse (m n : nat) (f : nat -> nat -> K) : list nat * list K :=
    let nz := nonzero m n f in (interleave nz, map (fun p => f (fst p) (snd p)) nz).

  Record h5 := H5 { block_sizes : list nat; chunks : list (list nat * list K); d_nmo : nat; d_nchol : nat }.

  Definition write_sparse (nmo nchol : nat) (chol : nat -> nat -> K) : h5 :=
    let '(ix, vals) := to_sparse (nmo * nmo) nchol chol in H5 [length vals] [(ix, vals)] nmo nchol.

  (** a[::2] and a[1::2] *)
  Fixpoint evens {A} (l : list A) : list A :=
    match l with x :: _ :: l' => x :: evens l' | [x] => [x] | [] => [] end.
  Definition odds {A} (l : list A) : list A := match l with [] => [] | _ :: l' => evens l' end.

  (** a[s:s+n] = src: sizes must agree, a single value is repeated *)
  Definition slice_set {A} (s n : nat) (src a : list A) : res (list A) :=
    let w := min (s + n) (length a) - s in
    match src with
    | [x] => Ok (firstn s a ++ repeat x w ++ skipn (s + w) a)
    | _ => if length src =? w then Ok (firstn s a ++ src ++ skipn (s + w) a) else Err ValueError
    end.

  Fixpoint read_chunks (s ic : nat) (sizes : list nat) (cs : list (list nat * list K))
      (rows cols : list nat) (vals : list K) : res (list nat * list nat * list K) :=
    match sizes with
    | [] => Ok (rows, cols, vals)
    | bs :: sizes' =>
        match nth_error cs ic with
        | None => Err KeyError
        | Some (ixs, v) =>
            rbind (slice_set s bs (evens ixs) rows) (fun rows' =>
            rbind (slice_set s bs (odds ixs) cols) (fun cols' =>
            rbind (slice_set s bs v vals) (fun vals' =>
            read_chunks (s + bs) (S ic) sizes' cs rows' cols' vals')))
        end
    end.

  (** csr_matrix((vals, (rows, cols)), shape): entries outside raise, equal
      positions are added *)
  Fixpoint entry (rows cols : list nat) (vals : list K) (r c : nat) : K :=
    match rows, cols, vals with
    | a :: rows', b :: cols', x :: vals' =>
        if (a =? r) && (b =? c) then add x (entry rows' cols' vals' r c) else entry rows' cols' vals' r c
    | _, _, _ => zero
    end.

  Definition csr (rows cols : list nat) (vals : list K) (m n : nat) : res (nat -> nat -> K) :=
    if forallb (fun a => a <? m) rows && forallb (fun b => b <? n) cols
    then Ok (entry rows cols vals) else Err ValueError.

  Definition read_cholesky (f : h5) : res (nat -> nat -> K) :=
    let nval := nsum (block_sizes f) in
    rbind (read_chunks 0 0 (block_sizes f) (chunks f) (repeat 0 nval) (repeat 0 nval) (repeat zero nval))
      (fun r => let '(rows, cols, vals) := r in csr rows cols vals (d_nmo f * d_nmo f) (d_nchol f)).

  (** ** to_qmcpack_index: (indptr, indices, data) of a csr matrix *)
  Definition csr_arrays : Type := list nat * list nat * list K.

  Definition slice {A} (a b : nat) (l : list A) : list A := firstn (b - a) (skipn a l).

  Fixpoint index_rows (row : nat) (indptr : list nat) (indices : list nat) (offset : nat) : list nat :=
    match indptr with
    | a :: ((b :: _) as rest) =>
        flat_map (fun i => [row; i + offset]) (slice a b indices) ++ index_rows (S row) rest indices offset
    | _ => []
    end.

  Fixpoint data_rows (indptr : list nat) (data : list K) : list K :=
    match indptr with
    | a :: ((b :: _) as rest) => slice a b data ++ data_rows rest data
    | _ => []
    end.

  Definition to_qmcpack_index (m : csr_arrays) (offset : nat) : list K * list nat :=
    let '(indptr, indices, data) := m in (data_rows indptr data, index_rows 0 indptr indices offset).

  (** the old one-body format keeps a triangle: tril(h,-1) + tril(h,0).conj().T *)
  Definition unpack_old (h : nat -> nat -> K) : nat -> nat -> K :=
    fun i j => add (if j <? i then h i j else zero) (if i <=? j then conj (h j i) else conj zero).
End Qmcpack.
