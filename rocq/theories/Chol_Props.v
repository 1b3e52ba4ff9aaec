(* C47: pivoted Cholesky decompositions.  C48: the shell of an orbital. *)

From Verif Require Import Base.
Set Warnings "-notation-overridden,-ambiguous-paths".
From mathcomp Require Import all_ssreflect all_algebra.
From Verif Require Import Ortho_Spec Chol_Model Chol_Spec Chol_Proofs.

Set Implicit Arguments.
Unset Strict Implicit.
Unset Printing Implicit Defensive.

Import Order.TTheory GRing.Theory Num.Theory.
Local Open Scope ring_scope.

(* For every positive matrix there are vectors, at most as many as the matrix
   has rows and none of them zero, that reproduce every entry to within tol
   and the rows of the pivots exactly.  The program returns them whenever its
   buffer has one row more, and raises IndexError otherwise. *)
Theorem C47_modified_partial : forall (C : numClosedFieldType) n (M : 'M[C]_n) tol,
  (0 < n)%N -> hermitian M -> positive M -> 0 <= tol ->
  exists L : seq 'cV[C]_n,
    (forall p q, `|M p q - rebuilt L p q| <= tol)
    /\ (exists pivots, [/\ uniq pivots, size pivots = size L
                         & exact_on pivots M L])
    /\ (size L <= n)%N /\ all (fun v => v != 0) L
    /\ (forall nchol_max, modified_cholesky nchol_max M tol
          = if (size L < nchol_max)%N then Ok L else Err IndexError).
Proof.
move=> C n M tol n0 H P t0; have [L [F E]] := mc_total H P t0 n0.
exists L; split; first exact: finished_small F.
split; first exact: finished_pivots F.
by split; [exact: finished_size F | split; [exact: finished_nz F |]].
Qed.

Theorem C47_enough : forall (C : numClosedFieldType) n (M : 'M[C]_n) tol nchol_max,
  (0 < n)%N -> hermitian M -> positive M -> 0 <= tol -> (n < nchol_max)%N ->
  exists2 L, modified_cholesky nchol_max M tol = Ok L
           & forall p q, `|M p q - rebuilt L p q| <= tol.
Proof.
move=> C n M tol nmax n0 H P t0 hn; have [L [F E]] := mc_total H P t0 n0.
exists L; last exact: finished_small F.
by rewrite E (leq_ltn_trans (finished_size F) hn).
Qed.

(* The buffer has int(cmax * sqrt n) rows.  That is too few for the identity
   as soon as n >= cmax^2. *)
Theorem C47_buffer_refuted : forall (C : numClosedFieldType) n cmax nchol_max (tol : C),
  (0 < n)%N -> 0 <= tol -> tol < 1 ->
  (nchol_max * nchol_max <= cmax * cmax * n)%N -> (cmax * cmax <= n)%N ->
  modified_cholesky nchol_max (1%:M : 'M[C]_n) tol = Err IndexError.
Proof.
move=> C n cmax nmax tol n0 t0 t1 h1 h2.
have [L [F E]] := mc_total (@one_hermitian C n) (@one_positive C n) t0 n0.
rewrite E (one_size t0 t1 F) ltnNge -leq_sqr -!mulnn.
by rewrite (leq_trans h1) // leq_mul2r h2 orbT.
Qed.

(* The in-core variant for integrals: the same vectors, from one pair of
   shells at a time. *)
Theorem C47_chunked : forall (C : numClosedFieldType) nao (M : 'M[C]_(nao * nao))
    sizes tol nchol_max,
  hermitian M -> positive M -> real_matrix M -> 0 <= tol ->
  all (fun s => 0 < s)%N sizes -> sumn sizes = nao ->
  chunked_cholesky M sizes false nchol_max tol
  = modified_cholesky nchol_max M tol.
Proof. by move=> *; exact: chunked_is_modified. Qed.

Theorem C47_verbose_refuted : forall (C : numClosedFieldType) nao
    (M : 'M[C]_(nao * nao)) sizes tol nchol_max,
  (0 < nao)%N ->
  chunked_cholesky M sizes true nchol_max tol = Err TypeError.
Proof.
move=> C nao M sizes tol nmax n0; rewrite /chunked_cholesky.
by case: insubP => // /negP []; rewrite muln_gt0 n0.
Qed.

(* Out of core, chunks of at least two vectors: the same number of vectors,
   and the file holds those that fill whole chunks. *)
Theorem C47_outcore_partial : forall (C : numClosedFieldType) nao
    (M : 'M[C]_(nao * nao)) sizes tol,
  (0 < nao)%N -> hermitian M -> positive M -> real_matrix M -> 0 <= tol ->
  all (fun s => 0 < s)%N sizes -> sumn sizes = nao ->
  exists L : seq 'cV[C]_(nao * nao),
    (forall p q, `|M p q - rebuilt L p q| <= tol)
    /\ (forall nchol_max, modified_cholesky nchol_max M tol
          = if (size L < nchol_max)%N then Ok L else Err IndexError)
    /\ forall fuel nchol_max cs, (1 < cs)%N -> (size L < fuel)%N ->
       let r := chunked_cholesky_outcore M sizes fuel nchol_max cs tol in
       if (size L %/ cs * cs <= nchol_max)%N
       then exists2 file, r = Ok (size L, file)
            & forall i, file i = if (i < size L %/ cs * cs)%N
                                 then nth 0 L i else 0
       else r = Err TypeError.
Proof.
move=> C nao M sizes tol n0 H P R t0 h1 h2.
have [L [F [E1 [E2 _]]]] := outcore_right H P R t0 h1 h2 n0.
by exists L; split; [exact: finished_small F | split].
Qed.

(* So unless the chunk size divides the number of vectors, vectors that are
   not zero are missing from the file. *)
Theorem C47_outcore_refuted : forall (C : numClosedFieldType) nao
    (M : 'M[C]_(nao * nao)) sizes tol,
  (0 < nao)%N -> hermitian M -> positive M -> real_matrix M -> 0 <= tol ->
  all (fun s => 0 < s)%N sizes -> sumn sizes = nao ->
  exists L : seq 'cV[C]_(nao * nao),
    (forall nchol_max, (size L < nchol_max)%N ->
       modified_cholesky nchol_max M tol = Ok L)
    /\ forall fuel nchol_max cs n file, (1 < cs)%N -> (size L < fuel)%N ->
       chunked_cholesky_outcore M sizes fuel nchol_max cs tol = Ok (n, file) ->
       ~~ (cs %| size L)%N ->
       exists i, [/\ (i < n)%N, nth 0 L i != 0 & file i = 0].
Proof.
move=> C nao M sizes tol n0 H P R t0 h1 h2.
have [L [F [E1 [E2 _]]]] := outcore_right H P R t0 h1 h2 n0.
exists L; split; first by move=> nmax h; rewrite E1 h.
move=> fuel nmax cs n file c1 hf E hd; move: (E2 fuel nmax cs c1 hf) => /=.
rewrite E; case: ifP => // _ [file' [-> ->] St].
have hr : (size L %/ cs * cs < size L)%N.
  rewrite {2}(divn_eq (size L) cs) -[X in (X < _)%N]addn0 ltn_add2l lt0n.
  by rewrite -/(dvdn _ _).
exists (size L %/ cs * cs)%N; split=> //; last by rewrite St ltnn.
by have /allP := finished_nz F; apply; exact: mem_nth.
Qed.

(* Chunks of one vector: a decomposition with one vector is not stored,
   although one divides everything. *)
Theorem C47_chunk_one_refuted : forall (C : numClosedFieldType) nao
    (M : 'M[C]_(nao * nao)) sizes tol,
  (0 < nao)%N -> hermitian M -> positive M -> real_matrix M -> 0 <= tol ->
  all (fun s => 0 < s)%N sizes -> sumn sizes = nao ->
  exists L : seq 'cV[C]_(nao * nao),
    (forall nchol_max, (size L < nchol_max)%N ->
       modified_cholesky nchol_max M tol = Ok L)
    /\ forall fuel nchol_max, size L = 1%N -> (1 < fuel)%N ->
       nth 0 L 0 != 0
       /\ chunked_cholesky_outcore M sizes fuel nchol_max 1 tol
          = Ok (1%N, fun=> 0).
Proof.
move=> C nao M sizes tol n0 H P R t0 h1 h2.
have [L [F [E1 [_ E3]]]] := outcore_right H P R t0 h1 h2 n0.
exists L; split; first by move=> nmax h; rewrite E1 h.
move=> fuel nmax hs hf; split; last exact: E3.
by have /allP := finished_nz F; apply; apply: mem_nth; rewrite hs.
Qed.

(* The entry point gives nothing for systems that fit into memory. *)
Theorem C47_dispatch_refuted : forall (C : numClosedFieldType) nao
    (M : 'M[C]_(nao * nao)) sizes verbose fuel nchol_max chunk_size tol,
  cholesky M sizes false verbose fuel nchol_max chunk_size tol
  = Ok (@PyNone C nao).
Proof. by []. Qed.

(* The hypotheses hold for the identity, whose decomposition has one vector
   for every row; for one orbital nothing is stored in chunks of two. *)
Example C47_one : forall (C : numClosedFieldType),
  let M := 1%:M : 'M[C]_(1 * 1) in
  [/\ hermitian M, positive M & real_matrix M]
  /\ (exists2 L, modified_cholesky 20 M 0 = Ok L & size L = 1%N)
  /\ exists2 file, chunked_cholesky_outcore M [:: 1%N] 5 20 2 0 = Ok (1%N, file)
                 & forall i, file i = 0.
Proof.
move=> C M.
have H : hermitian M := @one_hermitian C _.
have P : positive M := @one_positive C _.
have R : real_matrix M := @one_real C _.
split=> //.
have [L [F [E1 [E2 _]]]] := outcore_right H P R (lexx 0)
  (isT : all (fun s => 0 < s)%N [:: 1%N]) (erefl 1%N) isT.
have hs : size L = 1%N := one_size (lexx 0) ltr01 F.
split; first by exists L => //; rewrite E1 hs.
have := E2 5%N 20%N 2%N isT; rewrite hs => /(_ isT) /= [file E St].
by exists file => // i; rewrite St hs.
Qed.

(* The shells are described by angular momentum and number of contractions. *)
Theorem C48_shell : forall bas j,
  all (fun x => 0 < x.2)%N bas -> (j < sumn (shell_sizes bas))%N ->
  exists s off, find_shell (shell_dims (shell_sizes bas)) j = Ok (s, off)
    /\ in_shell (shell_sizes bas) j s off
    /\ forall s' off', in_shell (shell_sizes bas) j s' off' ->
       s' = s /\ off' = off.
Proof.
move=> bas j h hj.
have pos : all (fun s => 0 < s)%N (shell_sizes bas).
  rewrite all_map; apply: sub_all h => x /= hx.
  by rewrite muln_gt0 addn1.
have [s [off [E I]]] := find_shell_right pos hj.
exists s, off; split=> //; split=> // s' off' I'.
exact: in_shell_unique I' I.
Qed.

(* A shell without orbitals would be found in place of the one after it. *)
Theorem C48_empty_shell :
  find_shell (shell_dims [:: 1; 0; 1]%N) 1 = Ok (1%N, 0%N)
  /\ in_shell [:: 1; 0; 1]%N 1 2 0 /\ ~ in_shell [:: 1; 0; 1]%N 1 1 0.
Proof. by split=> //; split=> // -[_ []]. Qed.

(* s, p with two contractions, d: orbital 6 is the last of the p shell. *)
Example C48_spd :
  find_shell (shell_dims (shell_sizes [:: (0, 1); (1, 2); (2, 1)]%N)) 6
  = Ok (1%N, 5%N).
Proof. by []. Qed.

Print Assumptions C47_modified_partial.
Print Assumptions C47_enough.
Print Assumptions C47_buffer_refuted.
Print Assumptions C47_chunked.
Print Assumptions C47_verbose_refuted.
Print Assumptions C47_outcore_partial.
Print Assumptions C47_outcore_refuted.
Print Assumptions C47_chunk_one_refuted.
Print Assumptions C47_dispatch_refuted.
Print Assumptions C48_shell.
Print Assumptions C48_empty_shell.
