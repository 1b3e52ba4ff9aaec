(* Pivoted Cholesky decompositions and the lookup of the shell of an atomic
   orbital.

   - modified_cholesky        pauxy/utils/linalg.py:112-161
   - cholesky                 pauxy/utils/from_pyscf.py:269-284
   - chunked_cholesky         pauxy/utils/from_pyscf.py:286-393
   - chunked_cholesky_outcore pauxy/utils/from_pyscf.py:395-549

   Simplifications.  Floats are exact numbers of an algebraically closed
   field with conjugation, so `x**0.5` is sqrtC.  Where numpy yields nan
   (division by a zero root) the model yields 0: such a vector is only ever
   written behind the vectors that are returned.  A float array would give nan
   for the root of a negative number, where sqrtC is imaginary; the theorems
   are about positive matrices.  nchol_max is a parameter: it is
   int(cmax * sqrt n) in modified_cholesky and cmax * nao in the others; so is
   chunk_size.  mol.intor is the matrix of integrals restricted to a pair of
   shells.  An hdf5 data set is a function from rows to vectors, zero where
   nothing was written, together with its number of rows.  Printing and timing
   are left out, except for the print of chunked_cholesky that raises. *)

From Verif Require Import Base.
Set Warnings "-notation-overridden,-ambiguous-paths".
From mathcomp Require Import all_ssreflect all_algebra.
From Verif Require Import LEnergy_Model.

Set Implicit Arguments.
Unset Strict Implicit.
Unset Printing Implicit Defensive.

Import Order.TTheory GRing.Theory Num.Theory.
Local Open Scope ring_scope.

Section Pivot.
Variable C : numClosedFieldType.
Variable n : nat.
Implicit Types (M : 'M[C]_n) (v cur : 'cV[C]_n) (done : seq 'cV[C]_n).

(* numpy.argmax: the first index of the largest entry. *)
Definition argmax (f : 'I_n -> C) (i0 : 'I_n) : 'I_n :=
  foldl (fun best i => if f best < f i then i else best) i0 (enum 'I_n).

(* The loop of modified_cholesky, linalg.py:147-159.  `done` holds
   chol_vecs[:nchol] and cur holds chol_vecs[nchol]. *)
Fixpoint mc_loop (nchol_max : nat) M (tol : C) (i0 : 'I_n) (fuel : nat)
    done cur (Mapprox : 'I_n -> C) (delta_max : C) : res (seq 'cV[C]_n) :=
  if fuel is fuel'.+1 then
    if tol < `|delta_max| then
      let Mapprox' := fun p => Mapprox p + cur p 0 * conjC (cur p 0) in
      let delta := fun p => M p p - Mapprox' p in
      let nu := argmax (fun p => `|delta p|) i0 in
      let delta_max' := `|delta nu| in
      let done' := rcons done cur in
      let Munu0 := \sum_(v <- done') conjC (v nu 0) *: v in
      if (size done' < nchol_max)%N then
        mc_loop nchol_max M tol i0 fuel' done'
          ((sqrtC delta_max')^-1 *: (col nu M - Munu0)) Mapprox' delta_max'
      else Err IndexError
    else Ok done
  else Err OutOfFuel.

(* argmax of nothing raises ValueError; chol_vecs[0] of an empty array raises
   IndexError. *)
Definition modified_cholesky (nchol_max : nat) M (tol : C)
    : res (seq 'cV[C]_n) :=
  match insub 0%N with
  | None => Err ValueError
  | Some i0 =>
    let nu := argmax (fun p => `|M p p|) i0 in
    let delta_max := M nu nu in
    if nchol_max is 0%N then Err IndexError else
    mc_loop nchol_max M tol i0 nchol_max.+1 [::]
      ((sqrtC delta_max)^-1 *: col nu M) (fun=> 0) delta_max
  end.
End Pivot.

(* Shells: sizes lists (2l+1)*nc for every shell. *)
Definition shell_sizes (bas : seq (nat * nat)) : seq nat :=
  [seq ((2 * x.1 + 1) * x.2)%N | x <- bas].

Definition shell_dims (sizes : seq nat) : seq nat := 0%N :: scanl addn 0%N sizes.

(* numpy.searchsorted, left side. *)
Definition searchsorted (dims : seq nat) (j : nat) : nat :=
  find (fun d => (j <= d)%N) dims.

(* from_pyscf.py:339-352, 373-387.  The shell and the offset inside it; cj is
   max(j - dims[sj], 0), which is subtraction of natural numbers. *)
Definition find_shell (dims : seq nat) (j : nat) : res (nat * nat) :=
  let sj := searchsorted dims j in
  if (sj < size dims)%N then
    let sj' := if (nth 0%N dims sj != j) && (j != 0%N) then sj.-1 else sj in
    Ok (sj', (j - nth 0%N dims sj')%N)
  else Err IndexError.

Section Chunked.
Variable C : numClosedFieldType.
Variable nao : nat.
Variable M : 'M[C]_(nao * nao).
Variable sizes : seq nat.

Notation vec := ('cV[C]_(nao * nao)).
Notation pair := ('I_(nao * nao)).

(* A pair of orbital numbers as a row of the matrix. *)
Definition orbital_pair (a b : nat) : option pair :=
  if insub a is Some a' then
    if insub b is Some b' then Some (@flat nao nao a' b') else None
  else None.

Definition diag_entry (a b : nat) : C :=
  if orbital_pair a b is Some x then M x x else 0.

(* from_pyscf.py:325-330, 435-440: the diagonal is filled shell by shell. *)
Fixpoint shell_diag (dims szs : seq nat) : seq C :=
  match dims, szs with
  | d :: dims', s :: szs' =>
      flatten [seq [seq diag_entry a b | b <- iota 0 nao] | a <- iota d s]
      ++ shell_diag dims' szs'
  | _, _ => [::]
  end.

Definition diagonal (x : pair) : C :=
  nth 0 (shell_diag (shell_dims sizes) sizes) x.

(* mol.intor for the shells sj, sl, then eri_col[:,:,cj,cl]. *)
Definition eri_column (sj sl cj cl : nat) : res vec :=
  if (cj < nth 0%N sizes sj)%N && (cl < nth 0%N sizes sl)%N then
    let dims := shell_dims sizes in
    if orbital_pair (nth 0%N dims sj + cj) (nth 0%N dims sl + cl) is Some x
    then Ok (col x M) else Err IndexError
  else Err IndexError.

Definition get_column (nu : pair) : res vec :=
  let dims := shell_dims sizes in
  rbind (find_shell dims (flat_row nu)) (fun sc =>
  rbind (find_shell dims (flat_col nu)) (fun tc =>
  eri_column sc.1 tc.1 sc.2 tc.2)).

Fixpoint ch_loop (nchol_max : nat) (tol : C) (i0 : pair) (fuel : nat)
    (done : seq vec) (cur : vec) (Mapprox : pair -> C) (delta_max : C)
    : res (seq vec) :=
  if fuel is fuel'.+1 then
    if tol < `|delta_max| then
      let Mapprox' := fun p => Mapprox p + cur p 0 * cur p 0 in
      let delta := fun p => diagonal p - Mapprox' p in
      let nu := argmax (fun p => `|delta p|) i0 in
      let delta_max' := `|delta nu| in
      let done' := rcons done cur in
      rbind (get_column nu) (fun Munu0 =>
      let R := \sum_(v <- done') v nu 0 *: v in
      if (size done' < nchol_max)%N then
        ch_loop nchol_max tol i0 fuel' done'
          ((sqrtC delta_max')^-1 *: (Munu0 - R)) Mapprox' delta_max'
      else Err IndexError)
    else Ok done
  else Err OutOfFuel.

(* from_pyscf.py:334: a format string without a placeholder is given an
   argument, a TypeError. *)
Definition chunked_cholesky (verbose : bool) (nchol_max : nat) (tol : C)
    : res (seq vec) :=
  match insub 0%N with
  | None => Err ValueError
  | Some i0 =>
    let nu := argmax diagonal i0 in
    let delta_max := diagonal nu in
    if verbose then Err TypeError else
    rbind (get_column nu) (fun c =>
    if nchol_max is 0%N then Err IndexError else
    ch_loop nchol_max tol i0 nchol_max.+1 [::]
      ((sqrtC delta_max)^-1 *: c) (fun=> 0) delta_max)
  end.

(* Out of core: buf is chol_vecs, file is the data set Lao. *)
Definition residual (chunk_size : nat) (file buf : nat -> vec)
    (ichunk last : nat) (nu : pair) : vec :=
  \sum_(ic < ichunk) \sum_(k < chunk_size)
     file (ic * chunk_size + k)%N nu 0 *: file (ic * chunk_size + k)%N
  + \sum_(k < last.+1) buf k nu 0 *: buf k.

(* Lao[lo:hi] = buf *)
Definition write_chunk (lo hi : nat) (file buf : nat -> vec) : nat -> vec :=
  fun i => if (lo <= i < hi)%N then buf (i - lo)%N else file i.

Definition set_row (buf : nat -> vec) (k : nat) (v : vec) : nat -> vec :=
  fun i => if i == k then v else buf i.

Fixpoint oc_loop (nchol_max chunk_size : nat) (tol : C) (i0 : pair)
    (fuel : nat) (nchol ichunk : nat) (file buf : nat -> vec)
    (Mapprox : pair -> C) (delta_max : C) : res (nat * (nat -> vec)) :=
  if fuel is fuel'.+1 then
    if tol < `|delta_max| then
      let cur := buf (nchol %% chunk_size)%N in
      let Mapprox' := fun p => Mapprox p + cur p 0 * cur p 0 in
      let delta := fun p => diagonal p - Mapprox' p in
      let nu := argmax (fun p => `|delta p|) i0 in
      let delta_max' := `|delta nu| in
      rbind (get_column nu) (fun Munu0 =>
      let R := residual chunk_size file buf ichunk (nchol %% chunk_size) nu in
      let v := (sqrtC delta_max')^-1 *: (Munu0 - R) in
      let k := (nchol.+1 %% chunk_size)%N in
      if (0 < nchol)%N && (k == 0%N) then
        if (ichunk.+1 * chunk_size <= nchol_max)%N then
          let file' := write_chunk (ichunk * chunk_size)
                         (ichunk.+1 * chunk_size) file buf in
          oc_loop nchol_max chunk_size tol i0 fuel' nchol.+1 ichunk.+1 file'
            (set_row (fun=> 0) k v) Mapprox' delta_max'
        else Err TypeError
      else oc_loop nchol_max chunk_size tol i0 fuel' nchol.+1 ichunk file
             (set_row buf k v) Mapprox' delta_max')
    else Ok (nchol, file)
  else Err OutOfFuel.

(* The number of vectors returned, and the data set.  The loop has no bound of
   its own; fuel bounds the number of turns. *)
Definition chunked_cholesky_outcore (fuel nchol_max chunk_size : nat) (tol : C)
    : res (nat * (nat -> vec)) :=
  match insub 0%N with
  | None => Err ValueError
  | Some i0 =>
    let nu := argmax diagonal i0 in
    let delta_max := diagonal nu in
    rbind (get_column nu) (fun c =>
    if chunk_size is 0%N then Err IndexError else
    oc_loop nchol_max chunk_size tol i0 fuel 0 0 (fun=> 0)
      (set_row (fun=> 0) 0 ((sqrtC delta_max)^-1 *: c)) (fun=> 0) delta_max)
  end.

(* cholesky: too_big is the comparison of the memory estimate with MAX_SIZE. *)
Inductive cholesky_value : Type :=
| PyNone
| InCore of seq vec
| OutOfCore of nat * (nat -> vec).

Definition cholesky (too_big verbose : bool) (fuel nchol_max chunk_size : nat)
    (tol : C) : res cholesky_value :=
  if too_big then
    if verbose then
      rbind (chunked_cholesky_outcore fuel nchol_max chunk_size tol)
        (fun r => Ok (OutOfCore r))
    else
      rbind (chunked_cholesky verbose nchol_max tol)
        (fun r => Ok (InCore r))
  else Ok PyNone.
End Chunked.
