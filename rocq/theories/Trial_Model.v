(* Single-determinant trial wavefunctions: free electrons, Hartree-Fock orbitals and the
   unrestricted Hartree-Fock search for the Hubbard model.

   Sources (all under /repo/pauxy):
     utils/linalg.py 33-57                     diagonalise_sorted
     trial_wavefunction/free_electron.py 20-62 FreeElectron.__init__
     trial_wavefunction/hartree_fock.py 17-92  HartreeFock.__init__
     trial_wavefunction/uhf.py 49-103          UHF.__init__
     trial_wavefunction/uhf.py 105-174         find_uhf_wfn
     trial_wavefunction/uhf.py 176-192         initialise, random_starting_point
     trial_wavefunction/uhf.py 194-214         checkerboard
     trial_wavefunction/uhf.py 216-247         density, self_consistant, mix_density,
                                               diagonalise_mean_field
     estimators/hubbard.py 108-114             local_energy_hubbard
     systems/hubbard.py 298-301                decode_basis

   Simplifications: exact arithmetic over a numerically closed field.  Arguments:
   scipy.linalg.eigh (eigh), the method argsort (argsort), and the random matrices of the
   starting points, one pair for each attempt (starts).  The array psi is kept as its two
   blocks of columns.  The basis is not empty.  Column indices given by the user are not
   negative.  LinAlgError of scipy.linalg.inv is ValueError.  numpy.load and the reading of
   files are left out: the orbitals found there are arguments.  Output is left out except
   where it can raise. *)

From Verif Require Import Base.
Set Warnings "-notation-overridden,-ambiguous-paths".
From mathcomp Require Import all_ssreflect all_fingroup all_algebra.
From Verif Require Import Ortho_Model.

Set Implicit Arguments.
Unset Strict Implicit.
Unset Printing Implicit Defensive.

Import Order.TTheory GRing.Theory Num.Theory.
Local Open Scope ring_scope.

Section Trial.
Variable C : numClosedFieldType.
Variable M : nat.
Notation mat := 'M[C]_M.
Notation dens := 'rV[C]_M.
Variable eigh : mat -> dens * mat.
Variable argsort : dens -> 'S_M.

(* linalg.py 52-57 *)
Definition diagonalise_sorted (H : mat) : dens * mat :=
  let (eigs, eigv) := eigh H in
  let idx := argsort eigs in
  (col_perm idx eigs, col_perm idx eigv).

(* An array of columns written over a block of k columns: one column is broadcast. *)
Definition assign k (cols : seq 'cV[C]_M) : res 'M[C]_(M, k) :=
  if size cols == k then Ok (\matrix_(i, j) nth 0 cols j i 0)
  else if cols is [:: c] then Ok (\matrix_(i, j) c i 0)
  else Err ValueError.

(* A[:, :k] *)
Definition slice p (A : 'M[C]_(M, p)) (k : nat) : seq 'cV[C]_M :=
  take k [seq col j A | j <- enum 'I_p].

(* A[:, idx] *)
Definition fancy p (A : 'M[C]_(M, p)) (idx : seq nat) : res (seq 'cV[C]_M) :=
  if all (fun j => (j < p)%N) idx
  then Ok [seq nth 0 [seq col j A | j <- enum 'I_p] j | j <- idx]
  else Err IndexError.

(* greens_function.py 36-38 for two equal arguments *)
Definition gab_self k (A : 'M[C]_(M, k)) : res mat :=
  if (map_mx (@conjC C) A)^T *m A \in unitmx then Ok (gab A A) else Err ValueError.
Definition gab_mod_self k (A : 'M[C]_(M, k)) : res mat :=
  if A^T *m map_mx (@conjC C) A \in unitmx then Ok (gab_mod A A).1 else Err ValueError.

Record sd nup ndn := MkSD { s_up : 'M[C]_(M, nup); s_dn : 'M[C]_(M, ndn); s_G : mat * mat }.

(* free_electron.py 58-62 *)
Definition finish nup ndn (up : 'M[C]_(M, nup)) (dn : 'M[C]_(M, ndn)) : res (sd nup ndn) :=
  rbind (gab_self up) (fun gu =>
  rbind (gab_self dn) (fun gd =>
  Ok (MkSD up dn (gu^T, gd^T)))).

(* free_electron.py 20-21, 49-62 *)
Definition free_electron nup ndn (T : mat * mat) (reference : option (seq nat)) : res (sd nup ndn) :=
  let (eu, vu) := diagonalise_sorted T.1 in
  let (ed, vd) := diagonalise_sorted T.2 in
  match reference with
  | Some r =>
      rbind (fancy vu r) (fun cu =>
      rbind (assign nup cu) (fun up =>
      rbind (fancy vd r) (fun cd =>
      rbind (assign ndn cd) (fun dn =>
      finish up dn))))
  | None =>
      rbind (assign nup (slice vu nup)) (fun up =>
      rbind (assign ndn (slice vd ndn)) (fun dn =>
      finish up dn))
  end.

(* free_electron.py 34-48: tmp is the array read, one column for each electron; tol is
   1e-10 *)
Definition free_electron_ghf nup ndn (tol : C) (tmp : 'M[C]_(M + M, nup + ndn)) : res (sd nup ndn) :=
  let is_up j := [forall i : 'I_M, tol < `|tmp (lshift M i) j|] in
  let ups := [seq j <- enum 'I_(nup + ndn) | is_up j] in
  let downs := [seq j <- enum 'I_(nup + ndn) | ~~ is_up j] in
  rbind (assign nup [seq col j (usubmx tmp) | j <- ups]) (fun up =>
  rbind (assign ndn [seq col j (dsubmx tmp) | j <- downs]) (fun dn =>
  finish up dn)).

Inductive orbitals := RHF of mat | UHF of mat & mat.

(* self.psi[:, i] = c *)
Definition set_col nup ndn (up : 'M[C]_(M, nup)) (dn : 'M[C]_(M, ndn)) (i : nat) (c : 'cV[C]_M)
  : res ('M[C]_(M, nup) * 'M[C]_(M, ndn)) :=
  if (i < nup)%N then Ok (\matrix_(r, j) (if j == i :> nat then c r 0 else up r j), dn)
  else if (i < nup + ndn)%N
  then Ok (up, \matrix_(r, j) (if (nup + j)%N == i :> nat then c r 0 else dn r j))
  else Err IndexError.

(* hartree_fock.py 46-84.  For orbitals of two spins orbs_matrix[:,a] has the shape (2, M),
   which cannot be written into a column. *)
Definition hartree_fock nup ndn (orbs : orbitals) (excite : option (nat * nat)) : res (sd nup ndn) :=
  rbind (match orbs with
  | RHF A =>
      rbind (fancy A (iota 0 nup)) (fun cu =>
      rbind (assign nup cu) (fun up =>
      rbind (fancy A (iota 0 ndn)) (fun cd =>
      rbind (assign ndn cd) (fun dn =>
      match excite with
      | None => Ok (up, dn)
      | Some (i, a) =>
          rbind (fancy A [:: a]) (fun c => set_col up dn i (nth 0 c 0))
      end))))
  | UHF A B =>
      rbind (fancy A (iota 0 nup)) (fun cu =>
      rbind (assign nup cu) (fun up =>
      rbind (fancy B (iota 0 ndn)) (fun cd =>
      rbind (assign ndn cd) (fun dn =>
      match excite with
      | None => Ok (up, dn)
      | Some (i, a) =>
          if (a < M)%N then Err (if (i < nup + ndn)%N then ValueError else IndexError)
          else Err IndexError
      end))))
  end) (fun p =>
  rbind (gab_mod_self p.1) (fun gu =>
  rbind (if (0 < ndn)%N then gab_mod_self p.2 else Ok 0) (fun gd =>
  Ok (MkSD p.1 p.2 (gu, gd))))).

(* uhf.py 216-217 *)
Definition density k (X : 'M[C]_(M, k)) : dens :=
  \row_i (X *m (map_mx (@conjC C) X)^T) i i.

(* estimators/hubbard.py 108-114: the first value of pe is replaced *)
Definition local_energy_hubbard (U : C) (T G : mat * mat) : C :=
  let ke := \sum_i \sum_j (T.1 i j * G.1 i j + T.2 i j * G.2 i j) in
  let pe := U * \sum_i G.1 i i * G.2 i i in
  ke + pe.

Record uhf_opts := MkUhf { u_ueff : C; u_alpha : C; u_deps : C; u_nconv : nat; u_verbose : bool }.
Variable o : uhf_opts.
Variables nup ndn : nat.
Variable T : mat * mat.

(* uhf.py 219-230 *)
Definition mean_diff (a b : dens) : C := (\sum_i `|a 0 i - b 0 i|) / M%:R.
Definition self_consistant (enew eold : C) (nu nuo nd ndo : dens) : bool :=
  let depsn := sqrtC (u_deps o) in
  (`|enew - eold| < u_deps o) && (mean_diff nu nuo < depsn) && (mean_diff nd ndo < depsn).

(* uhf.py 232-233 *)
Definition mix_density (new old : dens) : dens := (1 - u_alpha o) *: new + u_alpha o *: old.

(* uhf.py 235-247: the new orbitals and the eigenvalues *)
Definition diagonalise_mean_field (nu nd : dens)
  : res ('M[C]_(M, nup) * 'M[C]_(M, ndn) * dens * dens) :=
  let (eu, vu) := diagonalise_sorted (T.1 + diag_mx (u_ueff o *: nd)) in
  let (ed, vd) := diagonalise_sorted (T.2 + diag_mx (u_ueff o *: nu)) in
  rbind (assign nup (slice vu nup)) (fun up =>
  rbind (assign ndn (slice vd ndn)) (fun dn =>
  Ok (up, dn, eu, ed))).

Record found := MkFound {
  f_up : 'M[C]_(M, nup); f_dn : 'M[C]_(M, ndn); f_eigs : dens * dens; f_e : C }.

(* uhf.py 122-150: what was found, and niup and nidown at the end *)
Fixpoint uhf_loop (it : nat) (nu nd nuo ndo : dens) (eold : C)
  : res (option found * (dens * dens)) :=
  match it with
  | 0%N => Ok (None, (nu, nd))
  | it'.+1 =>
      rbind (diagonalise_mean_field nu nd) (fun r =>
      let '(up, dn, eu, ed) := r in
      let nu := density up in
      let nd := density dn in
      rbind (gab_self up) (fun gu =>
      rbind (if (0 < ndn)%N then gab_self dn else Ok 0) (fun gd =>
      let enew := 'Re (local_energy_hubbard (u_ueff o) T (gu^T, gd^T)) in
      if self_consistant enew eold nu nuo nd ndo
      then Ok (Some (MkFound up dn (eu, ed) enew), (nu, nd))
      else uhf_loop it' (mix_density nu nuo) (mix_density nd ndo) nu nd enew)))
  end.

(* uhf.py 176-192 *)
Definition initialise (R : mat * mat) : res ('M[C]_(M, nup) * 'M[C]_(M, ndn) * C) :=
  let (eu, vu) := diagonalise_sorted (2%:R^-1 *: (R.1 + R.1^T)) in
  let (ed, vd) := diagonalise_sorted (2%:R^-1 *: (R.2 + R.2^T)) in
  rbind (assign nup (slice vu nup)) (fun up =>
  rbind (assign ndn (slice vd ndn)) (fun dn =>
  Ok (up, dn, \sum_(i < M | (i < nup)%N) eu 0 i + \sum_(i < M | (i < ndn)%N) ed 0 i))).

(* uhf.py 113-150: attempt is the number of the attempt, acc what psi_accept and e_accept
   are bound to, nav what niup and nidown are bound to *)
Fixpoint attempts (attempt : nat) (starts : seq (mat * mat)) (minima : seq C) (acc : option found)
    (nav : option (dens * dens)) : res (seq C * option found * option (dens * dens)) :=
  match starts with
  | [::] => Ok (minima, acc, nav)
  | R :: starts =>
      rbind (initialise R) (fun r =>
      let '(up, dn, eold) := r in
      let nu := density up in
      let nd := density dn in
      rbind (uhf_loop (u_nconv o) nu nd nu nd eold) (fun r =>
      let (f, n) := r in
      match f with
      | Some f =>
          if (attempt == 0%N) || all (fun m => u_deps o < m - f_e f) minima
          then attempts attempt.+1 starts (rcons minima (f_e f)) (Some f) (Some n)
          else attempts attempt.+1 starts minima acc (Some n)
      | None => attempts attempt.+1 starts minima acc (Some n)
      end))
  end.

Definition py_min (l : seq C) : res C :=
  match l with [::] => Err ValueError | x :: l => Ok (foldl Order.min x l) end.

(* uhf.py 105-174: system.U after the call, and what is returned.  When nothing was
   accepted psi_accept is not bound, and the module warnings used in the handler is not
   imported. *)
Definition find_uhf_wfn (U : C) (starts : seq (mat * mat))
  : C * res (found * C * option (dens * dens)) :=
  match attempts 0 starts [::] None None with
  | Err e => (u_ueff o, Err e)
  | Ok (minima, acc, nav) =>
      (U, rbind (if u_verbose o then rbind (py_min minima) (fun _ => Ok tt) else Ok tt) (fun _ =>
          match acc with
          | None => Err NameError
          | Some f => rbind (py_min minima) (fun m => Ok (f, m, nav))
          end))
  end.

(* uhf.py 158-165: the printed value of S^2 *)
Definition spin_square (up : 'M[C]_(M, nup)) (dn : 'M[C]_(M, ndn)) : C :=
  let MS := `|nup%:R - ndn%:R| / 2%:R in
  let S2exact := MS * (MS + 1) in
  let Sij := up^T *m dn in
  S2exact + (minn nup ndn)%:R - \sum_i \sum_j `|Sij i j * Sij i j|.

(* uhf.py 194-214: the column and the sign written for each site; decode_basis(4, 4, i) *)
Fixpoint checkerboard_writes (sites : seq nat) (nalpha nbeta : nat) : res (seq (nat * bool)) :=
  match sites with
  | [::] => Ok [::]
  | i :: sites =>
      let (x, y) := (i %% 4, i %/ 4)%N in
      if (x %% 2 == y %% 2)%N then
        if (nalpha < nup + ndn)%N
        then rbind (checkerboard_writes sites nalpha.+1 nbeta) (fun w => Ok ((nalpha, true) :: w))
        else Err IndexError
      else
        if (nup + nbeta < nup + ndn)%N
        then rbind (checkerboard_writes sites nalpha nbeta.+1)
               (fun w => Ok ((nup + nbeta, false)%N :: w))
        else Err IndexError
  end.

Definition checkerboard : res ('M[C]_(M, nup) * 'M[C]_(M, ndn)) :=
  rbind (checkerboard_writes (iota 0 M) 0 0) (fun w =>
  let wfn (i j : nat) : C :=
    let (c, s) := nth (0%N, true) w i in
    if c == j then (if s then 1 else -1) else 0 in
  Ok (\matrix_(i, j) wfn i j, \matrix_(i, j) wfn i (nup + j)%N)).

End Trial.
