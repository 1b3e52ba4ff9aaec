(* Half rotation of Cholesky vectors, shared between processes.

   Sources (all under /repo/pauxy):
     trial_wavefunction/multi_slater.py 366-415  half_rotate (the part that is
                                                 always executed)
     trial_wavefunction/multi_slater.py 422-434  rot_chol
     trial_wavefunction/multi_slater.py 436-448  rot_hs_pot
     utils/mpi.py 13-35                          get_shared_array

   Simplifications: the shared array is what is read back after a list of
   single element writes; the last write to an element counts, and an element
   that was not written reads as zero.  Processes run between two barriers,
   so the writes of all processes may come in any order.  Numbers are elements of
   any type with the operations used.  psi i p a is element (p, a) of
   determinant i, chol p q n an element of the Cholesky vectors. *)

From Verif Require Import Base.
Open Scope nat_scope.

Section HalfRot.
Variable K : Type.
Variables (k0 : K) (kadd kmul : K -> K -> K) (conj : K -> K).
Variables (M na nb ndets nchol : nat).
Variable psi : nat -> nat -> nat -> K.
Variable chol : nat -> nat -> nat -> K.

Definition write : Type := (nat * nat * K)%type.          (* row, column, value *)

(* 381-397: start_n, end_n and compute for one process; None when comm is
   None. *)
Definition share (comm : option (nat * nat)) : nat * nat * bool :=
  match comm with
  | Some (rank, csize) =>
      let nwork := nchol / csize in
      if nwork =? 0 then (0, nchol, rank =? 0)
      else
        let start_n := rank * nwork in
        let end_n := if rank =? csize - 1 then nchol else (rank + 1) * nwork in
        (start_n, end_n, true)
  | None => (0, nchol, true)
  end.

(* numpy.tensordot(psi[:,c0:c0+nc].conj(), chol[:,:,start_n:end_n], axes=((0),(0)))
   reshaped to (nc*M, nchol_loc), written to rows r0 onwards. *)
Definition tensordot (i a q n : nat) : K :=
  fold_left kadd (map (fun p => kmul (conj (psi i p a)) (chol p q n)) (seq 0 M)) k0.

Definition rotate (i c0 nc r0 start_n end_n : nat) : list write :=
  flat_map (fun a => flat_map (fun q => map (fun n =>
      (r0 + (a * M + q), n, tensordot i (c0 + a) q n))
    (seq start_n (end_n - start_n))) (seq 0 M)) (seq 0 nc).

(* 373-411, for one process. *)
Definition rank_writes (comm : option (nat * nat)) : list write :=
  flat_map (fun i =>
    let start := i * M * (na + nb) in
    let '(start_n, end_n, compute) := share comm in
    if compute then
      rotate i 0 na start start_n end_n
      ++ rotate i na nb (start + M * na) start_n end_n
    else []) (seq 0 ndets).

(* All processes of a node. *)
Definition all_writes (csize : nat) : list write :=
  flat_map (fun r => rank_writes (Some (r, csize))) (seq 0 csize).

(* The array read back. *)
Definition read (ws : list write) (r n : nat) : K :=
  match find (fun '(r', n', _) => (r' =? r) && (n' =? n)) (rev ws) with
  | Some (_, _, x) => x
  | None => k0
  end.
Definition rchol (ws : list write) : list (list K) :=
  map (fun r => map (read ws r) (seq 0 nchol)) (seq 0 (ndets * (M * (na + nb)))).

(* 422-434. *)
Definition rows {A} (st fin : nat) (l : list A) : list A :=
  firstn (fin - st) (skipn st l).
Definition rot_chol (arr : list (list K)) (idet : nat) (spin : option nat)
  : list (list K) :=
  let stride := M * (na + nb) in
  match spin with
  | None => rows (idet * stride) ((idet + 1) * stride) arr
  | Some s =>
      let alpha := M * na in
      if s =? 0 then rows (idet * stride) (idet * stride + alpha) arr
      else
        let beta := M * nb in
        rows (idet * stride + alpha) (idet * stride + alpha + beta) arr
  end.
(* 414, 436-448: the same array, the same slices. *)
Definition rot_hs_pot := rot_chol.

End HalfRot.
