(** pauxy/estimators/ci.py: unlabeled_balls_in_labeled_boxes 314-360,
    _unlabeled_balls_in_labeled_boxes 363-391, and the matrix Htot built by
    simple_fci_bose_fermi 8-103 with occs=None.
    Sparse matrices are functions of the row and the column, kron by the flat index
    i*ndets + a.  Numbers are in an algebraically closed field with a square root; the
    balls and the box sizes are natural numbers, so the isinstance checks do not fail.
    get_hmatel is CI_Model.get_hmatel; an element of hel that raises makes the elements
    of Htot using it raise.  The eigensolver and the printed averages are not modelled. *)
From Verif Require Import Base.
Set Warnings "-notation-overridden,-ambiguous-paths".
From mathcomp Require Import all_ssreflect all_algebra.
From Verif Require Import CI_Model.
Set Implicit Arguments. Unset Strict Implicit. Unset Printing Implicit Defensive.
Import GRing.Theory Num.Theory.
Local Open Scope ring_scope.

(** the values yielded by a loop whose body yields several *)
Fixpoint collect (A T : Type) (f : A -> res (seq T)) (l : seq A) : res (seq T) :=
  match l with
  | [::] => Ok [::]
  | x :: l' => rbind (f x) (fun y => rbind (collect f l') (fun ys => Ok (y ++ ys)))
  end.

(** 363-391.  min(balls, box_sizes[0]) on no boxes raises *)
Fixpoint distribute (boxes : seq nat) (balls : nat) : res (seq (seq nat)) :=
  if balls == 0%N then Ok [:: nseq (size boxes) 0%N] else
  match boxes with
  | [::] => Err IndexError
  | b :: rest =>
      match rest with
      | [::] => Ok (if (balls <= b)%N then [:: [:: balls]] else [::])
      | _ => collect (fun first =>
               rbind (distribute rest (balls - first)) (fun l => Ok [seq first :: d | d <- l]))
               (rev (iota 0 (minn balls b).+1))
      end
  end.

(** 314-360 *)
Definition balls_in_boxes (balls : nat) (boxes : seq nat) : res (seq (seq nat)) :=
  if ~~ all (fun b => 1 <= b)%N boxes then Err ValueError else
  if (sumn boxes < balls)%N then Err ValueError else
  distribute boxes balls.

(** 13-18: the blocks of perms; blkboson has their lengths *)
Definition sectors (nb nmax : nat) : res (seq (seq (seq nat))) :=
  rbind (collect (fun nboson => rbind (balls_in_boxes nboson (nseq nb nboson)) (fun perm => Ok [:: perm]))
                 (iota 1 nmax)) (fun l =>
  Ok ([:: nseq nb 0%N] :: l)).

Section Matrix.
  Variables (C : numClosedFieldType) (s : system C) (w0 g : C).
  Let nb := nbasis s.

  Definition mat : Type := nat -> nat -> C.
  Definition eye : mat := fun i j => (i == j)%:R.
  Definition kron (nd : nat) (A B : mat) : mat :=
    fun r c => A (r %/ nd)%N (c %/ nd)%N * B (r %% nd)%N (c %% nd)%N.

  (** 44-48 *)
  Definition hel (ds : seq (seq nat)) (i j : nat) : res C :=
    let a := if (i <= j)%N then i else j in
    let b := if (i <= j)%N then j else i in
    rbind (get_hmatel s (nth [::] ds a) (nth [::] ds b)) (fun h => Ok h.1.1).

  (** 52-57 *)
  Definition hb (ps : seq (seq nat)) : mat :=
    fun i j => if i == j then w0 * (sumn (nth [::] ps i))%:R else 0.

  (** 63-68 *)
  Definition rho (ds : seq (seq nat)) (site : nat) : mat :=
    fun i j => if i == j then
      \sum_(d <- nth [::] ds i) (if (map_orb d nb).1 == site then 1 else 0) else 0.

  (** 70-83; the slice of perms is those j from the offset of the next sector *)
  Definition boson (ps : seq (seq nat)) (blk : seq nat) (nmax site : nat) : mat :=
    fun i j =>
    let ip := nth [::] ps i in
    let jp := nth [::] ps j in
    let ni := sumn ip in
    let offset := sumn (take ni.+1 blk) in
    if ni == nmax then 0 else
    if ~~ ((offset <= j)%N && (j < offset + nth 0%N blk ni.+1)%N) then 0 else
    let diff k := ((nth 0%N ip k)%:Z - (nth 0%N jp k)%:Z)%R in
    let ndiff := (\sum_(k < nb) `|diff k|)%N in
    if (ndiff == 1%N) && (diff site == -1) then sqrtC ((nth 0%N ip site).+1)%:R else 0.

  (** 85-103 *)
  Definition htot (ps ds : seq (seq nat)) (blk : seq nat) (nmax r c : nat) : res C :=
    let nd := size ds in
    let xi site : mat := fun i j => boson ps blk nmax site i j + boson ps blk nmax site j i in
    rbind (hel ds (r %% nd) (c %% nd)) (fun h =>
    let he := eye (r %/ nd)%N (c %/ nd)%N * h in
    Ok (he + kron nd (hb ps) eye r c
        + \sum_(site < nb) g * kron nd (xi site) (rho ds site) r c)).

  (** perms, the determinants and Htot *)
  Definition bose_fermi (nup ndown nmax : nat) :
      res (seq (seq nat) * seq (seq nat) * (nat -> nat -> res C)) :=
    rbind (sectors nb nmax) (fun bl =>
    let ps := flatten bl in
    let blk := map size bl in
    rbind (dets nb nup ndown) (fun ds =>
    Ok (ps, ds, htot ps ds blk nmax))).
End Matrix.
