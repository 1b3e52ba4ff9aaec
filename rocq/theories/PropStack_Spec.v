(** What a thermal path is, stated without the stack. *)
Set Warnings "-notation-overridden,-ambiguous-paths".
From Verif Require Import Base.
From mathcomp Require Import all_ssreflect all_algebra.
From Verif Require Import PropStack_Model.

Set Implicit Arguments.
Unset Strict Implicit.
Unset Printing Implicit Defensive.
Import GRing.Theory.
Local Open Scope ring_scope.

Section Spec.
Variables (F : fieldType) (n : nat).
Notation M := 'M[F]_n.

(** the ordered product, later slices on the left *)
Definition ordered (l : seq M) : M := foldl (fun A B => B *m A) 1%:M l.

(** the slices of a path: those sampled so far, then trial slices *)
Definition slices (L : nat) (BT : M) (Bs : seq M) : seq M :=
  Bs ++ nseq (L - size Bs) BT.

(** the list cut into nb consecutive bins of s slices *)
Definition bins (s nb : nat) (l : seq M) : seq M :=
  mkseq (fun b => ordered (take s (drop (b * s) l))) nb.

(** the cyclic order of the path that the Green's function at a slice uses *)
Definition cyclic (s L slice_ix : nat) (l : seq M) : seq M :=
  if slice_ix == L then l else rot (s * (slice_ix %/ s).+1) l.

Definition diagonal (A : M) : Prop := forall i j, i != j -> A i j = 0.

(** the trial propagator and its inverse, and diagonal trials if so flagged *)
Definition good_trial (diag : bool) (BT BTinv : M) : Prop :=
  BT *m BTinv = 1%:M /\ (diag -> diagonal BT).

(** a path: construct, fill with the trial, then update slice by slice *)
Definition run_full (diag : bool) (BT BTinv : M) (s L : nat) (Bs : seq M)
  : res (pstack F n) :=
  rbind (ps_new F n s L) (fun p =>
  rbind (set_all diag BT p) (fun p' =>
  rfold (update_full diag BTinv) p' Bs)).

Definition run_update (diag : bool) (BT : M) (s L : nat) (Bs : seq M)
  : res (pstack F n) :=
  rbind (ps_new F n s L) (fun p =>
  rbind (set_all diag BT p) (fun p' =>
  rfold (@update F n) p' Bs)).

(** the slices that [update] leaves in bin b: a bin that was started holds
    only what was put in it *)
Definition started (s : nat) (BT : M) (Bs : seq M) (b : nat) : seq M :=
  if (b * s < size Bs)%N then take s (drop (b * s) Bs) else nseq s BT.

(** the weight of a path: determinant of one plus the ordered product *)
Definition weight (l : seq M) : F := \det (1%:M + ordered l).

(** a whole run: in each path the stack is reset, filled and updated *)
Definition path (diag : bool) (BT BTinv : M) (p : pstack F n) (Bs : seq M)
  : res (pstack F n) :=
  rbind (set_all diag BT p) (fun p' =>
  rbind (rfold (update_full diag BTinv) p' Bs) (fun p'' =>
  Ok (ps_reset p''))).

(** a walker's run: a path then a reset, returning the product of the overlap
    ratios of every path *)
Definition walker_run (diag : bool) (BT BTinv : M) (w : twalker F n)
    (paths : seq (seq M)) : res (twalker F n * seq F) :=
  rfold (fun wr Bs =>
           rbind (walker_path diag BTinv wr.1 Bs) (fun wr' =>
           rbind (walker_reset diag BT wr'.1) (fun w' =>
           Ok (w', rcons wr.2 wr'.2))))
        (w, [::]) paths.

(** every partial path has a nonzero weight *)
Definition nonzero (L : nat) (BT : M) (Bs : seq M) : Prop :=
  forall k, (k <= size Bs)%N -> weight (slices L BT (take k Bs)) != 0.

(** the overlap ratios of successive paths, relative to the path before *)
Fixpoint relative (prev : F) (paths : seq (seq M)) : seq F :=
  match paths with
  | [::] => [::]
  | Bs :: paths' => weight Bs / prev :: relative (weight Bs) paths'
  end.

End Spec.
