(** pauxy/walkers/stack.py, class PropagatorStack (129-324), and the products
    built from it in pauxy/walkers/thermal.py (97-155, 472-510).

    Simplifications: numpy matrices are mathcomp matrices over an arbitrary
    field (no rounding); the spin axis is dropped, because every statement of
    the code is written once per spin and the two spins never mix; the arrays
    used only by update_low_rank are not part of the record. *)
Set Warnings "-notation-overridden,-ambiguous-paths".
From Verif Require Import Base.
From mathcomp Require Import all_ssreflect all_algebra.

Set Implicit Arguments.
Unset Strict Implicit.
Unset Printing Implicit Defensive.
Import GRing.Theory.
Local Open Scope ring_scope.

Section Stack.
Variables (F : fieldType) (n : nat).
Notation M := 'M[F]_n.

Record pstack := PStack {
  time_slice : nat;
  stack_size : nat;
  ntime_slices : nat;
  nbins : nat;
  counter : nat;
  block : nat;
  stk : seq M;
  lft : seq M;
  rgt : seq M }.

(** numpy.diag(A.diagonal()) on the entries used by the code *)
Definition diag_of (A : M) : 'rV[F]_n := \row_i A i i.

(** numpy.diag(numpy.multiply(A.diagonal(), B.diagonal())) *)
Definition diag_mul (A B : M) : M := diag_mx (\row_i (A i i * B i i)).

(** numpy.einsum('ii,ij->ij', A, B) *)
Definition einsum_ii_ij (A B : M) : M := \matrix_(i, j) (A i i * B i j).

(** array item assignment: IndexError out of range *)
Definition put (l : seq M) (i : nat) (x : M) : res (seq M) :=
  if (i < size l)%N then Ok (set_nth 0 l i x) else Err IndexError.

Definition item (l : seq M) (i : nat) : res M :=
  if (i < size l)%N then Ok (nth 0 l i) else Err IndexError.

(** stack.py 252-261: counter is not touched *)
Definition ps_reset (p : pstack) : pstack :=
  PStack 0 (stack_size p) (ntime_slices p) (nbins p) (counter p) 0
         (nseq (nbins p) 1%:M) (nseq (nbins p) 1%:M) (nseq (nbins p) 1%:M).

(** stack.py 131-195 *)
Definition ps_new (ss nts : nat) : res pstack :=
  if ss == 0%N then Err ZeroDivisionError else
  let nb := (nts %/ ss)%N in
  if (nb * ss < nts)%N then Err AssertionError else
  Ok (ps_reset (PStack 0 ss nts nb 0 0 (nseq nb 0) (nseq nb 0) (nseq nb 0))).

(** stack.py 227-244; diag = self.diagonal_trial *)
Definition set_one (diag : bool) (BT : M) (p : pstack) (i : nat) : res pstack :=
  let ix := (i %/ stack_size p)%N in
  rbind (item (lft p) ix) (fun l =>
  let l' := if diag then diag_mul BT l else BT *m l in
  rbind (put (lft p) ix l') (fun lft' =>
  rbind (put (stk p) ix l') (fun stk' =>
  Ok (PStack (time_slice p) (stack_size p) (ntime_slices p) (nbins p)
             (counter p) (block p) stk' lft' (rgt p))))).

Fixpoint rfold (A B : Type) (f : B -> A -> res B) (b : B) (l : seq A) : res B :=
  match l with
  | [::] => Ok b
  | a :: l' => rbind (f b a) (fun b' => rfold f b' l')
  end.

Definition set_all (diag : bool) (BT : M) (p : pstack) : res pstack :=
  rfold (set_one diag BT) p (iota 0 (ntime_slices p)).

(** the counting at the end of every update: stack.py 295-297 and 322-324 *)
Definition advance (p : pstack) (stk' lft' rgt' : seq M) : pstack :=
  let t := (time_slice p).+1 in
  PStack t (stack_size p) (ntime_slices p) (nbins p)
         ((counter p).+1 %% stack_size p)%N (t %/ stack_size p)%N
         stk' lft' rgt'.

(** stack.py 287-297 *)
Definition update (p : pstack) (B : M) : res pstack :=
  rbind (if counter p == 0%N then put (stk p) (block p) 1%:M else Ok (stk p))
        (fun s0 =>
  rbind (item s0 (block p)) (fun c =>
  rbind (put s0 (block p) (B *m c)) (fun s1 =>
  Ok (advance p s1 (lft p) (rgt p))))).

(** stack.py 299-324 *)
Definition update_full (diag : bool) (BTinv : M) (p : pstack) (B : M)
  : res pstack :=
  rbind (if counter p == 0%N then put (rgt p) (block p) 1%:M else Ok (rgt p))
        (fun r0 =>
  rbind (item (lft p) (block p)) (fun l =>
  let l' := if diag then diag_mul l BTinv else l *m BTinv in
  rbind (put (lft p) (block p) l') (fun lft' =>
  rbind (item r0 (block p)) (fun r =>
  let r' := B *m r in
  rbind (put r0 (block p) r') (fun rgt' =>
  rbind (put (stk p) (block p)
             (if diag then einsum_ii_ij l' r' else l' *m r')) (fun stk' =>
  Ok (advance p stk' lft' rgt'))))))).

(** thermal.py 99-104 and 114-123 (and 143-150, 160-165; 474-481, 492-506):
    bin_ix is set to -1 when it equals nbins, so the first bin taken is
    (bin_ix+1) % nbins; the later bins multiply from the left.  The
    factorisations used to form the product stably are not part of this
    model: with exact factorisations they multiply back to the same matrix. *)
Definition first_bin (p : pstack) (slice_ix : nat) : nat :=
  let bin_ix := (slice_ix %/ stack_size p)%N in
  if bin_ix == nbins p then 0%N else bin_ix.+1.

Definition path_product (p : pstack) (slice_ix : nat) : res M :=
  if stack_size p == 0%N then Err ZeroDivisionError else
  if nbins p == 0%N then Err ZeroDivisionError else
  let f := first_bin p slice_ix in
  rbind (item (stk p) (f %% nbins p)%N) (fun A0 =>
  rfold (fun A i => rbind (item (stk p) ((f + i) %% nbins p)%N)
                          (fun B => Ok (B *m A)))
        A0 (iota 1 (nbins p).-1)).

(** ** The walker's determinants between slices and paths.
    thermal.py 59-64 (constructor), continuous.py 224-253 and
    planewave.py 481-513 (one phaseless step), handler.py 424-430 (reset).
    M0 is det G, and G is the inverse of 1 + A. *)
Record twalker := TWalker { tstack : pstack; M0 : F }.

Definition detG (p : pstack) (slice_ix : nat) : res F :=
  rbind (path_product p slice_ix) (fun A => Ok ((\det (1%:M + A))^-1)).

(** greens_function is called without slice_ix, so with time_slice *)
Definition walker_new (diag : bool) (BT : M) (ss nts : nat) : res twalker :=
  rbind (ps_new ss nts) (fun p =>
  rbind (set_all diag BT p) (fun p' =>
  rbind (detG p' (time_slice p')) (fun d => Ok (TWalker p' d)))).

(** one step returns the overlap ratio oratio = M0 / Mnew *)
Definition walker_step (diag : bool) (BTinv : M) (w : twalker) (B : M)
  : res (twalker * F) :=
  rbind (update_full diag BTinv (tstack w) B) (fun p =>
  rbind (detG p (ntime_slices p)) (fun mnew =>
  if mnew == 0 then Err ZeroDivisionError else
  Ok (TWalker p mnew, M0 w / mnew))).

Definition walker_reset (diag : bool) (BT : M) (w : twalker) : res twalker :=
  rbind (set_all diag BT (ps_reset (tstack w))) (fun p =>
  Ok (TWalker p (M0 w))).

(** the product of the overlap ratios along a path *)
Definition walker_path (diag : bool) (BTinv : M) (w : twalker) (Bs : seq M)
  : res (twalker * F) :=
  rfold (fun wr B => rbind (walker_step diag BTinv wr.1 B)
                           (fun wr' => Ok (wr'.1, wr.2 * wr'.2)))
        (w, 1) Bs.

End Stack.
