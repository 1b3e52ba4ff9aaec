(** Model of comb population control, pauxy/walkers/handler.py:256-338.
    Floats are exact rationals. Walker payloads (the walker buffers) are an
    abstract type. *)
From Verif Require Import Base.
Open Scope nat_scope.

(** numpy.cumsum, handler.py:275. *)
Fixpoint cumsum_from (acc : Q) (l : list Q) : list Q :=
  match l with
  | [] => []
  | w :: t => (acc + w)%Q :: cumsum_from (acc + w)%Q t
  end.
Definition cumsum (l : list Q) : list Q := cumsum_from 0%Q l.

(** The comb: [(i+r) * (total_weight/target)] for [i] in [range(target)],
    handler.py:277-278. The division is only evaluated when [target > 0]. *)
Definition teeth (r total : Q) (target : nat) : list Q :=
  map (fun i => ((q_of_nat i + r) * (total / q_of_nat target))%Q) (seq 0 target).

(** [parent_ix[iw] += 1], handler.py:283. *)
Definition incr (i : nat) (l : list nat) : list nat :=
  match nth_error l i with Some n => upd i (S n) l | None => l end.

(** The selection loop, handler.py:279-286. [cprobs[iw]] out of range raises
    IndexError. The loop has no static bound in python; fuel exhaustion is an
    error value. *)
Fixpoint comb_loop (fuel : nat) (comb cprobs : list Q) (parent_ix : list nat) (ic iw : nat)
  : res (list nat) :=
  if ic <? length comb then
    match fuel with
    | O => Err OutOfFuel
    | S f =>
        match nth_error comb ic, nth_error cprobs iw with
        | Some t, Some c =>
            if Qltb t c then comb_loop f comb cprobs (incr iw parent_ix) (S ic) iw
            else comb_loop f comb cprobs parent_ix ic (S iw)
        | _, _ => Err IndexError
        end
    end
  else Ok parent_ix.

(** Root-rank part of comb, handler.py:273-287: the copy counts. The fuel is
    shown to be sufficient in the proofs. *)
Definition comb_counts (weights : list Q) (target : nat) (r : Q) : res (list nat) :=
  let total := Qsum weights in
  let cprobs := cumsum weights in
  let comb := teeth r total target in
  comb_loop (length weights + target) comb cprobs (repeat 0 (length weights)) 0 0.

(** [numpy.where(p(parent_ix))[0]]. *)
Definition where_ix (p : nat -> bool) (l : list nat) : list nat :=
  filter (fun i => match nth_error l i with Some n => p n | None => false end)
         (seq 0 (length l)).

(** handler.py:295-296. *)
Definition kill_list (parent_ix : list nat) : list nat := where_ix (fun n => n =? 0) parent_ix.
Definition clone_list (parent_ix : list nat) : list nat := where_ix (fun n => 1 <? n) parent_ix.

(** [zip(clone, kill)], handler.py:301 and 315. *)
Definition transfer_pairs (parent_ix : list nat) : list (nat * nat) :=
  combine (clone_list parent_ix) (kill_list parent_ix).

(** Single-process semantics of the exchange loops, handler.py:301-325: all
    sent buffers are copies taken before any receive, so walker [k] of each pair
    [(c,k)] becomes the old walker [c]. Simplification: one process holding all
    walkers; the multi-process version is [rank_program] below. *)
Definition exchange {A} (ws : list A) (pairs : list (nat * nat)) : list A :=
  fold_left (fun acc ck => match nth_error ws (fst ck) with
                           | Some x => upd (snd ck) x acc
                           | None => acc end) pairs ws.

(** Population after comb, handler.py:295-325 (weights are then all set to 1.0,
    handler.py:337-338). *)
Definition comb_exchange {A} (ws : list A) (parent_ix : list nat) : list A :=
  exchange ws (transfer_pairs parent_ix).

(** ** Multi-process version of the exchange (handler.py:299-330) *)
From Verif Require Import MPI_Model.

Definition enum {A} (l : list A) : list (nat * A) := combine (seq 0 (length l)) l.

(** handler.py:301-313: sends posted by rank [r]. *)
Definition sends_of (nw r : nat) (l : list (nat * (nat * nat))) : list instr :=
  flat_map (fun '(i, (c, k)) => if c / nw =? r then [Isend (k / nw) i (c mod nw)] else []) l.
(** handler.py:315-325: receives of rank [r]. *)
Definition recvs_of (nw r : nat) (l : list (nat * (nat * nat))) : list instr :=
  flat_map (fun '(i, (c, k)) => if k / nw =? r then [Recv (c / nw) i (k mod nw)] else []) l.
(** handler.py:329-330: completion of the posted sends. *)
Definition waits_of (nw r : nat) (l : list (nat * (nat * nat))) : list instr :=
  flat_map (fun '(i, (c, k)) => if c / nw =? r then [Wait (k / nw) i 0] else []) l.

(** Program of rank [r] during the exchange. *)
Definition rank_program (nw r : nat) (pairs : list (nat * nat)) : list instr :=
  sends_of nw r (enum pairs) ++ recvs_of nw r (enum pairs) ++ waits_of nw r (enum pairs).

(** Walkers held by rank [r] when the global list [ws] is laid out contiguously,
    [nw] per rank (walker [x] lives on rank [x // nw] at position [x % nw],
    handler.py:303-321). *)
Definition chunk {A} (nw r : nat) (ws : list A) : list A := firstn nw (skipn (r * nw) ws).
