(** Model of pair-branch population control, pauxy/walkers/handler.py:340-412.
    Floats are exact rationals; the walker state besides its weight is an abstract
    type [X]. *)
From Verif Require Import Base Sort_Model MPI_Model Comb_Model.
From Coq Require Import Qabs.
Open Scope nat_scope.

(** A row of walker_info, handler.py:341: [|weight|, multiplicity, own rank, other rank].
    Simplification: the last three columns are naturals (python stores them as floats
    and rounds them back, lines 400 and 407). *)
Record row := Row { r_w : Q; r_m : nat; r_own : nat; r_oth : nat }.

(** Body of the loop, handler.py:358-382: [rs] and [re] are the rows at [s] and [e].
    [0/0] is nan in numpy and [r < nan] is False, so a pair of weight zero takes the
    else branch. *)
Definition branch_pair (draw : Q) (rs re : row) : row * row :=
  let wab := (r_w rs + r_w re)%Q in
  if (if Qeq_bool wab 0 then false else Qltb draw (r_w re / wab))
  then (Row 0 0 (r_own rs) (r_own re), Row ((1 # 2) * wab) 2 (r_own re) (r_own rs))
  else (Row ((1 # 2) * wab) 2 (r_own rs) (r_own re), Row 0 0 (r_own re) (r_own rs)).

(** The while loop, handler.py:355-386. [draws k] is the k-th random number. Weights are
    at least [min_weight] / at most [max_weight] exactly when the break is taken. *)
Fixpoint pb_loop (fuel : nat) (min_weight max_weight : Q) (draws : nat -> Q) (k : nat)
    (rows : list row) (s e : nat) : res (list row) :=
  if s <? e then
    match fuel with
    | O => Err OutOfFuel
    | S f =>
        match nth_error rows s, nth_error rows e with
        | Some a, Some b =>
            if Qltb (r_w a) min_weight || Qltb max_weight (r_w b) then
              pb_loop f min_weight max_weight draws (S k)
                (upd e (snd (branch_pair (draws k) a b)) (upd s (fst (branch_pair (draws k) a b)) rows))
                (S s) (e - 1)
            else Ok rows
        | _, _ => Err IndexError
        end
    end
  else Ok rows.

Definition row0 := Row 0 1 0 0.

(** handler.py:341-345: gathered rows, [nw] walkers per rank. *)
Definition init_rows (nw : nat) (weights : list Q) : list row :=
  map (fun '(i, w) => Row (Qabs w) 1 (i / nw) (i / nw)) (combine (seq 0 (length weights)) weights).

(** handler.py:347-350: the sorting permutation. *)
Definition pb_sort (rows : list row) : list nat := argsort Qle_bool (map r_w rows).

(** Root-rank part, handler.py:343-388: sort, loop, un-sort. *)
Definition pb_table (min_weight max_weight : Q) (draws : nat -> Q) (nw : nat) (weights : list Q)
  : res (list row) :=
  let rows := init_rows nw weights in
  let sort := pb_sort rows in
  let isort := argsort Nat.leb sort in
  rbind (pb_loop (length rows) min_weight max_weight draws 0 (take row0 rows sort) 0 (length rows - 1))
        (fun out => Ok (take row0 out isort)).

(** handler.py:396-403: a doubled walker gets its new weight before it is packed;
    other walkers keep theirs. Simplification: all weights are set before the first
    send (they are set one by one between the sends of the same rank, each before its own
    walker is packed). *)
Definition set_weight {X} (rw : row * (Q * X)) : Q * X :=
  let '(r, (w, x)) := rw in if 1 <? r_m r then (r_w r, x) else (w, x).
Definition reweighted {X} (table : list row) (ws : list (Q * X)) : list (Q * X) :=
  map set_weight (combine table ws).

(** handler.py:396-403. *)
Definition pb_dests (data : list row) : list (nat * nat) :=
  flat_map (fun '(i, r) => if 1 <? r_m r then [(i, r_oth r)] else []) (enum data).
Definition pb_sends (nw rank : nat) (data : list row) : list instr :=
  map (fun '(i, d) => Isend d (rank * nw + d) i) (pb_dests data).
(** handler.py:404-410. *)
Definition pb_recvs (nw rank : nat) (data : list row) : list instr :=
  flat_map (fun '(i, r) => if r_m r =? 0 then [Recv (r_oth r) (r_oth r * nw + rank) i] else []) (enum data).
(** handler.py:411-412: the j-th request is the message after those sent earlier to the
    same rank (they share the tag). *)
Definition pb_waits (nw rank : nat) (data : list row) : list instr :=
  let ds := map snd (pb_dests data) in
  map (fun '(j, d) => Wait d (rank * nw + d) (count_occ Nat.eq_dec (firstn j ds) d)) (enum ds).

(** Program of one rank; [chunk nw rank table] is what comm.scatter delivers
    (handler.py:388 and 392). *)
Definition pb_program (nw rank : nat) (table : list row) : list instr :=
  let data := chunk nw rank table in
  pb_sends nw rank data ++ pb_recvs nw rank data ++ pb_waits nw rank data.
