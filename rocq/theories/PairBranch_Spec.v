(** Specification vocabulary for pair branching. *)
From Verif Require Import Base PairBranch_Model.
From Coq Require Import Qabs Permutation.
Open Scope nat_scope.

Definition absw (weights : list Q) (i : nat) : Q := Qabs (nth i weights 0%Q).

(** Walker [x] is doubled, walker [y] killed; each knows the rank of the other. *)
Definition clone_kill (nw : nat) (weights : list Q) (table : list row) (x y : nat) : Prop :=
  exists rx ry, nth_error table x = Some rx /\ nth_error table y = Some ry /\
    (r_w rx == (1 # 2) * (absw weights x + absw weights y))%Q /\
    r_m rx = 2 /\ r_own rx = x / nw /\ r_oth rx = y / nw /\
    r_m ry = 0 /\ r_own ry = y / nw /\ r_oth ry = x / nw.

(** Outcome of pair branching stated on the weights: [sigma] lists the walkers by
    increasing |weight|; the first [K] and the last [K] of them are paired from the
    outside inwards; one of each pair is doubled and carries half the weight of the pair,
    the other is killed; the rest keep multiplicity one and their weight. *)
Record pb_outcome (nw : nat) (weights : list Q) (table : list row) (sigma : list nat) (K : nat) : Prop := {
  po_len : length table = length weights;
  po_perm : Permutation sigma (seq 0 (length weights));
  po_sorted : forall i j, i <= j -> j < length weights ->
     (absw weights (nth i sigma 0%nat) <= absw weights (nth j sigma 0%nat))%Q;
  po_K : 2 * K <= length weights;
  po_pair : forall i, i < K ->
     let s := nth i sigma 0 in let e := nth (length weights - 1 - i) sigma 0 in
     clone_kill nw weights table s e \/ clone_kill nw weights table e s;
  po_rest : forall i, K <= i -> i < length weights - K -> let x := nth i sigma 0 in
     nth_error table x = Some (Row (absw weights x) 1 (x / nw) (x / nw))
}.

(** Weight carried by a walker state after branching: multiplicity times weight. *)
Definition carried (r : row) : Q := (q_of_nat (r_m r) * r_w r)%Q.

(** Mean over a uniform u in [0,1) of "a if u < t else b". *)
Definition mean_threshold (t a b : Q) : Q := (t * a + (1 - t) * b)%Q.

(** Sum of |weight| over a population. *)
Definition total_abs {X} (l : list (Q * X)) : Q := Qsum (map (fun w => Qabs (fst w)) l).

(** Slots of the old population that were killed, and what they hold in [final]. *)
Definition killed_slots {X} (table : list row) (final : list (Q * X)) : list (Q * X) :=
  map snd (filter (fun rw => r_m (fst rw) =? 0) (combine table final)).
(** The doubled walkers (with their new weight) of the population [ws]. *)
Definition doubled_walkers {X} (table : list row) (ws : list (Q * X)) : list (Q * X) :=
  map snd (filter (fun rw => 1 <? r_m (fst rw)) (combine table ws)).
