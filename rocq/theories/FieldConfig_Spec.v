(** The history kept by a field configuration, as plain lists. *)
From Verif Require Import Base Cplx Buffer_Model FieldConfig_Model.
Open Scope nat_scope.

(** Entries stored since the window was last emptied; a reset empties only a full window. *)
Fixpoint hist (nprop : nat) (h : list entry) (ops : list op) : list entry :=
  match ops with
  | [] => h
  | Update c w :: ops' => hist nprop (h ++ [(c, w)]) ops'
  | Reset :: ops' => hist nprop (if length h mod nprop =? 0 then [] else h) ops'
  end.

(** Factors since the last reset of any kind. *)
Fixpoint since_reset (h : list (C * C)) (ops : list op) : list (C * C) :=
  match ops with
  | [] => h
  | Update _ w :: ops' => since_reset (h ++ [w]) ops'
  | Reset :: ops' => since_reset [] ops'
  end.

(** No step is stored in a full window. *)
Fixpoint room (nprop n : nat) (ops : list op) : Prop :=
  match ops with
  | [] => True
  | Update _ _ :: ops' => n < nprop /\ room nprop (S n) ops'
  | Reset :: ops' => room nprop (if n mod nprop =? 0 then 0 else n) ops'
  end.

(** The fields have the declared number of components. *)
Definition well_formed (nfields : nat) (ops : list op) : Prop :=
  Forall (fun o => match o with Update c _ => length c = nfields | Reset => True end) ops.

Definition blocks_of (h : list entry) : list (list C) * list C * list C :=
  (map fst h, map (fun e => Cof (re (snd (snd e)))) h, map (fun e => fst (snd e)) h).

(** The product of phase over cosine factors, zero once a cosine factor vanished. *)
Fixpoint tot_of (h : list (C * C)) (acc : C) : C :=
  match h with
  | [] => acc
  | (w0, w1) :: h' => tot_of h' (if big w1 then acc * (w0 / w1) else C0)%C
  end.

Definition ratio (w : C * C) : C := (fst w / snd w)%C.

(** Histories of all walkers of a process: extended by each step, copied by population
    control, emptied after the last split. *)
Definition hstep (nmax : nat) (sig : list entry) (src : list nat) (hs : list (list entry)) : list (list entry) :=
  let hs := map (fun '(h, e) => h ++ [e]) (combine hs sig) in
  map (fun i => nth i hs []) src.

(** Position in the current window after step t. *)
Definition pos (nmax t : nat) : nat := S ((t - 1) mod nmax).

Fixpoint hrun (nmax : nat) (sp : list nat) (sig : nat -> list entry) (src : nat -> list nat) (t n : nat)
    (hs : list (list entry)) : list (nat * list (list (list C) * list C * list C)) :=
  match n with
  | O => []
  | S n' =>
      let hs := hstep nmax (sig t) (src t) hs in
      let out := if existsb (Nat.eqb (pos nmax t)) sp then [(t, map blocks_of hs)] else [] in
      out ++ hrun nmax sp sig src (S t) n' (if pos nmax t =? nmax then map (fun _ => []) hs else hs)
  end.

(** Every walker of the process draws a field of the right length; population control takes
    copies of walkers of the process. *)
Definition valid_step (nf nw : nat) (sig : list entry) (src : list nat) : Prop :=
  length sig = nw /\ Forall (fun e => length (fst e) = nf) sig /\ length src = nw /\ Forall (fun i => i < nw) src.
