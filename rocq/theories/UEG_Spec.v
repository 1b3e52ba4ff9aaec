(** Plane waves inside a sphere (C33, C34). *)
From Verif Require Import Base UEG_Model.
Open Scope Z_scope.

(** kinetic energy within the cutoff *)
Definition within (ecut : Q) (v : vec) : Prop := (inject_Z (dot v v) <= 2 * ecut)%Q.

Definition origin : vec := (0, 0, 0).

(** the last plane wave has the largest norm *)
Definition last_is_largest (l : list vec) : Prop :=
  forall v, In v l -> dot v v <= dot (List.last l origin) (List.last l origin).

(** plane wave j is plane wave i moved by q *)
Definition connected (u : ueg) (q : vec) (i j : nat) : Prop :=
  exists k, nth_error (basis u) i = Some k /\ nth_error (basis u) j = Some (vadd k q).

(** the values a list of triples stores at a position *)
Definition at_pos {K} (row col : nat) (l : list (nat * nat * K)) : list K :=
  map snd (filter (fun e => (fst (fst e) =? row)%nat && (snd (fst e) =? col)%nat) l).
