(** What a transferred attribute should be, independently of the packing order. *)
From Coq Require Import String.
From Verif Require Import Base Cplx Buffer_Model.
Open Scope nat_scope.

(** The value of a number, whatever the python type that holds it. *)
Definition num (v : pval) : option C :=
  match v with
  | PBool b => Some (Cof (if b then 1 else 0)%Q)
  | PInt z => Some (Cof (inject_Z z))
  | PFloat q => Some (Cof q)
  | PComplex c => Some c
  | _ => None
  end.

(** Equal numbers, or arrays of the same shape with the same entries. Things that are
    neither are not transferred. *)
Inductive same1 : pval -> pval -> Prop :=
| same_num : forall v w c c', num v = Some c -> num w = Some c' -> c =c= c' -> same1 v w
| same_arr : forall d d' sh data, same1 (PArr d sh data) (PArr d' sh data).

Definition transferable (v : pval) : bool :=
  match v with PArr _ _ _ => true | _ => is_number v end.

Inductive same : pval -> pval -> Prop :=
| same_one : forall v w, same1 v w -> same v w
| same_list : forall l l',
    Forall2 (fun v w => if transferable v then same1 v w else transferable w = false) l l' ->
    same (PList l) (PList l').

(** The receiver has a slot of the same form: scalar for scalar, array of the same shape
    for array, list of such for list. *)
Inductive slot1 : pval -> pval -> Prop :=
| slot_num : forall v w, is_number v = true -> is_number w = true -> slot1 v w
| slot_arr : forall d d' sh data data', List.length data = List.length data' -> slot1 (PArr d sh data) (PArr d' sh data').

Inductive slot : pval -> pval -> Prop :=
| slot_one : forall v w, slot1 v w -> slot v w
| slot_list : forall l l',
    Forall2 (fun v w => if transferable v then slot1 v w else transferable w = false) l l' ->
    slot (PList l) (PList l').

(** The type of the value the receiver holds before the transfer is wide enough: a
    receiver holding an int gets an integer, one holding a float gets a real number. *)
Definition wide (v w : pval) : Prop :=
  match num v, w with
  | Some c, PBool _ | Some c, PInt _ => exists z, c =c= Cof (inject_Z z)
  | Some c, PFloat _ => im c == 0
  | _, _ => True
  end.

Definition named (P : pval -> pval -> Prop) (ns : list string) (d d' : pdict) : Prop :=
  forall k, In k ns -> exists v v', lookup d k = Some v /\ lookup d' k = Some v' /\ P v v'.

(** Number of buffer entries an attribute occupies. *)
Definition attr_size (v : pval) : nat :=
  match v with
  | PArr _ _ data => List.length data
  | PList l => nsum (map elem_size l)
  | _ => 1
  end.

Definition size_named (d : pdict) (ns : list string) : nat :=
  nsum (map (fun k => match lookup d k with Some v => attr_size v | None => 0 end) ns).

(** An object in the middle of a run: the listed attributes still occupy the size recorded
    at construction and are still numbers, arrays or lists. *)
Definition sized (o : obj) : Prop :=
  NoDup (names o) /\ size_named (attrs o) (names o) = size o /\
  forall k, In k (names o) -> exists v, lookup (attrs o) k = Some v /\ v <> POther.

(** Sender and receiver of the same kind. *)
Definition compatible (s r : obj) : Prop :=
  sized s /\ names s = names r /\ size s = size r /\ named slot (names s) (attrs s) (attrs r).

Definition opt_rel (P : obj -> obj -> Prop) (a b : option obj) : Prop :=
  match a, b with Some x, Some y => P x y | None, None => True | _, _ => False end.

Definition one_nested (w : walker) : Prop := field_configs w = None \/ stack w = None.

Definition w_rel (P : obj -> obj -> Prop) (a b : walker) : Prop :=
  P (own a) (own b) /\ opt_rel P (field_configs a) (field_configs b) /\ opt_rel P (stack a) (stack b).

(** After the transfer: every listed attribute agrees with the sender's; names and sizes are
    kept and unlisted attributes of the receiver are untouched. *)
Definition transferred (s r r' : obj) : Prop :=
  named same (names s) (attrs s) (attrs r') /\ names r' = names r /\ size r' = size r /\
  forall k, ~ In k (names r) -> lookup (attrs r') k = lookup (attrs r) k.

(** The same relations for a walker and its nested object. *)
Definition w_named (P : pval -> pval -> Prop) (a b : walker) : Prop :=
  named P (names (own a)) (attrs (own a)) (attrs (own b)) /\
  opt_rel (fun x y => named P (names x) (attrs x) (attrs y)) (field_configs a) (field_configs b) /\
  opt_rel (fun x y => named P (names x) (attrs x) (attrs y)) (stack a) (stack b).

Definition w_transferred (a b b' : walker) : Prop :=
  transferred (own a) (own b) (own b') /\
  match field_configs a, field_configs b, field_configs b' with
  | Some x, Some y, Some y' => transferred x y y' | None, None, None => True | _, _, _ => False end /\
  match stack a, stack b, stack b' with
  | Some x, Some y, Some y' => transferred x y y' | None, None, None => True | _, _, _ => False end.
