(** Walker communication buffers: pauxy/walkers/walker.py:63-131 (Walker.get_buffer,
    set_buffer), pauxy/walkers/stack.py:88-116 and 197-225 (FieldConfig and
    PropagatorStack, same code without the list branch) and
    pauxy/utils/misc.py:218-235 (get_numeric_names).
    An object's __dict__ is an association list. Numbers are exact. A numpy array is its
    shape, whether its dtype is complex, and its entries in C order (what ravel gives). *)
From Coq Require Import String.
From Verif Require Import Base Cplx.
Open Scope nat_scope.

Inductive pval :=
| PBool (b : bool)              (* a bool is an int for isinstance *)
| PInt (z : Z)
| PFloat (q : Q)
| PComplex (c : C)
| PArr (cdtype : bool) (shape : list nat) (data : list C)
| PList (l : list pval)
| POther.                       (* anything else: None, strings, functions, objects *)

Definition pdict := list (string * pval).

Fixpoint lookup (d : pdict) (k : string) : option pval :=
  match d with
  | [] => None
  | (k', v) :: d' => if String.eqb k' k then Some v else lookup d' k
  end.

Fixpoint setkey (d : pdict) (k : string) (v : pval) : pdict :=
  match d with
  | [] => [(k, v)]
  | (k', v') :: d' => if String.eqb k' k then (k', v) :: d' else (k', v') :: setkey d' k v
  end.

(** isinstance(v, (int, float, complex)) *)
Definition is_number (v : pval) : bool :=
  match v with PBool _ | PInt _ | PFloat _ | PComplex _ => true | _ => false end.

(** The complex number stored in the buffer for a scalar. *)
Definition scalar_of (v : pval) : res C :=
  match v with
  | PBool b => Ok (Cof (if b then 1 else 0)%Q)
  | PInt z => Ok (Cof (inject_Z z))
  | PFloat q => Ok (Cof q)
  | PComplex c => Ok c
  | _ => Err TypeError
  end.

(** misc.py:228-234: the part of the size due to the elements of a list. *)
Definition elem_size (v : pval) : nat :=
  match v with
  | PArr _ _ data => List.length data
  | _ => if is_number v then 1 else 0
  end.

(** misc.py:218-235, get_numeric_names. *)
Fixpoint numeric_names (d : pdict) : list string * nat :=
  match d with
  | [] => ([], 0)
  | (k, v) :: d' =>
      let '(names, size) := numeric_names d' in
      match v with
      | PArr _ _ data => (k :: names, List.length data + size)
      | PBool _ | PInt _ | PFloat _ | PComplex _ => (k :: names, 1 + size)
      | PList l => (k :: names, nsum (map elem_size l) + size)
      | POther => (names, size)
      end
  end.

(** buff[s:s+n] = data for an array data of n entries. The slice is clipped to the buffer;
    numpy broadcasts an array of one entry and refuses any other size mismatch. *)
Definition write_slice (buf : list C) (s : nat) (data : list C) : res (list C) :=
  if s + List.length data <=? List.length buf then Ok (firstn s buf ++ data ++ skipn (s + List.length data) buf)
  else if List.length data =? 1 then Ok buf
  else if List.length data =? List.length buf - s then Ok (firstn s buf ++ data)
  else Err ValueError.

(** One list element, walker.py:79-85. *)
Definition pack_elem (st : list C * nat) (v : pval) : res (list C * nat) :=
  let '(buf, s) := st in
  match v with
  | PArr _ _ data => rbind (write_slice buf s data) (fun b => Ok (b, s + List.length data))
  | _ => if is_number v
         then rbind (scalar_of v) (fun c => rbind (write_slice buf s [c]) (fun b => Ok (b, s + 1)))
         else Ok (buf, s)
  end.

Fixpoint pack_elems (st : list C * nat) (l : list pval) : res (list C * nat) :=
  match l with
  | [] => Ok st
  | v :: l' => rbind (pack_elem st v) (fun st' => pack_elems st' l')
  end.

(** One attribute, walker.py:74-88. *)
Definition pack_attr (st : list C * nat) (v : pval) : res (list C * nat) :=
  let '(buf, s) := st in
  match v with
  | PArr _ _ data => rbind (write_slice buf s data) (fun b => Ok (b, s + List.length data))
  | PList l => pack_elems st l
  | _ => rbind (scalar_of v) (fun c => rbind (write_slice buf s [c]) (fun b => Ok (b, s + 1)))
  end.

Fixpoint pack_names (d : pdict) (names : list string) (st : list C * nat) : res (list C * nat) :=
  match names with
  | [] => Ok st
  | k :: names' =>
      match lookup d k with
      | None => Err KeyError
      | Some v => rbind (pack_attr st v) (fun st' => pack_names d names' st')
      end
  end.

(** An object with its attribute list fixed at construction. *)
Record obj := mkObj { attrs : pdict; names : list string; size : nat }.

(** A freshly constructed object: names and size from its attributes. *)
Definition new_obj (d : pdict) : obj :=
  let '(ns, sz) := numeric_names d in mkObj d ns sz.

Definition obj_get (o : obj) : res (list C) :=
  rbind (pack_names (attrs o) (names o) (repeat C0 (size o), 0)) (fun st => Ok (fst st)).

(** buff[s:s+n].reshape(shape): the slice is clipped, reshape needs exactly the right size. *)
Definition read_slice (buf : list C) (s n : nat) : res (list C) :=
  let sl := firstn n (skipn s buf) in
  if List.length sl =? n then Ok sl else Err ValueError.

Definition read_one (buf : list C) (s : nat) : res C :=
  match nth_error buf s with Some c => Ok c | None => Err IndexError end.

(** int(x) for a float: truncation towards zero. *)
Definition qtrunc (q : Q) : Z := Z.quot (Qnum q) (Zpos (Qden q)).

Definition unpack_elem (buf : list C) (s : nat) (v : pval) : res (pval * nat) :=
  match v with
  | PArr _ shape data => rbind (read_slice buf s (List.length data)) (fun sl => Ok (PArr true shape sl, s + List.length data))
  | _ => if is_number v then rbind (read_one buf s) (fun c => Ok (PComplex c, s + 1)) else Ok (v, s)
  end.

Fixpoint unpack_elems (buf : list C) (s : nat) (l : list pval) : res (list pval * nat) :=
  match l with
  | [] => Ok ([], s)
  | v :: l' =>
      rbind (unpack_elem buf s v) (fun '(v', s') =>
      rbind (unpack_elems buf s' l') (fun '(r, s'') => Ok (v' :: r, s'')))
  end.

(** walker.py:108-127. The type of the receiver's current value decides. *)
Definition unpack_attr (buf : list C) (s : nat) (v : pval) : res (pval * nat) :=
  match v with
  | PArr _ shape data => rbind (read_slice buf s (List.length data)) (fun sl => Ok (PArr true shape sl, s + List.length data))
  | PList l => rbind (unpack_elems buf s l) (fun '(l', s') => Ok (PList l', s'))
  | PBool _ | PInt _ => rbind (read_one buf s) (fun c => Ok (PInt (qtrunc (re c)), s + 1))
  | PFloat _ => rbind (read_one buf s) (fun c => Ok (PFloat (re c), s + 1))
  | _ => rbind (read_one buf s) (fun c => Ok (PComplex c, s + 1))
  end.

Fixpoint unpack_names (buf : list C) (d : pdict) (ns : list string) (s : nat) : res (pdict * nat) :=
  match ns with
  | [] => Ok (d, s)
  | k :: ns' =>
      match lookup d k with
      | None => Err KeyError
      | Some v => rbind (unpack_attr buf s v) (fun '(v', s') => unpack_names buf (setkey d k v') ns' s')
      end
  end.

Definition obj_set (o : obj) (buf : list C) : res obj :=
  rbind (unpack_names buf (attrs o) (names o) 0) (fun st => Ok (mkObj (fst st) (names o) (size o))).

(** A walker: its own attributes and at most the two nested objects. *)
Record walker := mkWalker { own : obj; field_configs : option obj; stack : option obj }.

(** walker.py:63-96: only one nested object is packed. *)
Definition get_buffer (w : walker) : res (list C) :=
  rbind (obj_get (own w)) (fun b =>
  match field_configs w, stack w with
  | Some f, _ => rbind (obj_get f) (fun b' => Ok (b ++ b'))
  | None, Some t => rbind (obj_get t) (fun b' => Ok (b ++ b'))
  | None, None => Ok b
  end).

Definition opt_set (o : option obj) (buf : list C) : res (option obj) :=
  match o with None => Ok None | Some f => rbind (obj_set f buf) (fun f' => Ok (Some f')) end.

(** walker.py:98-131: both nested objects read from the same place. *)
Definition set_buffer (w : walker) (buf : list C) : res walker :=
  rbind (obj_set (own w) buf) (fun o =>
  rbind (opt_set (field_configs w) (skipn (size (own w)) buf)) (fun f =>
  rbind (opt_set (stack w) (skipn (size (own w)) buf)) (fun t =>
  Ok (mkWalker o f t)))).

(** pauxy/walkers/handler.py:72-75, 83-84: size of the receive buffer. *)
Definition osize (o : option obj) : nat := match o with Some f => size f | None => 0 end.
Definition handler_size (w : walker) : nat := size (own w) + (osize (field_configs w) + osize (stack w)).
