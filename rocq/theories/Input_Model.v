(** pauxy/utils/io.py get_input_value 304-323, write_input 589-604;
    pauxy/utils/misc.py merge_dicts 182-194, get_from_dict 196-216.
    A python value is a leaf (of any type A, with python's == as a boolean
    relation), None, or a dictionary: a list of keys (numbers stand for the
    strings) and values in insertion order.  In-place update of the first
    argument is modelled by returning its new content; printing is left out. *)
From Verif Require Import Base.
Open Scope nat_scope.

Section Input.
  Variables (A : Type) (eqb : A -> A -> bool).

  Inductive val : Type :=
  | VNone : val
  | Leaf : A -> val
  | Dict : list (nat * val) -> val.

  (** d.get(k, None) *)
  Fixpoint lookup (k : nat) (d : list (nat * val)) : option val :=
    match d with [] => None | (j, v) :: d' => if j =? k then Some v else lookup k d' end.

  Definition dget (d : list (nat * val)) (k : nat) : val :=
    match lookup k d with Some v => v | None => VNone end.

  Definition is_none (v : val) : bool := match v with VNone => true | _ => false end.

  (** the loop over aliases, io.py 312-317 *)
  Fixpoint alias_loop (d : list (nat * val)) (alias : list nat) (v : val) : val :=
    match alias with
    | [] => v
    | a :: alias' => let v' := dget d a in if is_none v' then alias_loop d alias' v' else v'
    end.

  Definition get_input_value (d : list (nat * val)) (key : nat) (default : val) (alias : option (list nat)) : val :=
    let v := dget d key in
    if is_none v then
      let v1 := match alias with Some l => alias_loop d l v | None => v end in
      if is_none v1 then default else v1
    else v.

  (** reduce(dict.get, k, d); a TypeError gives None *)
  Fixpoint reduce_get (v : val) (ks : list nat) : res val :=
    match ks with
    | [] => Ok v
    | k :: ks' =>
        match v with
        | Dict d => reduce_get (dget d k) ks'
        | _ => Err TypeError
        end
    end.

  Definition get_from_dict (v : val) (ks : list nat) : val :=
    match reduce_get v ks with Ok r => r | Err _ => VNone end.

  (** a[key] = v for a key that exists / at the end *)
  Fixpoint setk (k : nat) (v : val) (d : list (nat * val)) : list (nat * val) :=
    match d with
    | [] => [(k, v)]
    | (j, w) :: d' => if j =? k then (j, v) :: d' else (j, w) :: setk k v d'
    end.

  (** python ==, for two values that are not both dictionaries *)
  Definition val_eq (a b : val) : bool :=
    match a, b with
    | VNone, VNone => true
    | Leaf x, Leaf y => eqb x y
    | _, _ => false
    end.

  (** merge_dicts(a, b, path): inl is the exception with the path in its message *)
  Fixpoint merge (b : val) (a : list (nat * val)) (path : list nat) {struct b}
    : list nat + list (nat * val) :=
    match b with
    | Dict ib =>
        (fix go (ib : list (nat * val)) (a : list (nat * val)) : list nat + list (nat * val) :=
           match ib with
           | [] => inr a
           | (k, vb) :: ib' =>
               match lookup k a with
               | Some va =>
                   match va, vb with
                   | Dict ia, Dict _ =>
                       match merge vb ia (path ++ [k]) with
                       | inr ia' => go ib' (setk k (Dict ia') a)
                       | inl e => inl e
                       end
                   | _, _ => if val_eq va vb then go ib' a else inl (path ++ [k])
                   end
               | None => go ib' (a ++ [(k, vb)])
               end
           end) ib a
    | _ => inr a
    end.

  Definition merge_dicts (a b : list (nat * val)) : list nat + list (nat * val) := merge (Dict b) a [].
End Input.
Arguments VNone {A}. Arguments Leaf {A}. Arguments Dict {A}.
Arguments lookup {A}. Arguments dget {A}. Arguments get_input_value {A}. Arguments get_from_dict {A}.
Arguments alias_loop {A}. Arguments reduce_get {A}. Arguments setk {A}. Arguments val_eq {A}.
Arguments merge {A}. Arguments merge_dicts {A}. Arguments is_none {A}.

(** write_input 575-604: keys system 0, name 1, nup 2, ndown 3, integrals 4, qmc 5, dt 6,
    nwalkers 7, blocks 8, trial 9, filename 10, estimators 11, back_propagated 12, tau_bp 13,
    nsplit 14; leaves are numbers or names *)
Inductive leaf := LQ (q : Q) | LS (s : nat).
Definition leaf_eqb (a b : leaf) : bool :=
  match a, b with LQ x, LQ y => Qeq_bool x y | LS s, LS t => s =? t | _, _ => false end.

Definition basic (na nb : Q) (hamil wfn : nat) (bp : bool) : list (nat * val leaf) :=
  [ (0, Dict [(1, Leaf (LS 100)); (2, Leaf (LQ na)); (3, Leaf (LQ nb)); (4, Leaf (LS hamil))]);
    (5, Dict [(6, Leaf (LQ (1 # 200))); (7, Leaf (LQ 100)); (8, Leaf (LQ 1000))]);
    (9, Dict [(10, Leaf (LS wfn))]);
    (11, Dict (if bp then [(12, Dict [(13, Leaf (LQ 2)); (14, Leaf (LQ 4))])] else [])) ].

Definition write_input (na nb : Q) (hamil wfn : nat) (bp : bool) (options : list (nat * val leaf)) :=
  merge_dicts leaf_eqb (basic na nb hamil wfn bp) options.
