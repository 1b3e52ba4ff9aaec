(** Paths in nested dictionaries. *)
From Verif Require Import Base Input_Model.
Open Scope nat_scope.

Section Spec.
  Context {A : Type}.

  (** the value at a path *)
  Fixpoint at_path (v : val A) (p : list nat) : option (val A) :=
    match p with
    | [] => Some v
    | k :: p' => match v with
                 | Dict d => match lookup k d with Some w => at_path w p' | None => None end
                 | _ => None
                 end
    end.

  (** what sits at a path: a dictionary, or a leaf value *)
  Inductive node := Sub | Val (v : val A).
  Definition node_of (v : val A) : node := match v with Dict _ => Sub | _ => Val v end.
  Definition node_at (d : list (nat * val A)) (p : list nat) : option node := option_map node_of (at_path (Dict d) p).

  (** both define p, and neither both dictionaries nor equal values *)
  Definition conflict (eqb : A -> A -> bool) (a b : list (nat * val A)) (p : list nat) : Prop :=
    exists va vb, at_path (Dict a) p = Some va /\ at_path (Dict b) p = Some vb /\
      (node_of va = Sub -> node_of vb <> Sub) /\ val_eq eqb va vb = false.

  (** keys are unique at every level, as in a python dictionary *)
  Inductive wf : val A -> Prop :=
  | wf_none : wf VNone
  | wf_leaf x : wf (Leaf x)
  | wf_dict d : NoDup (map fst d) -> Forall (fun e => wf (snd e)) d -> wf (Dict d).
End Spec.
