(** Input options (C24) and merging of option dictionaries (C25). *)
From Verif Require Import Base Input_Model Input_Spec Input_Proofs.
Open Scope nat_scope.

(** The key wins when present with a value (falsy ones included), ... *)
Theorem C24_key : forall (A : Type) (d : list (nat * val A)) key default alias v,
  lookup key d = Some v -> v <> VNone -> get_input_value d key default alias = v.
Proof. exact input_key. Qed.
Print Assumptions C24_key.

(** ... else the first alias present, ... *)
Theorem C24_alias : forall (A : Type) (d : list (nat * val A)) key default pre a post v,
  (forall k, In k (key :: pre) -> lookup k d = None \/ lookup k d = Some VNone) ->
  lookup a d = Some v -> v <> VNone ->
  get_input_value d key default (Some (pre ++ a :: post)) = v.
Proof. exact input_alias. Qed.
Print Assumptions C24_alias.

(** ... else the default. *)
Theorem C24_default : forall (A : Type) (d : list (nat * val A)) key default alias,
  (forall k, In k (key :: match alias with Some l => l | None => [] end) ->
     lookup k d = None \/ lookup k d = Some VNone) ->
  get_input_value d key default alias = default.
Proof. exact input_default. Qed.
Print Assumptions C24_default.

(** An explicit null is not a value: an alias or the default replaces it. *)
Theorem C24_null_refuted : exists (d : list (nat * val nat)) key default,
  lookup key d = Some VNone /\ get_input_value d key default None <> VNone.
Proof. exists [(0, VNone)], 0, (Leaf 3). split; [reflexivity|discriminate]. Qed.
Print Assumptions C24_null_refuted.

(** Nested lookup is the value at the path, None when there is none. *)
Theorem C24_nested : forall (A : Type) (v : val A) p,
  get_from_dict v p = match at_path v p with Some w => w | None => VNone end.
Proof. exact get_from_dict_path. Qed.
Print Assumptions C24_nested.

Example C24_case : get_input_value [(7, VNone); (8, Leaf 0); (9, Leaf 5)] 7 (Leaf 1) (Some [6; 8; 9]) = Leaf 0.
Proof. reflexivity. Qed.

(** Either every path of both sides is kept (a's value where both have one) and
    there was no conflict, or the reported path is a conflict. *)
Theorem C25_merge : forall (A : Type) (eqb : A -> A -> bool) (a b : list (nat * val A)), wf (Dict b) ->
  match merge_dicts eqb a b with
  | inr c => (forall p, node_at c p = match node_at a p with Some n => Some n | None => node_at b p end) /\
             (forall p, ~ conflict eqb a b p)
  | inl p => conflict eqb a b p
  end.
Proof. exact merge_dicts_spec. Qed.
Print Assumptions C25_merge.

(** Order: the keys of a, then the new keys of b. *)
Theorem C25_order : forall (A : Type) (eqb : A -> A -> bool) (b a c : list (nat * val A)),
  NoDup (map fst b) -> merge_dicts eqb a b = inr c ->
  map fst c = map fst a ++ filter (fun k => negb (existsb (Nat.eqb k) (map fst a))) (map fst b).
Proof. exact merge_keys. Qed.
Print Assumptions C25_order.

(** Consequence: write_input raises for options that override its time step. *)
Theorem C25_write_input : forall na nb hamil wfn bp options q,
  wf (Dict options) -> ~ (q == 1 # 200)%Q -> at_path (Dict options) [5; 6] = Some (Leaf (LQ q)) ->
  exists p, write_input na nb hamil wfn bp options = inl p.
Proof. exact write_input_override. Qed.
Print Assumptions C25_write_input.

Example C25_case :
  merge_dicts Nat.eqb [(1, Dict [(2, Leaf 5); (3, Dict [])]); (4, Leaf 6)]
                      [(7, Leaf 1); (1, Dict [(3, Dict [(8, Leaf 9)]); (2, Leaf 5)])]
  = inr [(1, Dict [(2, Leaf 5); (3, Dict [(8, Leaf 9)])]); (4, Leaf 6); (7, Leaf 1)] /\
  merge_dicts Nat.eqb [(1, Dict [(2, Leaf 5)])] [(1, Dict [(2, Dict [])])] = inl [1; 2].
Proof. split; reflexivity. Qed.
