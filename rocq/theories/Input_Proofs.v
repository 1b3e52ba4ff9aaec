From Verif Require Import Base BaseFacts Input_Model Input_Spec.
Open Scope nat_scope.

Section Proofs.
  Variables (A : Type) (eqb : A -> A -> bool).
  Notation val := (val A).
  Notation items := (list (nat * val)).

  (** ** Options *)

  Lemma alias_loop_first (d : items) pre a post v w :
    (forall x, In x pre -> dget d x = VNone) -> dget d a = v -> v <> VNone ->
    alias_loop d (pre ++ a :: post) w = v.
  Proof.
    revert w. induction pre as [|x pre IH]; intros w Hpre Ha Hv; cbn.
    - rewrite Ha. destruct v; [contradiction|reflexivity|reflexivity].
    - rewrite (Hpre x) by (left; reflexivity). cbn. apply IH; auto. intros y Hy. apply Hpre. right. exact Hy.
  Qed.

  Lemma alias_loop_none (d : items) l : (forall x, In x l -> dget d x = VNone) -> alias_loop d l VNone = VNone.
  Proof.
    induction l as [|x l IH]; intros H; cbn; [reflexivity|]. rewrite (H x) by (left; reflexivity). cbn.
    apply IH. intros y Hy. apply H. right. exact Hy.
  Qed.

  Lemma input_key (d : items) key default alias v :
    lookup key d = Some v -> v <> VNone -> get_input_value d key default alias = v.
  Proof. intros H Hv. unfold get_input_value, dget. rewrite H. destruct v; [contradiction|reflexivity|reflexivity]. Qed.

  Lemma dget_none (d : items) k : lookup k d = None \/ lookup k d = Some VNone -> dget d k = VNone.
  Proof. unfold dget. intros [->| ->]; reflexivity. Qed.

  Lemma input_alias (d : items) key default pre a post v :
    (forall k, In k (key :: pre) -> lookup k d = None \/ lookup k d = Some VNone) ->
    lookup a d = Some v -> v <> VNone ->
    get_input_value d key default (Some (pre ++ a :: post)) = v.
  Proof.
    intros Hn Ha Hv. unfold get_input_value. rewrite (dget_none d key) by (apply Hn; left; reflexivity). cbn [is_none].
    rewrite (alias_loop_first d pre a post v); [destruct v; [contradiction|reflexivity|reflexivity]| | |exact Hv].
    - intros x Hx. apply dget_none. apply Hn. right. exact Hx.
    - unfold dget. rewrite Ha. reflexivity.
  Qed.

  Lemma input_default (d : items) key default alias :
    (forall k, In k (key :: match alias with Some l => l | None => [] end) -> lookup k d = None \/ lookup k d = Some VNone) ->
    get_input_value d key default alias = default.
  Proof.
    intros Hn. unfold get_input_value. rewrite (dget_none d key) by (apply Hn; left; reflexivity). cbn [is_none].
    destruct alias as [l|]; [|reflexivity]. rewrite alias_loop_none; [reflexivity|].
    intros x Hx. apply dget_none. apply Hn. right. exact Hx.
  Qed.

  Lemma get_from_dict_path (v : val) p :
    get_from_dict v p = match at_path v p with Some w => w | None => VNone end.
  Proof.
    unfold get_from_dict. revert v. induction p as [|k p IH]; intros v; [reflexivity|]. cbn [reduce_get at_path].
    destruct v as [|x|d]; [reflexivity|reflexivity|]. rewrite IH. unfold dget.
    destruct (lookup k d) as [w|]; [reflexivity|]. destruct p; reflexivity.
  Qed.

  (** ** Merging *)

  Section TreeInd.
    Variable P : val -> Prop.
    Hypotheses (HN : P VNone) (HL : forall x, P (Leaf x))
      (HD : forall d, Forall (fun e => P (snd e)) d -> P (Dict d)).
    Fixpoint val_ind' (v : val) : P v :=
      match v with
      | VNone => HN
      | Leaf x => HL x
      | Dict d => HD d ((fix go (d : items) : Forall (fun e => P (snd e)) d :=
          match d with [] => Forall_nil _ | e :: d' => Forall_cons e (val_ind' (snd e)) (go d') end) d)
      end.
  End TreeInd.

  (** merge of the items one by one *)
  Fixpoint go (path : list nat) (ib a : items) : list nat + items :=
    match ib with
    | [] => inr a
    | (k, vb) :: ib' =>
        match lookup k a with
        | Some va =>
            match va, vb with
            | Dict ia, Dict _ =>
                match merge eqb vb ia (path ++ [k]) with
                | inr ia' => go path ib' (setk k (Dict ia') a)
                | inl e => inl e
                end
            | _, _ => if val_eq eqb va vb then go path ib' a else inl (path ++ [k])
            end
        | None => go path ib' (a ++ [(k, vb)])
        end
    end.

  Lemma merge_go ib a path : merge eqb (Dict ib) a path = go path ib a.
  Proof.
    revert a. induction ib as [|[k vb] ib IH]; intros a; [reflexivity|]. cbn [go].
    change (merge eqb (Dict ((k, vb) :: ib)) a path) with
      (match lookup k a with
       | Some va =>
           match va, vb with
           | Dict ia, Dict _ =>
               match merge eqb vb ia (path ++ [k]) with
               | inr ia' => merge eqb (Dict ib) (setk k (Dict ia') a) path
               | inl e => inl e
               end
           | _, _ => if val_eq eqb va vb then merge eqb (Dict ib) a path else inl (path ++ [k])
           end
       | None => merge eqb (Dict ib) (a ++ [(k, vb)]) path
       end).
    destruct (lookup k a) as [va|]; [|apply IH].
    destruct va, vb; rewrite ?IH; try reflexivity.
    destruct (merge eqb (Dict l0) l (path ++ [k])); [reflexivity|apply IH].
  Qed.

  Lemma lookup_app k (d e : items) : lookup k (d ++ e) = match lookup k d with Some v => Some v | None => lookup k e end.
  Proof. induction d as [|[j v] d IH]; cbn; [reflexivity|]. destruct (j =? k); [reflexivity|exact IH]. Qed.

  Lemma lookup_setk k j v w (d : items) : lookup j d = Some w ->
    lookup k (setk j v d) = if j =? k then Some v else lookup k d.
  Proof.
    induction d as [|[i u] d IH]; cbn; [discriminate|]. destruct (Nat.eqb_spec i j) as [->|Hij]; intros H.
    - cbn. destruct (j =? k); reflexivity.
    - cbn. rewrite IH by exact H. destruct (Nat.eqb_spec i k) as [->|Hik]; [|reflexivity].
      destruct (Nat.eqb_spec j k); [congruence|reflexivity].
  Qed.

  Lemma lookup_notin k (d : items) : ~ In k (map fst d) -> lookup k d = None.
  Proof.
    induction d as [|[j v] d IH]; cbn; [reflexivity|]. intros H. destruct (Nat.eqb_spec j k) as [->|Hne].
    - exfalso. apply H. left. reflexivity.
    - apply IH. intros Hin. apply H. right. exact Hin.
  Qed.

  Lemma lookup_in k v (d : items) : NoDup (map fst d) -> In (k, v) d -> lookup k d = Some v.
  Proof.
    induction d as [|[j w] d IH]; intros Hnd Hin; [destruct Hin|]. inversion_clear Hnd as [|? ? Hni Hnd']. cbn [fst] in Hni.
    cbn [lookup]. destruct Hin as [E|Hin].
    - inversion E; subst. rewrite Nat.eqb_refl. reflexivity.
    - destruct (Nat.eqb_spec j k) as [->|Hne]; [|apply IH; assumption].
      exfalso. apply Hni. apply (in_map fst) in Hin. exact Hin.
  Qed.

  (** the rule for one key *)
  Definition key_ok (path : list nat) (k : nat) (oa ob oc : option val) : Prop :=
    match oa, ob with
    | Some (Dict ia), Some (Dict ib) => exists ic, merge eqb (Dict ib) ia (path ++ [k]) = inr ic /\ oc = Some (Dict ic)
    | Some va, Some vb => val_eq eqb va vb = true /\ oc = Some va
    | Some va, None => oc = Some va
    | None, ob => oc = ob
    end.

  Lemma go_keys path ib : forall a c, NoDup (map fst ib) -> go path ib a = inr c ->
    forall k, key_ok path k (lookup k a) (lookup k ib) (lookup k c).
  Proof.
    induction ib as [|[j vb] ib IH]; intros a c Hnd H k.
    - cbn in H. inversion H; subst. cbn. unfold key_ok. destruct (lookup k c) as [[| |]|]; reflexivity.
    - inversion_clear Hnd as [|? ? Hni Hnd']. cbn [fst] in Hni. cbn [lookup].
      assert (Hj : lookup j ib = None) by (apply lookup_notin; exact Hni).
      cbn [go] in H.
      assert (Hother : forall a', go path ib a' = inr c -> (forall k', k' <> j -> lookup k' a' = lookup k' a) ->
                k <> j -> key_ok path k (lookup k a) (lookup k ib) (lookup k c)).
      { intros a' E Ha Hk. rewrite <- (Ha k Hk). apply (IH a' c Hnd' E). }
      assert (Hsame : forall a', go path ib a' = inr c -> lookup j c = lookup j a').
      { intros a' E. pose proof (IH a' c Hnd' E j) as K. rewrite Hj in K. unfold key_ok in K.
        destruct (lookup j a') as [[| |]|]; exact K. }
      destruct (lookup j a) as [va|] eqn:La.
      + destruct (Nat.eqb_spec j k) as [->|Hne].
        * rewrite La. unfold key_ok.
          destruct va as [|x|ia], vb as [|y|ib0]; cbn [val_eq] in *; try discriminate H;
            try (split; [reflexivity|]; rewrite (Hsame _ H); exact La).
          -- destruct (eqb x y); [|discriminate]. split; [reflexivity|]. rewrite (Hsame _ H); exact La.
          -- destruct (merge eqb (Dict ib0) ia (path ++ [k])) as [e|ia'] eqn:Em; [discriminate|].
             exists ia'. split; [reflexivity|]. rewrite (Hsame _ H). rewrite (lookup_setk k k _ _ a La).
             rewrite Nat.eqb_refl. reflexivity.
        * destruct va as [|x|ia], vb as [|y|ib0]; cbn [val_eq] in *; try discriminate H;
            try (apply (Hother _ H); [reflexivity|congruence]).
          -- destruct (eqb x y); [|discriminate]. apply (Hother _ H); [reflexivity|congruence].
          -- destruct (merge eqb (Dict ib0) ia (path ++ [j])) as [e|ia'] eqn:Em; [discriminate|].
             apply (Hother _ H); [|congruence]. intros k' Hk'. rewrite (lookup_setk k' j _ _ a La).
             destruct (Nat.eqb_spec j k'); [congruence|reflexivity].
      + destruct (Nat.eqb_spec j k) as [->|Hne].
        * rewrite La. unfold key_ok. rewrite (Hsame _ H), lookup_app, La. cbn. rewrite Nat.eqb_refl. reflexivity.
        * apply (Hother _ H); [|congruence]. intros k' Hk'. rewrite lookup_app. cbn.
          destruct (lookup k' a); [reflexivity|]. destruct (Nat.eqb_spec j k'); [congruence|reflexivity].
  Qed.

  (** a failing merge fails at a key of b that a has too *)
  Lemma go_fails path ib : forall a e, NoDup (map fst ib) -> go path ib a = inl e ->
    exists k va vb, lookup k a = Some va /\ In (k, vb) ib /\
      match va, vb with
      | Dict ia, Dict ib' => merge eqb (Dict ib') ia (path ++ [k]) = inl e
      | _, _ => val_eq eqb va vb = false /\ e = path ++ [k]
      end.
  Proof.
    induction ib as [|[j vb] ib IH]; intros a e Hnd H; [discriminate|].
    inversion_clear Hnd as [|? ? Hni Hnd']. cbn [fst] in Hni. cbn [go] in H.
    assert (Hrec : forall a', go path ib a' = inl e -> (forall k', k' <> j -> lookup k' a' = lookup k' a) ->
      exists k va vb0, lookup k a = Some va /\ In (k, vb0) ((j, vb) :: ib) /\
      match va, vb0 with
      | Dict ia, Dict ib' => merge eqb (Dict ib') ia (path ++ [k]) = inl e
      | _, _ => val_eq eqb va vb0 = false /\ e = path ++ [k]
      end).
    { intros a' E Ha. destruct (IH a' e Hnd' E) as (k & va & vb0 & L & Hin & R).
      exists k, va, vb0. split; [|split; [right; exact Hin|exact R]]. rewrite <- Ha; [exact L|].
      intros ->. apply Hni. apply (in_map fst) in Hin. exact Hin. }
    destruct (lookup j a) as [va|] eqn:La.
    - assert (Hhere : forall P : Prop, P -> P) by auto.
      destruct va as [|x|ia], vb as [|y|ib0]; cbn [val_eq] in H;
        try (apply (Hrec _ H); intros; reflexivity);
        try (inversion H; subst; eexists j, _, _; split; [exact La|]; split; [left; reflexivity|]; split; reflexivity).
      + destruct (eqb x y) eqn:Exy; [apply (Hrec _ H); intros; reflexivity|].
        inversion H; subst. eexists j, _, _. split; [exact La|]. split; [left; reflexivity|]. split; [exact Exy|reflexivity].
      + destruct (merge eqb (Dict ib0) ia (path ++ [j])) as [e'|ia'] eqn:Em.
        * inversion H; subst. eexists j, _, _. split; [exact La|]. split; [left; reflexivity|]. exact Em.
        * apply (Hrec _ H). intros k' Hk'. rewrite (lookup_setk k' j _ _ a La). destruct (Nat.eqb_spec j k'); [congruence|reflexivity].
    - apply (Hrec _ H). intros k' Hk'. rewrite lookup_app. cbn.
      destruct (lookup k' a); [reflexivity|]. destruct (Nat.eqb_spec j k'); [congruence|reflexivity].
  Qed.

  (** a merge that ends well is independent of the path argument *)
  Definition orelse {B} (x y : option B) : option B := match x with Some b => Some b | None => y end.

  Lemma at_cons (d : items) k p : at_path (Dict d) (k :: p) = match lookup k d with Some w => at_path w p | None => None end.
  Proof. reflexivity. Qed.

  Lemma merge_ok b : wf b -> forall ib, b = Dict ib -> forall a path c, merge eqb b a path = inr c ->
    (forall p, node_at c p = orelse (node_at a p) (node_at ib p)) /\ (forall p, ~ conflict eqb a ib p).
  Proof.
    induction b as [|x|ib0 IHb] using val_ind'; intros Hwf ib Eb a path c H; try discriminate.
    inversion Eb; subst ib0. clear Eb. inversion Hwf as [| |? Hnd Hf]; subst.
    rewrite merge_go in H. pose proof (go_keys path ib a c Hnd H) as K.
    assert (Hwfk : forall k vb, lookup k ib = Some vb -> In (k, vb) ib).
    { clear. induction ib as [|[j v] ib IH]; intros k vb; cbn; [discriminate|].
      destruct (Nat.eqb_spec j k) as [->|]; intros E; [inversion E; left; reflexivity|right; apply IH; exact E]. }
    rewrite Forall_forall in Hf, IHb.
    assert (Hsub : forall k ia' ib' ic, lookup k ib = Some (Dict ib') -> merge eqb (Dict ib') ia' (path ++ [k]) = inr ic ->
      (forall p, node_at ic p = orelse (node_at ia' p) (node_at ib' p)) /\ (forall p, ~ conflict eqb ia' ib' p)).
    { intros k ia' ib' ic L E. specialize (Hwfk k _ L). apply (IHb (k, Dict ib') Hwfk (Hf _ Hwfk) ib' eq_refl ia' (path ++ [k]) ic E). }
    split.
    - intros [|k p]; [reflexivity|]. unfold node_at. rewrite !at_cons. specialize (K k). unfold key_ok in K.
      destruct (lookup k a) as [va|] eqn:La; [|rewrite K; destruct (lookup k ib); reflexivity].
      destruct (lookup k ib) as [vb|] eqn:Lb.
      2:{ assert (E : lookup k c = Some va) by (destruct va; exact K). rewrite E. cbn. destruct (at_path va p); reflexivity. }
      destruct va as [|x|ia].
      + destruct K as [Kv ->]. destruct vb; cbn in Kv; try discriminate. destruct p; reflexivity.
      + destruct K as [Kv ->]. destruct vb; cbn in Kv; try discriminate. destruct p; reflexivity.
      + destruct vb as [|y|ib']; try (destruct K as [Kv _]; discriminate Kv).
        destruct K as (ic & Em & ->). destruct (Hsub k ia ib' ic Lb Em) as [Hn _]. specialize (Hn p).
        unfold node_at in Hn. exact Hn.
    - intros p (va & vb & Ea & Eb & Hc & Hv). destruct p as [|k p].
      + cbn in Ea, Eb. inversion Ea; inversion Eb; subst. apply Hc; reflexivity.
      + rewrite at_cons in Ea, Eb. specialize (K k). unfold key_ok in K.
        destruct (lookup k a) as [wa|] eqn:La; [|discriminate]. destruct (lookup k ib) as [wb|] eqn:Lb; [|discriminate].
        destruct wa as [|x|ia].
        * destruct K as [Kv _]. destruct wb; cbn in Kv; try discriminate. destruct p; cbn in Ea, Eb; try discriminate.
          inversion Ea; inversion Eb; subst. discriminate Hv.
        * destruct K as [Kv _]. destruct wb as [|y|]; cbn in Kv; try discriminate. destruct p; cbn in Ea, Eb; try discriminate.
          inversion Ea; inversion Eb; subst. cbn in Hv. congruence.
        * destruct wb as [|y|ib']; try (destruct K as [Kv _]; discriminate Kv).
          destruct K as (ic & Em & _). destruct (Hsub k ia ib' ic Lb Em) as [_ Hn]. apply (Hn p). exists va, vb. auto.
  Qed.

  Lemma merge_err b : wf b -> forall ib, b = Dict ib -> forall a path e, merge eqb b a path = inl e ->
    exists p, e = path ++ p /\ conflict eqb a ib p.
  Proof.
    induction b as [|x|ib0 IHb] using val_ind'; intros Hwf ib Eb a path e H; try discriminate.
    inversion Eb; subst ib0. clear Eb. inversion Hwf as [| |? Hnd Hf]; subst.
    rewrite merge_go in H. destruct (go_fails path ib a e Hnd H) as (k & va & vb & La & Hin & R).
    pose proof (lookup_in k vb ib Hnd Hin) as Lb. rewrite Forall_forall in Hf, IHb.
    assert (Hleaf : (node_of va = Sub -> node_of vb <> Sub) -> val_eq eqb va vb = false -> e = path ++ [k] ->
      exists p, e = path ++ p /\ conflict eqb a ib p).
    { intros H1 H2 ->. exists [k]. split; [reflexivity|]. exists va, vb. rewrite !at_cons, La, Lb. auto. }
    destruct va as [|x|ia]; destruct vb as [|y|ib']; try (apply Hleaf; [cbn; congruence|apply R|apply R]).
    destruct (IHb (k, Dict ib') Hin (Hf _ Hin) ib' eq_refl ia (path ++ [k]) e R) as (p & -> & va & vb & C1 & C2 & C3).
    exists (k :: p). split; [rewrite <- app_assoc; reflexivity|]. exists va, vb. rewrite !at_cons, La, Lb. auto.
  Qed.

  Lemma merge_dicts_spec (a b : items) : wf (Dict b) ->
    match merge_dicts eqb a b with
    | inr c => (forall p, node_at c p = match node_at a p with Some n => Some n | None => node_at b p end) /\
               (forall p, ~ conflict eqb a b p)
    | inl p => conflict eqb a b p
    end.
  Proof.
    intros Hwf. unfold merge_dicts. destruct (merge eqb (Dict b) a []) as [e|c] eqn:E.
    - destruct (merge_err (Dict b) Hwf b eq_refl a [] e E) as (p & -> & H). exact H.
    - exact (merge_ok (Dict b) Hwf b eq_refl a [] c E).
  Qed.

  (** order of keys: those of a as they were, then the new ones of b in order *)
  Lemma keys_setk k v (d : items) w : lookup k d = Some w -> map fst (setk k v d) = map fst d.
  Proof.
    induction d as [|[j u] d IH]; cbn; [discriminate|]. destruct (j =? k); cbn; [reflexivity|]. intros H. f_equal. auto.
  Qed.

  Lemma in_lookup k (d : items) : (if lookup k d then true else false) = existsb (Nat.eqb k) (map fst d).
  Proof.
    induction d as [|[j v] d IH]; cbn; [reflexivity|]. rewrite (Nat.eqb_sym k j). destruct (j =? k); [reflexivity|exact IH].
  Qed.

  Lemma merge_keys (b a c : items) : NoDup (map fst b) -> merge_dicts eqb a b = inr c ->
    map fst c = map fst a ++ filter (fun k => negb (existsb (Nat.eqb k) (map fst a))) (map fst b).
  Proof.
    unfold merge_dicts. rewrite merge_go. generalize (@nil nat) as path. intros path. revert a.
    induction b as [|[j vb] b IH]; intros a Hnd H.
    - cbn in H. inversion H; subst. cbn. rewrite app_nil_r. reflexivity.
    - inversion_clear Hnd as [|? ? Hni Hnd']. cbn [fst] in Hni. cbn [go] in H. cbn [map fst filter].
      rewrite <- in_lookup.
      destruct (lookup j a) as [va|] eqn:La; cbn [negb].
      + destruct va as [|x|ia], vb as [|y|ib0]; cbn [val_eq] in H; try discriminate H; try (apply IH; assumption).
        * destruct (eqb x y); [|discriminate]. apply IH; assumption.
        * destruct (merge eqb (Dict ib0) ia (path ++ [j])) as [e'|ia'] eqn:Em; [discriminate|].
          rewrite (IH _ Hnd' H). rewrite (keys_setk _ _ _ _ La). reflexivity.
      + rewrite (IH _ Hnd' H). rewrite map_app, <- app_assoc. cbn [map fst app]. f_equal. f_equal.
        apply filter_ext_in. intros k Hk. rewrite existsb_app. cbn. destruct (Nat.eqb_spec k j) as [->|]; [contradiction|].
        cbn. rewrite orb_false_r. reflexivity.
  Qed.
End Proofs.

(** options that disagree with a default make write_input raise *)
Lemma write_input_override na nb hamil wfn bp options q : wf (Dict options) -> ~ (q == 1 # 200)%Q ->
  at_path (Dict options) [5; 6] = Some (Leaf (LQ q)) ->
  exists p, write_input na nb hamil wfn bp options = inl p.
Proof.
  intros Hwf Hq Hat. unfold write_input. pose proof (merge_dicts_spec leaf leaf_eqb (basic na nb hamil wfn bp) options Hwf) as H.
  destruct (merge_dicts leaf_eqb (basic na nb hamil wfn bp) options) as [p|c]; [exists p; reflexivity|].
  exfalso. destruct H as [_ H]. apply (H [5; 6]). eexists _, _. split; [reflexivity|]. split; [exact Hat|]. split; [cbn; congruence|].
  unfold val_eq, leaf_eqb. destruct (Qeq_bool (1 # 200) q) eqn:E; [|reflexivity]. apply Qeq_bool_eq in E. exfalso. apply Hq. symmetry. exact E.
Qed.
