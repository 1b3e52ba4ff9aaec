From Coq Require Import String.
From Verif Require Import Base BaseFacts Cplx CplxFacts Buffer_Model Buffer_Spec.
Open Scope nat_scope.

Definition enc1 (v : pval) : list C :=
  match v with
  | PArr _ _ data => data
  | _ => match num v with Some c => [c] | None => [] end
  end.
Definition enc (v : pval) : list C :=
  match v with PList l => flat_map enc1 l | _ => enc1 v end.
Definition encs (d : pdict) (ns : list string) : list C :=
  flat_map (fun k => match lookup d k with Some v => enc v | None => [] end) ns.

Lemma enc1_size v : length (enc1 v) = elem_size v.
Proof. destruct v; reflexivity. Qed.

Lemma enc_size v : v <> POther -> length (enc v) = attr_size v.
Proof.
  destruct v; try reflexivity; try congruence; intros _.
  cbn [enc attr_size]. induction l as [|x l IH]; cbn; auto. rewrite app_length, enc1_size, IH. reflexivity.
Qed.

Lemma write_slice_in pre mid post data :
  length data = length mid -> write_slice (pre ++ mid ++ post) (length pre) data = Ok (pre ++ data ++ post).
Proof.
  intros H. unfold write_slice. rewrite !app_length.
  replace (length pre + length data <=? length pre + (length mid + length post)) with true by lia.
  rewrite firstn_app, Nat.sub_diag, firstn_all, firstn_O, app_nil_r.
  assert (E : skipn (length pre + length data) (pre ++ mid ++ post) = post).
  { rewrite app_assoc, skipn_app, skipn_all2 by (rewrite app_length; lia).
    rewrite app_length. replace (length pre + length data - (length pre + length mid)) with 0 by lia. reflexivity. }
  rewrite E. reflexivity.
Qed.

Lemma skip_split (T : Type) n (l : list T) : n <= length l -> exists a b, l = a ++ b /\ length a = n.
Proof. intros. exists (firstn n l), (skipn n l). rewrite firstn_skipn, firstn_length. split; auto. lia. Qed.

Lemma num_scalar v c : num v = Some c -> scalar_of v = Ok c.
Proof. destruct v; cbn; intros H; inversion H; auto. Qed.

Lemma is_number_num v : is_number v = true -> exists c, num v = Some c.
Proof. destruct v; cbn; intros; try discriminate; eauto. Qed.

Lemma pack_elem_ok pre rest v :
  elem_size v <= length rest ->
  exists post, length post + elem_size v = length rest /\
  pack_elem (pre ++ rest, length pre) v = Ok (pre ++ enc1 v ++ post, length (pre ++ enc1 v)) /\
  post = skipn (elem_size v) rest.
Proof.
  intros H. destruct (skip_split _ _ _ H) as (a & b & -> & Ha).
  exists b. rewrite app_length in *. split; [lia|].
  assert (Hb : b = skipn (elem_size v) (a ++ b)) by (rewrite <- Ha, skipn_app, skipn_all, Nat.sub_diag; reflexivity).
  split; auto.
  destruct v; cbn [pack_elem enc1 num is_number scalar_of rbind];
    try (rewrite write_slice_in by (cbn in *; congruence); cbn [rbind]; rewrite app_length; reflexivity).
  - destruct a; [|discriminate]. rewrite app_nil_r. reflexivity.
  - destruct a; [|discriminate]. rewrite app_nil_r. reflexivity.
Qed.

Lemma pack_elems_ok l : forall pre rest,
  nsum (map elem_size l) <= length rest ->
  pack_elems (pre ++ rest, length pre) l =
  Ok (pre ++ flat_map enc1 l ++ skipn (nsum (map elem_size l)) rest, length (pre ++ flat_map enc1 l)).
Proof.
  induction l as [|v l IH]; intros pre rest H; cbn [pack_elems flat_map map nsum fold_right].
  - rewrite app_nil_r. reflexivity.
  - change (nsum (map elem_size (v :: l))) with (elem_size v + nsum (map elem_size l)) in H.
    destruct (pack_elem_ok pre rest v ltac:(lia)) as (post & Hp & -> & Hs). cbn [rbind].
    rewrite app_assoc, IH by lia. fold (nsum (map elem_size l)).
    rewrite <- !app_assoc. rewrite Hs.
    assert (E : forall n m (r : list C), skipn n (skipn m r) = skipn (m + n) r).
    { clear. intros n m. induction m; intros [|x r]; cbn; auto. rewrite skipn_nil. reflexivity. }
    rewrite E. reflexivity.
Qed.

Lemma skipn_skipn' (T : Type) n m (r : list T) : skipn n (skipn m r) = skipn (m + n) r.
Proof. revert r. induction m; intros [|x r]; cbn; auto. apply skipn_nil. Qed.

Lemma pack_attr_ok v pre rest : v <> POther ->
  attr_size v <= length rest ->
  pack_attr (pre ++ rest, length pre) v = Ok (pre ++ enc v ++ skipn (attr_size v) rest, length (pre ++ enc v)).
Proof.
  intros Hv H.
  assert (K : forall data, length data <= length rest ->
    rbind (write_slice (pre ++ rest) (length pre) data) (fun b => Ok (b, length pre + length data))
    = Ok (pre ++ data ++ skipn (length data) rest, length (pre ++ data))).
  { intros data Hd. destruct (skip_split _ _ _ Hd) as (a & b & -> & Ha).
    rewrite write_slice_in by congruence. cbn [rbind]. rewrite app_length.
    rewrite <- Ha at 2. rewrite skipn_app, skipn_all, Nat.sub_diag. reflexivity. }
  destruct v; try congruence; cbn [pack_attr scalar_of rbind].
  - exact (K [_] H).
  - exact (K [_] H).
  - exact (K [_] H).
  - exact (K [_] H).
  - exact (K data H).
  - apply pack_elems_ok; auto.
Qed.

Lemma pack_names_ok d ns : forall pre rest,
  (forall k, In k ns -> exists v, lookup d k = Some v /\ v <> POther) ->
  size_named d ns <= length rest ->
  pack_names d ns (pre ++ rest, length pre) =
  Ok (pre ++ encs d ns ++ skipn (size_named d ns) rest, length (pre ++ encs d ns)).
Proof.
  induction ns as [|k ns IH]; intros pre rest Hk H.
  - cbn. rewrite app_nil_r. reflexivity.
  - cbn [pack_names]. destruct (Hk k (or_introl eq_refl)) as (v & Hv & Ho). 
    assert (Hs : size_named d (k :: ns) = attr_size v + size_named d ns).
    { unfold size_named. cbn [map nsum fold_right]. rewrite Hv. reflexivity. }
    rewrite Hs in *. rewrite Hv. rewrite (pack_attr_ok v pre rest Ho) by lia. cbn [rbind].
    rewrite app_assoc, IH; [|intros; apply Hk; right; auto|rewrite skipn_length; lia].
    assert (He : encs d (k :: ns) = enc v ++ encs d ns).
    { unfold encs. cbn [flat_map]. rewrite Hv. reflexivity. }
    rewrite He, <- !app_assoc, skipn_skipn'. reflexivity.
Qed.

Lemma encs_size d ns :
  (forall k, In k ns -> exists v, lookup d k = Some v /\ v <> POther) -> length (encs d ns) = size_named d ns.
Proof.
  induction ns as [|k ns IH]; intros Hk; auto.
  unfold encs, size_named in *. cbn [flat_map map nsum fold_right].
  destruct (Hk k (or_introl eq_refl)) as (v & Hv & Ho). rewrite Hv, app_length, enc_size by auto.
  rewrite IH; auto. intros; apply Hk; right; auto.
Qed.

Lemma obj_get_sized o : sized o -> obj_get o = Ok (encs (attrs o) (names o)).
Proof.
  intros (Hn & Hs & Hk). unfold obj_get.
  pose proof (pack_names_ok (attrs o) (names o) [] (repeat C0 (size o)) Hk) as H.
  cbn [app length] in H. rewrite H by (rewrite repeat_length; lia). cbn [rbind fst].
  rewrite Hs, skipn_all2 by (rewrite repeat_length; lia). rewrite app_nil_r. reflexivity.
Qed.

(** Unpacking. *)
Lemma read_slice_ok pre data post : read_slice (pre ++ data ++ post) (length pre) (length data) = Ok data.
Proof.
  unfold read_slice. rewrite skipn_app, skipn_all, Nat.sub_diag. cbn [skipn app].
  rewrite firstn_app, Nat.sub_diag, firstn_all, firstn_O, app_nil_r, Nat.eqb_refl. reflexivity.
Qed.

Lemma read_one_ok pre c post : read_one (pre ++ [c] ++ post) (length pre) = Ok c.
Proof. unfold read_one. rewrite nth_error_app2, Nat.sub_diag by lia. reflexivity. Qed.

(** What the receiver ends up with. *)
Definition received1 (v w : pval) : pval :=
  match v, w with
  | PArr _ _ data, PArr _ sh _ => PArr true sh data
  | _, _ => match num v with Some c => PComplex c | None => w end
  end.

Definition received (v w : pval) : pval :=
  match v, w with
  | PList l, PList l' => PList (map (fun '(a, b) => received1 a b) (combine l l'))
  | PArr _ _ data, PArr _ sh _ => PArr true sh data
  | _, _ => match num v, w with
            | Some c, PBool _ | Some c, PInt _ => PInt (qtrunc (re c))
            | Some c, PFloat _ => PFloat (re c)
            | Some c, _ => PComplex c
            | None, _ => w
            end
  end.

Definition eslot (v w : pval) := if transferable v then slot1 v w else transferable w = false.

Lemma unpack_elem_ok pre v w post : eslot v w ->
  unpack_elem (pre ++ enc1 v ++ post) (length pre) w = Ok (received1 v w, length (pre ++ enc1 v)).
Proof.
  unfold eslot. intros H. destruct (transferable v) eqn:Ht.
  - inversion H; subst.
    + destruct (is_number_num _ H0) as [c Hc]. 
      assert (He : enc1 v = [c]) by (destruct v; cbn in *; congruence). rewrite He.
      assert (Hr : received1 v w = PComplex c) by (unfold received1; rewrite Hc; destruct v; try reflexivity; discriminate).
      rewrite Hr, app_length. destruct w; try discriminate; cbn [unpack_elem is_number];
        rewrite read_one_ok; reflexivity.
    + cbn [unpack_elem enc1 received1]. rewrite <- H0, read_slice_ok, app_length. reflexivity.
  - destruct v, w; try discriminate; cbn; rewrite app_nil_r; reflexivity.
Qed.

Lemma unpack_elems_ok l l' : Forall2 eslot l l' -> forall pre post,
  unpack_elems (pre ++ flat_map enc1 l ++ post) (length pre) l' =
  Ok (map (fun '(a, b) => received1 a b) (combine l l'), length (pre ++ flat_map enc1 l)).
Proof.
  induction 1 as [|v w l l' Hv Hl IH]; intros pre post; cbn [unpack_elems flat_map combine map].
  - rewrite app_nil_r. reflexivity.
  - rewrite <- app_assoc, unpack_elem_ok by auto. cbn [rbind].
    rewrite (app_assoc pre). rewrite IH. cbn [rbind]. rewrite <- app_assoc. reflexivity.
Qed.

Lemma unpack_attr_ok v w pre post : slot v w ->
  unpack_attr (pre ++ enc v ++ post) (length pre) w = Ok (received v w, length (pre ++ enc v)).
Proof.
  intros H. inversion H as [? ? H1|l l' HF]; subst.
  - inversion H1 as [? ? Hv Hw|]; subst.
    + destruct (is_number_num _ Hv) as [c Hc].
      assert (He : enc v = [c]) by (destruct v; cbn in *; congruence). rewrite He.
      rewrite app_length. destruct w; try discriminate; cbn [unpack_attr];
        rewrite read_one_ok; cbn [rbind]; destruct v; try discriminate; cbn in Hc |- *; inversion Hc; subst; reflexivity.
    + cbn [unpack_attr enc enc1 received]. rewrite <- H0, read_slice_ok, app_length. reflexivity.
  - cbn [unpack_attr enc received]. rewrite unpack_elems_ok by auto. reflexivity.
Qed.

Lemma lookup_setkey_eq d k v : lookup (setkey d k v) k = Some v.
Proof.
  induction d as [|[k' v'] d IH]; cbn; [rewrite String.eqb_refl; auto|].
  destruct (String.eqb k' k) eqn:E; cbn; rewrite E; auto.
Qed.

Lemma lookup_setkey_ne d k k' v : k <> k' -> lookup (setkey d k v) k' = lookup d k'.
Proof.
  intros Hn. induction d as [|[k0 v0] d IH]; cbn.
  - destruct (String.eqb k k') eqn:E; auto. apply String.eqb_eq in E. congruence.
  - destruct (String.eqb k0 k) eqn:E; cbn; destruct (String.eqb k0 k') eqn:E'; auto.
    apply String.eqb_eq in E, E'. congruence.
Qed.

Lemma unpack_names_ok d ns : NoDup ns -> forall d' pre post,
  named slot ns d d' ->
  exists d'', unpack_names (pre ++ encs d ns ++ post) d' ns (length pre) = Ok (d'', length (pre ++ encs d ns)) /\
    (forall k, ~ In k ns -> lookup d'' k = lookup d' k) /\
    forall k v v', In k ns -> lookup d k = Some v -> lookup d' k = Some v' -> lookup d'' k = Some (received v v').
Proof.
  induction 1 as [|k ns Hk Hn IH]; intros d' pre post H.
  - exists d'. cbn. rewrite app_nil_r. repeat split; auto. intros ? ? ? [].
  - destruct (H k (or_introl eq_refl)) as (v & v' & Hv & Hv' & Hf).
    assert (He : encs d (k :: ns) = enc v ++ encs d ns).
    { unfold encs. cbn [flat_map]. rewrite Hv. reflexivity. }
    cbn [unpack_names]. rewrite Hv', He, <- app_assoc, unpack_attr_ok by auto. cbn [rbind].
    rewrite (app_assoc pre).
    destruct (IH (setkey d' k (received v v')) (pre ++ enc v) post) as (d'' & Hu & Ho & Hi).
    { intros k' Hk'. destruct (H k' (or_intror Hk')) as (u & u' & Hu & Hu' & Hf').
      exists u, u'. repeat split; auto. rewrite lookup_setkey_ne; auto. intros ->; auto. }
    exists d''. rewrite Hu, <- app_assoc. split; auto. split.
    + intros k' Hk'. rewrite Ho by (intros ?; apply Hk'; right; auto).
      apply lookup_setkey_ne. intros ->. apply Hk'; left; auto.
    + intros k' u u' [<-|Hin] Hu1 Hu2.
      * rewrite Ho by auto. rewrite lookup_setkey_eq. congruence.
      * apply Hi; auto. rewrite lookup_setkey_ne; auto. intros ->; auto.
Qed.

Lemma qtrunc_Z z : qtrunc (inject_Z z) = z.
Proof. unfold qtrunc. cbn. apply Z.quot_1_r. Qed.

Lemma qtrunc_int q z : q == inject_Z z -> qtrunc q = z.
Proof.
  unfold Qeq, qtrunc. cbn. intros H. rewrite Z.mul_1_r in H. rewrite H. apply Z.quot_mul. lia.
Qed.

Lemma received1_same v w : eslot v w -> if transferable v then same1 v (received1 v w) else transferable (received1 v w) = false.
Proof.
  unfold eslot. destruct (transferable v) eqn:Ht; intros H.
  - inversion H; subst.
    + destruct (is_number_num _ H0) as [c Hc].
      apply same_num with c c; auto.
      * destruct v; try discriminate; unfold received1; rewrite Hc; reflexivity.
      * reflexivity.
    + cbn. constructor.
  - destruct v; cbn in *; try discriminate; auto.
Qed.

(** The value arrives unchanged exactly when the receiver's type is wide enough. *)
Lemma received_same v w : slot v w -> (same v (received v w) <-> wide v w).
Proof.
  intros H. inversion H as [? ? H1|l l' HF]; subst.
  - inversion H1 as [? ? Hv Hw|]; subst.
    + destruct (is_number_num _ Hv) as [c Hc].
      assert (Hr : received v w = match w with PBool _ | PInt _ => PInt (qtrunc (re c)) | PFloat _ => PFloat (re c) | _ => PComplex c end).
      { unfold received. rewrite Hc. destruct v; try discriminate; destruct w; try discriminate; reflexivity. }
      rewrite Hr. unfold wide. rewrite Hc. split.
      * intros Hs. destruct w; auto; inversion Hs as [? ? Hs1|? ? ?]; subst; try discriminate;
          inversion Hs1 as [? ? c1 c2 E1 E2 E3|]; subst; try discriminate; rewrite Hc in E1; inversion E1; subst;
          cbn in E2; inversion E2; subst.
        -- eauto.
        -- eauto.
        -- destruct E3 as [_ E3]. exact E3.
      * intros Hs. apply same_one. 
        destruct w; try discriminate.
        -- destruct Hs as [z Hz]. apply same_num with c (Cof (inject_Z (qtrunc (re c)))); auto.
           rewrite (qtrunc_int _ z); auto. apply Hz.
        -- destruct Hs as [z0 Hz]. apply same_num with c (Cof (inject_Z (qtrunc (re c)))); auto.
           rewrite (qtrunc_int _ z0); auto. apply Hz.
        -- apply same_num with c (Cof (re c)); auto. split; [reflexivity|exact Hs].
        -- apply same_num with c c; auto. reflexivity.
    + cbn. split; auto. intros _. apply same_one. constructor.
  - cbn. split; auto. intros _. apply same_list. clear H. revert HF. induction 1; cbn; constructor; auto.
    apply received1_same. auto.
Qed.

Definition named_received (s r r' : obj) : Prop :=
  names r' = names r /\ size r' = size r /\
  (forall k, ~ In k (names r) -> lookup (attrs r') k = lookup (attrs r) k) /\
  (forall k v v', In k (names r) -> lookup (attrs s) k = Some v -> lookup (attrs r) k = Some v' ->
     lookup (attrs r') k = Some (received v v')).

Lemma obj_transfer s r post : compatible s r ->
  exists b r', obj_get s = Ok b /\ length b = size s /\ obj_set r (b ++ post) = Ok r' /\ named_received s r r'.
Proof.
  intros (Hz & Hn & Hsz & Hf). exists (encs (attrs s) (names s)).
  pose proof (obj_get_sized s Hz) as Hg.
  destruct Hz as (Hnd & Hs & Hk).
  destruct (unpack_names_ok (attrs s) (names s) Hnd (attrs r) [] post Hf) as (d & Hu & Ho & Hi).
  cbn [app length] in Hu. exists (mkObj d (names r) (size r)).
  split; auto. split; [rewrite encs_size; auto|]. split.
  - unfold obj_set. rewrite <- Hn, Hu. reflexivity.
  - split; [reflexivity|]. split; [reflexivity|]. cbn [attrs]. rewrite <- Hn. split; auto.
Qed.

Lemma named_received_transferred s r r' : compatible s r -> named_received s r r' ->
  (named wide (names s) (attrs s) (attrs r) <-> transferred s r r').
Proof.
  intros (Hz & Hn & Hsz & Hf) (Hn' & Hs' & Ho & Hi). split.
  - intros Hw. split; [|auto]. intros k Hk.
    destruct (Hf k Hk) as (v & w & Hv & Hw' & Hsl). destruct (Hw k Hk) as (v2 & w2 & Hv2 & Hw2 & Hwide).
    assert (v2 = v) by congruence. assert (w2 = w) by congruence. subst.
    exists v, (received v w). split; auto. split.
    + apply Hi; auto. rewrite <- Hn; auto.
    + apply received_same; auto.
  - intros (Hsame & _) k Hk.
    destruct (Hf k Hk) as (v & w & Hv & Hw' & Hsl). exists v, w. split; auto. split; auto.
    destruct (Hsame k Hk) as (v2 & w2 & Hv2 & Hw2 & Hs).
    assert (v2 = v) by congruence. subst.
    assert (E : lookup (attrs r') k = Some (received v w)) by (apply Hi; auto; rewrite <- Hn; auto).
    rewrite E in Hw2. inversion Hw2; subst. apply received_same; auto.
Qed.

(** The buffer of a compatible pair: never fails, has the advertised length, and gives a
    faithful copy exactly when every receiving scalar has a wide enough type. *)
Lemma skipn_app_exact (T : Type) n (a b : list T) : length a = n -> skipn n (a ++ b) = b.
Proof. intros <-. rewrite skipn_app, skipn_all, Nat.sub_diag. reflexivity. Qed.

Lemma walker_transfer a b : w_rel compatible a b -> one_nested a ->
  exists buf b', get_buffer a = Ok buf /\ length buf = handler_size a /\ set_buffer b buf = Ok b' /\
    named_received (own a) (own b) (own b') /\
    match field_configs a, field_configs b, field_configs b' with
    | Some x, Some y, Some y' => named_received x y y'
    | None, None, None => True | _, _, _ => False end /\
    match stack a, stack b, stack b' with
    | Some x, Some y, Some y' => named_received x y y'
    | None, None, None => True | _, _, _ => False end.
Proof.
  intros (Ho & Hf & Ht) H1. unfold get_buffer, set_buffer, handler_size, one_nested in *.
  assert (Hsz : size (own a) = size (own b)) by apply Ho.
  destruct (field_configs a) as [fa|], (field_configs b) as [fb|]; cbn in Hf; try contradiction;
  destruct (stack a) as [ta|], (stack b) as [tb|]; cbn in Ht; try contradiction.
  - destruct H1; discriminate.
  - destruct (obj_transfer fa fb [] Hf) as (bf & f' & G1 & L1 & S1 & N1). rewrite app_nil_r in S1.
    destruct (obj_transfer _ _ bf Ho) as (bo & o' & G0 & L0 & S0 & N0).
    rewrite G0, G1. cbn [rbind]. exists (bo ++ bf), (mkWalker o' (Some f') None).
    split; auto. split; [rewrite app_length; cbn [osize]; lia|]. rewrite S0. cbn [rbind opt_set].
    rewrite skipn_app_exact by congruence. rewrite S1. cbn [rbind field_configs stack own]. auto.
  - destruct (obj_transfer ta tb [] Ht) as (bf & f' & G1 & L1 & S1 & N1). rewrite app_nil_r in S1.
    destruct (obj_transfer _ _ bf Ho) as (bo & o' & G0 & L0 & S0 & N0).
    rewrite G0, G1. cbn [rbind]. exists (bo ++ bf), (mkWalker o' None (Some f')).
    split; auto. split; [rewrite app_length; cbn [osize]; lia|]. rewrite S0. cbn [rbind opt_set].
    rewrite skipn_app_exact by congruence. rewrite S1. cbn [rbind field_configs stack own]. auto.
  - destruct (obj_transfer _ _ [] Ho) as (bo & o' & G0 & L0 & S0 & N0). rewrite app_nil_r in S0.
    rewrite G0. cbn [rbind]. exists bo, (mkWalker o' None None).
    split; auto. split; [cbn [osize]; lia|]. rewrite S0. cbn. auto.
Qed.

Lemma roundtrip a b : w_rel compatible a b -> one_nested a ->
  exists buf b', get_buffer a = Ok buf /\ length buf = handler_size a /\ set_buffer b buf = Ok b' /\
    (w_named wide a b <-> w_transferred a b b').
Proof.
  intros H H1. pose proof H as (Ho & Hf & Ht).
  destruct (walker_transfer a b H H1) as (buf & b' & G & L & S & No & Nf & Nt).
  exists buf, b'. split; auto. split; auto. split; auto. unfold w_named, w_transferred.
  destruct (field_configs a), (field_configs b), (field_configs b'); cbn in Hf; try contradiction;
  destruct (stack a), (stack b), (stack b'); cbn in Ht; try contradiction; cbn [opt_rel];
  rewrite (named_received_transferred _ _ _ Ho No);
  try rewrite (named_received_transferred _ _ _ Hf Nf);
  try rewrite (named_received_transferred _ _ _ Ht Nt); tauto.
Qed.

(** A newly constructed object is sized. *)
Lemma numeric_names_in d ns sz : numeric_names d = (ns, sz) -> NoDup (map fst d) ->
  NoDup ns /\ (forall k, In k ns <-> exists v, In (k, v) d /\ v <> POther) /\ size_named d ns = sz.
Proof.
  revert ns sz. induction d as [|[k v] d IH]; intros ns sz H Hn.
  - inversion H; subst. split; [constructor|]. split; auto. intros k; split; [intros []|intros (? & [] & _)].
  - cbn in H, Hn. inversion Hn as [|? ? Hk Hn']; subst. destruct (numeric_names d) as [ns' sz'].
    destruct (IH ns' sz' eq_refl Hn') as (N1 & N2 & N3).
    assert (Hnk : ~ In k ns').
    { intros Hin. apply N2 in Hin. destruct Hin as (u & Hu & _). apply Hk. apply in_map_iff. exists (k, u); auto. }
    assert (Hsz : size_named ((k, v) :: d) ns' = sz').
    { rewrite <- N3. unfold size_named. f_equal. apply map_ext_in. intros k' Hk'. cbn.
      destruct (String.eqb k k') eqn:E; auto. apply String.eqb_eq in E. subst. contradiction. }
    assert (Hcons : v <> POther -> NoDup (k :: ns') /\
       (forall k', In k' (k :: ns') <-> exists u, In (k', u) ((k, v) :: d) /\ u <> POther) /\
       size_named ((k, v) :: d) (k :: ns') = attr_size v + sz').
    { intros Hv. split; [constructor; auto|]. split.
      - intros k'. cbn [In]. rewrite N2. split.
        + intros [<-|(u & Hu & Ho)]; eauto.
        + intros (u & [E|Hu] & Ho); [inversion E; auto|eauto].
      - unfold size_named. cbn [map nsum fold_right lookup]. rewrite String.eqb_refl. f_equal. exact Hsz. }
    destruct v; try (inversion H; subst; apply Hcons; discriminate).
    inversion H; subst. split; auto. split; auto.
    intros k'. rewrite N2. split.
    + intros (u & Hu & Ho). exists u. split; [right; exact Hu|exact Ho].
    + intros (u & [E|Hu] & Ho); [inversion E; congruence|]. exists u. split; auto.
Qed.

Lemma lookup_in d k v : NoDup (map fst d) -> In (k, v) d -> lookup d k = Some v.
Proof.
  induction d as [|[k' v'] d IH]; intros Hn Hin; [destruct Hin|]. cbn in *.
  inversion Hn; subst. destruct Hin as [E|Hin].
  - inversion E; subst. rewrite String.eqb_refl. auto.
  - destruct (String.eqb k' k) eqn:E; auto.
    apply String.eqb_eq in E. subst. exfalso. apply H1. apply in_map_iff. exists (k, v); auto.
Qed.

Lemma new_obj_sized d : NoDup (map fst d) -> sized (new_obj d).
Proof.
  intros Hn. unfold new_obj. destruct (numeric_names d) as [ns sz] eqn:E.
  destruct (numeric_names_in _ _ _ E Hn) as (N1 & N2 & N3).
  split; [exact N1|]. split; [exact N3|]. cbn [names attrs]. intros k Hk. apply N2 in Hk.
  destruct Hk as (v & Hv & Ho). exists v. split; auto. apply lookup_in; auto.
Qed.
