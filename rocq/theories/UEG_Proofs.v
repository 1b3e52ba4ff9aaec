(** Proofs for the plane-wave basis (C33, C34). *)
From Verif Require Import Base BaseFacts UEG_Model UEG_Spec.
From Coq Require Import Permutation Sorted.
Open Scope Z_scope.

(** ** enumeration *)
Lemma NoDup_app' {A} (l m : list A) : NoDup l -> NoDup m -> (forall x, In x l -> ~ In x m) -> NoDup (l ++ m).
Proof.
  induction l as [|x l IH]; intros Nl Nm D; cbn; [auto|]. inversion_clear Nl as [|? ? Nx Nl'].
  constructor.
  - rewrite in_app_iff. intros [H|H]; [auto|]. apply (D x); [now left | auto].
  - apply IH; auto. intros y Hy. apply D. now right.
Qed.

Lemma NoDup_flat_map {A B} (f : A -> list B) l : NoDup l -> (forall x, In x l -> NoDup (f x)) ->
  (forall x y b, In x l -> In y l -> In b (f x) -> In b (f y) -> x = y) -> NoDup (flat_map f l).
Proof.
  induction l as [|x l IH]; intros N F D; cbn; [constructor|]. inversion_clear N as [|? ? Nx Nl].
  apply NoDup_app'.
  - apply F. now left.
  - apply IH; auto; [intros y Hy; apply F; now right |]. intros y z b Hy Hz. apply D; now right.
  - intros b Hb Hb'. apply in_flat_map in Hb' as [y [Hy Hb']].
    rewrite (D x y b) in Nx; auto; [now left | now right].
Qed.

Lemma in_zrange n x : 0 <= n -> In x (zrange n) <-> - n <= x <= n.
Proof.
  intros Hn. unfold zrange. rewrite in_map_iff. split.
  - intros [i [E Hi]]. apply in_seq in Hi. lia.
  - intros H. exists (Z.to_nat (x + n)). split; [lia|]. apply in_seq. lia.
Qed.

Lemma NoDup_zrange n : NoDup (zrange n).
Proof. unfold zrange. apply FinFun.Injective_map_NoDup; [intros a b; lia | apply seq_NoDup]. Qed.

Lemma in_all_vecs n v : 0 <= n -> In v (all_vecs n) <->
  let '(x, y, z) := v in - n <= x <= n /\ - n <= y <= n /\ - n <= z <= n.
Proof.
  intros Hn. destruct v as [[x y] z]. unfold all_vecs. rewrite in_flat_map. split.
  - intros [i [Hi H]]. apply in_flat_map in H as [j [Hj H]]. apply in_map_iff in H as [k [E Hk]].
    inversion E; subst. rewrite in_zrange in * by auto. lia.
  - intros [Hx [Hy Hz]]. exists x. rewrite in_zrange by auto. split; [lia|].
    apply in_flat_map. exists y. rewrite in_zrange by auto. split; [lia|].
    apply in_map_iff. exists z. rewrite in_zrange by auto. split; [auto | lia].
Qed.

Lemma NoDup_all_vecs n : NoDup (all_vecs n).
Proof.
  unfold all_vecs. apply NoDup_flat_map; [apply NoDup_zrange | |].
  - intros x _. apply NoDup_flat_map; [apply NoDup_zrange | |].
    + intros y _. apply FinFun.Injective_map_NoDup; [intros a b E; congruence | apply NoDup_zrange].
    + intros y y' b _ _ H H'. apply in_map_iff in H as [k [E _]], H' as [k' [E' _]]. congruence.
  - intros x x' b _ _ H H'. apply in_flat_map in H as [y [_ H]], H' as [y' [_ H']].
    apply in_map_iff in H as [k [E _]], H' as [k' [E' _]]. congruence.
Qed.

Lemma insert_perm e x l : Permutation (insert e x l) (x :: l).
Proof.
  induction l as [|y l IH]; cbn; [auto|]. destruct (Qle_bool _ _); [auto|].
  rewrite IH. apply perm_swap.
Qed.

Lemma sort_perm e l : Permutation (sort_by e l) l.
Proof. induction l as [|x l IH]; cbn; [auto|]. rewrite insert_perm. now constructor. Qed.

Definition le_e (e : vec -> Q) (x y : vec) : Prop := (e x <= e y)%Q.

Lemma insert_sorted e x l : StronglySorted (le_e e) l -> StronglySorted (le_e e) (insert e x l).
Proof.
  induction l as [|y l IH]; intros H; cbn; [repeat constructor|].
  inversion_clear H as [|? ? Hl Hy]. destruct (Qle_bool (e x) (e y)) eqn:E.
  - apply Qle_bool_iff in E. constructor; [constructor; auto|]. constructor; [auto|].
    rewrite Forall_forall in *. intros z Hz. unfold le_e in *. specialize (Hy z Hz). lra.
  - constructor; [auto|]. rewrite Forall_forall in *. intros z Hz.
    apply (Permutation_in _ (insert_perm e x l)) in Hz. destruct Hz as [<-|Hz]; [| auto].
    apply Qle_bool_false in E. unfold le_e. lra.
Qed.

Lemma sort_sorted e l : StronglySorted (le_e e) (sort_by e l).
Proof. induction l as [|x l IH]; cbn; [constructor | now apply insert_sorted]. Qed.

(** ** cutoff *)
Lemma get_nmax_spec ecut n : get_nmax ecut = Ok n ->
  (0 <= ecut)%Q /\ 0 <= n /\ (2 * ecut <= inject_Z (n * n))%Q /\
  forall m, 0 <= m -> (inject_Z (m * m) <= 2 * ecut)%Q -> m <= n.
Proof.
  unfold get_nmax. destruct (Qltb_reflect ecut 0) as [H|H]; [discriminate|]. intros E. apply Ok_inj in E. subst n.
  assert (Hq : (0 <= 2 * ecut)%Q) by lra.
  assert (C : 0 <= Qceiling (2 * ecut)) by (apply Qceiling_resp_le in Hq; exact Hq).
  assert (B : Qceiling (2 * ecut) <= Z.sqrt_up (Qceiling (2 * ecut)) * Z.sqrt_up (Qceiling (2 * ecut))).
  { destruct (Z.eq_dec (Qceiling (2 * ecut)) 0) as [->|N]; [rewrite Z.sqrt_up_0; lia|].
    generalize (Z.sqrt_up_spec (Qceiling (2 * ecut)) ltac:(lia)). lia. }
  split; [lra|]. split; [apply Z.sqrt_up_nonneg|]. split.
  - apply Qle_trans with (inject_Z (Qceiling (2 * ecut))); [apply Qle_ceiling | now rewrite <- Zle_Qle].
  - intros m Hm Hle. apply Qle_trans with (2 := Qle_ceiling _) in Hle. rewrite <- Zle_Qle in Hle.
    set (s := Z.sqrt_up (Qceiling (2 * ecut))) in *. assert (0 <= s) by apply Z.sqrt_up_nonneg. nia.
Qed.

Lemma nmax_exists ecut : (0 <= ecut)%Q -> exists n, get_nmax ecut = Ok n.
Proof. intros H. unfold get_nmax. destruct (Qltb_reflect ecut 0); [lra | eauto]. Qed.

Lemma dot_nonneg v : 0 <= dot v v.
Proof. destruct v as [[x y] z]. cbn. nia. Qed.

Lemma dot_zero v : dot v v = 0 -> v = origin.
Proof. destruct v as [[x y] z]. cbn. intros H. unfold origin. assert (x = 0) by nia. assert (y = 0) by nia. assert (z = 0) by nia. congruence. Qed.

(** the basis: exactly the sphere, no repetition, sorted by energy *)
Lemma sp_spec ecut ks l n : sp_energies ecut ks = Ok (l, n) ->
  get_nmax ecut = Ok n /\ (forall v, In v l <-> within ecut v) /\ NoDup l /\ StronglySorted (le_e (energy ks)) l.
Proof.
  unfold sp_energies. destruct (get_nmax ecut) as [n'|] eqn:E; [| discriminate]. intros H. apply Ok_inj in H.
  inversion H; subst. clear H. split; [auto|]. pose proof (get_nmax_spec _ _ E) as [H0 [Hn [H1 H2]]].
  match goal with |- context [sort_by ?e ?l] => set (m := l); pose proof (sort_perm e m) as P end.
  assert (M : forall v, In v m <-> within ecut v).
  { intros v. unfold m. rewrite filter_In, in_all_vecs, Qle_bool_iff by auto. unfold within. split.
    - intros [_ H]. lra.
    - intros H. split; [| lra]. destruct v as [[x y] z].
      assert (B : forall c, c * c <= dot (x, y, z) (x, y, z) -> - n <= c <= n).
      { intros c Hc. specialize (H2 (Z.abs c) (Z.abs_nonneg c)). enough (Z.abs c <= n) by lia. apply H2.
        apply Qle_trans with (2 := H). rewrite <- Zle_Qle. nia. }
      split; [| split]; apply B; cbn; nia. }
  split; [| split].
  - intros v. rewrite <- M. split; apply Permutation_in; auto using Permutation_sym.
  - apply Permutation_NoDup with m; [auto using Permutation_sym|]. apply NoDup_filter, NoDup_all_vecs.
  - apply sort_sorted.
Qed.

Lemma sp_exists ecut ks : (0 <= ecut)%Q -> exists l n, sp_energies ecut ks = Ok (l, n).
Proof. intros H. destruct (nmax_exists ecut H) as [n E]. unfold sp_energies. rewrite E. cbn. eauto. Qed.

Lemma origin_within ecut : (0 <= ecut)%Q -> within ecut origin.
Proof. unfold within. change (inject_Z (dot origin origin)) with 0%Q. lra. Qed.

Lemma within_nmax ecut n v : get_nmax ecut = Ok n -> within ecut v -> dot v v <= n * n.
Proof.
  intros E H. apply get_nmax_spec in E as [_ [_ [H1 _]]]. unfold within in H.
  rewrite Zle_Qle. eapply Qle_trans; eauto.
Qed.

(** ** the index *)
Lemma square_bound n x r : 0 <= n -> x * x + r <= n * n -> 0 <= r -> - n <= x <= n.
Proof. nia. Qed.

Lemma map_index_nonneg n v : dot v v <= n * n -> 0 <= n -> 0 <= map_index n v.
Proof.
  destruct v as [[x y] z]. cbn. intros H Hn.
  pose proof (Z.square_nonneg x). pose proof (Z.square_nonneg y). pose proof (Z.square_nonneg z).
  assert (Bx : - n <= x <= n) by (apply (square_bound n x (y * y + z * z)); lia).
  assert (By : - n <= y <= n) by (apply (square_bound n y (x * x + z * z)); lia).
  assert (Bz : - n <= z <= n) by (apply (square_bound n z (x * x + y * y)); lia).
  assert (0 <= (2 * n) * (y + n)) by (apply Z.mul_nonneg_nonneg; lia).
  assert (0 <= (2 * n) * (2 * n) * (z + n)) by (apply Z.mul_nonneg_nonneg; [apply Z.mul_nonneg_nonneg|]; lia).
  change (0 <= x + n + 2 * n * (y + n) + 2 * n * (2 * n) * (z + n)). lia.
Qed.

Lemma multiple n a : 0 < n -> (exists k, a = 2 * n * k) -> - (2 * n) <= a <= 2 * n -> a = 0 \/ a = 2 * n \/ a = - (2 * n).
Proof.
  intros Hn [k Hk] Ha. assert (-1 <= k <= 1) by nia.
  assert (k = 0 \/ k = 1 \/ k = -1) as [->|[->| ->]] by lia; lia.
Qed.

Lemma extreme n x r : x * x + r <= n * n -> 0 <= r -> x = n \/ x = - n -> r = 0.
Proof. intros H Hr [->| ->]; nia. Qed.

Lemma map_index_inj n v w : 0 <= n -> dot v v <= n * n -> dot w w <= n * n -> map_index n v = map_index n w -> v = w.
Proof.
  destruct v as [[x y] z], w as [[p q] r]. cbn [dot map_index]. intros Hn Hv Hw E.
  pose proof (Z.square_nonneg x). pose proof (Z.square_nonneg y). pose proof (Z.square_nonneg z).
  pose proof (Z.square_nonneg p). pose proof (Z.square_nonneg q). pose proof (Z.square_nonneg r).
  assert (Bx : - n <= x <= n) by (apply (square_bound n x (y * y + z * z)); lia).
  assert (By : - n <= y <= n) by (apply (square_bound n y (x * x + z * z)); lia).
  assert (Bz : - n <= z <= n) by (apply (square_bound n z (x * x + y * y)); lia).
  assert (Bp : - n <= p <= n) by (apply (square_bound n p (q * q + r * r)); lia).
  assert (Bq : - n <= q <= n) by (apply (square_bound n q (p * p + r * r)); lia).
  assert (Br : - n <= r <= n) by (apply (square_bound n r (p * p + q * q)); lia).
  destruct (Z.eq_dec n 0) as [->|N]; [assert (x = p) by lia; assert (y = q) by lia; assert (z = r) by lia; congruence|].
  assert (D : (x - p) + 2 * n * ((y - q) + 2 * n * (z - r)) = 0) by nia.
  assert (Sq0 : forall c, c * c = 0 -> c = 0) by (intros c Hc; nia).
  assert (X : x = p).
  { destruct (multiple n (x - p)) as [|[C|C]]; [lia | exists (- ((y - q) + 2 * n * (z - r))); lia | lia | lia | |]; exfalso.
    - assert (y * y + z * z = 0) by (apply (extreme n x); lia). assert (q * q + r * r = 0) by (apply (extreme n p); lia).
      assert (y = 0) by (apply Sq0; lia). assert (z = 0) by (apply Sq0; lia). assert (q = 0) by (apply Sq0; lia). assert (r = 0) by (apply Sq0; lia).
      subst. lia.
    - assert (y * y + z * z = 0) by (apply (extreme n x); lia). assert (q * q + r * r = 0) by (apply (extreme n p); lia).
      assert (y = 0) by (apply Sq0; lia). assert (z = 0) by (apply Sq0; lia). assert (q = 0) by (apply Sq0; lia). assert (r = 0) by (apply Sq0; lia).
      subst. lia. }
  subst p. assert (D' : (y - q) + 2 * n * (z - r) = 0) by nia.
  assert (Y : y = q).
  { destruct (multiple n (y - q)) as [|[C|C]]; [lia | exists (- (z - r)); lia | lia | lia | |]; exfalso.
    - assert (x * x + z * z = 0) by (apply (extreme n y); lia). assert (x * x + r * r = 0) by (apply (extreme n q); lia).
      assert (z = 0) by (apply Sq0; lia). assert (r = 0) by (apply Sq0; lia). subst. lia.
    - assert (x * x + z * z = 0) by (apply (extreme n y); lia). assert (x * x + r * r = 0) by (apply (extreme n q); lia).
      assert (z = 0) by (apply Sq0; lia). assert (r = 0) by (apply Sq0; lia). subst. lia. }
  subst q. assert (z = r) by nia. congruence.
Qed.

(** ** the table *)
Lemma zmax_ge l m : m <= zmax l m /\ forall x, In x l -> x <= zmax l m.
Proof.
  revert m. induction l as [|y l IH]; intros m; cbn; [split; [lia | intros x []]|].
  destruct (IH (Z.max m y)) as [H1 H2]. split; [lia|]. intros x [->|Hx]; [lia | auto].
Qed.

Lemma norm_ix_ok n i : 0 <= i < Z.of_nat n -> norm_ix n i = Ok (Z.to_nat i).
Proof. intros H. unfold norm_ix. destruct (Z.leb_spec 0 i), (Z.ltb_spec i (Z.of_nat n)); cbn; try lia. reflexivity. Qed.

Lemma fill_table_spec bs : forall i t, (forall b, In b bs -> 0 <= b < Z.of_nat (length t)) -> NoDup bs ->
  exists t', fill_table i bs t = Ok t' /\ length t' = length t /\
    (forall j b, nth_error bs j = Some b -> nth_error t' (Z.to_nat b) = Some (i + j)%nat) /\
    (forall k, (forall b, In b bs -> Z.to_nat b <> k) -> nth_error t' k = nth_error t k).
Proof.
  induction bs as [|b bs IH]; intros i t H N.
  - exists t. cbn. repeat split; auto. intros [|j] b; discriminate.
  - inversion_clear N as [|? ? Nb Nbs]. cbn. rewrite norm_ix_ok by (apply H; now left). cbn.
    destruct (IH (S i) (upd (Z.to_nat b) i t)) as [t' [E [L [T1 T2]]]]; auto.
    { intros c Hc. rewrite length_upd. apply H. now right. }
    exists t'. rewrite length_upd in L. split; [exact E|]. split; [exact L|]. split.
    + intros [|j] c Hj; cbn in Hj.
      * injection Hj as <-. rewrite T2.
        -- rewrite nth_error_upd_eq; [f_equal; lia|]. specialize (H b (or_introl eq_refl)). lia.
        -- intros c Hc Ec. specialize (H b (or_introl eq_refl)) as Hb. specialize (H c (or_intror Hc)).
           assert (c = b) by lia. subst. auto.
      * rewrite (T1 j c Hj). f_equal. lia.
    + intros k Hk. rewrite T2 by (intros c Hc; apply Hk; now right).
      apply nth_error_upd_ne. apply Hk. now left.
Qed.

Section Built.
  Variables (ecut : Q) (ks : Q * Q * Q) (l : list vec) (n : Z).
  Hypothesis Esp : sp_energies ecut ks = Ok (l, n).

  Lemma table_spec : exists t, create_table n l = Ok t /\
    forall j v, nth_error l j = Some v -> map_index n v < Z.of_nat (length t) /\ nth_error t (Z.to_nat (map_index n v)) = Some j.
  Proof.
    pose proof (sp_spec _ _ _ _ Esp) as [En [Hin [Hnd _]]].
    pose proof (get_nmax_spec _ _ En) as [H0 [Hn _]].
    assert (B : forall v, In v l -> dot v v <= n * n) by (intros v Hv; apply (within_nmax _ _ _ En), Hin, Hv).
    assert (NN : NoDup (map (map_index n) l)).
    { clear - Hnd B Hn. induction l as [|x m IH]; cbn; [constructor|]. inversion_clear Hnd as [|? ? Nx Nm].
      constructor; [| apply IH; auto; intros; apply B; now right].
      rewrite in_map_iff. intros [y [E Hy]]. apply Nx. rewrite <- (map_index_inj n y x); auto; apply B; [now right | now left]. }
    unfold create_table. destruct (map (map_index n) l) as [|b bs] eqn:Em.
    - exfalso. destruct l; [| discriminate]. apply (proj2 (Hin origin)). now apply origin_within.
    - destruct (zmax_ge bs b) as [Z1 Z2].
      assert (P : forall c, In c (b :: bs) -> 0 <= c <= zmax bs b).
      { intros c Hc. split; [| destruct Hc as [<-|Hc]; auto].
        rewrite <- Em in Hc. apply in_map_iff in Hc as [v [<- Hv]]. apply map_index_nonneg; auto. }
      destruct (fill_table_spec (b :: bs) 0 (repeat 0%nat (Z.to_nat (zmax bs b + 1)))) as [t [E [L [T1 _]]]]; auto.
      { intros c Hc. rewrite repeat_length. specialize (P c Hc). lia. }
      exists t. split; [exact E|]. intros j v Hj.
      assert (Hm : nth_error (b :: bs) j = Some (map_index n v)) by (rewrite <- Em; now apply map_nth_error).
      rewrite L, repeat_length. pose proof (P _ (nth_error_In _ _ Hm)). split; [lia|]. now apply T1.
  Qed.

  Lemma sphere v : In v l <-> within ecut v.
  Proof. apply (sp_spec _ _ _ _ Esp). Qed.

  Lemma l_nonempty : l <> [].
  Proof.
    pose proof (sp_spec _ _ _ _ Esp) as [En _]. pose proof (get_nmax_spec _ _ En) as [H0 _].
    intros E. pose proof (proj2 (sphere origin) (origin_within _ H0)) as H. rewrite E in H. destruct H.
  Qed.

  Lemma last_in : In (List.last l origin) l.
  Proof. destruct (exists_last l_nonempty) as [m [x E]]. rewrite E, last_last. apply in_or_app. right. now left. Qed.

  Lemma within_mono v w : dot v v <= dot w w -> within ecut w -> within ecut v.
  Proof. unfold within. rewrite Zle_Qle. lra. Qed.

  Let s := dot (List.last l origin) (List.last l origin).

  (** lookup never gives a wrong index *)
  Lemma lookup_some t v j : create_table n l = Ok t -> nth_error l j = Some v -> dot v v <= s ->
    lookup_basis (Ueg l n s t) v = Ok (Some j).
  Proof.
    intros Et Hj Hs. destruct table_spec as [t' [Et' T]]. rewrite Et in Et'. apply Ok_inj in Et'. subst t'.
    destruct (T j v Hj) as [T1 T2]. unfold lookup_basis. cbn [imax_sq nmax table].
    destruct (Z.leb_spec (dot v v) s); [| lia].
    destruct (Z.leb_spec (Z.of_nat (length t)) (map_index n v)); [lia|].
    pose proof (sp_spec _ _ _ _ Esp) as [En _]. pose proof (get_nmax_spec _ _ En) as [He0 [Hn _]].
    rewrite norm_ix_ok; [cbn; now rewrite T2|]. split; [| lia].
    apply map_index_nonneg; [| auto]. apply (within_nmax _ _ _ En), sphere. now apply nth_error_In in Hj.
  Qed.

  Lemma lookup_none t v : s < dot v v -> lookup_basis (Ueg l n s t) v = Ok None.
  Proof. intros H. unfold lookup_basis. cbn [imax_sq]. destruct (Z.leb_spec (dot v v) s); [lia | reflexivity]. Qed.

  Lemma lookup_spec t v : create_table n l = Ok t ->
    exists r, lookup_basis (Ueg l n s t) v = Ok r /\
      forall j, r = Some j <-> nth_error l j = Some v /\ dot v v <= s.
  Proof.
    intros Et. pose proof (sp_spec _ _ _ _ Esp) as [_ [_ [Hnd _]]].
    destruct (Z_le_gt_dec (dot v v) s) as [H|H].
    - assert (Hv : In v l) by (apply sphere, (within_mono v (List.last l origin)); [exact H | apply sphere, last_in]).
      apply In_nth_error in Hv as [j Hj]. exists (Some j). split; [now apply lookup_some|].
      intros k. split; [intros E; injection E as <-; auto|]. intros [Hk _]. f_equal.
      apply (proj1 (NoDup_nth_error l) Hnd); [apply nth_error_Some; congruence | congruence].
    - exists None. split; [apply lookup_none; lia|]. intros j. split; [discriminate | lia].
  Qed.

  Lemma check_spec t : create_table n l = Ok t -> forall pre post, l = pre ++ post ->
    (forall v, In v post -> dot v v <= s) -> check_basis (Ueg l n s t) (length pre) post = Ok tt.
  Proof.
    intros Et pre post. revert pre. induction post as [|v post IH]; intros pre El H; [reflexivity|]. cbn.
    rewrite (lookup_some t v (length pre) Et); [| rewrite El, nth_error_app2, Nat.sub_diag by lia; reflexivity | apply H; now left].
    cbn. rewrite Nat.eqb_refl. specialize (IH (pre ++ [v])). rewrite app_length, Nat.add_1_r in IH. apply IH.
    - now rewrite <- app_assoc.
    - intros w Hw. apply H. now right.
  Qed.

  Lemma check_conv t : create_table n l = Ok t -> forall i post, check_basis (Ueg l n s t) i post = Ok tt ->
    forall v, In v post -> dot v v <= s.
  Proof.
    intros Et i post. revert i. induction post as [|v post IH]; intros i H w Hw; [destruct Hw|]. cbn in H.
    destruct (Z_le_gt_dec (dot v v) s) as [L|L]; [| rewrite lookup_none in H by lia; discriminate].
    destruct Hw as [<-|Hw]; [auto|].
    destruct (lookup_basis _ v) as [[j|]|]; cbn in H; try discriminate.
    destruct (i =? j)%nat; [eauto | discriminate].
  Qed.

  Lemma check_err t : create_table n l = Ok t -> forall pre post, l = pre ++ post ->
    (exists v, In v post /\ s < dot v v) -> check_basis (Ueg l n s t) (length pre) post = Err AssertionError.
  Proof.
    intros Et pre post. revert pre. induction post as [|v post IH]; intros pre El [w [Hw L]]; [destruct Hw|]. cbn.
    destruct (Z_le_gt_dec (dot v v) s) as [Lv|Lv].
    - rewrite (lookup_some t v (length pre) Et); [| rewrite El, nth_error_app2, Nat.sub_diag by lia; reflexivity | auto].
      cbn. rewrite Nat.eqb_refl. specialize (IH (pre ++ [v])). rewrite app_length, Nat.add_1_r in IH. apply IH.
      + now rewrite <- app_assoc.
      + exists w. split; [destruct Hw as [->|Hw]; [lia | auto] | auto].
    - rewrite lookup_none by lia. reflexivity.
  Qed.

  Lemma build_eq : exists t, create_table n l = Ok t /\
    (last_is_largest l -> build ecut ks = Ok (Ueg l n s t)) /\
    (~ last_is_largest l -> build ecut ks = Err AssertionError).
  Proof.
    destruct table_spec as [t [Et _]]. exists t. split; [exact Et|].
    assert (B : build ecut ks = rbind (check_basis (Ueg l n s t) 0 l) (fun _ => Ok (Ueg l n s t))).
    { unfold build. rewrite Esp. cbn [rbind fst snd]. destruct (exists_last l_nonempty) as [m [x E]].
      rewrite Et. unfold s. rewrite E, rev_app_distr, last_last. cbn [rev app rbind basis]. now rewrite <- E. }
    rewrite B. split; intros H.
    - change 0%nat with (length (@nil vec)). now rewrite (check_spec t Et [] l eq_refl H).
    - change 0%nat with (length (@nil vec)). rewrite (check_err t Et [] l eq_refl); [reflexivity|].
      assert (D : (exists v, In v l /\ s < dot v v) \/ forall v, In v l -> dot v v <= s).
      { generalize s. intros s'. clear. induction l as [|x m [IH|IH]].
        - right. intros v [].
        - left. destruct IH as [v [Hv L]]. exists v. split; [now right | auto].
        - destruct (Z_le_gt_dec (dot x x) s') as [L|L].
          + right. intros v [<-|Hv]; auto.
          + left. exists x. split; [now left | lia]. }
      destruct D as [D|D]; [auto | exfalso; auto].
  Qed.
End Built.

(** without a twist the last vector is the largest *)
Lemma energy_zero v : (energy (0, 0, 0)%Q v == (1 # 2) * inject_Z (dot v v))%Q.
Proof. destruct v as [[x y] z]. cbn. rewrite !inject_Z_plus, !inject_Z_mult. ring. Qed.

Lemma untwisted_largest ecut l n : sp_energies ecut (0, 0, 0)%Q = Ok (l, n) -> last_is_largest l.
Proof.
  intros E. pose proof (sp_spec _ _ _ _ E) as [_ [_ [_ S]]].
  destruct (exists_last (l_nonempty _ _ _ _ E)) as [m [x El]]. subst l. intros v Hv. rewrite last_last.
  apply in_app_iff in Hv as [Hv|[<-|[]]]; [| lia].
  assert (G : (energy (0, 0, 0)%Q v <= energy (0, 0, 0)%Q x)%Q).
  { clear E. induction m as [|y m IH]; [destruct Hv|]. cbn in S. inversion_clear S as [|? ? S1 S2].
    destruct Hv as [<-|Hv]; [| auto]. rewrite Forall_forall in S2. apply S2, in_or_app. right. now left. }
  rewrite !energy_zero in G. rewrite Zle_Qle. lra.
Qed.

(** ** C33 *)
Theorem lookup_main ecut ks u : build ecut ks = Ok u ->
  NoDup (basis u) /\ (forall v, In v (basis u) <-> within ecut v) /\
  forall v, exists r, lookup_basis u v = Ok r /\ forall j, r = Some j <-> nth_error (basis u) j = Some v.
Proof.
  intros B. assert (H0 : exists l n, sp_energies ecut ks = Ok (l, n)).
  { unfold build in B. destruct (sp_energies ecut ks) as [[l n]|]; [eauto | discriminate]. }
  destruct H0 as [l [n E]]. destruct (build_eq _ _ _ _ E) as [t [Et [B1 B2]]].
  assert (D : last_is_largest l).
  { assert (D : last_is_largest l \/ exists v, In v l /\ dot (List.last l origin) (List.last l origin) < dot v v).
    { unfold last_is_largest. generalize (dot (List.last l origin) (List.last l origin)). intros s. clear.
      induction l as [|x m [IH|IH]]; [left; intros v [] | |].
      - destruct (Z_le_gt_dec (dot x x) s) as [L|L].
        + left. intros v [<-|Hv]; auto.
        + right. exists x. split; [now left | lia].
      - right. destruct IH as [v [Hv L]]. exists v. split; [now right | auto]. }
    destruct D as [D|[v [Hv L]]]; [auto|]. rewrite B2 in B; [discriminate|]. intros C. specialize (C v Hv). lia. }
  rewrite (B1 D) in B. apply Ok_inj in B. subst u. cbn [basis].
  pose proof (sp_spec _ _ _ _ E) as [_ [Hin [Hnd _]]]. split; [auto|]. split; [auto|].
  intros v. destruct (lookup_spec _ _ _ _ E t v Et) as [r [R1 R2]]. exists r. split; [exact R1|].
  intros j. rewrite R2. split; [tauto|]. intros Hj. split; [auto|]. apply D. now apply nth_error_In in Hj.
Qed.

Theorem build_untwisted ecut : (0 <= ecut)%Q -> exists u, build ecut (0, 0, 0)%Q = Ok u.
Proof.
  intros H. destruct (sp_exists ecut (0, 0, 0)%Q H) as [l [n E]].
  destruct (build_eq _ _ _ _ E) as [t [Et [B1 _]]]. eexists. apply B1. eapply untwisted_largest, E.
Qed.

Theorem build_twisted ecut ks l n : sp_energies ecut ks = Ok (l, n) ->
  (last_is_largest l -> exists u, build ecut ks = Ok u) /\ (~ last_is_largest l -> build ecut ks = Err AssertionError).
Proof.
  intros E. destruct (build_eq _ _ _ _ E) as [t [Et [B1 B2]]]. split; [eauto | exact B2].
Qed.

Lemma negative_cutoff ecut ks : (ecut < 0)%Q -> build ecut ks = Err ValueError.
Proof. intros H. unfold build, sp_energies, get_nmax. destruct (Qltb_reflect ecut 0); [reflexivity | lra]. Qed.

Lemma twist_refuted : build 6 (1 # 2, 0, 0)%Q = Err AssertionError.
Proof. vm_compute. reflexivity. Qed.

(** ** C34 *)
Lemma pairs_spec u move ks : (forall v, exists r, lookup_basis u v = Ok r /\ forall j, r = Some j <-> nth_error (basis u) j = Some v) ->
  forall i, exists l, pairs u move i ks = Ok l /\ NoDup (map fst l) /\
    (forall a b, In (a, b) l <-> (i <= a)%nat /\ exists k, nth_error ks (a - i) = Some k /\ nth_error (basis u) b = Some (move k)).
Proof.
  intros HL. induction ks as [|k ks IH]; intros i.
  - exists []. cbn. split; [auto|]. split; [constructor|]. intros a b. split; [intros []|]. intros [_ [k [H _]]]. destruct (a - i)%nat; discriminate.
  - cbn. destruct (HL (move k)) as [r [R1 R2]]. rewrite R1. cbn. destruct (IH (S i)) as [l [E [N L]]]. rewrite E. cbn.
    exists (match r with Some j => (i, j) :: l | None => l end). split; [reflexivity|].
    assert (Ni : ~ In i (map fst l)).
    { intros H. apply in_map_iff in H as [[a b] [Ea Hab]]. cbn in Ea. subst. apply L in Hab as [Hab _]. lia. }
    split; [destruct r; [constructor; auto | auto]|].
    intros a b. split.
    + intros H. assert (C : (r = Some b /\ a = i) \/ In (a, b) l).
      { destruct r as [j|]; [| auto]. destruct H as [H|H]; [inversion H; auto | auto]. }
      destruct C as [[C1 C2]|C].
      * subst a. split; [lia|]. exists k. rewrite Nat.sub_diag. split; [reflexivity|]. now apply R2.
      * apply L in C as [C1 [k' [C2 C3]]]. split; [lia|]. exists k'. split; [| auto].
        replace (a - i)%nat with (S (a - S i)) by lia. exact C2.
    + intros [H1 [k' [H2 H3]]]. destruct (Nat.eq_dec a i) as [->|Na].
      * rewrite Nat.sub_diag in H2. cbn in H2. injection H2 as <-. apply R2 in H3. subst r. now left.
      * assert (In (a, b) l).
        { apply L. split; [lia|]. exists k'. split; [| auto]. replace (a - i)%nat with (S (a - S i)) in H2 by lia. exact H2. }
        destruct r; [now right | auto].
Qed.

Lemma nth_error_firstn' {A} (l : list A) n i : nth_error (firstn n l) i = if (i <? n)%nat then nth_error l i else None.
Proof.
  revert l i. induction n as [|n IH]; intros l i.
  - destruct i; reflexivity.
  - destruct l as [|x l].
    + replace (nth_error (firstn (S n) []) i) with (@None A) by (destruct i; reflexivity).
      replace (nth_error [] i) with (@None A) by (destruct i; reflexivity). now destruct (i <? S n)%nat.
    + destruct i as [|i]; [reflexivity|]. cbn [nth_error firstn]. rewrite IH. reflexivity.
Qed.

Theorem lists_main ecut ks u n move : build ecut ks = Ok u ->
  exists l, pairs u move 0 (firstn n (basis u)) = Ok l /\ NoDup (map fst l) /\
    forall a b, In (a, b) l <-> (a < n)%nat /\ exists k, nth_error (basis u) a = Some k /\ nth_error (basis u) b = Some (move k).
Proof.
  intros B. destruct (lookup_main _ _ _ B) as [_ [_ HL]].
  destruct (pairs_spec u move (firstn n (basis u)) HL 0%nat) as [l [E [N L]]].
  exists l. split; [exact E|]. split; [exact N|]. intros a b. rewrite L, Nat.sub_0_r.
  split.
  - intros [_ [k [H1 H2]]]. rewrite nth_error_firstn' in H1. destruct (Nat.ltb_spec a n); [| discriminate]. split; [auto|]. eauto.
  - intros [H [k [H1 H2]]]. split; [lia|]. exists k. rewrite nth_error_firstn'. destruct (Nat.ltb_spec a n); [auto | lia].
Qed.

(** transfers without a twist: every nonzero vector of the larger sphere *)
Theorem qvecs_main ecut : (0 <= ecut)%Q -> exists qs, get_qvecs ecut (0, 0, 0)%Q = Ok qs /\ NoDup qs /\
  forall q, In q qs <-> q <> origin /\ within (4 * ecut) q.
Proof.
  intros H. destruct (sp_exists (4 * ecut) (0, 0, 0)%Q ltac:(lra)) as [l [n E]].
  unfold get_qvecs. rewrite E. cbn. pose proof (sp_spec _ _ _ _ E) as [_ [Hin [Hnd S]]].
  assert (H4 : (0 <= 4 * ecut)%Q) by lra.
  pose proof (proj2 (Hin origin) (origin_within _ H4)) as Ho.
  destruct l as [|x l]; [destruct Ho|]. inversion_clear S as [|? ? S1 S2]. inversion_clear Hnd as [|? ? N1 N2].
  assert (X : x = origin).
  { destruct Ho as [|Ho]; [auto|]. rewrite Forall_forall in S2. specialize (S2 origin Ho).
    unfold le_e in S2. rewrite !energy_zero in S2. apply dot_zero. pose proof (dot_nonneg x).
    assert (inject_Z (dot x x) <= inject_Z 0)%Q by (change (inject_Z 0) with (inject_Z (dot origin origin)); lra).
    rewrite <- Zle_Qle in H1. lia. }
  subst x. exists l. split; [reflexivity|]. split; [auto|]. intros q. rewrite <- Hin. cbn. split.
  - intros Hq. split; [intros ->; auto | auto].
  - intros [Hq [<-|Hq']]; [congruence | auto].
Qed.

Lemma vadd_vsub a b : vadd a (vsub b a) = b.
Proof. destruct a as [[x y] z], b as [[p q] r]. cbn. f_equal; [f_equal|]; lia. Qed.

(** any two plane waves differ by a transfer of the larger sphere *)
Lemma transfer_within ecut a b : within ecut a -> within ecut b -> within (4 * ecut) (vsub b a).
Proof.
  assert (L : dot (vsub b a) (vsub b a) <= 2 * dot a a + 2 * dot b b).
  { destruct a as [[x y] z], b as [[p q] r]. cbn [dot vsub].
    pose proof (Z.square_nonneg (p + x)). pose proof (Z.square_nonneg (q + y)). pose proof (Z.square_nonneg (r + z)). lia. }
  unfold within. intros Ha Hb. rewrite Zle_Qle in L. rewrite inject_Z_plus, !inject_Z_mult in L.
  change (inject_Z 2) with 2%Q in L. lra.
Qed.

Theorem transfers_complete ecut u qs : (0 <= ecut)%Q -> build ecut (0, 0, 0)%Q = Ok u -> get_qvecs ecut (0, 0, 0)%Q = Ok qs ->
  forall i j a b, i <> j -> nth_error (basis u) i = Some a -> nth_error (basis u) j = Some b ->
  exists iq q, nth_error qs iq = Some q /\ b = vadd a q /\
    forall iq' q', nth_error qs iq' = Some q' -> b = vadd a q' -> iq' = iq.
Proof.
  intros H B Q i j a b Nij Hi Hj. destruct (lookup_main _ _ _ B) as [Nd [Hin _]].
  destruct (qvecs_main ecut H) as [qs' [Q' [Nq Hq]]]. rewrite Q in Q'. apply Ok_inj in Q'. subst qs'.
  assert (M : In (vsub b a) qs).
  { apply Hq. split.
    - intros E. apply Nij. apply (proj1 (NoDup_nth_error (basis u)) Nd); [apply nth_error_Some; congruence|].
      rewrite Hi, Hj. f_equal. rewrite <- (vadd_vsub a b), E. destruct a as [[x y] z]. cbn. f_equal; [f_equal|]; lia.
    - apply transfer_within; apply Hin; eapply nth_error_In; eauto. }
  apply In_nth_error in M as [iq M]. exists iq, (vsub b a). split; [auto|]. split; [now rewrite vadd_vsub|].
  intros iq' q' M' E. apply (proj1 (NoDup_nth_error qs) Nq); [apply nth_error_Some; congruence|]. rewrite M, M'. f_equal.
  subst b. destruct a as [[x y] z], q' as [[p q] r]. cbn. f_equal; [f_equal|]; lia.
Qed.

(** ** the density operator *)
Section DensityProofs.
  Variables (K : Type) (factor : vec -> K).

  Lemma at_pos_app row col (l m : list (nat * nat * K)) : at_pos row col (l ++ m) = at_pos row col l ++ at_pos row col m.
  Proof. unfold at_pos. now rewrite filter_app, map_app. Qed.

  Lemma filter_false' {A} (p : A -> bool) l : (forall x, In x l -> p x = false) -> filter p l = [].
  Proof. induction l as [|x l IH]; intros H; [reflexivity|]. cbn. rewrite H by now left. apply IH. intros y Hy. apply H. now right. Qed.

  Lemma filter_one {A} (p : A -> bool) l x : NoDup l -> In x l -> (forall y, In y l -> p y = true <-> y = x) -> filter p l = [x].
  Proof.
    induction l as [|y l IH]; intros N Hx H; [destruct Hx|]. inversion_clear N as [|? ? Ny Nl]. cbn.
    destruct (p y) eqn:E.
    - apply H in E; [| now left]. subst y. f_equal. apply filter_false'. intros z Hz.
      destruct (p z) eqn:Ez; [| reflexivity]. apply H in Ez; [| now right]. congruence.
    - assert (Hne : x <> y) by (intros <-; rewrite (proj2 (H x (or_introl eq_refl)) eq_refl) in E; discriminate).
      destruct Hx as [Hx|Hx]; [congruence|]. apply IH; auto. intros z Hz. apply H. now right.
  Qed.

  Lemma pair_ix nb i j a b : (i < nb)%nat -> (a < nb)%nat -> (j * nb + i = b * nb + a)%nat -> i = a /\ j = b.
  Proof. intros. assert (j = b) by nia. subst. lia. Qed.

  Section U.
    Variables (ecut : Q) (ks : Q * Q * Q) (u : ueg).
    Hypothesis B : build ecut ks = Ok u.
    Let nb := length (basis u).

    Notation connected := (UEG_Spec.connected u).

    Lemma ikpq_all q : exists l, ikpq u nb q = Ok l /\ NoDup l /\ (forall a b, In (a, b) l <-> connected q a b).
    Proof.
      destruct (lists_main ecut ks u nb (fun k => vadd k q) B) as [l [E [N L]]]. exists l. split; [exact E|].
      split; [now apply NoDup_map_inv in N|]. intros a b. rewrite L. unfold UEG_Spec.connected. split.
      - intros [_ H]. exact H.
      - intros [k [H1 H2]]. split; [apply nth_error_Some; congruence | eauto].
    Qed.

    Lemma one_col (tr : bool) q iq l i j : ikpq u nb q = Ok l -> (i < nb)%nat -> (j < nb)%nat -> forall col,
      (connected q i j -> at_pos (if tr then (i * nb + j)%nat else (j * nb + i)%nat) col
        (map (fun ij : nat * nat => (if tr then (snd ij + fst ij * nb)%nat else (snd ij * nb + fst ij)%nat, iq, factor q)) l)
        = if (iq =? col)%nat then [factor q] else []) /\
      (~ connected q i j -> at_pos (if tr then (i * nb + j)%nat else (j * nb + i)%nat) col
        (map (fun ij : nat * nat => (if tr then (snd ij + fst ij * nb)%nat else (snd ij * nb + fst ij)%nat, iq, factor q)) l) = []).
    Proof.
      intros E Hi Hj col. destruct (ikpq_all q) as [l' [E' [N L]]]. rewrite E in E'. apply Ok_inj in E'. subst l'.
      assert (R : forall a b, In (a, b) l -> (a < nb)%nat /\ (b < nb)%nat).
      { intros a b H. apply L in H as [k [H1 H2]]. split; apply nth_error_Some; congruence. }
      assert (P : forall a b, In (a, b) l ->
        ((if tr then b + a * nb else b * nb + a) =? (if tr then i * nb + j else j * nb + i)%nat)%nat = true <-> (a, b) = (i, j)).
      { intros a b H. destruct (R a b H) as [Ra Rb]. rewrite Nat.eqb_eq. split; [| intros E0; inversion E0; destruct tr; lia].
        intros E0. assert (a = i /\ b = j) as [-> ->]; [| reflexivity].
        destruct tr.
        - destruct (pair_ix nb b a j i Rb Hj) as [-> ->]; [lia | auto].
        - destruct (pair_ix nb a b i j Ra Hi) as [-> ->]; [lia | auto]. }
      unfold at_pos. split; intros C.
      - apply L in C.
        assert (F : forall m, (forall x, In x m -> In x l) -> filter (fun e : nat * nat * K => (fst (fst e) =? (if tr then i * nb + j else j * nb + i)%nat)%nat && (snd (fst e) =? col)%nat)
             (map (fun ij : nat * nat => (if tr then (snd ij + fst ij * nb)%nat else (snd ij * nb + fst ij)%nat, iq, factor q)) m) =
             map (fun ij : nat * nat => (if tr then (snd ij + fst ij * nb)%nat else (snd ij * nb + fst ij)%nat, iq, factor q))
              (filter (fun ij : nat * nat => ((if tr then (snd ij + fst ij * nb)%nat else (snd ij * nb + fst ij)%nat) =? (if tr then i * nb + j else j * nb + i)%nat)%nat && (iq =? col)%nat) m)).
        { induction m as [|x m IH]; intros Hm; [reflexivity|]. cbn [map filter fst snd].
          destruct (_ && _); cbn [map]; rewrite IH; auto; intros y Hy; apply Hm; now right. }
        rewrite F by auto. clear F. destruct (Nat.eqb_spec iq col) as [Ec|Ec].
        + rewrite (filter_one _ l (i, j)); auto. intros [a b] H. rewrite andb_true_r. cbn [fst snd]. now apply P.
        + rewrite filter_false'; [reflexivity|]. intros. apply andb_false_r.
      - rewrite filter_false'; [reflexivity|]. intros e He. apply in_map_iff in He as [[a b] [<- H]]. cbn [fst snd].
        destruct (Nat.eqb_spec (if tr then b + a * nb else b * nb + a) (if tr then i * nb + j else j * nb + i)%nat)%nat as [E0|]; [| reflexivity].
        exfalso. apply C. apply Nat.eqb_eq in E0. apply P in E0; [| auto]. inversion E0; subst. now apply L.
    Qed.

    Theorem density_main (tr : bool) qs : forall iq0, exists l, density K factor u tr iq0 qs = Ok l /\
      forall i j iq q, (i < nb)%nat -> (j < nb)%nat -> nth_error qs iq = Some q ->
        (connected q i j -> at_pos (if tr then (i * nb + j)%nat else (j * nb + i)%nat) (iq0 + iq)%nat l = [factor q]) /\
        (~ connected q i j -> at_pos (if tr then (i * nb + j)%nat else (j * nb + i)%nat) (iq0 + iq)%nat l = []).
    Proof.
      assert (G : forall qs iq0, exists l, density K factor u tr iq0 qs = Ok l /\
        (forall row col, (col < iq0)%nat -> at_pos row col l = []) /\
        forall i j iq q, (i < nb)%nat -> (j < nb)%nat -> nth_error qs iq = Some q ->
        (connected q i j -> at_pos (if tr then (i * nb + j)%nat else (j * nb + i)%nat) (iq0 + iq)%nat l = [factor q]) /\
        (~ connected q i j -> at_pos (if tr then (i * nb + j)%nat else (j * nb + i)%nat) (iq0 + iq)%nat l = [])).
      { clear qs. induction qs as [|q qs IH]; intros iq0.
        - exists []. split; [reflexivity|]. split; [reflexivity|]. intros i j [|iq] q; discriminate.
        - cbn. destruct (ikpq_all q) as [m [Em _]]. fold nb. rewrite Em. cbn [rbind].
          destruct (IH (S iq0)) as [l [El [L0 L]]]. rewrite El. cbn [rbind]. eexists. split; [reflexivity|]. split.
          + intros row col Hc. rewrite at_pos_app, (L0 row col) by lia. rewrite app_nil_r. unfold at_pos.
            rewrite filter_false'; [reflexivity|]. intros e He. apply in_map_iff in He as [x [<- _]]. cbn [fst snd].
            destruct (Nat.eqb_spec iq0 col); [lia|]. apply andb_false_r.
          + intros i j iq q' Hi Hj Hq. rewrite !at_pos_app.
            destruct iq as [|iq]; cbn in Hq.
            * injection Hq as <-. rewrite Nat.add_0_r, (L0 _ iq0) by lia. rewrite app_nil_r.
              destruct (one_col tr q iq0 m i j Em Hi Hj iq0) as [O1 O2]. rewrite Nat.eqb_refl in O1. auto.
            * replace (iq0 + S iq)%nat with (S iq0 + iq)%nat by lia. destruct (L i j iq q' Hi Hj Hq) as [L1 L2].
              assert (Z : at_pos (if tr then (i * nb + j)%nat else (j * nb + i)%nat) (S iq0 + iq)%nat
                (map (fun ij : nat * nat => (if tr then (snd ij + fst ij * nb)%nat else (snd ij * nb + fst ij)%nat, iq0, factor q)) m) = []).
              { unfold at_pos. rewrite filter_false'; [reflexivity|]. intros e He. apply in_map_iff in He as [x [<- _]]. cbn [fst snd].
                destruct (Nat.eqb_spec iq0 (S iq0 + iq)); [lia|]. apply andb_false_r. }
              rewrite Z. cbn [app]. auto. }
      intros iq0. destruct (G qs iq0) as [l [E [_ L]]]. eauto.
    Qed.
  End U.
End DensityProofs.

Lemma twist_origin_refuted : exists u qs, build (1 # 2) (1 # 2, 0, 0)%Q = Ok u /\ get_qvecs (1 # 2) (1 # 2, 0, 0)%Q = Ok qs /\
  In origin qs /\ ~ In (-1, 0, 0) qs.
Proof.
  do 2 eexists. split; [vm_compute; reflexivity|]. split; [vm_compute; reflexivity|]. split.
  - cbn. auto 40.
  - cbn. intros H. repeat (destruct H as [H|H]; [discriminate|]). exact H.
Qed.

(** one up and two down electrons: the pair of the second down orbital is missing *)
Lemma down_refuted : exists u l, build (1 # 2) (0, 0, 0)%Q = Ok u /\ ikpq u (nlimit false 1 (length (basis u))) (1, 0, 0) = Ok l /\
  nth_error (basis u) 1 = Some (-1, 0, 0) /\ nth_error (basis u) 0 = Some (vadd (-1, 0, 0) (1, 0, 0)) /\ ~ In (1%nat, 0%nat) l.
Proof.
  do 2 eexists. split; [vm_compute; reflexivity|]. split; [vm_compute; reflexivity|]. split; [reflexivity|]. split; [reflexivity|].
  cbn. intros H. repeat (destruct H as [H|H]; [discriminate|]). exact H.
Qed.

Theorem ikpq_main ecut ks u n q : build ecut ks = Ok u -> exists l, ikpq u n q = Ok l /\ NoDup l /\
  forall i j, In (i, j) l <-> (i < n)%nat /\ connected u q i j.
Proof.
  intros B. destruct (lists_main ecut ks u n (fun k => vadd k q) B) as [l [E [N L]]].
  exists l. split; [exact E|]. split; [now apply NoDup_map_inv in N | exact L].
Qed.

Lemma vsub_vadd a b k : b = vsub k a <-> k = vadd b a.
Proof.
  destruct a as [[x y] z], b as [[p q] r], k as [[s t] w]. cbn. split; intros E; injection E; intros; f_equal; try f_equal; lia.
Qed.

Theorem ipmq_main ecut ks u n q : build ecut ks = Ok u -> exists l, ipmq u n q = Ok l /\ NoDup l /\
  forall i j, In (i, j) l <-> (i < n)%nat /\ connected u q j i.
Proof.
  intros B. destruct (lists_main ecut ks u n (fun k => vsub k q) B) as [l [E [N L]]].
  exists l. split; [exact E|]. split; [now apply NoDup_map_inv in N |]. intros i j. rewrite L. unfold connected.
  split; intros [H [k [H1 H2]]]; (split; [auto|]).
  - exists (vsub k q). split; [auto|]. rewrite H1. f_equal. now apply vsub_vadd.
  - exists (vadd k q). split; [auto|]. rewrite H1. f_equal. now apply vsub_vadd.
Qed.

Lemma index_inj ecut n v w : get_nmax ecut = Ok n -> within ecut v -> within ecut w -> map_index n v = map_index n w -> v = w.
Proof.
  intros E Hv Hw. pose proof (get_nmax_spec _ _ E) as [_ [Hn _]].
  apply map_index_inj; [exact Hn | exact (within_nmax _ _ _ E Hv) | exact (within_nmax _ _ _ E Hw)].
Qed.
