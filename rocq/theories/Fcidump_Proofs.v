From Verif Require Import Base BaseFacts Fcidump_Model Fcidump_Spec.
Open Scope nat_scope.

(** ** Representatives *)

Definition quad_le (a b : quad) : Prop := quad_gtb a b = false.

Ltac quads := unfold quad_le, quad_gtb; intros;
  repeat match goal with q : quad |- _ => destruct q as [[[? ?] ?] ?] | q : (nat * nat * nat * nat)%type |- _ => destruct q as [[[? ?] ?] ?] end;
  repeat match goal with
  | |- context [?a =? ?b] => destruct (Nat.eqb_spec a b)
  | H : context [?a =? ?b] |- _ => destruct (Nat.eqb_spec a b)
  end; subst; try lia.

Lemma quad_le_total a b : quad_le a b \/ quad_le b a.
Proof. quads. Qed.

Lemma quad_le_antisym a b : quad_le a b -> quad_le b a -> a = b.
Proof. quads. repeat f_equal; lia. Qed.

Lemma quad_le_trans a b c : quad_le a b -> quad_le b c -> quad_le a c.
Proof. quads. Qed.

Lemma exists_min (l : list quad) : l <> [] -> exists m, In m l /\ forall x, In x l -> quad_le m x.
Proof.
  induction l as [|a l IH]; intros H; [contradiction|]. destruct l as [|b l].
  - exists a. split; [left; reflexivity|]. intros x [<-|[]]. destruct (quad_le_total a a); assumption.
  - destruct IH as (m & Hm & Hmin); [discriminate|]. destruct (quad_le_total a m) as [H1|H1].
    + exists a. split; [left; reflexivity|]. intros x [<-|Hx]; [destruct (quad_le_total a a); assumption|].
      apply quad_le_trans with m; [exact H1|]. apply Hmin. exact Hx.
    + exists m. split; [right; exact Hm|]. intros x [<-|Hx]; [exact H1|]. apply Hmin. exact Hx.
Qed.

Lemma orbit_self sym q : In q (orbit sym q).
Proof. destruct q as [[[i k] j] l]. cbn. destruct (sym =? 1); [left; reflexivity|]. destruct (sym =? 4); left; reflexivity. Qed.

Lemma orbit_trans sym a b c : In b (orbit sym a) -> In c (orbit sym b) -> In c (orbit sym a).
Proof.
  destruct a as [[[i k] j] l]. unfold orbit at 1. unfold orbit at 2.
  destruct (sym =? 1) eqn:E1; [|destruct (sym =? 4) eqn:E4]; cbn [In]; intros H;
    repeat (destruct H as [<-|H]; [unfold orbit; rewrite E1, ?E4; cbn [In]; tauto|]); destruct H.
Qed.

Lemma orbit_sym sym a b : In b (orbit sym a) -> In a (orbit sym b).
Proof.
  destruct a as [[[i k] j] l]. unfold orbit at 1.
  destruct (sym =? 1) eqn:E1; [|destruct (sym =? 4) eqn:E4]; cbn [In]; intros H;
    repeat (destruct H as [<-|H]; [unfold orbit; rewrite E1, ?E4; cbn [In]; tauto|]); destruct H.
Qed.

Lemma orbit_range sym n a b : in_range n a -> In b (orbit sym a) -> in_range n b.
Proof.
  destruct a as [[[i k] j] l]. unfold orbit, in_range.
  destruct (sym =? 1); [|destruct (sym =? 4)]; cbn [In]; intros R H;
    repeat (destruct H as [<-|H]; [lia|]); destruct H.
Qed.

Lemma check4 q n : check_sym q n 4 = true <-> forall x, In x (orbit 4 q) -> quad_le q x.
Proof.
  destruct q as [[[i k] j] l]. unfold check_sym, orbit. cbn [Nat.eqb]. rewrite negb_true_iff, !orb_false_iff. split.
  - intros [[H1 H2] H3] x Hx. cbn [In] in Hx. destruct Hx as [<-|[<-|[<-|[<-|[]]]]]; try assumption.
    destruct (quad_le_total (i, k, j, l) (i, k, j, l)); assumption.
  - intros H. repeat split; apply H; cbn [In]; tauto.
Qed.

Lemma code_inj n i k j l : i < n -> j < n -> i + k * n = j + l * n -> i = j /\ k = l.
Proof.
  intros Hi Hj E.
  assert (Hk : k = l).
  { assert (H1 : (i + k * n) / n = k) by (rewrite Nat.div_add, Nat.div_small by lia; lia).
    assert (H2 : (j + l * n) / n = l) by (rewrite Nat.div_add, Nat.div_small by lia; lia). congruence. }
  subst. split; [lia|reflexivity].
Qed.

Lemma check8 n i k j l : check_sym (i, k, j, l) n 8 = true <-> k <= i /\ l <= j /\ j + l * n <= i + k * n.
Proof. unfold check_sym. cbn [Nat.eqb]. rewrite !andb_true_iff, !Nat.leb_le. tauto. Qed.

Lemma exists_sorted8 n i k j l : exists q, In q (orbit 8 (i, k, j, l)) /\ check_sym q n 8 = true.
Proof.
  assert (G : forall a b c d, b <= a -> d <= c -> exists q, In q [(a, b, c, d); (c, d, a, b)] /\ check_sym q n 8 = true).
  { intros a b c d H1 H2. destruct (le_lt_dec (c + d * n) (a + b * n)) as [H|H].
    - exists (a, b, c, d). split; [left; reflexivity|]. apply check8. lia.
    - exists (c, d, a, b). split; [right; left; reflexivity|]. apply check8. lia. }
  destruct (le_lt_dec k i), (le_lt_dec l j).
  - destruct (G i k j l) as (q & H1 & H2); [lia..|]. exists q. split; [|exact H2]. cbn in *. tauto.
  - destruct (G i k l j) as (q & H1 & H2); [lia..|]. exists q. split; [|exact H2]. cbn in *. tauto.
  - destruct (G k i j l) as (q & H1 & H2); [lia..|]. exists q. split; [|exact H2]. cbn in *. tauto.
  - destruct (G k i l j) as (q & H1 & H2); [lia..|]. exists q. split; [|exact H2]. cbn in *. tauto.
Qed.

Lemma unique8 n a b : in_range n a -> In b (orbit 8 a) -> check_sym a n 8 = true -> check_sym b n 8 = true -> a = b.
Proof.
  destruct a as [[[i k] j] l]. intros (Hi & Hk & Hj & Hl) Hb Ha Hc. apply check8 in Ha. destruct Ha as (A1 & A2 & A3).
  cbn in Hb. repeat (destruct Hb as [<-|Hb]); [..|destruct Hb]; apply check8 in Hc; destruct Hc as (C1 & C2 & C3).
  - reflexivity.
  - destruct (code_inj n i k j l) as [-> ->]; [lia..|]. reflexivity.
  - assert (k = i) by lia. assert (l = j) by lia. subst. reflexivity.
  - assert (k = i) by lia. assert (l = j) by lia. subst. destruct (code_inj n i i j j) as [-> _]; [lia..|]. reflexivity.
  - assert (k = i) by lia. subst. reflexivity.
  - assert (l = j) by lia. subst. destruct (code_inj n i k j j) as [-> ->]; [lia..|]. reflexivity.
  - assert (l = j) by lia. subst. reflexivity.
  - assert (k = i) by lia. subst. destruct (code_inj n i i j l) as [-> <-]; [lia..|]. reflexivity.
Qed.

Lemma representative n sym q : sym = 1 \/ sym = 4 \/ sym = 8 -> in_range n q ->
  exists r, In r (orbit sym q) /\ check_sym r n sym = true /\
    forall r', In r' (orbit sym q) -> check_sym r' n sym = true -> r' = r.
Proof.
  intros [->|[->| ->]] R.
  - exists q. destruct q as [[[i k] j] l]. split; [left; reflexivity|]. split; [reflexivity|].
    intros r' [<-|[]] _. reflexivity.
  - destruct (exists_min (orbit 4 q)) as (m & Hm & Hmin).
    { destruct q as [[[i k] j] l]. discriminate. }
    exists m. split; [exact Hm|]. split.
    + apply check4. intros x Hx. apply Hmin. apply orbit_trans with m; assumption.
    + intros r' Hr' Hc. rewrite check4 in Hc. apply quad_le_antisym; [|apply Hmin; exact Hr'].
      apply Hc. apply orbit_trans with q; [apply orbit_sym; exact Hr'|exact Hm].
  - destruct q as [[[i k] j] l]. destruct (exists_sorted8 n i k j l) as (r & H1 & H2). exists r.
    split; [exact H1|]. split; [exact H2|]. intros r' Hr' Hc. symmetry.
    apply (unique8 n r r'); try assumption.
    + apply (orbit_range 8 n _ r R H1).
    + apply orbit_trans with (i, k, j, l); [apply orbit_sym; exact H1|exact Hr'].
Qed.

(** ** Round trip *)
Section RoundTrip.
  Variables (K : Type) (zero : K) (conj re : K -> K) (big imgpos : K -> bool).
  Hypothesis big_conj : forall x, big (conj x) = big x.

  Notation images := (images K conj).
  Notation set4 := (set4 K).
  Notation set2 := (set2 K).
  Definition at4 (v : tensor4 K) (q : quad) : K := match q with (i, k, j, l) => v i k j l end.
  Definition trunc (x : K) : K := if big x then x else zero.

  Lemma quads_in n q : In q (quads n) <-> in_range n q.
  Proof.
    destruct q as [[[i k] j] l]. unfold quads, in_range. rewrite in_flat_map. split.
    - intros (a & Ha & H). rewrite in_flat_map in H. destruct H as (b & Hb & H). rewrite in_flat_map in H.
      destruct H as (c & Hc & H). apply in_map_iff in H. destruct H as (d & E & Hd).
      rewrite in_seq in *. inversion E; subst. lia.
    - intros (Hi & Hk & Hj & Hl). exists i. split; [apply in_seq; lia|]. apply in_flat_map. exists k. split; [apply in_seq; lia|].
      apply in_flat_map. exists j. split; [apply in_seq; lia|]. apply in_map_iff. exists l. split; [reflexivity|apply in_seq; lia].
  Qed.

  Definition emitted (v : tensor4 K) (n sym : nat) : list quad :=
    filter (fun q => big (at4 v q) && check_sym q n sym) (quads n).

  Definition succ4 (q : quad) : quad := match q with (i, k, j, l) => (i + 1, k + 1, j + 1, l + 1) end.

  Lemma write_two_ok v n sym cplx paren qs :
    (cplx = true \/ forall q, In q qs -> imgpos (at4 v q) = false) ->
    write_two K re big imgpos (fun i k l j => v i k j l) n sym cplx paren qs =
    Ok (map (fun q => fmt_integral K re (at4 v q) (succ4 q) cplx paren)
            (filter (fun q => big (at4 v q) && check_sym q n sym) qs)).
  Proof.
    induction qs as [|[[[i k] j] l] qs IH]; intros H; [reflexivity|]. cbn [write_two filter at4].
    assert (H' : cplx = true \/ forall q, In q qs -> imgpos (at4 v q) = false).
    { destruct H as [H|H]; [left; exact H|right; intros q Hq; apply H; right; exact Hq]. }
    destruct (big (v i k j l) && check_sym (i, k, j, l) n sym); [|apply IH; exact H'].
    assert (E : negb cplx && imgpos (v i k j l) = false).
    { destruct H as [->|H]; [reflexivity|]. change (v i k j l) with (at4 v (i, k, j, l)). rewrite H by (left; reflexivity). apply andb_false_r. }
    rewrite E, (IH H'). reflexivity.
  Qed.

  (** one two-body line *)
  Lemma read_two sym nb s q x f : f <> Paren -> in_range nb q ->
    read_line K conj sym nb s (Line K f x (succ4 q)) =
    Ok (State K (h1e K s) (fold_left (fun h p => set4 h (fst p) (snd p)) (images sym q x) (h2e K s)) (ecore K s)).
  Proof.
    destruct q as [[[i k] j] l]. intros Hf (Hi & Hk & Hj & Hl). unfold read_line. cbn [lfmt ix value succ4].
    assert (Z0 : forall a, a + 1 =? 0 = false) by (intros; apply Nat.eqb_neq; lia).
    assert (Z1 : forall a, 0 <? a + 1 = true) by (intros; apply Nat.ltb_lt; lia).
    assert (Z2 : forall a, a < nb -> a + 1 <=? nb = true) by (intros; apply Nat.leb_le; lia).
    rewrite !Z0, !Z1, !Z2, !Nat.add_sub by assumption. cbn [andb]. destruct f; [reflexivity|reflexivity|contradiction].
  Qed.

  Lemma read_lines_app sym nb s l1 l2 :
    read_lines K conj sym nb s (l1 ++ l2) = rbind (read_lines K conj sym nb s l1) (fun s' => read_lines K conj sym nb s' l2).
  Proof.
    revert s; induction l1 as [|l l1 IH]; intros s; [reflexivity|]. cbn [app read_lines].
    destruct (read_line K conj sym nb s l); cbn [rbind]; [apply IH|reflexivity].
  Qed.

  Lemma read_two_all sym nb f qs (val : quad -> K) : f <> Paren -> Forall (in_range nb) qs -> forall s,
    read_lines K conj sym nb s (map (fun q => Line K f (val q) (succ4 q)) qs) =
    Ok (State K (h1e K s)
         (fold_left (fun h p => set4 h (fst p) (snd p)) (flat_map (fun q => images sym q (val q)) qs) (h2e K s))
         (ecore K s)).
  Proof.
    intros Hf. induction 1 as [|q qs Hq Hqs IH]; intros s; [destruct s; reflexivity|].
    cbn [map read_lines flat_map]. rewrite read_two by assumption. cbn [rbind]. rewrite IH. cbn [h1e h2e ecore].
    rewrite fold_left_app. reflexivity.
  Qed.

  Lemma at4_set4 h q x p : at4 (set4 h q x) p = if (fun a b : quad => match a, b with (i, k, j, l), (a, b, c, d) =>
     (a =? i) && (b =? k) && (c =? j) && (d =? l) end) q p then x else at4 h p.
  Proof. destruct q as [[[i k] j] l], p as [[[a b] c] d]. reflexivity. Qed.

  Lemma quad_dec (a b : quad) : {a = b} + {a <> b}.
  Proof. repeat decide equality. Qed.

  Lemma at4_set4_eq h q x : at4 (set4 h q x) q = x.
  Proof. destruct q as [[[i k] j] l]. cbn. rewrite !Nat.eqb_refl. reflexivity. Qed.

  Lemma at4_set4_ne h q x p : p <> q -> at4 (set4 h q x) p = at4 h p.
  Proof.
    destruct q as [[[i k] j] l], p as [[[a b] c] d]. intros Hne. cbn.
    destruct (Nat.eqb_spec a i), (Nat.eqb_spec b k), (Nat.eqb_spec c j), (Nat.eqb_spec d l); cbn; try reflexivity.
    subst. contradiction.
  Qed.

  (** writes that all agree with a tensor T *)
  Lemma fold_set4 (T : tensor4 K) (ws : list (quad * K)) : (forall p, In p ws -> snd p = at4 T (fst p)) ->
    forall h q,
      (In q (map fst ws) -> at4 (fold_left (fun h p => set4 h (fst p) (snd p)) ws h) q = at4 T q) /\
      (~ In q (map fst ws) -> at4 (fold_left (fun h p => set4 h (fst p) (snd p)) ws h) q = at4 h q).
  Proof.
    induction ws as [|[p x] ws IH]; intros Hc h q.
    - split; [intros []|reflexivity].
    - assert (Hc' : forall p, In p ws -> snd p = at4 T (fst p)) by (intros p' Hp; apply Hc; right; exact Hp).
      pose proof (Hc (p, x) (or_introl eq_refl)) as Ex. cbn [fst snd] in Ex. subst x.
      destruct (IH Hc' (set4 h p (at4 T p)) q) as [IH1 IH2]. cbn [map fold_left fst snd In]. split.
      + intros Hin. destruct (in_dec quad_dec q (map fst ws)) as [Hq|Hq]; [apply IH1; exact Hq|].
        rewrite IH2 by exact Hq. destruct Hin as [->|Hin]; [apply at4_set4_eq|contradiction].
      + intros Hin. rewrite IH2 by tauto. apply at4_set4_ne. intros ->. tauto.
  Qed.

  Lemma images_orbit sym q x : sym = 1 \/ sym = 4 \/ sym = 8 -> map fst (images sym q x) = orbit sym q.
  Proof. destruct q as [[[i k] j] l]. intros [->|[->| ->]]; reflexivity. Qed.

  Lemma images_val sym (v : tensor4 K) q p : has_sym conj sym v -> (sym = 8 -> forall a b c d, conj (v a b c d) = v a b c d) ->
    In p (images sym q (at4 v q)) ->
    snd p = at4 v (fst p) /\ big (at4 v (fst p)) = big (at4 v q).
  Proof.
    destruct q as [[[i k] j] l]. intros Hs Hr Hp. unfold images, Fcidump_Model.images in Hp. cbn [at4] in Hp.
    destruct Hs as [->|[Hs Hv]].
    { cbn in Hp. destruct Hp as [<-|[]]. cbn. auto. }
    assert (H1 : forall i k j l, v j l i k = v i k j l) by (intros; apply Hv).
    assert (H2 : forall i k j l, v k i l j = conj (v i k j l)) by (intros; apply Hv).
    assert (H3 : forall i k j l, v l j k i = conj (v i k j l)) by (intros; rewrite H1; apply H2).
    destruct Hs as [->|[-> H8]]; cbn in Hp.
    - repeat (destruct Hp as [<-|Hp]; [cbn [fst snd at4];
        rewrite ?(H3 i k j l), ?(H2 i k j l), ?(H1 i k j l), ?big_conj; auto|]); destruct Hp.
    - assert (Hc : forall i k j l, conj (v i k j l) = v i k j l) by (intros; apply Hr; reflexivity).
      assert (E5 : v k i j l = v i k j l) by apply H8.
      assert (E7 : v i k l j = v i k j l) by (rewrite <- (H1 i k l j), (H8 j l i k); apply H1).
      assert (E6 : v l j i k = v i k j l) by (rewrite H8; apply H1).
      assert (E8 : v j l k i = v i k j l) by (rewrite H1; exact E5).
      repeat (destruct Hp as [<-|Hp]; [cbn [fst snd at4];
        rewrite ?E5, ?E6, ?E7, ?E8, ?(H3 i k j l), ?(H2 i k j l), ?(H1 i k j l), ?Hc, ?big_conj; auto|]); destruct Hp.
  Qed.

  Lemma emitted_in v n sym q : In q (emitted v n sym) <-> in_range n q /\ big (at4 v q) = true /\ check_sym q n sym = true.
  Proof. unfold emitted. rewrite filter_In, quads_in, andb_true_iff. tauto. Qed.

  (** what reading the emitted two-body lines leaves *)
  Lemma two_body sym n (v : tensor4 K) : sym = 1 \/ sym = 4 \/ sym = 8 -> has_sym conj sym v ->
    (sym = 8 -> forall a b c d, conj (v a b c d) = v a b c d) ->
    forall q, in_range n q ->
    at4 (fold_left (fun h p => set4 h (fst p) (snd p))
           (flat_map (fun q => images sym q (at4 v q)) (emitted v n sym)) (fun _ _ _ _ => zero)) q
    = trunc (at4 v q).
  Proof.
    intros Hsym Hs Hr q Hq.
    set (T := fun i k j l => trunc (v i k j l)).
    assert (HT : forall p, at4 T p = trunc (at4 v p)) by (intros [[[a b] c] d]; reflexivity).
    set (ws := flat_map (fun q => images sym q (at4 v q)) (emitted v n sym)).
    assert (Hws : forall p, In p ws -> snd p = at4 T (fst p)).
    { intros p Hp. unfold ws in Hp. apply in_flat_map in Hp. destruct Hp as (q0 & H0 & Hp).
      apply emitted_in in H0. destruct H0 as (_ & Hb & _). destruct (images_val sym v q0 p Hs Hr Hp) as [E1 E2].
      rewrite HT, E1. unfold trunc. rewrite E2, Hb. reflexivity. }
    destruct (fold_set4 T ws Hws (fun _ _ _ _ => zero) q) as [F1 F2].
    destruct (in_dec quad_dec q (map fst ws)) as [Hin|Hin].
    - rewrite F1 by exact Hin. apply HT.
    - rewrite F2 by exact Hin. unfold trunc. destruct (big (at4 v q)) eqn:Hb; [|destruct q as [[[a b] c] d]; reflexivity].
      exfalso. apply Hin. destruct (representative n sym q Hsym Hq) as (r & R1 & R2 & _).
      apply in_map_iff.
      assert (Hin2 : In q (map fst (images sym r (at4 v r)))).
      { rewrite images_orbit by exact Hsym. apply orbit_sym. exact R1. }
      apply in_map_iff in Hin2. destruct Hin2 as (p & E & Hp). exists p. split; [exact E|].
      unfold ws. apply in_flat_map. exists r. split; [|exact Hp]. apply emitted_in. split; [apply (orbit_range sym n q); assumption|].
      split; [|exact R2]. destruct (images_val sym v r p Hs Hr Hp) as [_ E2]. rewrite <- E2, E. exact Hb.
  Qed.

  (** ** One-body part *)
  Definition pairs (n : nat) : list (nat * nat) := flat_map (fun i => map (fun j => (i, j)) (seq 0 (i + 1))) (seq 0 n).

  Lemma pairs_in n i j : In (i, j) (pairs n) <-> i < n /\ j <= i.
  Proof.
    unfold pairs. rewrite in_flat_map. split.
    - intros (a & Ha & H). apply in_map_iff in H. destruct H as (b & E & Hb). rewrite in_seq in *. inversion E; subst. lia.
    - intros [H1 H2]. exists i. split; [apply in_seq; lia|]. apply in_map_iff. exists j. split; [reflexivity|apply in_seq; lia].
  Qed.

  Definition emitted1 (h : tensor2 K) (n : nat) : list (nat * nat) := filter (fun p => big (h (fst p) (snd p))) (pairs n).

  Lemma write_one_eq h n cplx paren :
    write_one K re big h n cplx paren =
    map (fun p => fmt_integral K re (h (fst p) (snd p)) (fst p + 1, snd p + 1, 0, 0) cplx paren) (emitted1 h n).
  Proof.
    unfold write_one, emitted1, pairs. generalize (seq 0 n) as l. induction l as [|i l IH]; [reflexivity|].
    cbn [flat_map]. rewrite IH, filter_app, map_app. f_equal.
    generalize (seq 0 (i + 1)) as m. induction m as [|j m IHm]; [reflexivity|]. cbn [flat_map map filter fst snd].
    rewrite IHm. destruct (big (h i j)); reflexivity.
  Qed.

  Lemma read_one sym nb s i j x f : f <> Paren -> i < nb -> j < nb ->
    read_line K conj sym nb s (Line K f x (i + 1, j + 1, 0, 0)) =
    Ok (State K (set2 (set2 (h1e K s) i j x) j i (conj x)) (h2e K s) (ecore K s)).
  Proof.
    intros Hf Hi Hj. unfold read_line, pyix. cbn [lfmt ix value].
    assert (Z0 : forall a, a + 1 =? 0 = false) by (intros; apply Nat.eqb_neq; lia).
    assert (Z2 : forall a, a < nb -> a <? nb = true) by (intros; apply Nat.ltb_lt; lia).
    rewrite !Z0, !Nat.add_sub, !Z2 by assumption. cbn [andb Nat.eqb rbind]. destruct f; [reflexivity|reflexivity|contradiction].
  Qed.

  Definition images1 (p : nat * nat) (x : K) : list (nat * nat * K) := [(p, x); ((snd p, fst p), conj x)].

  Lemma read_one_all sym nb f ps (val : nat * nat -> K) : f <> Paren -> Forall (fun p => fst p < nb /\ snd p < nb) ps -> forall s,
    read_lines K conj sym nb s (map (fun p => Line K f (val p) (fst p + 1, snd p + 1, 0, 0)) ps) =
    Ok (State K (fold_left (fun h w => set2 h (fst (fst w)) (snd (fst w)) (snd w)) (flat_map (fun p => images1 p (val p)) ps) (h1e K s))
         (h2e K s) (ecore K s)).
  Proof.
    intros Hf. induction 1 as [|[i j] ps [Hi Hj] Hps IH]; intros s; [destruct s; reflexivity|].
    cbn [map read_lines flat_map fst snd]. rewrite read_one by assumption. cbn [rbind]. rewrite IH. cbn [h1e h2e ecore].
    rewrite fold_left_app. reflexivity.
  Qed.

  Lemma pair_dec (a b : nat * nat) : {a = b} + {a <> b}.
  Proof. repeat decide equality. Qed.

  Lemma fold_set2 (T : tensor2 K) (ws : list (nat * nat * K)) : (forall w, In w ws -> snd w = T (fst (fst w)) (snd (fst w))) ->
    forall h i j,
      (In (i, j) (map fst ws) -> fold_left (fun h w => set2 h (fst (fst w)) (snd (fst w)) (snd w)) ws h i j = T i j) /\
      (~ In (i, j) (map fst ws) -> fold_left (fun h w => set2 h (fst (fst w)) (snd (fst w)) (snd w)) ws h i j = h i j).
  Proof.
    induction ws as [|[[a b] x] ws IH]; intros Hc h i j.
    - split; [intros []|reflexivity].
    - assert (Hc' : forall w, In w ws -> snd w = T (fst (fst w)) (snd (fst w))) by (intros w Hw; apply Hc; right; exact Hw).
      pose proof (Hc (a, b, x) (or_introl eq_refl)) as Ex. cbn [fst snd] in Ex. subst x.
      destruct (IH Hc' (set2 h a b (T a b)) i j) as [IH1 IH2]. cbn [map fold_left fst snd In]. split.
      + intros Hin. destruct (in_dec pair_dec (i, j) (map fst ws)) as [Hq|Hq]; [apply IH1; exact Hq|].
        rewrite IH2 by exact Hq. destruct Hin as [E|Hin]; [|contradiction]. inversion E; subst. unfold Fcidump_Model.set2. rewrite !Nat.eqb_refl. reflexivity.
      + intros Hin. rewrite IH2 by tauto. unfold Fcidump_Model.set2. destruct (Nat.eqb_spec i a), (Nat.eqb_spec j b); cbn; try reflexivity. subst. tauto.
  Qed.

  Lemma one_body n (h : tensor2 K) : (forall i j, h j i = conj (h i j)) -> forall i j, i < n -> j < n ->
    fold_left (fun h w => set2 h (fst (fst w)) (snd (fst w)) (snd w))
      (flat_map (fun p => images1 p (h (fst p) (snd p))) (emitted1 h n)) (fun _ _ => zero) i j = trunc (h i j).
  Proof.
    intros Hh i j Hi Hj. set (ws := flat_map _ _).
    assert (Hws : forall w, In w ws -> snd w = (fun i j => trunc (h i j)) (fst (fst w)) (snd (fst w))).
    { intros w Hw. unfold ws in Hw. apply in_flat_map in Hw. destruct Hw as ([a b] & H0 & Hw).
      unfold emitted1 in H0. apply filter_In in H0. destruct H0 as [_ Hb]. cbn [fst snd] in Hb, Hw.
      destruct Hw as [<-|[<-|[]]]; cbn [fst snd]; unfold trunc; rewrite ?(Hh a b), ?big_conj, Hb; reflexivity. }
    destruct (fold_set2 _ ws Hws (fun _ _ => zero) i j) as [F1 F2].
    destruct (in_dec pair_dec (i, j) (map fst ws)) as [Hin|Hin]; [apply F1; exact Hin|].
    rewrite F2 by exact Hin. unfold trunc. destruct (big (h i j)) eqn:Hb; [|reflexivity].
    exfalso. apply Hin. destruct (le_lt_dec j i) as [Hji|Hij].
    - apply in_map_iff. exists ((i, j), h i j). split; [reflexivity|]. unfold ws. apply in_flat_map. exists (i, j).
      split; [|left; reflexivity]. apply filter_In. split; [apply pairs_in; lia|exact Hb].
    - apply in_map_iff. exists ((i, j), conj (h j i)). split; [reflexivity|]. unfold ws. apply in_flat_map. exists (j, i).
      split; [|right; left; reflexivity]. apply filter_In. split; [apply pairs_in; lia|]. cbn [fst snd]. rewrite (Hh i j), big_conj. exact Hb.
  Qed.

  Lemma sym8_real (v : tensor4 K) : has_sym conj 8 v -> forall a b c d, conj (v a b c d) = v a b c d.
  Proof.
    intros [H|[[H|[_ H8]] Hv]]; [discriminate|discriminate|]. intros a b c d.
    destruct (Hv a b c d) as [_ <-]. rewrite H8. destruct (Hv d c a b) as [E1 _]. rewrite E1, H8.
    apply Hv.
  Qed.

  (** values that the chosen format keeps *)
  Definition kept (cplx : bool) (x : K) : Prop := cplx = true \/ (re x = x /\ imgpos x = false).

  Lemma dump_roundtrip n sym cplx (v : tensor4 K) (h : tensor2 K) enuc na nb :
    sym = 1 \/ sym = 4 \/ sym = 8 -> has_sym conj sym v -> (forall i j, h j i = conj (h i j)) ->
    let cplx' := if cplx && (4 <? sym) then false else cplx in
    (forall q, in_range n q -> kept cplx' (at4 v q)) -> (forall i j, i < n -> j < n -> kept cplx' (h i j)) -> kept cplx' enuc ->
    exists d h1 h2, write_fcidump K re big imgpos h (fun i k l j => v i k j l) enuc n (na, nb) sym cplx false = Ok d /\
      read_fcidump K zero conj d sym = Ok (h1, h2, enuc, (na, nb)) /\
      (forall i k j l, in_range n (i, k, j, l) -> h2 i k j l = trunc (v i k j l)) /\
      (forall i j, i < n -> j < n -> h1 i j = trunc (h i j)).
  Proof.
    intros Hsym Hs Hh cplx' Kv Kh Ke.
    assert (Hr : sym = 8 -> forall a b c d, conj (v a b c d) = v a b c d) by (intros ->; apply sym8_real; exact Hs). unfold write_fcidump. fold cplx'.
    rewrite write_two_ok.
    2:{ destruct cplx' eqn:Ec; [left; reflexivity|right]. intros q Hq. apply quads_in in Hq. destruct (Kv q Hq) as [E|[_ E]]; [discriminate|exact E]. }
    cbn [rbind]. eexists. 
    set (f := if cplx' then Complex else Real).
    assert (Ef : forall x q, kept cplx' x -> fmt_integral K re x q cplx' false = Line K f x q).
    { intros x q Hk. unfold fmt_integral, f. destruct cplx'; [reflexivity|]. destruct Hk as [E|[E _]]; [discriminate|]. rewrite E. reflexivity. }
    assert (Hf : f <> Paren) by (unfold f; destruct cplx'; discriminate).
    rewrite write_one_eq.
    assert (E2 : map (fun q => fmt_integral K re (at4 v q) (succ4 q) cplx' false) (emitted v n sym)
               = map (fun q => Line K f (at4 v q) (succ4 q)) (emitted v n sym)).
    { apply map_ext_in. intros q Hq. apply Ef. apply Kv. apply emitted_in in Hq. apply Hq. }
    assert (E1 : map (fun p => fmt_integral K re (h (fst p) (snd p)) (fst p + 1, snd p + 1, 0, 0) cplx' false) (emitted1 h n)
               = map (fun p => Line K f (h (fst p) (snd p)) (fst p + 1, snd p + 1, 0, 0)) (emitted1 h n)).
    { apply map_ext_in. intros [i j] Hq. apply Ef. unfold emitted1 in Hq. apply filter_In in Hq. destruct Hq as [Hq _].
      apply pairs_in in Hq. apply Kh; cbn [fst snd]; lia. }
    fold (emitted v n sym). rewrite E2, E1, (Ef enuc _ Ke).
    eexists _, _. split; [reflexivity|].
    unfold read_fcidump. 
    assert (Es : (sym =? 1) || (sym =? 4) || (sym =? 8) = true) by (destruct Hsym as [->|[->| ->]]; reflexivity).
    rewrite Es. cbn [norb nel ms2 lines fst snd]. rewrite !read_lines_app.
    rewrite (read_two_all sym n f (emitted v n sym) (at4 v) Hf).
    2:{ apply Forall_forall. intros q Hq. apply emitted_in in Hq. apply Hq. }
    cbn [rbind]. rewrite read_lines_app, (read_one_all sym n f (emitted1 h n) (fun p => h (fst p) (snd p)) Hf).
    2:{ apply Forall_forall. intros [i j] Hq. apply filter_In in Hq. destruct Hq as [Hq _]. apply pairs_in in Hq. cbn. lia. }
    cbn [rbind h1e h2e ecore read_lines].
    assert (Er : forall s, read_line K conj sym n s (Line K f enuc (0, 0, 0, 0)) = Ok (State K (h1e K s) (h2e K s) (Some enuc))).
    { intros s. unfold read_line. cbn. destruct f; [reflexivity|reflexivity|contradiction]. }
    rewrite Er. cbn [rbind h1e h2e ecore].
    replace ((na + nb + (na - nb)) / 2)%Z with na by (replace (na + nb + (na - nb))%Z with (na * 2)%Z by lia; rewrite Z.div_mul; lia).
    replace (na - (na - nb))%Z with nb by lia.
    split; [reflexivity|]. split.
    - intros i k j l Hq. exact (two_body sym n v Hsym Hs Hr (i, k, j, l) Hq).
    - intros i j Hi Hj. exact (one_body n h Hh i j Hi Hj).
  Qed.

  (** exactly one line per class that is big enough *)
  Lemma one_line_per_class n sym (v : tensor4 K) q : sym = 1 \/ sym = 4 \/ sym = 8 -> has_sym conj sym v ->
    in_range n q -> big (at4 v q) = true ->
    exists r, filter (fun p => if in_dec quad_dec p (orbit sym q) then true else false) (emitted v n sym) = [r].
  Proof.
    intros Hsym Hs Hq Hb.
    assert (Hr : sym = 8 -> forall a b c d, conj (v a b c d) = v a b c d) by (intros ->; apply sym8_real; exact Hs).
    destruct (representative n sym q Hsym Hq) as (r & R1 & R2 & R3). exists r.
    assert (Hnd : NoDup (quads n)).
    { unfold quads. assert (G : forall (A B : Type) (f : A -> list B) l, NoDup l -> (forall a, NoDup (f a)) ->
        (forall a b x, In x (f a) -> In x (f b) -> a = b) -> NoDup (flat_map f l)).
      { clear. intros A B f l Hl Hf Hd. induction Hl as [|a l Ha Hl IH]; [constructor|]. cbn.
        assert (App : forall l1 l2 : list B, NoDup l1 -> NoDup l2 -> (forall x, In x l1 -> ~ In x l2) -> NoDup (l1 ++ l2)).
        { intros l1 l2 H1 H2 H. induction H1 as [|x l1 Hx H1 IH1]; [exact H2|]. cbn. constructor.
          - intros Hin. apply in_app_or in Hin. destruct Hin as [Hin|Hin]; [contradiction|]. apply (H x); [left; reflexivity|exact Hin].
          - apply IH1. intros y Hy. apply H. right. exact Hy. }
        apply App; [apply Hf|exact IH|]. intros x Hx Hx2. apply in_flat_map in Hx2. destruct Hx2 as (b & Hb & Hx2).
        rewrite (Hd a b x Hx Hx2) in Ha. contradiction. }
      apply G; [apply seq_NoDup| |].
      - intros i. apply G; [apply seq_NoDup| |].
        + intros k. apply G; [apply seq_NoDup| |].
          * intros j. apply FinFun.Injective_map_NoDup; [|apply seq_NoDup]. intros x y E. inversion E. reflexivity.
          * intros a b x H1 H2. apply in_map_iff in H1. apply in_map_iff in H2. destruct H1 as (? & <- & _), H2 as (? & E & _). inversion E. reflexivity.
        + intros a b x H1 H2. apply in_flat_map in H1. apply in_flat_map in H2. destruct H1 as (? & _ & H1), H2 as (? & _ & H2).
          apply in_map_iff in H1. apply in_map_iff in H2. destruct H1 as (? & <- & _), H2 as (? & E & _). inversion E. reflexivity.
      - intros a b x H1 H2. apply in_flat_map in H1. apply in_flat_map in H2. destruct H1 as (? & _ & H1), H2 as (? & _ & H2).
        apply in_flat_map in H1. apply in_flat_map in H2. destruct H1 as (? & _ & H1), H2 as (? & _ & H2).
        apply in_map_iff in H1. apply in_map_iff in H2. destruct H1 as (? & <- & _), H2 as (? & E & _). inversion E. reflexivity. }
    set (l := filter _ (emitted v n sym)).
    assert (Hl : NoDup l) by (apply NoDup_filter; apply NoDup_filter; exact Hnd).
    assert (Hin : forall x, In x l <-> x = r).
    { intros x. unfold l. rewrite filter_In, emitted_in. destruct (in_dec quad_dec x (orbit sym q)) as [Hx|Hx].
      - split; [intros ((_ & _ & Hc) & _); apply R3; assumption|]. intros ->. split; [|reflexivity].
        split; [apply (orbit_range sym n q); assumption|]. split; [|exact R2].
        assert (Hin2 : In q (map fst (images sym r (at4 v r)))) by (rewrite images_orbit by exact Hsym; apply orbit_sym; exact R1).
        apply in_map_iff in Hin2. destruct Hin2 as (p & E & Hp). destruct (images_val sym v r p Hs Hr Hp) as [_ E2].
        rewrite <- E2, E. exact Hb.
      - split; [intros [_ E]; discriminate|]. intros ->. contradiction. }
    destruct l as [|x l']; [exfalso; apply (proj2 (Hin r) eq_refl)|].
    pose proof (proj1 (Hin x) (or_introl eq_refl)) as ->. destruct l' as [|y l']; [reflexivity|].
    exfalso. pose proof (proj1 (Hin y) (or_intror (or_introl eq_refl))) as ->. inversion Hl as [|? ? Hni _]; subst. apply Hni. left. reflexivity.
  Qed.

  Lemma paren_unreadable d sym : (sym = 1 \/ sym = 4 \/ sym = 8) -> forall h eris enuc n nelec cplx,
    cplx && (4 <? sym) = false -> cplx = true ->
    write_fcidump K re big imgpos h eris enuc n nelec sym cplx true = Ok d ->
    exists e, read_fcidump K zero conj d sym = Err e.
  Proof.
    intros Hsym h eris enuc n nelec cplx Hc Ht H. unfold write_fcidump in H. rewrite Hc in H.
    destruct (write_two _ _ _ _ _ _ _ _ _ _) as [two|e]; [|discriminate]. cbn [rbind] in H. apply Ok_inj in H. subst d.
    unfold read_fcidump.
    assert (Es : (sym =? 1) || (sym =? 4) || (sym =? 8) = true) by (destruct Hsym as [->|[->| ->]]; reflexivity).
    rewrite Es. cbn [norb lines]. rewrite app_assoc, read_lines_app.
    destruct (read_lines _ _ _ _ _ (two ++ _)) as [s|e]; cbn [rbind]; [|eexists; reflexivity].
    cbn [read_lines]. unfold fmt_integral. rewrite Ht. cbn. eexists. reflexivity.
  Qed.
End RoundTrip.

(** ** A complex Hamiltonian written as real *)
Definition zconj (x : Z * Z) : Z * Z := (fst x, (- snd x)%Z).
Definition zre (x : Z * Z) : Z * Z := (fst x, 0%Z).
Definition zbig (x : Z * Z) : bool := negb ((fst x =? 0)%Z && (snd x =? 0)%Z).
Definition zimgpos (x : Z * Z) : bool := (0 <? snd x)%Z.
Definition zt (i k j l : nat) : Z * Z :=
  match i, k, j, l with
  | 0, 0, 0, 1 => (1, -1)%Z
  | 0, 1, 0, 0 => (1, -1)%Z
  | 0, 0, 1, 0 => (1, 1)%Z
  | 1, 0, 0, 0 => (1, 1)%Z
  | _, _, _, _ => (0, 0)%Z
  end.

Lemma zt_sym : has_sym zconj 4 zt.
Proof.
  right. split; [left; reflexivity|]. intros i k j l.
  destruct i as [|[|i]], k as [|[|k]], j as [|[|j]], l as [|[|l]]; split; reflexivity.
Qed.

Lemma imag_lost : exists d h1 h2,
  write_fcidump (Z * Z) zre zbig zimgpos (fun _ _ => (0, 0)%Z) (fun i k l j => zt i k j l) (0, 0)%Z 2 (1, 1)%Z 4 false false = Ok d /\
  read_fcidump (Z * Z) (0, 0)%Z zconj d 4 = Ok (h1, h2, (0, 0)%Z, (1, 1)%Z) /\ h2 0 0 0 1 = (1, 0)%Z /\ zt 0 0 0 1 = (1, -1)%Z.
Proof. eexists _, _, _. split; [vm_compute; reflexivity|]. split; [reflexivity|]. split; reflexivity. Qed.
