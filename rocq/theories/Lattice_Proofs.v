(** Proofs for the lattice numbering and the hopping matrix (C31, C32). *)
From Coq Require Import Ring.
From Verif Require Import Base BaseFacts Lattice_Model Lattice_Spec.
Open Scope nat_scope.

(** ** numbering *)
Definition xy (nx i : nat) : nat * nat := (i mod nx, i / nx).

Lemma encode_place x y nx : encode_basis x y nx = place nx (x, y).
Proof. unfold encode_basis, place. cbn. lia. Qed.

Lemma xy_place nx p : fst p < nx -> xy nx (place nx p) = p.
Proof.
  intros H. destruct p as [x y]. unfold xy, place in *. cbn in *. f_equal.
  - rewrite (Nat.mul_comm nx), Nat.mod_add by lia. now apply Nat.mod_small.
  - rewrite (Nat.mul_comm nx), Nat.div_add by lia. rewrite Nat.div_small by lia. lia.
Qed.

Lemma place_xy nx i : nx <> 0 -> place nx (xy nx i) = i.
Proof. intros H. unfold place, xy. cbn. generalize (Nat.div_mod i nx H). lia. Qed.

Lemma xy_site nx ny i : i < nx * ny -> site nx ny (xy nx i).
Proof.
  intros H. assert (nx <> 0) by lia. split; cbn.
  - now apply Nat.mod_upper_bound.
  - apply Nat.div_lt_upper_bound; lia.
Qed.

Lemma place_lt nx ny p : site nx ny p -> place nx p < nx * ny.
Proof. intros [Hx Hy]. unfold place. nia. Qed.

Lemma decode_xy nx ny i : decode_basis nx ny i = if ny =? 1 then [fst (xy nx i)] else [fst (xy nx i); snd (xy nx i)].
Proof. reflexivity. Qed.

Lemma decode_encode nx ny x y : x < nx -> y < ny ->
  decode_basis nx ny (encode_basis x y nx) = if ny =? 1 then [x] else [x; y].
Proof. intros Hx Hy. now rewrite decode_xy, encode_place, xy_place. Qed.

Lemma encode_decode nx ny i : i < nx * ny ->
  exists x y, site nx ny (x, y) /\ encode_basis x y nx = i /\ decode_basis nx ny i = if ny =? 1 then [x] else [x; y].
Proof.
  intros H. exists (i mod nx), (i / nx). split; [apply (xy_site nx ny i H) |].
  split; [| reflexivity]. rewrite encode_place. apply (place_xy nx i). lia.
Qed.

Lemma decode_inj nx ny i j : i < nx * ny -> j < nx * ny -> decode_basis nx ny i = decode_basis nx ny j -> i = j.
Proof.
  intros Hi Hj H. assert (N : nx <> 0) by lia.
  rewrite <- (place_xy nx i N), <- (place_xy nx j N). f_equal.
  pose proof (xy_site nx ny i Hi) as [_ Si]. pose proof (xy_site nx ny j Hj) as [_ Sj].
  rewrite !decode_xy in H. destruct (xy nx i), (xy nx j). cbn in *.
  destruct (Nat.eqb_spec ny 1) as [E|E]; injection H; intros; subst; f_equal; lia.
Qed.

(** the FFT sees site (x, y) of a square lattice as (y, x) *)
Lemma fft_square n i : fft_site n n i = (snd (xy n i), fst (xy n i)).
Proof. reflexivity. Qed.

Lemma neighbours_swap nx ny px py p q :
  neighbours nx ny px py p q <-> neighbours ny nx py px (snd p, fst p) (snd q, fst q).
Proof. unfold neighbours. cbn. tauto. Qed.

Definition fft_agrees (nx ny : nat) : Prop := forall i j, i < nx * ny -> j < nx * ny ->
  (neighbours nx ny true true (fft_site nx ny i) (fft_site nx ny j) <->
   neighbours nx ny true true (xy nx i) (xy nx j)).

Lemma xy_1 i : xy 1 i = (0, i).
Proof. unfold xy. now rewrite Nat.mod_1_r, Nat.div_1_r. Qed.

Lemma fft_iff nx ny : 0 < nx -> 0 < ny -> (fft_agrees nx ny <-> nx = ny \/ nx = 1 \/ ny = 1).
Proof.
  intros Nx Ny. split.
  - intros H.
    destruct (Nat.eq_dec nx ny) as [|E1]; [auto|]. destruct (Nat.eq_dec nx 1) as [|E2]; [auto|].
    destruct (Nat.eq_dec ny 1) as [|E3]; [auto|]. exfalso.
    assert (XP : forall y, xy nx (y * nx) = (0, y)).
    { intros y. replace (y * nx) with (place nx (0, y)) by (unfold place; cbn; lia). apply xy_place. cbn. lia. }
    pose proof (XP 0) as X0. pose proof (XP 1) as X1. pose proof (XP 2) as X2.
    replace (0 * nx) with 0 in X0 by lia. replace (1 * nx) with nx in X1 by lia.
    assert (A : neighbours nx ny true true (xy nx 0) (xy nx nx)) by (rewrite X0, X1; right; cbn; split; auto; left; left; auto).
    apply H in A; [| nia | nia].
    unfold fft_site in A. rewrite Nat.div_0_l, Nat.mod_0_l in A by lia.
    pose proof (Nat.div_mod nx ny ltac:(lia)) as D. pose proof (Nat.mod_upper_bound nx ny ltac:(lia)) as U.
    set (a := nx / ny) in *. set (b := nx mod ny) in *.
    assert (C : nx = ny - 1).
    { unfold neighbours, next in A. cbn in A.
      destruct A as [[A1 A2]|[A1 A2]].
      - assert (b = 0) by lia. destruct A2 as [[A2|[_ [A2 [A3 A4]]]]|[A2|[_ [A2 [A3 A4]]]]]; try nia.
      - assert (a = 0) by lia. destruct A2 as [[A2|[_ [A2 [A3 A4]]]]|[A2|[_ [A2 [A3 A4]]]]]; try nia. }
    assert (A2 : neighbours nx ny true true (xy nx nx) (xy nx (2 * nx))) by (rewrite X1, X2; right; cbn; split; auto; left; left; auto).
    apply H in A2; [| nia | nia].
    assert (a = 0 /\ b = nx) as [Ha Hb] by (unfold a, b; split; [apply Nat.div_small | apply Nat.mod_small]; lia).
    assert (F : fft_site nx ny (2 * nx) = (1, ny - 2)).
    { unfold fft_site. f_equal.
      - symmetry. apply (Nat.div_unique _ _ _ (ny - 2)); lia.
      - symmetry. apply (Nat.mod_unique _ _ 1); lia. }
    assert (F1 : fft_site nx ny nx = (0, nx)) by (unfold fft_site; fold a b; congruence).
    rewrite F, F1 in A2. unfold neighbours, next in A2. cbn in A2. lia.
  - intros [E|[E|E]] i j Hi Hj.
    + subst ny. rewrite !fft_square, (neighbours_swap nx nx true true (xy nx i)). tauto.
    + subst nx. rewrite !xy_1. unfold fft_site. rewrite !Nat.div_small, !Nat.mod_small by lia. tauto.
    + subst ny. unfold fft_site, xy. rewrite !Nat.div_1_r, !Nat.mod_1_r.
      rewrite !(Nat.div_small _ nx), !(Nat.mod_small _ nx) by lia. tauto.
Qed.

(** the k vectors come in the order the FFT uses *)
Lemma kp_order nx ny : kp nx ny = map (fun i => if ny =? 1 then [fst (fft_site nx ny i)]
                                               else [fst (fft_site nx ny i); snd (fft_site nx ny i)]) (seq 0 (nx * ny)).
Proof.
  unfold kp, fft_site. destruct (Nat.eqb_spec ny 1) as [->|E].
  - rewrite Nat.mul_1_r. apply map_ext. intros i. cbn [fst]. now rewrite Nat.div_1_r.
  - destruct (Nat.eq_dec ny 0) as [->|N].
    { rewrite Nat.mul_0_r. cbn. induction (seq 0 nx); [reflexivity | assumption]. }
    induction nx as [|n IH]; [reflexivity|].
    replace (seq 0 (S n)) with (seq 0 n ++ [n]) by now rewrite seq_S.
    rewrite flat_map_app, IH. replace (S n * ny) with (n * ny + ny) by lia.
    rewrite seq_app, map_app. f_equal. cbn [flat_map]. rewrite app_nil_r, Nat.add_0_l.
    assert (G : forall k s, s + k <= ny -> map (fun m => [n; m]) (seq s k) =
      map (fun i => [fst (i / ny, i mod ny); snd (i / ny, i mod ny)]) (seq (n * ny + s) k)).
    { induction k as [|k IHk]; intros s Hs; [reflexivity|]. cbn [seq map fst snd]. f_equal.
      - rewrite (Nat.add_comm (n * ny)), Nat.div_add, Nat.mod_add, Nat.div_small, Nat.mod_small by lia. f_equal.
      - rewrite (IHk (S s)) by lia. now rewrite Nat.add_succ_r. }
    rewrite (G ny 0) by lia. now rewrite Nat.add_0_r.
Qed.

(** ** filling a matrix *)
Section Fill.
  Variables (K : Type).
  Lemma fill_ok (entry : nat -> nat -> res K) ps T0 T : fill K entry ps T0 = Ok T ->
    (forall i j, In (i, j) ps -> entry i j = Ok (T i j)) /\ (forall i j, ~ In (i, j) ps -> T i j = T0 i j).
  Proof.
    revert T0. induction ps as [|[a b] ps IH]; intros T0 H; cbn in H.
    - apply Ok_inj in H. subst. split; [intros i j [] | reflexivity].
    - destruct (entry a b) as [v|] eqn:E; [| discriminate]. cbn in H.
      destruct (IH _ H) as [H1 H2].
      assert (D : forall i j, {In (i, j) ps} + {~ In (i, j) ps}).
      { intros i j. apply in_dec. decide equality; apply Nat.eq_dec. }
      split.
      + intros i j [Hij|Hij]; [| auto]. inversion Hij; subst.
        destruct (D i j) as [Y|N]; [auto|]. rewrite (H2 _ _ N). unfold put. now rewrite !Nat.eqb_refl.
      + intros i j N. rewrite (H2 i j) by (intros Y; apply N; now right).
        unfold put. destruct (Nat.eqb_spec i a), (Nat.eqb_spec j b); cbn; auto.
        subst. exfalso. apply N. now left.
  Qed.

  Lemma fill_exists (entry : nat -> nat -> res K) ps T0 :
    (forall i j, In (i, j) ps -> exists v, entry i j = Ok v) -> exists T, fill K entry ps T0 = Ok T.
  Proof.
    revert T0. induction ps as [|[a b] ps IH]; intros T0 H; cbn; [eauto|].
    destruct (H a b) as [v E]; [now left|]. rewrite E. cbn. apply IH. intros i j Y. apply H. now right.
  Qed.

  Lemma in_upper n i j : In (i, j) (upper n) <-> i < j < n.
  Proof.
    unfold upper. rewrite in_flat_map. split.
    - intros [x [H1 H2]]. apply in_map_iff in H2 as [y [H2 H3]]. inversion H2; subst.
      apply in_seq in H1, H3. lia.
    - intros H. exists i. split; [apply in_seq; lia|]. apply in_map_iff. exists j. split; [auto|]. apply in_seq. lia.
  Qed.

  Lemma in_upper_diag n i j : In (i, j) (upper_diag n) <-> i <= j < n.
  Proof.
    unfold upper_diag. rewrite in_flat_map. split.
    - intros [x [H1 H2]]. apply in_map_iff in H2 as [y [H2 H3]]. inversion H2; subst.
      apply in_seq in H1, H3. lia.
    - intros H. exists i. split; [apply in_seq; lia|]. apply in_map_iff. exists j. split; [auto|]. apply in_seq. lia.
  Qed.
End Fill.

(** ** the hopping matrix *)
Lemma conj_lt (i j n : nat) : i < j -> j < n -> i < j < n.
Proof. lia. Qed.

Section Kinetic.
  Variables (K Th : Type) (zero one : K) (add mul sub : K -> K -> K) (opp conj : K -> K) (expi : Th -> K).
  Hypothesis Kth : ring_theory zero one add mul sub opp (@eq K).
  Hypothesis conj_add : forall a b, conj (add a b) = add (conj a) (conj b).
  Hypothesis conj_mul : forall a b, conj (mul a b) = mul (conj a) (conj b).
  Hypothesis conj_opp : forall a, conj (opp a) = opp (conj a).
  Hypothesis conj_conj : forall a, conj (conj a) = a.
  Hypothesis conj_one : conj one = one.
  Add Ring KRing : Kth.

  Notation kinetic := (kinetic K Th zero add mul opp conj expi one).
  Notation bonds := (bonds K one).
  Notation amplitude := (amplitude K zero one add mul opp conj).
  Notation sum := (fold_right add zero).

  Lemma conj_zero : conj zero = zero.
  Proof.
    assert (H : conj zero = add (conj zero) (conj zero)) by (rewrite <- conj_add; f_equal; ring).
    transitivity (sub (add (conj zero) (conj zero)) (conj zero)); [ring | rewrite <- H; ring].
  Qed.

  Lemma sum_app l m : sum (l ++ m) = add (sum l) (sum m).
  Proof. induction l as [|x l IH]; cbn; [ring | rewrite IH; ring]. Qed.

  Lemma conj_sum l : conj (sum l) = sum (map conj l).
  Proof. induction l as [|x l IH]; cbn; [apply conj_zero | now rewrite conj_add, IH]. Qed.

  Lemma hermitian t nx ny ks bx bb T : kinetic t nx ny ks bx bb = Ok T -> forall i j, T i j = conj (T j i).
  Proof.
    intros H i j. unfold Lattice_Model.kinetic in H.
    destruct (fill _ _ _ _) as [T0|]; [| discriminate]. apply Ok_inj in H. subst.
    rewrite conj_add, conj_conj. ring.
  Qed.

  Definition px ks := twist_x K Th one expi ks.
  Definition py ks := twist_y K Th one expi ks.

  Lemma forward_none n b ph a c : a < n -> c < n -> a <= c -> forward K one n b ph c a =
    if b && (a =? 0) && (c =? n - 1) && negb (a =? c) then [ph] else [].
  Proof.
    intros. unfold forward. destruct (Nat.eqb_spec a (c + 1)); [lia|].
    destruct b; cbn [andb app]; [| reflexivity].
    destruct (Nat.eqb_spec a 0), (Nat.eqb_spec c (n - 1)), (Nat.eqb_spec a c), (Nat.ltb_spec 1 n); cbn; try reflexivity; lia.
  Qed.

  Lemma forward_some n b ph a c : a < n -> c < n -> a < c -> forward K one n b ph a c = if c =? a + 1 then [one] else [].
  Proof.
    intros. unfold forward. destruct (Nat.eqb_spec a (n - 1)); [lia|].
    rewrite andb_false_r. cbn. now rewrite app_nil_r.
  Qed.

  Lemma bonds_self nx ny bx bb p : site nx ny p -> bonds nx ny bx bb (px None) (py None) p p = [].
  Proof.
    intros [H1 H2]. unfold Lattice_Spec.bonds. rewrite !Nat.eqb_refl, !forward_none by lia.
    rewrite !Nat.eqb_refl. cbn. now rewrite !andb_false_r.
  Qed.

  Lemma bonds_self' nx ny bx bb u v p : site nx ny p -> bonds nx ny bx bb u v p p = [].
  Proof.
    intros [H1 H2]. unfold Lattice_Spec.bonds. rewrite !Nat.eqb_refl, !forward_none by lia.
    rewrite !Nat.eqb_refl. cbn. now rewrite !andb_false_r.
  Qed.

  Lemma entry_val t nx ny ks bx bb i j : twist_ok Th ny ks -> i < j -> j < nx * ny ->
    kin_entry K Th zero add mul opp expi one t nx ny ks bx bb i j =
    Ok (amplitude t nx ny bx bb (px ks) (py ks) (xy nx i) (xy nx j)).
  Proof.
    intros Hk Hij Hj. assert (N : nx <> 0) by lia.
    pose proof (xy_site nx ny i ltac:(lia)) as [Sx1 Sy1]. pose proof (xy_site nx ny j Hj) as [Sx2 Sy2].
    pose proof (place_xy nx i N) as E1. pose proof (place_xy nx j N) as E2.
    unfold kin_entry. rewrite !decode_xy. unfold Lattice_Spec.amplitude, Lattice_Spec.bonds.
    destruct (xy nx i) as [x1 y1], (xy nx j) as [x2 y2]. unfold place in *. cbn [fst snd] in *.
    assert (O : y1 < y2 \/ y1 = y2 /\ x1 < x2) by nia. clear E1 E2 Hij Hj.
    assert (W : forall (p : list Th -> res K) ph v, (match ks with Some l => p l | None => Ok one end) = Ok ph ->
              with_phase K Th add mul opp t v ks p one = Ok (add v (mul (opp t) ph))).
    { intros p ph v Hp. unfold with_phase. now rewrite Hp. }
    assert (P1 : ny = 1 -> match ks with Some l => phase1 K Th expi l | None => Ok one end = Ok (px ks)).
    { intros ->. destruct ks as [[|a [|b l]]|]; cbn in *; try lia; reflexivity. }
    assert (P2 : ny <> 1 -> forall f, match ks with Some l => phase2 K Th expi f l | None => Ok one end = Ok (if f then px ks else py ks)).
    { intros Hn f. unfold twist_ok in Hk. destruct (Nat.eqb_spec ny 1); [lia|].
      destruct ks as [[|a [|b [|c l]]]|]; cbn in *; try lia; now destruct f. }
    rewrite map_app, !sum_app.
    destruct O as [O|[Oy Ox]].
    - (* different rows *)
      destruct (Nat.eqb_spec ny 1) as [|Hn]; [lia|].
      cbn [andb dist nsum fold_right cmp_all all_eq]. unfold absdiff.
      destruct (Nat.eqb_spec y2 y1); [lia|]. destruct (Nat.eqb_spec y1 y2); [lia|].
      rewrite (Nat.eqb_sym x2 x1). cbn [map fold_right sum].
      destruct (Nat.eqb_spec x1 x2) as [Ex|Ex].
      + rewrite forward_none, forward_some by lia.
        replace (x1 - x2 + (x2 - x1)) with 0 by lia. replace (y1 - y2 + (y2 - y1)) with (y2 - y1) by lia.
        replace ((0 + (y2 - y1 + 0)) =? 1) with (y2 =? y1 + 1) by (destruct (Nat.eqb_spec y2 (y1 + 1)), (Nat.eqb_spec (0 + (y2 - y1 + 0)) 1); lia).
        replace ((y2 - y1 =? 0) && true) with false by (destruct (Nat.eqb_spec (y2 - y1) 0); [lia | reflexivity]).
        rewrite andb_false_r. cbn [andb]. rewrite Nat.eqb_refl. cbn [andb].
        replace (negb (y1 =? y2)) with true by (destruct (Nat.eqb_spec y1 y2); [lia | reflexivity]).
        replace ((y2 - y1 =? ny - 1) && true && bb) with (bb && (y1 =? 0) && (y2 =? ny - 1) && true).
        2:{ destruct bb, (Nat.eqb_spec y1 0), (Nat.eqb_spec y2 (ny - 1)), (Nat.eqb_spec (y2 - y1) (ny - 1)); cbn; lia. }
        destruct (bb && (y1 =? 0) && (y2 =? ny - 1) && true), (y2 =? y1 + 1);
          rewrite ?(W _ _ _ (P2 Hn false)); cbn; rewrite ?conj_one; f_equal; ring.
      + destruct (Nat.eqb_spec (x1 - x2 + (x2 - x1) + (y1 - y2 + (y2 - y1) + 0)) 1); [lia|].
        destruct (Nat.eqb_spec (y1 - y2 + (y2 - y1)) 0); [lia|]. rewrite !andb_false_r. cbn [andb].
        destruct (Nat.eqb_spec (x1 - x2 + (x2 - x1)) 0); [lia|]. cbn. f_equal. ring.
    - (* the same row *)
      subst y2. rewrite Nat.eqb_refl.
      destruct (Nat.eqb_spec x2 x1); [lia|].
      replace (x1 =? x2) with false by (symmetry; apply Nat.eqb_neq; lia).
      rewrite forward_none, forward_some by lia.
      replace (negb (x1 =? x2)) with true by (destruct (Nat.eqb_spec x1 x2); [lia | reflexivity]).
      cbn [map fold_right negb].
      assert (C : bx && (x1 =? 0) && (x2 =? nx - 1) && true = (absdiff x1 x2 =? nx - 1) && bx).
      { unfold absdiff. destruct bx, (Nat.eqb_spec x1 0), (Nat.eqb_spec x2 (nx - 1)), (Nat.eqb_spec (x1 - x2 + (x2 - x1)) (nx - 1)); cbn; lia. }
      rewrite C.
      assert (Z0 : absdiff x1 x2 <> 0) by (unfold absdiff; lia).
      assert (A : (absdiff x1 x2 =? 1) = (x2 =? x1 + 1)) by (unfold absdiff; destruct (Nat.eqb_spec x2 (x1 + 1)), (Nat.eqb_spec (x1 - x2 + (x2 - x1)) 1); lia).
      destruct (Nat.eqb_spec ny 1) as [->|Hn].
      + cbn [dist nsum fold_right cmp_all forallb andb]. rewrite Nat.add_0_r, A, andb_true_r.
        destruct (Nat.eqb_spec (absdiff x1 x2) 0); [lia|]. rewrite ?andb_false_r. cbn [andb].
        destruct ((absdiff x1 x2 =? nx - 1) && bx), (x2 =? x1 + 1);
          rewrite ?(W _ _ _ (P1 eq_refl)); cbn; rewrite ?conj_one; f_equal; ring.
      + cbn [dist nsum fold_right cmp_all all_eq andb].
        replace (absdiff y1 y1) with 0 by (unfold absdiff; lia). cbn [Nat.eqb andb]. rewrite !Nat.add_0_r, A, andb_true_r.
        destruct (Nat.eqb_spec (absdiff x1 x2) 0); [lia|]. cbn [andb].
        destruct ((absdiff x1 x2 =? nx - 1) && bx), (x2 =? x1 + 1);
          rewrite ?(W _ _ _ (P2 Hn true)); cbn; rewrite ?conj_one; f_equal; ring.
  Qed.

  Lemma kinetic_exists t nx ny ks bx bb : twist_ok Th ny ks -> exists T, kinetic t nx ny ks bx bb = Ok T.
  Proof.
    intros Hk. unfold Lattice_Model.kinetic.
    destruct (fill_exists K (kin_entry K Th zero add mul opp expi one t nx ny ks bx bb) (upper (nx * ny)) (fun _ _ => zero)) as [T E].
    - intros i j H. apply in_upper in H. rewrite entry_val by (auto; lia). eauto.
    - rewrite E. cbn. eauto.
  Qed.

  Lemma amplitude_sym t nx ny bx bb u v p q : conj t = t ->
    conj (amplitude t nx ny bx bb u v p q) = amplitude t nx ny bx bb u v q p.
  Proof.
    intros Ht. unfold Lattice_Spec.amplitude. rewrite conj_mul, conj_opp, Ht, conj_sum, map_app, map_map, !sum_app.
    rewrite (map_ext (fun x => conj (conj x)) (fun x => x)), map_id by auto. ring.
  Qed.

  Theorem kinetic_val t nx ny ks bx bb T : conj t = t -> twist_ok Th ny ks -> kinetic t nx ny ks bx bb = Ok T ->
    forall i j, i < nx * ny -> j < nx * ny -> T i j = amplitude t nx ny bx bb (px ks) (py ks) (xy nx i) (xy nx j).
  Proof.
    intros Ht Hk H i j Hi Hj. unfold Lattice_Model.kinetic in H.
    destruct (fill _ _ _ _) as [T0|] eqn:F; [| discriminate]. apply Ok_inj in H. subst.
    apply fill_ok in F as [F1 F2].
    destruct (lt_eq_lt_dec i j) as [[L|E]|L].
    - rewrite (F2 j i) by (rewrite in_upper; lia). rewrite conj_zero.
      specialize (F1 i j (proj2 (in_upper (nx * ny) i j) (conj_lt _ _ _ L ltac:(first [exact Hj | exact Hi])))). rewrite entry_val in F1 by (auto; lia).
      apply Ok_inj in F1. rewrite <- F1. ring.
    - subst. rewrite (F2 j j) by (rewrite in_upper; lia). rewrite conj_zero.
      unfold Lattice_Spec.amplitude. rewrite !bonds_self' by now apply xy_site. cbn. ring.
    - rewrite (F2 i j) by (rewrite in_upper; lia).
      specialize (F1 j i (proj2 (in_upper (nx * ny) j i) (conj_lt _ _ _ L ltac:(first [exact Hj | exact Hi])))). rewrite entry_val in F1 by (auto; lia).
      apply Ok_inj in F1. rewrite <- F1, amplitude_sym by auto. ring.
  Qed.

  Lemma forward_count n b ph a c : n <> 2 -> a < n -> c < n ->
    (next n b a c -> (forward K one n b ph a c = [one] \/ forward K one n b ph a c = [ph]) /\ ~ next n b c a) /\
    (~ next n b a c -> forward K one n b ph a c = []).
  Proof.
    intros N Ha Hc. unfold next, forward. split.
    - intros [H|[H1 [H2 [H3 H4]]]].
      + split; [left | intros [H'|[_ [H' H'']]]; lia].
        destruct (Nat.eqb_spec c (a + 1)); [| lia]. destruct (Nat.eqb_spec c 0); [lia|]. now rewrite andb_false_r.
      + split; [right | intros [H'|[_ [H' H'']]]; lia].
        destruct (Nat.eqb_spec c (a + 1)); [lia|]. subst b. destruct (Nat.ltb_spec 1 n); [| lia].
        destruct (Nat.eqb_spec a (n - 1)); [| lia]. destruct (Nat.eqb_spec c 0); [| lia]. reflexivity.
    - intros H. destruct (Nat.eqb_spec c (a + 1)); [exfalso; auto|].
      destruct b; [| reflexivity]. cbn [andb].
      destruct (Nat.ltb_spec 1 n), (Nat.eqb_spec a (n - 1)), (Nat.eqb_spec c 0); try reflexivity. exfalso. apply H. right. auto.
  Qed.

  Lemma next_dec n b a c : next n b a c \/ ~ next n b a c.
  Proof. unfold next. destruct b; [lia|]. destruct (Nat.eq_dec c (a + 1)); [auto|]. right. intros [H|[H _]]; [auto | discriminate]. Qed.

  Lemma next_ne n b a : a < n -> ~ next n b a a.
  Proof. unfold next. intros H [H'|[_ [H1 [H2 H3]]]]; lia. Qed.

  Lemma one_bond nx ny bx bb u v p q : nx <> 2 -> ny <> 2 -> site nx ny p -> site nx ny q ->
    (neighbours nx ny bx bb p q -> exists a, In a [one; u; v; conj u; conj v] /\
       bonds nx ny bx bb u v q p ++ map conj (bonds nx ny bx bb u v p q) = [a]) /\
    (~ neighbours nx ny bx bb p q -> bonds nx ny bx bb u v q p ++ map conj (bonds nx ny bx bb u v p q) = []).
  Proof.
    intros Nx Ny [Px Py] [Qx Qy]. destruct p as [x1 y1], q as [x2 y2]. cbn [fst snd] in *.
    unfold Lattice_Spec.bonds, neighbours. cbn [fst snd].
    pose proof (forward_count nx bx u x1 x2 Nx Px Qx) as [A1 A2].
    pose proof (forward_count nx bx u x2 x1 Nx Qx Px) as [B1 B2].
    pose proof (forward_count ny bb v y1 y2 Ny Py Qy) as [C1 C2].
    pose proof (forward_count ny bb v y2 y1 Ny Qy Py) as [D1 D2].
    assert (X : x1 = x2 -> ~ next nx bx x1 x2 /\ ~ next nx bx x2 x1) by (intros ->; split; now apply next_ne).
    assert (Y : y1 = y2 -> ~ next ny bb y1 y2 /\ ~ next ny bb y2 y1) by (intros ->; split; now apply next_ne).
    rewrite (Nat.eqb_sym y2 y1), (Nat.eqb_sym x2 x1).
    destruct (Nat.eqb_spec y1 y2) as [Ey|Ey], (Nat.eqb_spec x1 x2) as [Ex|Ex].
    - destruct (X Ex) as [X1 X2], (Y Ey) as [Y1 Y2]. rewrite A2, B2, C2, D2 by auto. split; [tauto | reflexivity].
    - destruct (next_dec nx bx x1 x2) as [S|S], (next_dec nx bx x2 x1) as [S'|S'].
      + exfalso. apply (proj2 (A1 S)), S'.
      + rewrite (B2 S'). destruct (proj1 (A1 S)) as [E|E]; rewrite E; (split; [| tauto]); intros _; cbn;
          [exists (conj one) | exists (conj u)]; rewrite ?conj_one; tauto.
      + rewrite (A2 S). destruct (proj1 (B1 S')) as [E|E]; rewrite E; (split; [| tauto]); intros _; cbn;
          [exists one | exists u]; tauto.
      + rewrite (A2 S), (B2 S'). split; [tauto | reflexivity].
    - destruct (next_dec ny bb y1 y2) as [S|S], (next_dec ny bb y2 y1) as [S'|S'].
      + exfalso. apply (proj2 (C1 S)), S'.
      + rewrite (D2 S'). destruct (proj1 (C1 S)) as [E|E]; rewrite E; (split; [| tauto]); intros _; cbn;
          [exists (conj one) | exists (conj v)]; rewrite ?conj_one; tauto.
      + rewrite (C2 S). destruct (proj1 (D1 S')) as [E|E]; rewrite E; (split; [| tauto]); intros _; cbn;
          [exists one | exists v]; tauto.
      + rewrite (C2 S), (D2 S'). split; [tauto | reflexivity].
    - split; [tauto | reflexivity].
  Qed.

  Theorem kinetic_neighbours t nx ny ks bx bb T : conj t = t -> twist_ok Th ny ks -> nx <> 2 -> ny <> 2 ->
    kinetic t nx ny ks bx bb = Ok T -> forall i j, i < nx * ny -> j < nx * ny ->
    (neighbours nx ny bx bb (xy nx i) (xy nx j) -> exists a, In a [one; px ks; py ks; conj (px ks); conj (py ks)] /\ T i j = mul (opp t) a) /\
    (~ neighbours nx ny bx bb (xy nx i) (xy nx j) -> T i j = zero).
  Proof.
    intros Ht Hk Nx Ny H i j Hi Hj. rewrite (kinetic_val _ _ _ _ _ _ _ Ht Hk H i j Hi Hj).
    unfold Lattice_Spec.amplitude.
    destruct (one_bond nx ny bx bb (px ks) (py ks) (xy nx i) (xy nx j) Nx Ny (xy_site _ _ _ Hi) (xy_site _ _ _ Hj)) as [O1 O2].
    split.
    - intros N. destruct (O1 N) as [a [Ha E]]. exists a. split; [auto|]. rewrite E. cbn. f_equal. ring.
    - intros N. rewrite (O2 N). cbn. ring.
  Qed.
End Kinetic.

(** ** pinning fields *)
Section Pinning.
  Variables (K : Type) (zero one : K) (add mul sub : K -> K -> K) (opp : K -> K).
  Hypothesis Kth : ring_theory zero one add mul sub opp (@eq K).
  Add Ring KRing2 : Kth.
  Notation id := (fun x : K => x).
  Notation amplitude := (amplitude K zero one add mul opp id).
  Notation kin_entry := (kin_entry K unit zero add mul opp (fun _ => one) one).

  Lemma pin_off t nu nx ny s i j : i < j -> j < nx * ny -> ny <> 1 ->
    pin_entry K zero add opp t nu nx ny s i j = Ok (amplitude t nx ny true false one one (xy nx i) (xy nx j)).
  Proof.
    intros L Hj N.
    transitivity (kin_entry t nx ny None true false i j);
      [| now apply (entry_val K unit zero one add mul sub opp id (fun _ => one) Kth)].
    unfold pin_entry, Lattice_Model.kin_entry. destruct (Nat.eqb_spec i j); [lia|]. destruct (Nat.eqb_spec ny 1); [lia|].
    cbn [andb]. rewrite andb_true_r, andb_false_r. unfold with_phase. cbn [rbind].
    destruct (cmp_all _ _); [| reflexivity]. f_equal. ring.
  Qed.

  Lemma alt_off t nu nx ny s i j : i < j -> j < nx * ny -> ny <> 1 ->
    alt_entry K zero add opp t nu nx ny s i j = Ok (amplitude t nx ny false true one one (xy nx i) (xy nx j)).
  Proof.
    intros L Hj N.
    transitivity (kin_entry t nx ny None false true i j);
      [| now apply (entry_val K unit zero one add mul sub opp id (fun _ => one) Kth)].
    unfold alt_entry, Lattice_Model.kin_entry. destruct (Nat.eqb_spec i j); [lia|]. destruct (Nat.eqb_spec ny 1); [lia|].
    cbn [andb]. rewrite !andb_false_r, andb_true_r. unfold with_phase. cbn [rbind].
    destruct (cmp_all _ _); [| reflexivity]. f_equal. ring.
  Qed.

  Lemma pinned_val entry n (diag : nat -> K) (off : nat -> nat -> K) :
    (forall i, i < n -> entry i i = Ok (diag i)) -> (forall i j, i < j -> j < n -> entry i j = Ok (off i j)) ->
    (forall i j, off i j = off j i) ->
    exists T, pinned K zero add entry n = Ok T /\ forall i j, i < n -> j < n ->
      T i j = (if i =? j then diag i else off i j) /\ T i j = T j i.
  Proof.
    intros Hd Ho Hs.
    destruct (fill_exists K entry (upper_diag n) (fun _ _ => zero)) as [T E].
    { intros i j H. apply in_upper_diag in H. destruct (Nat.eq_dec i j) as [->|Ne]; [rewrite Hd by lia; eauto | rewrite Ho by lia; eauto]. }
    assert (V : forall i j, i < n -> j < n -> add (T i j) (if j <? i then T j i else zero) = if i =? j then diag i else off i j).
    { apply fill_ok in E as [F1 F2]. intros i j Hi Hj. destruct (lt_eq_lt_dec i j) as [[L|L]|L].
      - specialize (F1 i j (proj2 (in_upper_diag n i j) ltac:(lia))). rewrite Ho in F1 by lia. apply Ok_inj in F1. rewrite <- F1.
        destruct (Nat.ltb_spec j i); [lia|]. destruct (Nat.eqb_spec i j); [lia|]. ring.
      - subst j. specialize (F1 i i (proj2 (in_upper_diag n i i) ltac:(lia))). rewrite Hd in F1 by lia. apply Ok_inj in F1. rewrite <- F1.
        destruct (Nat.ltb_spec i i); [lia|]. rewrite Nat.eqb_refl. ring.
      - rewrite (F2 i j) by (rewrite in_upper_diag; lia).
        specialize (F1 j i (proj2 (in_upper_diag n j i) ltac:(lia))). rewrite Ho in F1 by lia. apply Ok_inj in F1. rewrite <- F1.
        destruct (Nat.ltb_spec j i); [| lia]. destruct (Nat.eqb_spec i j); [lia|]. rewrite (Hs i j). ring. }
    exists (fun i j => add (T i j) (if j <? i then T j i else zero)). split.
    { unfold pinned. now rewrite E. }
    intros i j Hi Hj. split; [now apply V|]. rewrite !V by auto.
    rewrite (Nat.eqb_sym j i). destruct (Nat.eqb_spec i j); [now subst | apply Hs].
  Qed.

  Lemma amp_sym t nx ny bx bb u v p q : amplitude t nx ny bx bb u v p q = amplitude t nx ny bx bb u v q p.
  Proof. apply (amplitude_sym K zero one add mul sub opp id Kth); auto. Qed.

  Definition pin_field (nu : K) (nx ny s : nat) (i : nat) : K :=
    let y := snd (xy nx i) in
    if (y =? 0) || (y =? ny - 1) then sign K opp (fst (xy nx i) + y + s) nu else zero.
  Definition alt_field (h : K) (nx s : nat) (i : nat) : K :=
    if fst (xy nx i) =? 0 then sign K opp (snd (xy nx i) + s) h else zero.

  Theorem pinning_val t nu nx ny s : ny <> 1 ->
    exists T, kinetic_pinning K zero add opp t nu nx ny s = Ok T /\ forall i j, i < nx * ny -> j < nx * ny ->
      T i j = (if i =? j then pin_field nu nx ny s i else amplitude t nx ny true false one one (xy nx i) (xy nx j)) /\
      T i j = T j i.
  Proof.
    intros N. apply pinned_val.
    - intros i Hi. unfold pin_entry, pin_field. rewrite Nat.eqb_refl, decode_xy. destruct (Nat.eqb_spec ny 1); [lia|].
      cbn. destruct ((i / nx =? 0) || (i / nx =? ny - 1)); [| reflexivity]. f_equal. ring.
    - intros i j L Hj. now apply pin_off.
    - intros. apply amp_sym.
  Qed.

  Theorem alt_val t h nx ny s : ny <> 1 ->
    exists T, kinetic_pinning_alt K zero add opp t h nx ny s = Ok T /\ forall i j, i < nx * ny -> j < nx * ny ->
      T i j = (if i =? j then alt_field h nx s i else amplitude t nx ny false true one one (xy nx i) (xy nx j)) /\
      T i j = T j i.
  Proof.
    intros N. apply pinned_val.
    - intros i Hi. unfold alt_entry, alt_field. rewrite Nat.eqb_refl, decode_xy. destruct (Nat.eqb_spec ny 1); [lia|].
      cbn. destruct (i mod nx =? 0); [| reflexivity]. cbn. f_equal. ring.
    - intros i j L Hj. now apply alt_off.
    - intros. apply amp_sym.
  Qed.

  Lemma chain_stops t nu nx s : 0 < nx ->
    kinetic_pinning K zero add opp t nu nx 1 s = Err IndexError /\ kinetic_pinning_alt K zero add opp t nu nx 1 s = Err IndexError.
  Proof.
    intros H. unfold kinetic_pinning, kinetic_pinning_alt, pinned. rewrite Nat.mul_1_r.
    destruct nx as [|n]; [lia|].
    assert (E : upper_diag (S n) = (0, 0) :: map (fun j => (0, j)) (seq 1 n) ++ flat_map (fun i => map (fun j => (i, j)) (seq i (S n - i))) (seq 1 n)) by reflexivity.
    rewrite E. cbn [fill]. unfold pin_entry, alt_entry. rewrite Nat.eqb_refl, decode_xy. cbn [Nat.eqb].
    assert (F : fst (xy (S n) 0) = 0) by (cbn; lia). rewrite F. now cbn.
  Qed.
End Pinning.

(** two sites around a ring *)
Lemma ring_of_two : exists T, kinetic Z unit 0%Z Z.add Z.mul Z.opp (fun x => x) (fun _ => (-1)%Z) 1%Z 1%Z 2 1 None true true = Ok T /\ T 0 1 = (-2)%Z.
Proof. eexists. split; [reflexivity|]. reflexivity. Qed.

Lemma ring_of_two_antiperiodic : exists T,
  kinetic Z unit 0%Z Z.add Z.mul Z.opp (fun x => x) (fun _ => (-1)%Z) 1%Z 1%Z 2 1 (Some [tt]) true true = Ok T /\
  neighbours 2 1 true true (xy 2 0) (xy 2 1) /\ T 0 1 = 0%Z.
Proof. eexists. split; [reflexivity|]. split; [left; cbn; split; [auto | left; left; auto] | reflexivity]. Qed.

(** ** the same by sites *)
Lemma fft_iff_sites nx ny : 0 < nx -> 0 < ny ->
  ((forall p q, site nx ny p -> site nx ny q ->
      (neighbours nx ny true true (fft_site nx ny (place nx p)) (fft_site nx ny (place nx q)) <->
       neighbours nx ny true true p q)) <-> nx = ny \/ nx = 1 \/ ny = 1).
Proof.
  intros Hx Hy. rewrite <- fft_iff by auto. split.
  - intros H i j Hi Hj. specialize (H (xy nx i) (xy nx j) (xy_site _ _ _ Hi) (xy_site _ _ _ Hj)).
    now rewrite !place_xy in H by lia.
  - intros H p q Hp Hq. specialize (H (place nx p) (place nx q) (place_lt _ _ _ Hp) (place_lt _ _ _ Hq)).
    destruct Hp, Hq. now rewrite !xy_place in H by auto.
Qed.

Section Sites.
  Variables (K Th : Type) (zero one : K) (add mul sub : K -> K -> K) (opp conj : K -> K) (expi : Th -> K).
  Hypothesis Kth : ring_theory zero one add mul sub opp (@eq K).
  Hypothesis conj_add : forall a b, conj (add a b) = add (conj a) (conj b).
  Hypothesis conj_mul : forall a b, conj (mul a b) = mul (conj a) (conj b).
  Hypothesis conj_opp : forall a, conj (opp a) = opp (conj a).
  Hypothesis conj_conj : forall a, conj (conj a) = a.
  Hypothesis conj_one : conj one = one.

  Theorem kinetic_sites t nx ny ks bx bb : conj t = t -> twist_ok Th ny ks ->
    exists T, kinetic K Th zero add mul opp conj expi one t nx ny ks bx bb = Ok T /\
    (forall i j, T i j = conj (T j i)) /\
    (forall p q, site nx ny p -> site nx ny q -> T (place nx p) (place nx q) =
       amplitude K zero one add mul opp conj t nx ny bx bb (twist_x K Th one expi ks) (twist_y K Th one expi ks) p q) /\
    (nx <> 2 -> ny <> 2 -> forall p q, site nx ny p -> site nx ny q ->
      (neighbours nx ny bx bb p q -> exists a,
         In a [one; twist_x K Th one expi ks; twist_y K Th one expi ks; conj (twist_x K Th one expi ks); conj (twist_y K Th one expi ks)] /\
         T (place nx p) (place nx q) = mul (opp t) a) /\
      (~ neighbours nx ny bx bb p q -> T (place nx p) (place nx q) = zero)).
  Proof.
    intros Ht Hk.
    assert (E : exists T, kinetic K Th zero add mul opp conj expi one t nx ny ks bx bb = Ok T).
    { apply (kinetic_exists K Th zero one add mul sub opp conj); auto. }
    destruct E as [T E]. exists T. split; [exact E|]. split; [| split].
    - intros i j. eapply (hermitian K Th zero one add mul sub opp conj expi Kth); eauto.
    - intros p q Hp Hq. pose proof (place_lt _ _ _ Hp). pose proof (place_lt _ _ _ Hq).
      pose proof (proj1 Hp) as P1. pose proof (proj1 Hq) as Q1.
      rewrite <- (xy_place nx p P1) at 2. rewrite <- (xy_place nx q Q1) at 2.
      refine (kinetic_val K Th zero one add mul sub opp conj expi Kth _ _ _ _ _ t nx ny ks bx bb T _ _ E _ _ _ _); auto.
    - intros Nx Ny p q Hp Hq. pose proof (place_lt _ _ _ Hp). pose proof (place_lt _ _ _ Hq).
      pose proof (proj1 Hp) as P1. pose proof (proj1 Hq) as Q1.
      assert (G := kinetic_neighbours K Th zero one add mul sub opp conj expi Kth).
      specialize (G ltac:(assumption) ltac:(assumption) ltac:(assumption) ltac:(assumption) ltac:(assumption) t nx ny ks bx bb T Ht Hk Nx Ny E (place nx p) (place nx q) ltac:(assumption) ltac:(assumption)).
      rewrite !xy_place in G by auto. exact G.
  Qed.

  Theorem pinning_sites t nu nx ny s : ny <> 1 ->
    exists T, kinetic_pinning K zero add opp t nu nx ny s = Ok T /\
    (forall p q, site nx ny p -> site nx ny q -> T (place nx p) (place nx q) = T (place nx q) (place nx p) /\
       (p <> q -> T (place nx p) (place nx q) = amplitude K zero one add mul opp (fun x => x) t nx ny true false one one p q)) /\
    (forall p, site nx ny p -> T (place nx p) (place nx p) = field_edges zero opp nu ny s p).
  Proof.
    intros N. destruct (pinning_val K zero one add mul sub opp Kth t nu nx ny s N) as [T [E V]].
    exists T. split; [exact E|]. split.
    - intros p q Hp Hq. destruct (V _ _ (place_lt _ _ _ Hp) (place_lt _ _ _ Hq)) as [V1 V2]. split; [exact V2|].
      intros D. rewrite V1, !xy_place by apply Hp || apply Hq.
      destruct (Nat.eqb_spec (place nx p) (place nx q)) as [Epq|]; [| reflexivity].
      exfalso. apply D. rewrite <- (xy_place nx p), <- (xy_place nx q) by apply Hp || apply Hq. now f_equal.
    - intros p Hp. destruct (V _ _ (place_lt _ _ _ Hp) (place_lt _ _ _ Hp)) as [V1 _].
      rewrite V1, Nat.eqb_refl. unfold pin_field. rewrite xy_place by apply Hp. reflexivity.
  Qed.

  Theorem alt_sites t h nx ny s : ny <> 1 ->
    exists T, kinetic_pinning_alt K zero add opp t h nx ny s = Ok T /\
    (forall p q, site nx ny p -> site nx ny q -> T (place nx p) (place nx q) = T (place nx q) (place nx p) /\
       (p <> q -> T (place nx p) (place nx q) = amplitude K zero one add mul opp (fun x => x) t nx ny false true one one p q)) /\
    (forall p, site nx ny p -> T (place nx p) (place nx p) = field_line zero opp h s p).
  Proof.
    intros N. destruct (alt_val K zero one add mul sub opp Kth t h nx ny s N) as [T [E V]].
    exists T. split; [exact E|]. split.
    - intros p q Hp Hq. destruct (V _ _ (place_lt _ _ _ Hp) (place_lt _ _ _ Hq)) as [V1 V2]. split; [exact V2|].
      intros D. rewrite V1, !xy_place by apply Hp || apply Hq.
      destruct (Nat.eqb_spec (place nx p) (place nx q)) as [Epq|]; [| reflexivity].
      exfalso. apply D. rewrite <- (xy_place nx p), <- (xy_place nx q) by apply Hp || apply Hq. now f_equal.
    - intros p Hp. destruct (V _ _ (place_lt _ _ _ Hp) (place_lt _ _ _ Hp)) as [V1 _].
      rewrite V1, Nat.eqb_refl. unfold alt_field. rewrite xy_place by apply Hp. reflexivity.
  Qed.
End Sites.

Lemma fft_refuted : ~ (forall nx ny p q, 0 < nx -> 0 < ny -> site nx ny p -> site nx ny q ->
  (neighbours nx ny true true (fft_site nx ny (place nx p)) (fft_site nx ny (place nx q)) <-> neighbours nx ny true true p q)).
Proof.
  intros H. assert (F := proj1 (fft_iff_sites 4 2 ltac:(lia) ltac:(lia)) (fun p q => H 4 2 p q ltac:(lia) ltac:(lia))). lia.
Qed.
