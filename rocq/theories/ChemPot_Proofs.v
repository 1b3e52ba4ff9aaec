(* Proofs about the chemical potential search. *)

From Coq Require Import Reals Lra Rtrigo_def.
From Verif Require Import Base BaseFacts ChemPot_Model ChemPot_Spec.
From Coq Require Import Lra Psatz.
Open Scope R_scope.

Lemma INR_unbounded : forall x, exists n, x < INR n.
Proof.
  intro x. exists (Z.to_nat (up (Rabs x))).
  destruct (archimed (Rabs x)) as [A _].
  pose proof (Rabs_pos x). pose proof (Rle_abs x).
  assert (0 <= up (Rabs x))%Z by (apply le_IZR; lra).
  rewrite INR_IZR_INZ, Z2Nat.id by auto. lra.
Qed.

Section Search.
Variable dn : R -> R.

Lemma edge_0 : edge 0 = 1.
Proof. unfold edge; simpl; lra. Qed.

Lemma edge_S : forall k, edge (S k) = edge k + 2.
Proof. intro k; unfold edge; rewrite S_INR; lra. Qed.

Lemma edge_pos : forall k, 1 <= edge k.
Proof. intro k; unfold edge; pose proof (pos_INR k); lra. Qed.

(* How the widening loop ends. *)
Lemma widen_ok : forall fuel k d1 d2 a b c d, 0 < d1 * d2 ->
  widen dn fuel (- edge k) (edge k) d1 d2 = Ok (a, b, c, d) ->
  exists j, (k <= j)%nat
    /\ (forall i, (k <= i < j)%nat -> 0 < dn (- edge i) * dn (edge i))
    /\ c = dn (- edge j) /\ d = dn (edge j)
    /\ ((crosses dn j /\ a = - edge j /\ b = edge j)
        \/ (touches dn j /\ a = - edge (S j) /\ b = edge (S j))).
Proof.
  induction fuel as [|fuel IH]; intros k d1 d2 a b c d H E; simpl in E.
  - destruct (Rlt_dec 0 (d1 * d2)); [discriminate | contradiction].
  - destruct (Rlt_dec 0 (d1 * d2)) as [_|n]; [|contradiction].
    destruct (Rlt_dec (dn (- edge k) * dn (edge k)) 0) as [L|L].
    + injection E as <- <- <- <-.
      exists k; split; [lia|]; split; [intros i Hi; lia|]; repeat split; auto.
    + replace (- edge k - 2) with (- edge (S k)) in E by (rewrite edge_S; lra).
      replace (edge k + 2) with (edge (S k)) in E by (rewrite edge_S; lra).
      destruct (Req_dec (dn (- edge k) * dn (edge k)) 0) as [Z|Z].
      * assert (F : widen dn fuel (- edge (S k)) (edge (S k))
                      (dn (- edge k)) (dn (edge k))
                    = Ok (- edge (S k), edge (S k), dn (- edge k), dn (edge k))).
        { destruct fuel; simpl;
            destruct (Rlt_dec 0 (dn (- edge k) * dn (edge k))); auto; lra. }
        rewrite F in E; injection E as <- <- <- <-.
        exists k; split; [lia|]; split; [intros i Hi; lia|]; repeat split; auto.
      * destruct (IH (S k) (dn (- edge k)) (dn (edge k)) _ _ _ _ ltac:(lra) E)
          as (j & Hj & Hi & Hc & Hd & D).
        exists j; repeat split; auto; [lia|].
        intros i Hr; destruct (Nat.eq_dec i k) as [->|]; [lra|].
        apply Hi; lia.
Qed.

(* It ends as soon as there is fuel for the first interval without strictly
   equal signs. *)
Lemma widen_ends : forall j fuel k d1 d2, (k <= j)%nat -> (j - k < fuel)%nat ->
  dn (- edge j) * dn (edge j) <= 0 ->
  exists r, widen dn fuel (- edge k) (edge k) d1 d2 = Ok r.
Proof.
  intros j; induction fuel as [|fuel IH]; intros k d1 d2 Hk Hf Hj; [lia|].
  simpl; destruct (Rlt_dec 0 (d1 * d2)); [|eauto].
  destruct (Rlt_dec (dn (- edge k) * dn (edge k)) 0) as [L|L]; [eauto|].
  replace (- edge k - 2) with (- edge (S k)) by (rewrite edge_S; lra).
  replace (edge k + 2) with (edge (S k)) by (rewrite edge_S; lra).
  destruct (Nat.eq_dec k j) as [->|N].
  - exists (- edge (S j), edge (S j), dn (- edge j), dn (edge j)).
    destruct fuel; simpl;
      destruct (Rlt_dec 0 (dn (- edge j) * dn (edge j))); auto; lra.
  - apply IH; auto; lia.
Qed.

Lemma widen_never : forall fuel k d1 d2, 0 < d1 * d2 ->
  (forall i, (k <= i)%nat -> 0 < dn (- edge i) * dn (edge i)) ->
  widen dn fuel (- edge k) (edge k) d1 d2 = Err OutOfFuel.
Proof.
  induction fuel as [|fuel IH]; intros k d1 d2 H A; simpl;
    (destruct (Rlt_dec 0 (d1 * d2)); [|contradiction]); auto.
  pose proof (A k ltac:(lia)).
  destruct (Rlt_dec (dn (- edge k) * dn (edge k)) 0); [lra|].
  replace (- edge k - 2) with (- edge (S k)) by (rewrite edge_S; lra).
  replace (edge k + 2) with (edge (S k)) by (rewrite edge_S; lra).
  apply IH; auto. intros i Hi; apply A; lia.
Qed.

Lemma start_edge : forall fuel,
  widen dn fuel (-1) 1 1 1 = widen dn fuel (- edge 0) (edge 0) 1 1.
Proof. intro; rewrite edge_0; replace (-1) with (- (1)) by lra; reflexivity. Qed.

Lemma bisect_found : forall deps it mu1 mu2 d1 d2 mu out,
  bisect dn deps it mu1 mu2 d1 d2 = (Some mu, out) -> Rabs (dn mu) < deps.
Proof.
  intros deps; induction it as [|it IH]; intros mu1 mu2 d1 d2 mu out E;
    simpl in E; [discriminate|].
  destruct (Rlt_dec (Rabs (dn (/ 2 * (mu1 + mu2)))) deps) as [L|L].
  - injection E as <- _; exact L.
  - destruct (Rlt_dec 0 (dn (/ 2 * (mu1 + mu2)) * d1)).
    + destruct (bisect dn deps it _ mu2 d1 d2) as [r0 o] eqn:F.
      injection E as -> _; eauto.
    + destruct (Rlt_dec 0 (dn (/ 2 * (mu1 + mu2)) * d2)).
      * destruct (bisect dn deps it mu1 _ d1 d2) as [r0 o] eqn:F.
        injection E as -> _; eauto.
      * destruct (bisect dn deps it mu1 mu2 d1 d2) as [r0 o] eqn:F.
        injection E as -> _; eauto.
Qed.

(* The bracket invariant. *)
Definition inv (mu1 mu2 d1 d2 : R) : Prop :=
  mu1 <= mu2 /\ 0 < dn mu1 * d1 /\ 0 < dn mu2 * d2 /\ d1 * d2 < 0.

Lemma inv_change : forall mu1 mu2 d1 d2, inv mu1 mu2 d1 d2 ->
  dn mu1 * dn mu2 < 0.
Proof.
  intros mu1 mu2 d1 d2 (_ & H1 & H2 & H).
  assert (P : 0 < (dn mu1 * d1) * (dn mu2 * d2)) by (apply Rmult_lt_0_compat; auto).
  nra.
Qed.

(* Outside the tolerance, the sign of the value in the middle is that of one
   of the two ends. *)
Lemma middle_sign : forall deps d1 d2 x, 0 < deps -> d1 * d2 < 0 ->
  ~ Rabs x < deps -> ~ 0 < x * d1 -> 0 < x * d2.
Proof.
  intros deps d1 d2 x Hd H A N.
  assert (X : x <> 0) by (intros ->; rewrite Rabs_R0 in A; lra).
  assert (0 < x * x) by (destruct (Rtotal_order x 0) as [|[|]]; nra).
  assert (Y : x * d1 <= 0) by lra.
  assert (Z : x * d1 <> 0).
  { intro Z; apply Rmult_integral in Z as [|Z]; [auto|].
    rewrite Z in H; lra. }
  assert (x * d1 * (x * d2) < 0).
  { replace (x * d1 * (x * d2)) with (x * x * (d1 * d2)) by ring. nra. }
  nra.
Qed.

Lemma inv_left : forall mu1 mu2 d1 d2, inv mu1 mu2 d1 d2 ->
  0 < dn (/ 2 * (mu1 + mu2)) * d1 -> inv (/ 2 * (mu1 + mu2)) mu2 d1 d2.
Proof. intros mu1 mu2 d1 d2 (H & H1 & H2 & H3) P; repeat split; auto; lra. Qed.

Lemma inv_right : forall mu1 mu2 d1 d2, inv mu1 mu2 d1 d2 ->
  0 < dn (/ 2 * (mu1 + mu2)) * d2 -> inv mu1 (/ 2 * (mu1 + mu2)) d1 d2.
Proof. intros mu1 mu2 d1 d2 (H & H1 & H2 & H3) P; repeat split; auto; lra. Qed.

Lemma pow2_pos : forall i, 0 < 2 ^ i.
Proof. intro; apply pow_lt; lra. Qed.

Lemma bisect_trace : forall deps it mu1 mu2 d1 d2 r out i mu d,
  0 < deps -> inv mu1 mu2 d1 d2 ->
  bisect dn deps it mu1 mu2 d1 d2 = (r, out) ->
  nth_error out i = Some (mu, d) ->
  d = dn mu /\ change_near dn mu ((mu2 - mu1) / 2 ^ (i + 1)).
Proof.
  intros deps; induction it as [|it IH];
    intros mu1 mu2 d1 d2 r out i mu d Hd I E N; simpl in E.
  - injection E as _ <-; destruct i; discriminate.
  - pose proof (inv_change _ _ _ _ I) as CH.
    assert (H0 : forall m dd, (m, dd) = (/ 2 * (mu1 + mu2), dn (/ 2 * (mu1 + mu2))) ->
      dd = dn m /\ change_near dn m ((mu2 - mu1) / 2 ^ (0 + 1))).
    { intros m dd Q; injection Q as -> ->; split; auto.
      exists mu1, mu2. destruct I as (? & _). simpl; repeat split; auto; lra. }
    destruct (Rlt_dec (Rabs (dn (/ 2 * (mu1 + mu2)))) deps) as [L|L].
    + injection E as _ <-. destruct i as [|i]; simpl in N.
      * injection N as <- <-; apply H0; auto.
      * destruct i; discriminate.
    + assert (G : forall a b, inv a b d1 d2 -> b - a = (mu2 - mu1) / 2 ->
        (let (r0, o) := bisect dn deps it a b d1 d2 in
         (r0, (/ 2 * (mu1 + mu2), dn (/ 2 * (mu1 + mu2))) :: o)) = (r, out) ->
        d = dn mu /\ change_near dn mu ((mu2 - mu1) / 2 ^ (i + 1))).
      { intros a b J W F.
        destruct (bisect dn deps it a b d1 d2) as [r0 o] eqn:B.
        injection F as <- <-. destruct i as [|i]; simpl in N.
        - injection N as <- <-; apply H0; auto.
        - destruct (IH _ _ _ _ _ _ i mu d Hd J B N) as [-> K]; split; auto.
          replace ((mu2 - mu1) / 2 ^ (S i + 1)) with ((b - a) / 2 ^ (i + 1)); auto.
          rewrite W. simpl. pose proof (pow2_pos (i + 1)). field. lra. }
      destruct (Rlt_dec 0 (dn (/ 2 * (mu1 + mu2)) * d1)) as [P|P].
      * eapply G; [apply inv_left; eauto | lra | exact E].
      * pose proof (middle_sign deps d1 d2 _ Hd ltac:(apply I) L P) as P2.
        destruct (Rlt_dec 0 (dn (/ 2 * (mu1 + mu2)) * d2)); [|contradiction].
        eapply G; [apply inv_right; eauto | lra | exact E].
Qed.

Lemma bisect_converges : forall deps it mu1 mu2 d1 d2, 0 < deps ->
  inv mu1 mu2 d1 d2 ->
  (forall x y, mu1 <= x <= mu2 -> mu1 <= y <= mu2 ->
     Rabs (x - y) <= (mu2 - mu1) / 2 ^ S it -> Rabs (dn x - dn y) < deps) ->
  exists mu, fst (bisect dn deps (S it) mu1 mu2 d1 d2) = Some mu
             /\ mu1 <= mu <= mu2.
Proof.
  intros deps; induction it as [|it IH]; intros mu1 mu2 d1 d2 Hd I U.
  - pose proof (inv_change _ _ _ _ I) as CH. pose proof I as (W & _).
    pose proof (U (/ 2 * (mu1 + mu2)) mu1 ltac:(lra) ltac:(lra)
      ltac:(rewrite Rabs_right; lra)) as U1.
    pose proof (U (/ 2 * (mu1 + mu2)) mu2 ltac:(lra) ltac:(lra)
      ltac:(rewrite Rabs_left1; lra)) as U2.
    apply Rabs_def2 in U1 as [U1 U1']; apply Rabs_def2 in U2 as [U2 U2'].
    assert (L : Rabs (dn (/ 2 * (mu1 + mu2))) < deps).
    { destruct (Rlt_dec (dn mu1) 0).
      - assert (0 < dn mu2) by nra. apply Rabs_def1; lra.
      - assert (0 < dn mu1) by (destruct (Req_dec (dn mu1) 0) as [Z|]; [rewrite Z in CH|]; lra).
        assert (dn mu2 < 0) by nra. apply Rabs_def1; lra. }
    simpl. destruct (Rlt_dec (Rabs (dn (/ 2 * (mu1 + mu2)))) deps); [|contradiction].
    exists (/ 2 * (mu1 + mu2)); split; auto; lra.
  - pose proof I as (W & _).
    assert (E : forall mu1 mu2, bisect dn deps (S (S it)) mu1 mu2 d1 d2 =
      let mu := / 2 * (mu1 + mu2) in
      let dmu := dn mu in
      if Rlt_dec (Rabs dmu) deps then (Some mu, [(mu, dmu)])
      else
        let (r, out) :=
          if Rlt_dec 0 (dmu * d1) then bisect dn deps (S it) mu mu2 d1 d2
          else if Rlt_dec 0 (dmu * d2) then bisect dn deps (S it) mu1 mu d1 d2
          else bisect dn deps (S it) mu1 mu2 d1 d2 in
        (r, (mu, dmu) :: out)) by reflexivity.
    rewrite E; clear E; cbv zeta.
    destruct (Rlt_dec (Rabs (dn (/ 2 * (mu1 + mu2)))) deps) as [L|L].
    + exists (/ 2 * (mu1 + mu2)); split; auto; lra.
    + assert (P2 : 2 ^ S (S it) = 2 * 2 ^ S it) by reflexivity.
      pose proof (pow2_pos (S it)) as PP.
      destruct (Rlt_dec 0 (dn (/ 2 * (mu1 + mu2)) * d1)) as [P|P].
      * destruct (IH (/ 2 * (mu1 + mu2)) mu2 d1 d2 Hd (inv_left _ _ _ _ I P))
          as (mu & M & B).
        { intros x y Hx Hy A; apply U; [lra | lra |].
          rewrite P2. eapply Rle_trans; [exact A|].
          right; field; lra. }
        destruct (bisect dn deps (S it) (/ 2 * (mu1 + mu2)) mu2 d1 d2) as [r1 o].
        exists mu; split; [exact M | lra].
      * pose proof (middle_sign deps d1 d2 _ Hd ltac:(apply I) L P) as Q.
        destruct (Rlt_dec 0 (dn (/ 2 * (mu1 + mu2)) * d2)); [|contradiction].
        destruct (IH mu1 (/ 2 * (mu1 + mu2)) d1 d2 Hd (inv_right _ _ _ _ I Q))
          as (mu & M & B).
        { intros x y Hx Hy A; apply U; [lra | lra |].
          rewrite P2. eapply Rle_trans; [exact A|].
          right; field; lra. }
        destruct (bisect dn deps (S it) mu1 (/ 2 * (mu1 + mu2)) d1 d2) as [r1 o].
        exists mu; split; [exact M | lra].
Qed.

(* What the search does once an interval with a sign change is reached. *)
Lemma find_first : forall deps max_it fuel k, first_change dn k -> (k < fuel)%nat ->
  find_chemical_potential dn deps max_it fuel
  = Ok (bisect dn deps max_it (- edge k) (edge k) (dn (- edge k)) (dn (edge k))).
Proof.
  intros deps max_it fuel k [C F] L.
  unfold find_chemical_potential. rewrite start_edge.
  destruct (widen_ends k fuel 0 1 1 ltac:(lia) ltac:(lia)) as [[[[a b] c] d] E].
  { unfold crosses in C; lra. }
  rewrite E; simpl.
  destruct (widen_ok fuel 0 1 1 _ _ _ _ ltac:(lra) E) as (j & _ & Hi & -> & -> & D).
  assert (j = k) as ->.
  { destruct (lt_eq_lt_dec j k) as [[J|J]|J]; auto.
    - pose proof (F j J). unfold crosses, touches in D. lra.
    - pose proof (Hi k ltac:(lia)). unfold crosses in C; lra. }
  destruct D as [(_ & -> & ->)|(T & _)]; auto.
  unfold touches in T; unfold crosses in C; lra.
Qed.

Lemma first_inv : forall k, crosses dn k ->
  inv (- edge k) (edge k) (dn (- edge k)) (dn (edge k)).
Proof.
  intros k C; pose proof (edge_pos k); unfold crosses in C.
  set (a := dn (- edge k)) in *; set (b := dn (edge k)) in *.
  assert (a <> 0) by (intros ->; lra). assert (b <> 0) by (intros ->; lra).
  repeat split; auto; try lra.
  - fold a; destruct (Rtotal_order a 0) as [|[|]]; try contradiction; nra.
  - fold b; destruct (Rtotal_order b 0) as [|[|]]; try contradiction; nra.
Qed.

(* A monotone function that changes sign does so on some interval tried. *)
Lemma least : forall (P : nat -> Prop), (forall n, P n \/ ~ P n) ->
  forall n, P n -> exists k, (k <= n)%nat /\ P k /\ forall j, (j < k)%nat -> ~ P j.
Proof.
  intros P D; induction n as [n IH] using lt_wf_ind; intro H.
  assert (E : (exists j, (j < n)%nat /\ P j) \/ forall j, (j < n)%nat -> ~ P j).
  { clear -D. induction n as [|n IH]; [right; intros; lia|].
    destruct IH as [(j & L & H)|A]; [left; exists j; split; auto|].
    destruct (D n) as [H|H]; [left; exists n; split; auto|].
    right; intros j L. destruct (Nat.eq_dec j n) as [->|]; auto. apply A; lia. }
  destruct E as [(j & L & Hj)|A].
  - destruct (IH j L Hj) as (k & Lk & K). exists k; split; [lia | exact K].
  - exists n; auto.
Qed.

Lemma first_exists : (forall k, ~ touches dn k) ->
  (exists k, dn (- edge k) * dn (edge k) <= 0) -> exists k, first_change dn k.
Proof.
  intros T (n & Hn).
  destruct (least (fun k => dn (- edge k) * dn (edge k) <= 0)) with (n := n)
    as (k & _ & Hk & A); auto.
  - intro m; destruct (Rle_dec (dn (- edge m) * dn (edge m)) 0); auto.
  - exists k; split.
    + unfold crosses. pose proof (T k) as Tk; unfold touches in Tk. lra.
    + intros j L; pose proof (A j L); lra.
Qed.

Lemma edge_unbounded : forall x, exists k, x <= edge k.
Proof.
  intro x. destruct (INR_unbounded x) as [k H]. exists k.
  unfold edge; pose proof (pos_INR k); lra.
Qed.

Lemma change_edge : (increasing dn \/ decreasing dn) ->
  (exists a b, dn a < 0 /\ 0 < dn b) ->
  exists k, dn (- edge k) * dn (edge k) <= 0.
Proof.
  intros M (a & b & A & B).
  destruct (edge_unbounded (Rmax (Rabs a) (Rabs b))) as [k K].
  pose proof (Rmax_l (Rabs a) (Rabs b)) as MA. pose proof (Rmax_r (Rabs a) (Rabs b)) as MB.
  assert (- edge k <= a <= edge k).
  { pose proof (Rle_abs a). pose proof (Rle_abs (- a)) as Q. rewrite Rabs_Ropp in Q. lra. }
  assert (- edge k <= b <= edge k).
  { pose proof (Rle_abs b). pose proof (Rle_abs (- b)) as Q. rewrite Rabs_Ropp in Q. lra. }
  exists k. destruct M as [M|M].
  - assert (dn (- edge k) <= dn a) by (destruct (Req_dec (- edge k) a) as [<-|]; [lra|]; left; apply M; lra).
    assert (dn b <= dn (edge k)) by (destruct (Req_dec (edge k) b) as [<-|]; [lra|]; left; apply M; lra).
    nra.
  - assert (dn b <= dn (- edge k)) by (destruct (Req_dec (- edge k) b) as [<-|]; [lra|]; left; apply M; lra).
    assert (dn (edge k) <= dn a) by (destruct (Req_dec (edge k) a) as [<-|]; [lra|]; left; apply M; lra).
    nra.
Qed.

Lemma widths : forall w d, 0 < d -> exists it, forall it', (it <= it')%nat ->
  w / 2 ^ S it' < d.
Proof.
  intros w d D.
  destruct (INR_unbounded (w / d)) as [n Hn].
  exists n; intros it' L.
  assert (B : INR n < 2 ^ S it').
  { apply Rle_lt_trans with (INR (S it')); [apply le_INR; lia|].
    clear; generalize (S it'); intro m.
    induction m as [|m IH]; [simpl; lra|].
    rewrite S_INR. simpl. assert (1 <= 2 ^ m) by (apply pow_R1_Rle; lra). lra. }
  pose proof (pow2_pos (S it')) as P.
  apply Rmult_lt_reg_r with (2 ^ S it'); auto.
  replace (w / 2 ^ S it' * 2 ^ S it') with w by (field; lra).
  assert (w / d < 2 ^ S it') by lra.
  apply Rmult_lt_reg_r with (/ d); [apply Rinv_0_lt_compat; auto|].
  replace (d * 2 ^ S it' * / d) with (2 ^ S it') by (field; lra).
  exact H.
Qed.

Lemma find_continuous : forall deps k, 0 < deps -> continuity dn ->
  first_change dn k ->
  exists it, forall max_it fuel, (it <= max_it)%nat -> (k < fuel)%nat ->
  exists mu out, find_chemical_potential dn deps max_it fuel = Ok (Some mu, out)
    /\ - edge k <= mu <= edge k.
Proof.
  intros deps k Hd Ct F.
  pose proof (edge_pos k) as EP.
  destruct (Heine_cor2 (f := dn) (a := - edge k) (b := edge k)
    (fun x _ => Ct x) (mkposreal deps Hd)) as [delta D].
  destruct (widths (edge k - - edge k) delta (cond_pos delta)) as [it W].
  exists (S it); intros max_it fuel L Lf.
  destruct max_it as [|m]; [lia|].
  rewrite (find_first _ _ _ _ F Lf).
  destruct (bisect_converges deps m _ _ _ _ Hd (first_inv k (proj1 F)))
    as (mu & M & B).
  { intros x y Hx Hy A. apply (D x y Hx Hy).
    eapply Rle_lt_trans; [exact A | apply W; lia]. }
  destruct (bisect dn deps (S m) _ _ _ _) as [r out]; simpl in M; subst r.
  exists mu, out; auto.
Qed.

Lemma find_lipschitz : forall deps k L max_it fuel, 0 < deps -> 0 <= L ->
  (forall x y, Rabs (dn x - dn y) <= L * Rabs (x - y)) ->
  first_change dn k -> (k < fuel)%nat -> (0 < max_it)%nat ->
  L * (2 * edge k) < deps * 2 ^ max_it ->
  exists mu out, find_chemical_potential dn deps max_it fuel = Ok (Some mu, out).
Proof.
  intros deps k L max_it fuel Hd HL Lip F Lf Hm W.
  destruct max_it as [|m]; [lia|].
  rewrite (find_first _ _ _ _ F Lf).
  destruct (bisect_converges deps m _ _ _ _ Hd (first_inv k (proj1 F)))
    as (mu & M & B).
  { intros x y Hx Hy A.
    apply Rle_lt_trans with (L * Rabs (x - y)); auto.
    apply Rle_lt_trans with (L * ((edge k - - edge k) / 2 ^ S m)).
    - apply Rmult_le_compat_l; auto.
    - pose proof (pow2_pos (S m)) as P.
      apply Rmult_lt_reg_r with (2 ^ S m); auto.
      replace (L * ((edge k - - edge k) / 2 ^ S m) * 2 ^ S m)
        with (L * (2 * edge k)); [exact W | field; lra]. }
  destruct (bisect dn deps (S m) _ _ _ _) as [r out]; simpl in M; subst r.
  exists mu, out; auto.
Qed.

(* An end of an interval tried that happens to be the root. *)
Lemma bisect_stuck : forall deps it mu1 mu2 d2,
  deps <= Rabs (dn (/ 2 * (mu1 + mu2))) ->
  dn (/ 2 * (mu1 + mu2)) * d2 <= 0 ->
  fst (bisect dn deps it mu1 mu2 0 d2) = None.
Proof.
  intros deps; induction it as [|it IH]; intros mu1 mu2 d2 A B; auto.
  simpl. destruct (Rlt_dec (Rabs (dn (/ 2 * (mu1 + mu2)))) deps); [lra|].
  rewrite Rmult_0_r. destruct (Rlt_dec 0 0); [lra|].
  destruct (Rlt_dec 0 (dn (/ 2 * (mu1 + mu2)) * d2)); [lra|].
  specialize (IH mu1 mu2 d2 A B).
  destruct (bisect dn deps it mu1 mu2 0 d2); auto.
Qed.

Lemma zero_end : forall deps max_it fuel, increasing dn -> dn (-1) = 0 ->
  deps <= dn 0 -> deps <= - dn (- (3 / 2)) -> (0 < fuel)%nat ->
  exists out, find_chemical_potential dn deps max_it fuel = Ok (None, out).
Proof.
  intros deps max_it fuel I Z H0 H1 Hf.
  unfold find_chemical_potential.
  destruct fuel as [|fuel]; [lia|].
  assert (P0 : 0 < dn 0) by (rewrite <- Z; apply I; lra).
  assert (P1 : 0 < dn 1) by (rewrite <- Z; apply I; lra).
  assert (P2 : dn (- (3 / 2)) < 0) by (rewrite <- Z; apply I; lra).
  assert (E : widen dn (S fuel) (-1) 1 1 1 = Ok (-1 - 2, 1 + 2, 0, dn 1)).
  { simpl. destruct (Rlt_dec 0 (1 * 1)); [|lra]. rewrite Z, Rmult_0_l.
    destruct (Rlt_dec 0 0); [lra|].
    destruct fuel; simpl; rewrite Rmult_0_l; destruct (Rlt_dec 0 0); auto; lra. }
  rewrite E; simpl.
  assert (F : fst (bisect dn deps max_it (-1 - 2) (1 + 2) 0 (dn 1)) = None).
  { destruct max_it as [|it]; auto. simpl.
    replace (/ 2 * (-1 - 2 + (1 + 2))) with 0 by lra.
    destruct (Rlt_dec (Rabs (dn 0)) deps) as [L|L].
    - rewrite Rabs_right in L; lra.
    - rewrite Rmult_0_r. destruct (Rlt_dec 0 0); [lra|].
      destruct (Rlt_dec 0 (dn 0 * dn 1)) as [_|N]; [|exfalso; nra].
      pose proof (bisect_stuck deps it (-1 - 2) 0 (dn 1)) as K.
      replace (/ 2 * (-1 - 2 + 0)) with (- (3 / 2)) in K by lra.
      specialize (K ltac:(rewrite Rabs_left; lra) ltac:(nra)).
      destruct (bisect dn deps it (-1 - 2) 0 0 (dn 1)); auto. }
  destruct (bisect dn deps max_it (-1 - 2) (1 + 2) 0 (dn 1)) as [r out].
  simpl in F; subst r. exists out; auto.
Qed.

End Search.

(* Independent fermions. *)
Section Fermi.
Variables (s beta : R).
Notation positive xs := (Forall (fun x => 0 < x) xs).

Definition occ (x z : R) : R := x * exp z / (1 + x * exp z).

Lemma occ_range : forall x z, 0 < x -> 0 < occ x z < 1.
Proof.
  intros x z H; unfold occ; pose proof (exp_pos z) as E.
  assert (P : 0 < x * exp z) by (apply Rmult_lt_0_compat; auto).
  split; [apply Rdiv_lt_0_compat; lra|].
  apply Rmult_lt_reg_r with (1 + x * exp z); [lra|].
  replace (x * exp z / (1 + x * exp z) * (1 + x * exp z))
    with (x * exp z) by (field; lra). lra.
Qed.

Lemma occ_mono : forall x y z, 0 < x -> y < z -> occ x y < occ x z.
Proof.
  intros x y z H L; unfold occ.
  pose proof (exp_pos y) as Ey. pose proof (exp_increasing y z L) as EL.
  assert (P : 0 < x * exp y) by (apply Rmult_lt_0_compat; auto).
  assert (Q : x * exp y < x * exp z) by (apply Rmult_lt_compat_l; auto).
  apply Rmult_lt_reg_r with ((1 + x * exp y) * (1 + x * exp z)); [nra|].
  replace (x * exp y / (1 + x * exp y) * ((1 + x * exp y) * (1 + x * exp z)))
    with (x * exp y * (1 + x * exp z)) by (field; lra).
  replace (x * exp z / (1 + x * exp z) * ((1 + x * exp y) * (1 + x * exp z)))
    with (x * exp z * (1 + x * exp y)) by (field; lra).
  nra.
Qed.

Lemma occ_high : forall x t, 0 < x -> t < 1 -> exists m, forall z, m <= z -> t < occ x z.
Proof.
  intros x t H T.
  set (y := Rmax 1 (/ x / (1 - t))).
  assert (Y : 0 < y) by (unfold y; pose proof (Rmax_l 1 (/ x / (1 - t))); lra).
  exists (ln y); intros z L.
  assert (E : y <= exp z).
  { rewrite <- (exp_ln y Y). destruct L as [L|<-]; [left; apply exp_increasing; auto|lra]. }
  assert (F : / x / (1 - t) <= exp z) by (unfold y in E; pose proof (Rmax_r 1 (/ x / (1 - t))); lra).
  assert (G : 1 <= x * exp z * (1 - t)).
  { replace 1 with (x * (/ x / (1 - t)) * (1 - t)) at 1 by (field; lra).
    apply Rmult_le_compat_r; [lra|]. apply Rmult_le_compat_l; lra. }
  unfold occ. pose proof (exp_pos z) as P.
  assert (0 < x * exp z) by (apply Rmult_lt_0_compat; auto).
  apply Rmult_lt_reg_r with (1 + x * exp z); [lra|].
  replace (x * exp z / (1 + x * exp z) * (1 + x * exp z))
    with (x * exp z) by (field; lra). nra.
Qed.

Lemma occ_low : forall x t, 0 < x -> 0 < t -> exists m, forall z, z <= m -> occ x z < t.
Proof.
  intros x t H T.
  assert (Y : 0 < t / x) by (apply Rdiv_lt_0_compat; auto).
  exists (ln (t / x)); intros z L.
  assert (E : exp z <= t / x).
  { rewrite <- (exp_ln (t / x) Y). destruct L as [L| ->]; [left; apply exp_increasing; auto|lra]. }
  unfold occ. pose proof (exp_pos z) as P.
  assert (Q : 0 < x * exp z) by (apply Rmult_lt_0_compat; auto).
  assert (G : x * exp z <= t).
  { replace t with (x * (t / x)) by (field; lra). apply Rmult_le_compat_l; lra. }
  apply Rmult_lt_reg_r with (1 + x * exp z); [lra|].
  replace (x * exp z / (1 + x * exp z) * (1 + x * exp z))
    with (x * exp z) by (field; lra). nra.
Qed.

Lemma fermi_step : forall x l mu,
  fermi s beta (x :: l) mu = occ x (s * beta * mu) + fermi s beta l mu.
Proof. reflexivity. Qed.

Lemma fermi_range : forall xs mu, positive xs -> 0 <= fermi s beta xs mu <= INR (length xs).
Proof.
  intros xs mu Hpos; induction Hpos as [|x l Hx Hl IH]; [simpl; lra|].
  rewrite fermi_step. cbn [length]. rewrite S_INR.
  pose proof (occ_range x (s * beta * mu) Hx). lra.
Qed.

Lemma fermi_strict : forall xs, positive xs -> xs <> [] -> forall mu, 0 < fermi s beta xs mu < INR (length xs).
Proof.
  intros xs Hpos N mu; destruct xs as [|x l]; [contradiction|].
  inversion Hpos as [|a b Hx Hl]; subst.
  rewrite fermi_step. cbn [length]. rewrite S_INR.
  pose proof (occ_range x (s * beta * mu) Hx).
  pose proof (fermi_range l mu Hl). lra.
Qed.

Lemma fermi_high : forall xs t, positive xs -> t < 1 -> exists m, forall mu, m <= s * beta * mu ->
  t * INR (length xs) <= fermi s beta xs mu.
Proof.
  intros xs t Hpos T; induction Hpos as [|x l Hx Hl IH].
  - exists 0; intros; simpl; lra.
  - destruct IH as [m M]. destruct (occ_high x t Hx T) as [m' M'].
    exists (Rmax m m'); intros mu L.
    pose proof (Rmax_l m m'). pose proof (Rmax_r m m').
    rewrite fermi_step. cbn [length]. rewrite S_INR.
    pose proof (M mu ltac:(lra)). pose proof (M' (s * beta * mu) ltac:(lra)). lra.
Qed.

Lemma fermi_low : forall xs t, positive xs -> 0 < t -> exists m, forall mu, s * beta * mu <= m ->
  fermi s beta xs mu <= t * INR (length xs).
Proof.
  intros xs t Hpos T; induction Hpos as [|x l Hx Hl IH].
  - exists 0; intros; simpl; lra.
  - destruct IH as [m M]. destruct (occ_low x t Hx T) as [m' M'].
    exists (Rmin m m'); intros mu L.
    pose proof (Rmin_l m m'). pose proof (Rmin_r m m').
    rewrite fermi_step. cbn [length]. rewrite S_INR.
    pose proof (M mu ltac:(lra)). pose proof (M' (s * beta * mu) ltac:(lra)). lra.
Qed.

Lemma fermi_mono : forall xs, positive xs -> xs <> [] -> forall mu nu, s * beta * mu < s * beta * nu ->
  fermi s beta xs mu < fermi s beta xs nu.
Proof.
  intros xs Hpos N mu nu L.
  assert (W : forall l, Forall (fun x => 0 < x) l ->
    fermi s beta l mu <= fermi s beta l nu).
  { intros l Hl; induction Hl as [|x l Hx Hl IH]; [simpl; lra|].
    rewrite !fermi_step. pose proof (occ_mono x _ _ Hx L). lra. }
  destruct xs as [|x l]; [contradiction|].
  inversion Hpos as [|a b Hx Hl]; subst.
  rewrite !fermi_step. pose proof (occ_mono x _ _ Hx L). pose proof (W l Hl). lra.
Qed.

Lemma fermi_continuous : forall xs, positive xs -> continuity (fermi s beta xs).
Proof.
  intros xs Hpos; induction Hpos as [|x l Hx Hl IH].
  - apply continuity_const; intros a b; reflexivity.
  - apply (continuity_plus (fun mu => occ x (s * beta * mu)) (fermi s beta l)); auto.
    unfold occ.
    assert (E : continuity (fun mu => x * exp (s * beta * mu))).
    { apply (continuity_scal (fun mu => exp (s * beta * mu))).
      apply (continuity_comp (fun mu => s * beta * mu) exp).
      - apply (continuity_scal id). apply derivable_continuous, derivable_id.
      - apply derivable_continuous, derivable_exp. }
    apply (continuity_div (fun mu => x * exp (s * beta * mu))
             (fun mu => 1 + x * exp (s * beta * mu))); auto.
    + apply (continuity_plus (fun _ => 1) (fun mu => x * exp (s * beta * mu))); auto.
      apply continuity_const; intros a b; reflexivity.
    + intro mu. pose proof (exp_pos (s * beta * mu)).
      assert (0 < x * exp (s * beta * mu)) by (apply Rmult_lt_0_compat; auto). lra.
Qed.

Lemma fermi_sides : forall xs N, positive xs -> s * beta <> 0 -> 0 < N < INR (length xs) ->
  exists a b, fermi s beta xs a - N < 0 /\ 0 < fermi s beta xs b - N.
Proof.
  intros xs N Hpos B [N0 N1].
  set (n := INR (length xs)) in *.
  destruct (fermi_low xs (N / (2 * n)) Hpos) as [m M].
  { apply Rdiv_lt_0_compat; lra. }
  destruct (fermi_high xs ((N / n + 1) / 2) Hpos) as [m' M'].
  { apply Rmult_lt_reg_r with (2 * n); [lra|].
    replace ((N / n + 1) / 2 * (2 * n)) with (N + n) by (field; lra). lra. }
  exists (m / (s * beta)), (m' / (s * beta)); split.
  - pose proof (M (m / (s * beta))) as Q.
    replace (s * beta * (m / (s * beta))) with m in Q
      by (field; split; intro Z; rewrite Z in B; lra).
    specialize (Q ltac:(lra)). fold n in Q.
    replace (N / (2 * n) * n) with (N / 2) in Q by (field; lra). lra.
  - pose proof (M' (m' / (s * beta))) as Q.
    replace (s * beta * (m' / (s * beta))) with m' in Q
      by (field; split; intro Z; rewrite Z in B; lra).
    specialize (Q ltac:(lra)). fold n in Q.
    replace ((N / n + 1) / 2 * n) with ((N + n) / 2) in Q by (field; lra). lra.
Qed.

Lemma fermi_monotone : forall xs N, positive xs -> xs <> [] -> s * beta <> 0 ->
  increasing (fun mu => fermi s beta xs mu - N)
  \/ decreasing (fun mu => fermi s beta xs mu - N).
Proof.
  intros xs N Hpos Hn B; destruct (Rlt_dec 0 (s * beta)) as [P|P]; [left|right];
    intros x y L.
  - assert (s * beta * x < s * beta * y) by (apply Rmult_lt_compat_l; auto).
    pose proof (fermi_mono xs Hpos Hn x y H). lra.
  - assert (s * beta * y < s * beta * x) by nra.
    pose proof (fermi_mono xs Hpos Hn y x H). lra.
Qed.

End Fermi.

(* The fits. *)
Lemma lowest_least : forall l, lowest l (hd 0 l) = least_of l.
Proof.
  destruct l as [|x l]; [reflexivity|]. cbn [hd least_of]. unfold lowest.
  rewrite fold_symmetric.
  - cbn [fold_right]. apply Rmin_right.
    induction l as [|y l IH]; cbn; [lra|].
    eapply Rle_trans; [apply Rmin_r | exact IH].
  - apply Rmin_assoc.
  - intro; apply Rmin_comm.
Qed.

Lemma highest_greatest : forall l, highest l (hd 0 l) = greatest_of l.
Proof.
  destruct l as [|x l]; [reflexivity|]. cbn [hd greatest_of]. unfold highest.
  rewrite fold_symmetric.
  - cbn [fold_right]. apply Rmax_right.
    induction l as [|y l IH]; cbn; [lra|].
    eapply Rle_trans; [exact IH | apply Rmax_r].
  - apply Rmax_assoc.
  - intro; apply Rmax_comm.
Qed.

Section Fit.
Variable Coef : Type.
Variable order : nat.
Variable polyfit : list (R * R * R) -> Coef * list R.
Variable brentq : Coef -> R -> R -> option (R * bool).
Variable data : list (R * R * R).

Notation wide := (wide order data).
Notation root := (root polyfit brentq data).
Notation resid := (resid polyfit data).

Lemma wide_alt : forall k, wide k <-> (order + 1 < length data - 2 * k)%nat.
Proof.
  intro k; unfold ChemPot_Spec.wide, window.
  rewrite firstn_length, skipn_length. lia.
Qed.

(* The state before the k-th fit. *)
Definition good (k : nat) (v : vars) : Prop :=
  match v_rmin v, v_mumin v with
  | None, None => v_conv v = None /\ (forall j, (j < k)%nat -> root j = None)
      /\ (v_mu v = None /\ k = 0%nat \/ v_mu v = Some None)
  | Some r, Some m => exists i j c,
      (i <= j < k)%nat /\ wide j /\ (forall h, (h < i)%nat -> root h = None)
      /\ root i <> None /\ r = resid i /\ root j = Some (m, c)
      /\ (j = i \/ resid j < resid i)
      /\ (forall h, (j < h < k)%nat -> root h <> None -> resid i <= resid h)
      /\ v_conv v <> None /\ v_mu v <> None
  | _, _ => False
  end
  /\ (forall k', k = S k' -> v_mu v = Some (option_map fst (root k')))
  /\ (forall k' x c, k = S k' -> root k' = Some (x, c) -> v_conv v = Some c).

Lemma fit_good : forall fuel k v v', good k v ->
  fit_loop order polyfit brentq data fuel k (length data - k) v = Ok v' ->
  exists n, (k <= n)%nat /\ good n v' /\ ~ wide n
            /\ (forall j, (k <= j < n)%nat -> wide j).
Proof.
  induction fuel as [|fuel IH]; intros k v v' G E.
  - simpl in E.
    destruct (Nat.ltb_spec (order + 1) (length data - k - k)); [discriminate|].
    injection E as <-. exists k; repeat split; try apply G; auto; rewrite ?wide_alt; lia.
  - cbn [fit_loop] in E.
    destruct (Nat.ltb_spec (order + 1) (length data - k - k)) as [L|L].
    2:{ injection E as <-. exists k; repeat split; try apply G; auto; rewrite ?wide_alt; lia. }
    assert (Wk : wide k) by (apply wide_alt; lia).
    assert (Ew : firstn (length data - k - k) (skipn k data) = window data k).
    { unfold window. f_equal; lia. }
    rewrite Ew in E.
    replace (length data - k - 1)%nat with (length data - S k)%nat in E by lia.
    replace (k + 1)%nat with (S k) in E by lia.
    destruct (polyfit (window data k)) as [fit r] eqn:P.
    assert (Rk : root k = brentq fit
        (lowest (map (fun x => fst (fst x)) (window data k))
           (hd 0 (map (fun x => fst (fst x)) (window data k))))
        (highest (map (fun x => fst (fst x)) (window data k))
           (hd 0 (map (fun x => fst (fst x)) (window data k))))).
    { unfold ChemPot_Spec.root; rewrite P, lowest_least, highest_greatest; reflexivity. }
    rewrite <- Rk in E.
    assert (N : forall v1, good (S k) v1 ->
      fit_loop order polyfit brentq data fuel (S k) (length data - S k) v1 = Ok v' ->
      exists n, (k <= n)%nat /\ good n v' /\ ~ wide n
                /\ (forall j, (k <= j < n)%nat -> wide j)).
    { intros v1 G1 F. destruct (IH _ _ _ G1 F) as (n & A & B & C & D).
      exists n; repeat split; auto; [lia | apply B | apply B | apply B |].
      intros j Hj; destruct (Nat.eq_dec j k) as [->|]; auto. apply D; lia. }
    destruct G as (G & Gm & Gc).
    destruct (root k) as [[mu conv]|] eqn:Q.
    + destruct r as [|r0 r]; [discriminate|].
      assert (RS : resid k = r0) by (unfold ChemPot_Spec.resid; rewrite P; reflexivity).
      assert (TM : forall k', S k = S k' ->
        Some (Some mu) = Some (option_map fst (root k'))).
      { intros k' K; injection K as <-; rewrite Q; reflexivity. }
      assert (TC : forall k' x c, S k = S k' -> root k' = Some (x, c) ->
        Some conv = Some c).
      { intros k' x c K; injection K as <-; rewrite Q; intro X; congruence. }
      destruct (v_rmin v) as [rm|] eqn:Vr.
      * destruct (v_mumin v) as [m|] eqn:Vm; [|contradiction].
        destruct G as (i & j & c & I & Wj & H1 & H2 & H3 & H4 & H5 & H6 & H7 & H8).
        destruct (Rlt_dec r0 rm) as [Lt|Lt].
        -- eapply N; [|exact E]. split; [|split; auto]. simpl.
           exists i, k, conv. split; [lia|]. split; [auto|]. split; [auto|].
           split; [auto|]. split; [auto|]. split; [auto|].
           split; [right; lra|]. split; [intros h Hh; lia|]. split; discriminate.
        -- eapply N; [|exact E]. split; [|split; auto]. simpl.
           exists i, j, c. split; [lia|]. split; [auto|]. split; [auto|].
           split; [auto|]. split; [auto|]. split; [auto|]. split; [auto|].
           split; [|split; discriminate].
           intros h Hh Hr. destruct (Nat.eq_dec h k) as [->|]; [lra|].
           apply H6; auto; lia.
      * destruct (v_mumin v) as [m|] eqn:Vm; [contradiction|].
        destruct G as (H1 & H2 & H3).
        eapply N; [|exact E]. split; [|split; auto]. simpl.
        exists k, k, conv. split; [lia|]. split; [auto|]. split; [auto|].
        split; [rewrite Q; discriminate|]. split; [auto|]. split; [auto|].
        split; [auto|]. split; [intros h Hh; lia|]. split; discriminate.
    + eapply N; [|exact E]. split; [|split]; simpl.
      * destruct (v_rmin v) as [rm|] eqn:Vr; destruct (v_mumin v) as [m|] eqn:Vm;
          try contradiction.
        -- destruct G as (i & j & c & I & Wj & H1 & H2 & H3 & H4 & H5 & H6 & H7 & H8).
           exists i, j, c. split; [lia|]. split; [auto|]. split; [auto|].
           split; [auto|]. split; [auto|]. split; [auto|]. split; [auto|].
           split; [|split; [auto|discriminate]].
           intros h Hh Hr. destruct (Nat.eq_dec h k) as [->|]; [contradiction|].
           apply H6; auto; lia.
        -- destruct G as (H1 & H2 & H3). repeat split; auto.
           intros j Hj. destruct (Nat.eq_dec j k) as [->|]; auto. apply H2; lia.
      * intros k' K; injection K as <-; rewrite Q; reflexivity.
      * intros k' x c K; injection K as <-; rewrite Q; discriminate.
Qed.

Lemma good_0 : good 0 (MkVars None None None None).
Proof. split; [|split]; simpl; try discriminate. repeat split; auto. intros; lia. Qed.

(* What is returned. *)
Lemma fit_result : forall m,
  find_chem_pot order polyfit brentq data = Ok (Some m) ->
  exists i j c, (i <= j)%nat /\ wide j /\ root j = Some (m, c)
    /\ (forall h, (h < i)%nat -> root h = None) /\ root i <> None
    /\ (j = i \/ resid j < resid i)
    /\ (forall h, (j < h)%nat -> wide h -> root h <> None -> resid i <= resid h).
Proof.
  intros m E; unfold find_chem_pot in E.
  destruct (fit_loop order polyfit brentq data (length data) 0 (length data)
              (MkVars None None None None)) as [v|] eqn:F; [|discriminate].
  replace (length data) with (length data - 0)%nat in F at 2 by lia.
  destruct (fit_good _ _ _ _ good_0 F) as (n & _ & (G & _) & NW & A).
  simpl in E. destruct (v_mu v) as [[x|]|] eqn:Vu; try discriminate.
  destruct (v_conv v) as [[]|] eqn:Vc; try discriminate.
  destruct (v_mumin v) as [m'|] eqn:Vm; [|discriminate].
  injection E as ->.
  destruct (v_rmin v) as [rm|]; [|contradiction].
  destruct G as (i & j & c & I & Wj & H1 & H2 & H3 & H4 & H5 & H6 & H7 & H8).
  exists i, j, c; repeat split; auto; [lia|].
  intros h Hh Wh Hr. apply H6; auto. split; auto.
  rewrite ?wide_alt in *; lia.
Qed.

Lemma fit_last : forall k, wide k -> ~ wide (S k) -> root k = None ->
  forall m, find_chem_pot order polyfit brentq data <> Ok (Some m).
Proof.
  intros k Wk NW Rk m E; unfold find_chem_pot in E.
  destruct (fit_loop order polyfit brentq data (length data) 0 (length data)
              (MkVars None None None None)) as [v|] eqn:F; [|discriminate].
  replace (length data) with (length data - 0)%nat in F at 2 by lia.
  destruct (fit_good _ _ _ _ good_0 F) as (n & _ & (_ & G & _) & NWn & A).
  assert (n = S k) as ->.
  { rewrite ?wide_alt in *. destruct (Nat.lt_trichotomy n (S k)) as [H|[H|H]]; auto.
    - exfalso; apply NWn; lia.
    - exfalso; apply NW, wide_alt, A; lia. }
  simpl in E. rewrite (G k eq_refl), Rk in E. simpl in E. discriminate.
Qed.

Lemma fit_short : (length data <= order + 1)%nat ->
  find_chem_pot order polyfit brentq data = Err UnboundLocalError.
Proof.
  intro L; unfold find_chem_pot.
  assert (E : forall fuel, fit_loop order polyfit brentq data fuel 0 (length data)
     (MkVars None None None None) = Ok (MkVars None None None None)).
  { intro fuel; destruct fuel; cbn [fit_loop];
      destruct (Nat.ltb_spec (order + 1) (length data - 0)); auto; lia. }
  rewrite E; reflexivity.
Qed.

End Fit.

(* A level at -1, half filled. *)
Lemma level_increasing : increasing (fun mu => fermi 1 1 [exp 1; exp 1] mu - 1).
Proof.
  intros x y L. pose proof (exp_pos 1) as E.
  assert (fermi 1 1 [exp 1; exp 1] x < fermi 1 1 [exp 1; exp 1] y); [|lra].
  apply fermi_mono; [repeat constructor; auto | discriminate | lra].
Qed.

Lemma occ_e : forall z, occ (exp 1) z = exp (1 + z) / (1 + exp (1 + z)).
Proof. intro z; unfold occ; rewrite exp_plus; reflexivity. Qed.

Lemma level_value : forall mu,
  fermi 1 1 [exp 1; exp 1] mu - 1 = (exp (1 + mu) - 1) / (exp (1 + mu) + 1).
Proof.
  intro mu. rewrite !fermi_step, occ_e. cbn [fermi].
  replace (1 * 1 * mu) with mu by ring.
  pose proof (exp_pos (1 + mu)). field. lra.
Qed.

Lemma level_stuck : forall deps max_it fuel, deps <= / 5 -> (0 < fuel)%nat ->
  exists out, find_chemical_potential (fun mu => fermi 1 1 [exp 1; exp 1] mu - 1)
                deps max_it fuel = Ok (None, out).
Proof.
  intros deps max_it fuel D F.
  apply zero_end; auto.
  - exact level_increasing.
  - rewrite level_value. replace (1 + -1) with 0 by ring. rewrite exp_0. field.
  - rewrite level_value. rewrite Rplus_0_r.
    pose proof (exp_ineq1 1 ltac:(lra)) as E.
    apply Rle_trans with (/ 5); auto.
    apply Rmult_le_reg_r with (exp 1 + 1); [lra|].
    replace ((exp 1 - 1) / (exp 1 + 1) * (exp 1 + 1)) with (exp 1 - 1) by (field; lra).
    lra.
  - rewrite level_value. replace (1 + - (3 / 2)) with (- (/ 2)) by field.
    rewrite exp_Ropp. pose proof (exp_ineq1 (/ 2) ltac:(lra)) as E.
    set (e := exp (/ 2)) in *.
    apply Rle_trans with (/ 5); auto.
    replace (- ((/ e - 1) / (/ e + 1))) with ((e - 1) / (e + 1)) by (field; lra).
    apply Rmult_le_reg_r with (e + 1); [lra|].
    replace ((e - 1) / (e + 1) * (e + 1)) with (e - 1) by (field; lra).
    lra.
Qed.

Lemma fermi_never : forall s beta xs N deps max_it fuel,
  Forall (fun x => 0 < x) xs -> xs <> [] ->
  N <= 0 \/ INR (length xs) <= N ->
  find_chemical_potential (fun mu => fermi s beta xs mu - N) deps max_it fuel
  = Err OutOfFuel.
Proof.
  intros s beta xs N deps max_it fuel P Ne H. unfold find_chemical_potential.
  rewrite start_edge, widen_never; auto; [lra|].
  intros i _. pose proof (fermi_strict s beta xs P Ne (- edge i)).
  pose proof (fermi_strict s beta xs P Ne (edge i)).
  destruct H; nra.
Qed.

Lemma fermi_found : forall s beta xs N deps,
  Forall (fun x => 0 < x) xs -> s * beta <> 0 -> 0 < N < INR (length xs) ->
  0 < deps -> (forall k, ~ touches (fun mu => fermi s beta xs mu - N) k) ->
  exists it fl, forall max_it fuel, (it <= max_it)%nat -> (fl <= fuel)%nat ->
  exists mu out,
    find_chemical_potential (fun mu => fermi s beta xs mu - N) deps max_it fuel
      = Ok (Some mu, out)
    /\ Rabs (fermi s beta xs mu - N) < deps.
Proof.
  intros s beta xs N deps P B HN Hd T.
  assert (Ne : xs <> []) by (intros ->; simpl in HN; lra).
  destruct (first_exists _ T) as [k F].
  { apply (change_edge (fun mu => fermi s beta xs mu - N)); [apply fermi_monotone; auto|].
    apply fermi_sides; auto. }
  assert (Ct : continuity (fun mu => fermi s beta xs mu - N)).
  { apply (continuity_minus (fermi s beta xs) (fun _ => N)).
    - apply fermi_continuous; auto.
    - apply continuity_const; intros a b; reflexivity. }
  destruct (find_continuous _ deps k Hd Ct F) as [it H].
  exists it, (S k); intros max_it fuel L1 L2.
  destruct (H max_it fuel L1 ltac:(lia)) as (mu & out & E & _).
  exists mu, out; split; auto.
  rewrite (find_first _ deps max_it fuel k F ltac:(lia)) in E.
  injection E as E. exact (bisect_found _ _ _ _ _ _ _ _ _ E).
Qed.

(* Three fits with residuals 3, 1 and 2. *)
Definition points (n : nat) : list (R * R * R) :=
  map (fun i => (INR i, 0, 1)) (seq 0 n).
Definition fits (w : list (R * R * R)) : nat * list R :=
  let n := length w in
  (n, [if (n =? 8)%nat then 3 else if (n =? 6)%nat then 1 else 2]).
Definition roots (n : nat) (a b : R) : option (R * bool) := Some (INR n, true).
Definition roots_but_last (n : nat) (a b : R) : option (R * bool) :=
  if (n =? 4)%nat then None else Some (INR n, true).

Lemma not_the_best : find_chem_pot 2 fits roots (points 8) = Ok (Some (INR 4)).
Proof.
  unfold find_chem_pot, points. cbn -[INR Rmin Rmax].
  destruct (Rlt_dec 1 3) as [_|]; [|lra].
  cbn -[INR Rmin Rmax]. destruct (Rlt_dec 2 3) as [_|]; [|lra].
  reflexivity.
Qed.

Lemma forgotten : find_chem_pot 2 fits roots_but_last (points 8) = Ok None.
Proof.
  unfold find_chem_pot, points. cbn -[INR Rmin Rmax].
  destruct (Rlt_dec 1 3) as [_|]; [|lra].
  reflexivity.
Qed.
