From Verif Require Import Base BaseFacts Wfn_Spec Wfn_Model.
Open Scope nat_scope.

(** ** PHMSD *)
Lemma occ_rows_ok : forall na nb norb occa occb n, shaped n na nb occa occb ->
  exists l, occ_rows na nb norb occa occb = Ok l /\ length l = n * (na + nb) /\
    map (firstn na) (rows n (na + nb) l) = occa /\
    map (skipn na) (rows n (na + nb) l) = map (map (fun i => norb + i)) occb.
Proof.
  induction occa as [|a occa IH]; intros occb n (H1 & H2 & H3 & H4).
  - cbn in H1. subst n. destruct occb; [|discriminate]. exists []. repeat split.
  - destruct occb as [|b occb]; [cbn in *; lia|]. destruct n as [|n]; [discriminate|].
    inversion_clear H3 as [|? ? Ha H3']. inversion_clear H4 as [|? ? Hb H4'].
    destruct (IH occb n) as (l & El & Ll & E1 & E2).
    { split; [cbn in H1; lia|]. split; [cbn in H2; lia|]. auto. }
    exists (a ++ map (fun i => norb + i) b ++ l). split.
    { cbn [occ_rows]. rewrite Ha, Hb, !Nat.eqb_refl. cbn. rewrite El. reflexivity. }
    assert (Lr : length (a ++ map (fun i => norb + i) b) = na + nb) by (rewrite app_length, map_length; lia).
    split. { rewrite !app_length, map_length, Ll, Ha, Hb. lia. }
    assert (F : firstn (na + nb) (a ++ map (fun i => norb + i) b ++ l) = a ++ map (fun i => norb + i) b).
    { rewrite app_assoc, firstn_app, Lr, Nat.sub_diag. cbn. rewrite app_nil_r. apply firstn_all2. lia. }
    assert (S : skipn (na + nb) (a ++ map (fun i => norb + i) b ++ l) = l).
    { rewrite app_assoc, skipn_app, Lr, Nat.sub_diag. cbn. rewrite skipn_all2 by lia. reflexivity. }
    cbn [rows map]. rewrite F, S, E1, E2. split; f_equal.
    + rewrite firstn_app, Ha, Nat.sub_diag. cbn. rewrite app_nil_r. apply firstn_all2. lia.
    + rewrite skipn_app, Ha, Nat.sub_diag. cbn. rewrite skipn_all2 by lia. reflexivity.
Qed.

Lemma phmsd_roundtrip : forall n na nb norb occa occb nelec, shaped n na nb occa occb ->
  (forall e, nelec = Some e -> e = (na, nb) /\ na = nb) ->
  exists f, write_phmsd (na, nb) norb n occa occb = Ok f /\ read_phmsd f nelec = Ok (occa, map (map Z.of_nat) occb).
Proof.
  intros n na nb norb occa occb nelec H He.
  destruct (occ_rows_ok na nb norb occa occb n H) as (l & El & Ll & E1 & E2).
  exists (Phmsd norb na nb n l). split.
  { unfold write_phmsd. cbn [fst snd]. rewrite El. reflexivity. }
  unfold read_phmsd. cbn [p_na p_nb p_norb p_nci p_occs].
  assert (C : check_nelec na nb nelec = Ok tt).
  { destruct nelec as [e|]; [|reflexivity]. destruct (He e eq_refl) as [-> ->]. cbn. rewrite Nat.eqb_refl. reflexivity. }
  rewrite C. cbn [rbind]. unfold reshape. rewrite Ll, Nat.eqb_refl. cbn [rbind].
  rewrite E1. do 2 f_equal.
  rewrite <- (map_map (skipn na) (fun o => map (fun x => (Z.of_nat x - Z.of_nat norb)%Z) o)), E2, map_map.
  apply map_ext. intros o. rewrite map_map. apply map_ext. intros x. lia.
Qed.

Lemma check_unequal : forall na nb, na <> nb -> check_nelec na nb (Some (na, nb)) = Err AssertionError.
Proof.
  intros. unfold check_nelec. cbn [fst]. rewrite Nat.eqb_refl.
  destruct (nb =? na) eqn:E; [apply Nat.eqb_eq in E; lia|]. reflexivity.
Qed.

Lemma phmsd_unequal : forall f, p_na f <> p_nb f -> read_phmsd f (Some (p_na f, p_nb f)) = Err AssertionError.
Proof. intros f H. unfold read_phmsd. rewrite check_unequal by exact H. reflexivity. Qed.

(** ** CSR storage *)
Lemma nsum_firstn_S : forall A (rs : list (list A)) k, k < length rs ->
  nsum (map (@length _) (firstn (S k) rs)) = nsum (map (@length _) (firstn k rs)) + length (nth k rs []).
Proof.
  induction rs as [|r rs IH]; intros k H; [cbn in H; lia|].
  destruct k as [|k]; [cbn; lia|]. cbn in H.
  change (firstn (S (S k)) (r :: rs)) with (r :: firstn (S k) rs).
  change (firstn (S k) (r :: rs)) with (r :: firstn k rs).
  cbn [map nsum fold_right nth]. specialize (IH k). unfold nsum in *. cbn [map fold_right]. rewrite IH by lia. lia.
Qed.

Lemma slice_concat : forall A B (g : A -> B) (rs : list (list A)) k, k < length rs ->
  slice (nsum (map (@length _) (firstn k rs))) (nsum (map (@length _) (firstn (S k) rs))) (map g (concat rs)) =
  map g (nth k rs []).
Proof.
  intros A B g rs k H. rewrite nsum_firstn_S by exact H. unfold slice.
  replace (_ + _ - _) with (length (nth k rs [])) by lia.
  rewrite skipn_map, firstn_map. f_equal. revert k H.
  induction rs as [|r rs IH]; intros k H; [cbn in H; lia|].
  destruct k as [|k].
  - cbn. rewrite firstn_app, Nat.sub_diag, firstn_all. cbn. apply app_nil_r.
  - change (nsum (map (@length _) (firstn (S k) (r :: rs)))) with (length r + nsum (map (@length _) (firstn k rs))).
    cbn [concat nth]. rewrite skipn_app. rewrite skipn_all2 by lia.
    replace (length r + nsum _ - length r) with (nsum (map (@length _) (firstn k rs))) by lia.
    cbn [app]. apply IH. cbn in H. lia.
Qed.

Section Nomsd.
  Variables (K : Type) (zero : K) (add : K -> K -> K) (conj : K -> K) (small : K -> bool) (isz : K -> bool).
  Hypothesis add_0 : forall x, add x zero = x.
  Hypothesis isz_zero : forall x, isz x = true -> x = zero.
  Hypothesis conj_conj : forall x, conj (conj x) = x.

  Lemma row_entry_filter : forall c n s (g : nat -> K),
    row_entry K zero add (map fst (filter (fun e => negb (isz (snd e))) (map (fun c => (c, g c)) (seq s n))))
      (map snd (filter (fun e => negb (isz (snd e))) (map (fun c => (c, g c)) (seq s n)))) c =
    if (s <=? c) && (c <? s + n) then g c else zero.
  Proof.
    induction n as [|n IH]; intros s g.
    - rewrite Nat.add_0_r. cbn [seq map filter row_entry]. destruct (Nat.leb_spec s c), (Nat.ltb_spec c s); cbn [andb]; try reflexivity; lia.
    - cbn [seq map filter snd]. specialize (IH (S s) g).
      destruct (isz (g s)) eqn:Z; cbn [negb].
      + rewrite IH. apply isz_zero in Z.
        destruct (Nat.eq_dec s c) as [->|N].
        * rewrite Z. destruct (S c <=? c), (c <? S c + n), (c <=? c), (c <? c + S n); cbn; reflexivity.
        * replace (S s <=? c) with (s <=? c) by (destruct (s <=? c) eqn:E, (S s <=? c) eqn:F; auto;
            apply Nat.leb_le in E || apply Nat.leb_nle in E; apply Nat.leb_le in F || apply Nat.leb_nle in F; lia).
          replace (S s + n) with (s + S n) by lia. reflexivity.
      + cbn [map fst snd row_entry]. rewrite IH.
        destruct (Nat.eqb_spec s c) as [->|N].
        * replace (S c <=? c) with false by (symmetry; apply Nat.leb_gt; lia).
          replace (c <=? c) with true by (symmetry; apply Nat.leb_le; lia).
          replace (c <? c + S n) with true by (symmetry; apply Nat.ltb_lt; lia). cbn. apply add_0.
        * replace (S s <=? c) with (s <=? c) by (destruct (s <=? c) eqn:E, (S s <=? c) eqn:F; auto;
            apply Nat.leb_le in E || apply Nat.leb_nle in E; apply Nat.leb_le in F || apply Nat.leb_nle in F; lia).
          replace (S s + n) with (s + S n) by lia. reflexivity.
  Qed.

  Lemma csr_rows_length : forall m n g, length (csr_rows K isz m n g) = m.
  Proof. intros. unfold csr_rows. rewrite map_length, seq_length. reflexivity. Qed.

  Lemma csr_rows_nth : forall m n g r, r < m ->
    nth r (csr_rows K isz m n g) [] = filter (fun e => negb (isz (snd e))) (map (fun c => (c, g r c)) (seq 0 n)).
  Proof.
    intros m n g r H. unfold csr_rows.
    rewrite nth_indep with (d' := filter (fun e => negb (isz (snd e))) (map (fun c => (c, g 0 c)) (seq 0 n)))
      by (rewrite map_length, seq_length; exact H).
    rewrite map_nth with (f := fun r => filter (fun e => negb (isz (snd e))) (map (fun c => (c, g r c)) (seq 0 n))).
    rewrite seq_nth by exact H. reflexivity.
  Qed.

  Lemma indptr_nth : forall (rs : list (list (nat * K))) k, k <= length rs ->
    nth k (indptr K rs) 0 = nsum (map (@length _) (firstn k rs)).
  Proof.
    intros rs k H. unfold indptr.
    change 0 with ((fun k => nsum (map (@length (nat * K)) (firstn k rs))) 0) at 2.
    rewrite map_nth. rewrite seq_nth by lia. reflexivity.
  Qed.

  Lemma indptr_length : forall (rs : list (list (nat * K))), length (indptr K rs) = S (length rs).
  Proof. intros. unfold indptr. rewrite map_length, seq_length. reflexivity. Qed.

  Lemma rebuild : forall (l : list nat), 2 <= length l -> exists e r, rev (tl l) = e :: r /\ removelast l ++ [e] = l.
  Proof.
    intros l H. destruct l as [|a l]; [cbn in H; lia|]. cbn [tl].
    destruct (exists_last (l := l)) as (l' & e & ->); [destruct l; cbn in H; [lia|discriminate]|].
    exists e, (rev l'). split; [rewrite rev_app_distr; reflexivity|].
    change (a :: l' ++ [e]) with ((a :: l') ++ [e]). rewrite removelast_last. reflexivity.
  Qed.

  Lemma single_roundtrip : forall m n g, 0 < m ->
    exists h, orbs_from_dset K zero add conj (write_single K isz m n g) = Ok (n, m, h) /\
      forall i j, i < n -> j < m -> h i j = conj (g j i).
  Proof.
    intros m n g Hm. unfold write_single, orbs_from_dset. cbn [ds_end ds_begin ds_m ds_n ds_j ds_data].
    set (rs := csr_rows K isz m n g).
    assert (Lr : length rs = m) by apply csr_rows_length.
    destruct (rebuild (indptr K rs)) as (e & r & E1 & E2); [rewrite indptr_length; lia|].
    rewrite E1. assert (Lb : length (removelast (indptr K rs)) = m).
    { apply (f_equal (@length _)) in E2. rewrite app_length, indptr_length, Lr in E2. cbn [length] in E2. lia. }
    rewrite Lb, Nat.eqb_refl, E2. eexists. split; [reflexivity|].
    intros i j Hi Hj. cbv beta. f_equal.
    rewrite Nat.add_1_r, !indptr_nth by lia.
    rewrite !slice_concat by lia. unfold rs. rewrite csr_rows_nth by exact Hj.
    rewrite row_entry_filter. replace (0 <=? i) with true by reflexivity.
    replace (i <? 0 + n) with true by (symmetry; apply Nat.ltb_lt; lia). reflexivity.
  Qed.

  Lemma single_empty : forall n g, orbs_from_dset K zero add conj (write_single K isz 0 n g) = Err IndexError.
  Proof. reflexivity. Qed.

  (** ** whole files *)
  Lemma find_app : forall k l l', find K k (l ++ l') = match find K k l with Some d => Some d | None => find K k l' end.
  Proof. induction l as [|[j d] l IH]; intros; [reflexivity|]. cbn. destruct (j =? k); auto. Qed.

  Notation keep := (keep K zero small).

  Lemma find_rhf : forall nmo na nb (ws : list (nat -> nat -> K)) s i w, nth_error ws i = Some w ->
    find K (s + i) (write_dets K zero conj small isz nmo na nb false s ws) =
    Some (write_single K isz na nmo (alpha_h K conj (keep w))).
  Proof.
    induction ws as [|v ws IH]; intros s i w H; [destruct i; discriminate|].
    destruct i as [|i]; cbn in H.
    - injection H as ->. cbn. rewrite Nat.add_0_r, Nat.eqb_refl. reflexivity.
    - cbn. destruct (Nat.eqb_spec s (s + S i)); [lia|]. rewrite <- Nat.add_succ_comm. apply IH. exact H.
  Qed.

  Lemma find_uhf : forall nmo na nb (ws : list (nat -> nat -> K)) s i w, nth_error ws i = Some w ->
    find K (2 * (s + i)) (write_dets K zero conj small isz nmo na nb true s ws) =
      Some (write_single K isz na nmo (alpha_h K conj (keep w))) /\
    find K (2 * (s + i) + 1) (write_dets K zero conj small isz nmo na nb true s ws) =
      Some (write_single K isz nb nmo (beta_h K conj na (keep w))).
  Proof.
    induction ws as [|v ws IH]; intros s i w H; [destruct i; discriminate|].
    destruct i as [|i]; cbn in H.
    - injection H as ->. rewrite Nat.add_0_r. cbn [write_dets app find].
      rewrite Nat.eqb_refl. destruct (Nat.eqb_spec (2 * s) (2 * s + 1)); [lia|]. rewrite Nat.eqb_refl. auto.
    - destruct (IH (S s) i w H) as [A B]. rewrite <- Nat.add_succ_comm. cbn [write_dets app find].
      destruct (Nat.eqb_spec (2 * s) (2 * (S s + i))); [lia|].
      destruct (Nat.eqb_spec (2 * s + 1) (2 * (S s + i))); [lia|].
      destruct (Nat.eqb_spec (2 * s) (2 * (S s + i) + 1)); [lia|].
      destruct (Nat.eqb_spec (2 * s + 1) (2 * (S s + i) + 1)); [lia|]. auto.
  Qed.

  Lemma bcast_ok : forall m n g, bcast K m n (m, n, g) = Ok (fun i j => g i j).
  Proof. intros. unfold bcast. rewrite !Nat.eqb_refl. reflexivity. Qed.

  Lemma read_dets_ok : forall (P : nat -> (nat -> nat -> K) -> Prop) f l,
    (forall i, In i l -> exists m, read_det K zero add conj f i = Ok m /\ P i m) ->
    exists ms, read_dets K zero add conj f l = Ok ms /\ length ms = length l /\
      forall k i m, nth_error l k = Some i -> nth_error ms k = Some m -> P i m.
  Proof.
    induction l as [|i l IH]; intros H; [exists []; split; [reflexivity|split; [reflexivity|intros [|] ? ? ?; discriminate]]|].
    destruct (H i) as (m & E & Pm); [left; reflexivity|].
    destruct IH as (ms & E' & L & F); [intros; apply H; right; assumption|].
    exists (m :: ms). split; [cbn; rewrite E; cbn; rewrite E'; reflexivity|]. split; [cbn; lia|].
    intros [|k] j mm Hj Hm; cbn in Hj, Hm; [injection Hj as <-; injection Hm as <-; exact Pm|eapply F; eassumption].
  Qed.

  Lemma read_nomsd_ok : forall (P : nat -> (nat -> nat -> K) -> Prop) nmo na nb uhf ws nelec,
    check_nelec na nb nelec = Ok tt ->
    (forall i w, nth_error ws i = Some w ->
       exists m, read_det K zero add conj (write_nomsd K zero conj small isz nmo na nb uhf ws) i = Ok m /\ P i m) ->
    exists out, read_nomsd K zero add conj (write_nomsd K zero conj small isz nmo na nb uhf ws) nelec = Ok out /\
      length out = length ws /\ forall i r, nth_error out i = Some r -> P i r.
  Proof.
    intros P nmo na nb uhf ws nelec C H. unfold read_nomsd. cbn [n_na n_nb write_nomsd]. rewrite C. cbn [rbind n_nci write_nomsd].
    destruct (read_dets_ok P (write_nomsd K zero conj small isz nmo na nb uhf ws) (seq 0 (length ws))) as (ms & E & L & F).
    - intros i Hi. apply in_seq in Hi.
      destruct (nth_error ws i) as [w|] eqn:Hw; [|apply nth_error_None in Hw; lia]. exact (H i w Hw).
    - rewrite seq_length in L. exists ms. split; [exact E|]. split; [exact L|]. intros i r Hr.
      apply (F i); [|exact Hr]. rewrite nth_error_seq by (rewrite <- L; apply nth_error_Some; congruence). reflexivity.
  Qed.

  Lemma ok_nelec_check : forall na nb nelec, nelec = None \/ (nelec = Some (na, nb) /\ na = nb) -> check_nelec na nb nelec = Ok tt.
  Proof. intros na nb nelec [->|[-> ->]]; cbn; rewrite ?Nat.eqb_refl; reflexivity. Qed.

  (** restricted: any number of determinants; what is read is the alpha block and its first nb columns *)
  Lemma nomsd_rhf : forall nmo na nb ws nelec, 0 < na -> nb <= na ->
    nelec = None \/ (nelec = Some (na, nb) /\ na = nb) ->
    exists out, read_nomsd K zero add conj (write_nomsd K zero conj small isz nmo na nb false ws) nelec = Ok out /\
      length out = length ws /\
      forall i w r, nth_error ws i = Some w -> nth_error out i = Some r ->
        mat_eq nmo (na + nb) r (side na (alpha (keep w)) (alpha (keep w))).
  Proof.
    intros nmo na nb ws nelec Hna Hnb He.
    destruct (read_nomsd_ok (fun i r => forall w, nth_error ws i = Some w ->
        mat_eq nmo (na + nb) r (side na (alpha (keep w)) (alpha (keep w)))) nmo na nb false ws nelec) as (ms & E & L & F).
    - apply ok_nelec_check; exact He.
    - intros i w Hw.
      destruct (single_roundtrip na nmo (alpha_h K conj (keep w)) Hna) as (h & Eh & Hh).
      unfold read_det, get. cbn [n_psi n_nmo n_na n_nb n_uhf write_nomsd].
      pose proof (find_rhf nmo na nb ws 0 i w Hw) as Fi. cbn [plus] in Fi. rewrite Fi, Eh. cbn [rbind].
      rewrite bcast_ok. cbn [rbind].
      unfold first_cols. rewrite Nat.min_l by exact Hnb. cbn [rbind]. rewrite bcast_ok. cbn [rbind].
      eexists. split; [reflexivity|]. intros w' Hw'. rewrite Hw in Hw'. injection Hw' as <-.
      intros a b Ha Hb. unfold side, alpha. destruct (Nat.ltb_spec b na); rewrite Hh by lia; unfold alpha_h; apply conj_conj.
    - exists ms. split; [exact E|]. split; [exact L|]. intros i w r Hw Hr. exact (F i r Hr w Hw).
  Qed.

  (** unrestricted, one determinant *)
  Lemma nomsd_uhf_one : forall nmo na nb w nelec, 0 < na -> 0 < nb ->
    nelec = None \/ (nelec = Some (na, nb) /\ na = nb) ->
    exists r, read_nomsd K zero add conj (write_nomsd K zero conj small isz nmo na nb true [w]) nelec = Ok [r] /\
      mat_eq nmo (na + nb) r (keep w).
  Proof.
    intros nmo na nb w nelec Hna Hnb He.
    destruct (read_nomsd_ok (fun i r => mat_eq nmo (na + nb) r (keep w)) nmo na nb true [w] nelec) as (ms & E & L & F).
    - apply ok_nelec_check; exact He.
    - intros i v Hw. destruct i as [|i]; [|destruct i; discriminate]. cbn in Hw. injection Hw as <-.
      destruct (single_roundtrip na nmo (alpha_h K conj (keep w)) Hna) as (h & Eh & Hh).
      destruct (single_roundtrip nb nmo (beta_h K conj na (keep w)) Hnb) as (h' & Eh' & Hh').
      unfold read_det, get. cbn [n_psi n_nmo n_na n_nb n_uhf write_nomsd].
      destruct (find_uhf nmo na nb [w] 0 0 w eq_refl) as [Fa Fb]. cbn [plus Nat.mul] in Fa, Fb.
      rewrite Fa, Eh. cbn [rbind]. rewrite bcast_ok. cbn [rbind]. cbn [Nat.mul plus]. rewrite Fb, Eh'. cbn [rbind].
      rewrite bcast_ok. cbn [rbind]. eexists. split; [reflexivity|].
      intros a b Ha Hb. destruct (Nat.ltb_spec b na).
      + rewrite Hh by lia. unfold alpha_h. apply conj_conj.
      + rewrite Hh' by lia. unfold beta_h. rewrite conj_conj. f_equal. lia.
    - destruct ms as [|r [|]]; try discriminate. exists r. split; [exact E|]. exact (F 0 r eq_refl).
  Qed.

  (** unrestricted, equal spins: the alpha block of determinant i is the i-th block of the file *)
  Lemma nomsd_uhf_many : forall nmo n ws nelec, 0 < n ->
    nelec = None \/ nelec = Some (n, n) ->
    exists out, read_nomsd K zero add conj (write_nomsd K zero conj small isz nmo n n true ws) nelec = Ok out /\
      length out = length ws /\
      forall i w w' r, nth_error ws i = Some w -> nth_error ws (i / 2) = Some w' -> nth_error out i = Some r ->
        mat_eq nmo (n + n) r
          (side n (if Nat.even i then alpha (keep w') else beta n (keep w')) (beta n (keep w))).
  Proof.
    intros nmo n ws nelec Hn He.
    destruct (read_nomsd_ok (fun i r => forall w w', nth_error ws i = Some w -> nth_error ws (i / 2) = Some w' ->
        mat_eq nmo (n + n) r
          (side n (if Nat.even i then alpha (keep w') else beta n (keep w')) (beta n (keep w)))) nmo n n true ws nelec)
      as (ms & E & L & F).
    - apply ok_nelec_check. destruct He as [->| ->]; auto.
    - intros i w Hw.
      assert (Hi : i < length ws) by (apply nth_error_Some; congruence).
      assert (Hd : i / 2 <= i) by (apply Nat.div_le_upper_bound; lia).
      destruct (nth_error ws (i / 2)) as [w'|] eqn:Hw'; [|apply nth_error_None in Hw'; lia].
      destruct (find_uhf nmo n n ws 0 (i / 2) w' Hw') as [Fa Fb]. cbn [plus] in Fa, Fb.
      destruct (find_uhf nmo n n ws 0 i w Hw) as [_ Gb]. cbn [plus] in Gb.
      destruct (single_roundtrip n nmo (beta_h K conj n (keep w)) Hn) as (h' & Eh' & Hh').
      assert (Q : exists h, orbs_from_dset K zero add conj
                  match find K i (write_dets K zero conj small isz nmo n n true 0 ws) with
                  | Some d => d | None => write_single K isz n nmo (alpha_h K conj (keep w)) end = Ok (nmo, n, h) /\
                find K i (write_dets K zero conj small isz nmo n n true 0 ws) <> None /\
                forall a b, a < nmo -> b < n -> h a b = (if Nat.even i then alpha (keep w') else beta n (keep w')) a b).
      { pose proof (Nat.div_mod i 2 ltac:(lia)) as D.
        destruct (Nat.even i) eqn:Ev.
        - apply Nat.even_spec in Ev. destruct Ev as [k Ek].
          assert (i / 2 = k) by (rewrite Ek, Nat.mul_comm; apply Nat.div_mul; lia).
          replace (2 * (i / 2)) with i in Fa by lia. rewrite Fa.
          destruct (single_roundtrip n nmo (alpha_h K conj (keep w')) Hn) as (h & Eh & Hh).
          exists h. split; [exact Eh|]. split; [discriminate|]. intros a b Ha Hb. rewrite Hh by lia.
          unfold alpha_h. apply conj_conj.
        - assert (O : Nat.odd i = true) by (rewrite <- Nat.negb_even, Ev; reflexivity).
          apply Nat.odd_spec in O. destruct O as [k Ek].
          assert (i / 2 = k) by (rewrite Ek, Nat.add_comm, Nat.mul_comm, Nat.div_add by lia; reflexivity).
          replace (2 * (i / 2) + 1) with i in Fb by lia. rewrite Fb.
          destruct (single_roundtrip n nmo (beta_h K conj n (keep w')) Hn) as (h & Eh & Hh).
          exists h. split; [exact Eh|]. split; [discriminate|]. intros a b Ha Hb. rewrite Hh by lia.
          unfold beta_h, beta. apply conj_conj. }
      destruct Q as (h & Eh & Nn & Hh).
      unfold read_det, get. cbn [n_psi n_nmo n_na n_nb n_uhf write_nomsd].
      destruct (find K i (write_dets K zero conj small isz nmo n n true 0 ws)) as [d|]; [|congruence].
      rewrite Eh. cbn [rbind]. rewrite bcast_ok. cbn [rbind]. rewrite Gb, Eh'. cbn [rbind]. rewrite bcast_ok. cbn [rbind].
      eexists. split; [reflexivity|]. intros v v' Hv Hv'. rewrite Hw in Hv. injection Hv as <-. injection Hv' as <-.
      intros a b Ha Hb. unfold side. destruct (Nat.ltb_spec b n).
      + apply Hh; lia.
      + rewrite Hh' by lia. unfold beta_h, beta. apply conj_conj.
    - exists ms. split; [exact E|]. split; [exact L|]. intros i w w' r Hw Hw' Hr. exact (F i r Hr w w' Hw Hw').
  Qed.

  (** unrestricted, unequal spins, two determinants or more: the reader stops *)
  Lemma nomsd_uhf_unequal : forall nmo na nb w0 w1 ws, 0 < na -> 1 < nb -> na <> nb ->
    read_nomsd K zero add conj (write_nomsd K zero conj small isz nmo na nb true (w0 :: w1 :: ws)) None = Err ValueError.
  Proof.
    intros nmo na nb w0 w1 ws Hna Hnb Hne. unfold read_nomsd, check_nelec. cbn [rbind n_nci write_nomsd length seq].
    destruct (single_roundtrip na nmo (alpha_h K conj (keep w0)) Hna) as (h & Eh & _).
    destruct (single_roundtrip nb nmo (beta_h K conj na (keep w0))) as (h' & Eh' & _); [lia|].
    destruct (find_uhf nmo na nb (w0 :: w1 :: ws) 0 0 w0 eq_refl) as [Fa Fb].
    change (2 * (0 + 0)) with 0 in Fa. change (2 * (0 + 0) + 1) with 1 in Fb.
    cbn [read_dets]. unfold read_det at 1, get. cbn [n_psi n_nmo n_na n_nb n_uhf write_nomsd].
    rewrite Fa, Eh. cbn [rbind]. rewrite bcast_ok. cbn [rbind]. change (2 * 0 + 1) with 1. rewrite Fb, Eh'.
    cbn [rbind]. rewrite bcast_ok. cbn [rbind].
    unfold read_det at 1, get. cbn [n_psi n_nmo n_na n_nb n_uhf write_nomsd]. rewrite Fb, Eh'. cbn [rbind].
    unfold bcast at 1. rewrite Nat.eqb_refl. cbn [orb andb].
    destruct (Nat.eqb_spec nb na); [lia|]. destruct (Nat.eqb_spec nb 1); [lia|]. reflexivity.
  Qed.

  Lemma nomsd_unequal_nelec : forall f, n_na K f <> n_nb K f ->
    read_nomsd K zero add conj f (Some (n_na K f, n_nb K f)) = Err AssertionError.
  Proof. intros f H. unfold read_nomsd. rewrite check_unequal by exact H. reflexivity. Qed.

  Lemma nomsd_polarised : forall nmo na w ws nelec, 0 < na -> nelec = None ->
    read_nomsd K zero add conj (write_nomsd K zero conj small isz nmo na 0 true (w :: ws)) nelec = Err IndexError.
  Proof.
    intros nmo na w ws nelec Hna ->. unfold read_nomsd, check_nelec. cbn [rbind n_nci write_nomsd length seq].
    destruct (single_roundtrip na nmo (alpha_h K conj (keep w)) Hna) as (h & Eh & _).
    destruct (find_uhf nmo na 0 (w :: ws) 0 0 w eq_refl) as [Fa Fb].
    change (2 * (0 + 0)) with 0 in Fa. change (2 * (0 + 0) + 1) with 1 in Fb.
    cbn [read_dets]. unfold read_det at 1, get. cbn [n_psi n_nmo n_na n_nb n_uhf write_nomsd].
    rewrite Fa, Eh. cbn [rbind]. rewrite bcast_ok. cbn [rbind]. change (2 * 0 + 1) with 1. rewrite Fb.
    rewrite single_empty. reflexivity.
  Qed.

End Nomsd.

(** ** phfmol *)
Section Phfmol.
  Variables (K : Type) (zero : K).
  Lemma ravel_length : forall n m (c : nat -> nat -> K) s,
    length (flat_map (fun j => map (fun i => c i j) (seq 0 n)) (seq s m)) = m * n.
  Proof.
    induction m as [|m IH]; intros c s; [reflexivity|]. cbn. rewrite app_length, map_length, seq_length, IH. reflexivity.
  Qed.

  Lemma ravel_nth : forall n m (c : nat -> nat -> K) s i j d, i < n -> j < m ->
    nth (j * n + i) (flat_map (fun j => map (fun i => c i j) (seq 0 n)) (seq s m)) d = c i (s + j).
  Proof.
    induction m as [|m IH]; intros c s i j d Hi Hj; [lia|]. cbn [seq flat_map].
    destruct j as [|j].
    - cbn [Nat.mul plus]. rewrite app_nth1 by (rewrite map_length, seq_length; exact Hi).
      rewrite nth_indep with (d' := c 0 s) by (rewrite map_length, seq_length; exact Hi).
      rewrite map_nth with (f := fun i => c i s). rewrite seq_nth by exact Hi. rewrite Nat.add_0_r. reflexivity.
    - rewrite app_nth2 by (rewrite map_length, seq_length; cbn; lia).
      rewrite map_length, seq_length. replace (S j * n + i - n) with (j * n + i) by (cbn; lia).
      rewrite IH by lia. f_equal. lia.
  Qed.

  Lemma phfmol_roundtrip : forall nmo padding na nb dets, na <= nmo -> nb <= nmo ->
    Forall2 (fun c data => exists r, read_phfmol_det K zero (nmo + padding) na data = Ok r /\
        mat_eq (nmo + padding) (na + nb) r (side na (pad K zero nmo c) (pad K zero nmo c)))
      dets (write_phfmol K zero nmo padding dets).
  Proof.
    intros nmo padding na nb dets Ha Hb. unfold write_phfmol. induction dets as [|c dets IH]; constructor; [|exact IH].
    unfold read_phfmol_det, ravel_f. rewrite ravel_length, Nat.eqb_refl. eexists. split; [reflexivity|].
    intros i j Hi Hj. unfold side. cbv beta. destruct (Nat.ltb_spec j na); rewrite ravel_nth by lia; reflexivity.
  Qed.
End Phfmol.

Lemma uhf_refuted : exists w0 w1 out r,
  read_nomsd nat 0 plus (fun x => x) (write_nomsd nat 0 (fun x => x) (fun _ => false) (Nat.eqb 0) 2 1 1 true [w0; w1]) None = Ok out /\
  nth_error out 1 = Some r /\ ~ mat_eq 2 (1 + 1) r w1.
Proof.
  exists (fun i j => if i =? j then 1 else 0), (fun i j => if i =? j then 2 else 1).
  destruct (nomsd_uhf_many nat 0 plus (fun x => x) (fun _ => false) (Nat.eqb 0)
    Nat.add_0_r (fun x E => eq_sym (proj1 (Nat.eqb_eq 0 x) E)) (fun x => eq_refl) 2 1
    [fun i j => if i =? j then 1 else 0; fun i j => if i =? j then 2 else 1] None (le_n 1) (or_introl eq_refl))
    as (out & E & L & H).
  destruct out as [|r0 [|r [|]]]; try discriminate L.
  exists [r0; r], r. split; [exact E|]. split; [reflexivity|].
  specialize (H 1 _ _ r eq_refl eq_refl eq_refl). intros C.
  specialize (H 0 0 ltac:(lia) ltac:(lia)). specialize (C 0 0 ltac:(lia) ltac:(lia)). rewrite H in C. discriminate C.
Qed.
