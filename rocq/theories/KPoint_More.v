From Verif Require Import Base BaseFacts Fcidump_Model Fcidump_Spec Fcidump_Proofs KPoint_Model KPoint_Spec KPoint_Proofs.
Open Scope nat_scope.

Lemma fold4_perm {K : Type} (z : K) (cj : K -> K) (bg : K -> bool) (T : tensor4 K) (ws ws' : list (quad * K)) :
  (forall p, In p ws -> snd p = at4 K T (fst p)) -> Permutation ws' ws -> forall h0 q,
  at4 K (fold_left (fun h p => set4 K h (fst p) (snd p)) ws' h0) q =
  at4 K (fold_left (fun h p => set4 K h (fst p) (snd p)) ws h0) q.
Proof.
  intros H P h0 q.
  assert (H' : forall p, In p ws' -> snd p = at4 K T (fst p)).
  { intros p Hp. apply H. apply (Permutation_in _ P). exact Hp. }
  destruct (fold_set4 K z cj bg T ws H h0 q) as [A1 A2]. destruct (fold_set4 K z cj bg T ws' H' h0 q) as [B1 B2].
  destruct (in_dec quad_dec q (map fst ws)) as [Hin|Hin].
  - rewrite A1 by exact Hin. apply B1. apply (Permutation_in _ (Permutation_sym (Permutation_map fst P))). exact Hin.
  - rewrite A2 by exact Hin. apply B2. intros Hin'. apply Hin. apply (Permutation_in _ (Permutation_map fst P)). exact Hin'.
Qed.

Lemma fold2_perm {K : Type} (z : K) (cj : K -> K) (bg : K -> bool) (T : tensor2 K) (ws ws' : list (nat * nat * K)) :
  (forall w, In w ws -> snd w = T (fst (fst w)) (snd (fst w))) -> Permutation ws' ws -> forall h0 i j,
  fold_left (fun h w => set2 K h (fst (fst w)) (snd (fst w)) (snd w)) ws' h0 i j =
  fold_left (fun h w => set2 K h (fst (fst w)) (snd (fst w)) (snd w)) ws h0 i j.
Proof.
  intros H P h0 i j.
  assert (H' : forall w, In w ws' -> snd w = T (fst (fst w)) (snd (fst w))).
  { intros p Hp. apply H. apply (Permutation_in _ P). exact Hp. }
  destruct (fold_set2 K z cj bg T ws H h0 i j) as [A1 A2]. destruct (fold_set2 K z cj bg T ws' H' h0 i j) as [B1 B2].
  destruct (in_dec pair_dec (i, j) (map fst ws)) as [Hin|Hin].
  - rewrite A1 by exact Hin. apply B1. apply (Permutation_in _ (Permutation_sym (Permutation_map fst P))). exact Hin.
  - rewrite A2 by exact Hin. apply B2. intros Hin'. apply Hin. apply (Permutation_in _ (Permutation_map fst P)). exact Hin'.
Qed.

Section More.
  Variables (K : Type) (zero : K) (ad mu : K -> K -> K) (conj re : K -> K) (big : K -> bool).
  Hypothesis conj0 : conj zero = zero.
  Hypothesis big0 : big zero = false.
  Hypothesis big_conj : forall x, big (conj x) = big x.
  Variables (npk : list nat) (qk : nat -> nat -> nat) (chol : list (cholq K)).
  Notation nkp := (length npk).
  Notation nq := (length chol).
  Notation nmo := (list_sum npk).
  Hypothesis Hqk : transfers_ok npk nq qk.
  Let dflt : cholq K := CholQ K 0 (fun _ _ _ => zero).
  Let nc q := ncol K (nth q chol dflt).
  Let vec q := entry K (nth q chol dflt).
  Notation v := (KPoint_Proofs.v K zero ad mu conj npk qk chol).
  Notation W := (KPoint_Proofs.W K zero ad mu conj npk qk chol).

  Section Sym.
    Hypothesis conj_ad : forall a b, conj (ad a b) = ad (conj a) (conj b).
    Hypothesis conj_mu : forall a b, conj (mu a b) = mu (conj a) (conj b).
    Hypothesis conjK : forall a, conj (conj a) = a.
    Hypothesis mu_comm : forall a b, mu a b = mu b a.
    Hypothesis Hop : opposite_pairs npk nq qk conj nc vec.

    Lemma W_opposite q ki kl : q < nq -> ki < nkp -> kl < nkp -> exists q', q' < nq /\
      qk q' (qk q ki) = ki /\ qk q' (qk q kl) = kl /\
      forall i k l j, i < nth ki npk 0 -> k < nth (qk q ki) npk 0 -> l < nth kl npk 0 -> j < nth (qk q kl) npk 0 ->
        W q' (qk q ki) (qk q kl) k i j l = conj (W q ki kl i k l j) /\
        W q' (qk q kl) (qk q ki) j l k i = W q ki kl i k l j.
    Proof.
      intros Hq Hi Hl. destruct (Hop q Hq) as (q' & Hq' & Hn & H). exists q'.
      destruct (H ki Hi) as [E1 R1]. destruct (H kl Hl) as [E2 R2].
      split; [exact Hq'|]. split; [exact E1|]. split; [exact E2|]. intros i k l j Bi Bk Bl Bj.
      unfold KPoint_Proofs.W, eri. fold dflt. rewrite E1, E2. fold (nc q) (nc q'). rewrite Hn.
      fold (vec q) (vec q').
      generalize (seq 0 (nc q)) as s. split.
      - induction s as [|m s IH]; [symmetry; exact conj0|]. cbn [fold_right].
        rewrite conj_ad, conj_mu, IH, R1, R2, !conjK by assumption. reflexivity.
      - induction s as [|m s IH]; [reflexivity|]. cbn [fold_right].
        rewrite IH, R1, R2, !conjK by assumption. f_equal. apply mu_comm.
    Qed.

    Lemma at_k_lt x : kp npk x < nkp -> at_k npk x < nth (kp npk x) npk 0.
    Proof.
      intros H. destruct (le_lt_dec nmo x) as [L|L]; [|apply (off_locate npk x L)].
      exfalso. revert H. unfold kp.
      assert (E : fst (locate npk x) = nkp).
      { clear -L. revert x L. induction npk as [|n l IH]; intros x L; [reflexivity|].
        cbn [locate]. unfold list_sum in L. cbn in L. destruct (Nat.ltb_spec x n); [unfold list_sum in *; lia|].
        assert (L' : list_sum l <= x - n) by (unfold list_sum; lia). specialize (IH _ L').
        destruct (locate l (x - n)). cbn [fst length] in *. lia. }
      rewrite E. lia.
    Qed.

    Lemma v_sym : has_sym conj 4 v.
    Proof.
      right. split; [left; reflexivity|]. intros I K' J L. unfold KPoint_Proofs.v, bloch_integral.
      destruct (transfer npk nq qk (kp npk I) (kp npk K') (kp npk L) (kp npk J)) as [q|] eqn:E.
      - apply transfer_some in E. destruct E as (HI & HK & HL & HJ & Hq & E1 & E2).
        destruct (W_opposite q (kp npk I) (kp npk L) Hq HI HL) as (q' & Hq' & F1 & F2 & HW).
        rewrite E1, E2 in *.
        rewrite (transfer_is npk nq qk Hqk q' (kp npk J) (kp npk L) (kp npk K') (kp npk I)) by assumption.
        rewrite (transfer_is npk nq qk Hqk q' (kp npk K') (kp npk I) (kp npk J) (kp npk L)) by assumption.
        destruct (HW (at_k npk I) (at_k npk K') (at_k npk L) (at_k npk J)) as [W1 W2]; try (apply at_k_lt; assumption).
        split; [exact W2|exact W1].
      - assert (N : forall a b c d q, transfer npk nq qk a b c d = Some q -> transfer npk nq qk b a d c <> None /\ transfer npk nq qk d c b a <> None).
        { intros a b c d q E'. apply transfer_some in E'. destruct E' as (HI & HK & HL & HJ & Hq & E1 & E2).
          destruct (W_opposite q a c Hq HI HL) as (q' & Hq' & F1 & F2 & _). rewrite E1, E2 in *.
          rewrite (transfer_is npk nq qk Hqk q' b a d c) by assumption.
          rewrite (transfer_is npk nq qk Hqk q' d c b a) by assumption. split; discriminate. }
        destruct (transfer npk nq qk (kp npk J) (kp npk L) (kp npk K') (kp npk I)) as [q1|] eqn:T1.
        { apply N in T1. destruct T1 as [_ T1]. rewrite E in T1. contradiction. }
        destruct (transfer npk nq qk (kp npk K') (kp npk I) (kp npk J) (kp npk L)) as [q1|] eqn:T2.
        { apply N in T2. destruct T2 as [T2 _]. rewrite E in T2. contradiction. }
        split; [reflexivity|symmetry; exact conj0].
    Qed.
  End Sym.

  Variable hcore : list (nat -> nat -> K).
  Hypothesis Hlen : length hcore = nkp.
  Hypothesis Hherm : forall k i j, k < nkp -> nth k hcore (fun _ _ => zero) j i = conj (nth k hcore (fun _ _ => zero) i j).
  Notation h := (KPoint_Proofs.h K zero npk hcore).

  Lemma h_herm I J : h J I = conj (h I J).
  Proof.
    unfold KPoint_Proofs.h, bloch_one_body. rewrite (Nat.eqb_sym (kp npk J)).
    destruct (Nat.eqb_spec (kp npk I) (kp npk J)) as [E|]; [|symmetry; exact conj0]. rewrite <- E.
    destruct (le_lt_dec nkp (kp npk I)) as [Hk|Hk]; [|apply Hherm; exact Hk].
    rewrite !nth_overflow by lia. symmetry. exact conj0.
  Qed.

  Lemma kp_roundtrip sym enuc na nb : sym = 1 \/ sym = 4 -> has_sym conj sym v ->
    exists d h1 h2, write_fcidump_kpoint K zero ad mu conj re big npk qk hcore chol enuc nmo (na, nb) sym true false = Ok d /\
      read_fcidump K zero conj d sym = Ok (h1, h2, enuc, (na, nb)) /\
      (forall i k j l, in_range nmo (i, k, j, l) -> h2 i k j l = if big (v i k j l) then v i k j l else zero) /\
      (forall i j, i < nmo -> j < nmo -> h1 i j = if big (h i j) then h i j else zero).
  Proof.
    intros Hsym Hs.
    assert (Hsym' : sym = 1 \/ sym = 4 \/ sym = 8) by tauto.
    assert (Hr : sym = 8 -> forall a b c d, conj (v a b c d) = v a b c d) by lia.
    unfold write_fcidump_kpoint. rewrite two_ok by assumption. rewrite (one_ok K zero ad mu conj re big npk big0 hcore Hlen). cbn [rbind].
    set (f := filter _ (kquads _ _ _ _)). set (g := filter _ (kpairs _)).
    assert (Pf : Permutation f (emitted K big v nmo sym)) by (apply kquads_perm; assumption).
    assert (Pg : Permutation g (emitted1 K big h nmo)) by (apply kpairs_perm; assumption).
    eexists _, _, _. split; [reflexivity|]. unfold read_fcidump.
    assert (Es : (sym =? 1) || (sym =? 4) || (sym =? 8) = true) by (destruct Hsym as [->| ->]; reflexivity).
    rewrite Es. cbn [norb nel ms2 lines fst snd]. rewrite !read_lines_app. unfold fmt_integral at 1.
    assert (Hf : Complex <> Paren) by discriminate.
    assert (In4 : Forall (in_range nmo) f).
    { apply Forall_forall. intros q Hq. apply (Permutation_in _ Pf) in Hq. apply filter_In in Hq. destruct Hq as [Hq _]. apply qin in Hq. exact Hq. }
    assert (In2 : Forall (fun p => fst p < nmo /\ snd p < nmo) g).
    { apply Forall_forall. intros [i j] Hq. apply (Permutation_in _ Pg) in Hq. apply filter_In in Hq. destruct Hq as [Hq _]. apply pin in Hq. cbn. lia. }
    rewrite (read_two_all K conj re big big big_conj sym nmo Complex f (at4 K v) Hf In4). cbn [rbind].
    rewrite read_lines_app. unfold fmt_integral at 1.
    rewrite (read_one_all K conj re big big big_conj sym nmo Complex g (fun p => h (fst p) (snd p)) Hf In2).
    cbn [rbind h1e h2e ecore read_lines]. unfold fmt_integral, read_line. cbn [lfmt ix value Nat.eqb andb rbind h1e h2e ecore].
    replace ((na + nb + (na - nb)) / 2)%Z with na by (replace (na + nb + (na - nb))%Z with (na * 2)%Z by lia; rewrite Z.div_mul; lia).
    replace (na - (na - nb))%Z with nb by lia.
    split; [reflexivity|]. split.
    - intros i k j l Hq. change (if big (v i k j l) then v i k j l else zero) with (trunc K zero big (at4 K v (i, k, j, l))).
      rewrite <- (two_body K zero conj re big big big_conj sym nmo v Hsym' Hs Hr (i, k, j, l) Hq).
      refine (fold4_perm zero conj big (fun i k j l => trunc K zero big (v i k j l)) _ _ _ _ (fun _ _ _ _ => zero) (i, k, j, l)).
      + intros p Hp. apply in_flat_map in Hp. destruct Hp as (q0 & H0 & Hp). apply filter_In in H0. destruct H0 as [_ Hb].
        apply andb_true_iff in Hb. destruct Hb as [Hb _].
        destruct (images_val K conj big big_conj sym v q0 p Hs Hr Hp) as [X1 X2]. rewrite X1. rewrite <- X2 in Hb.
        destruct (fst p) as [[[a b] c] d]. cbn [at4] in *. unfold trunc. rewrite Hb. reflexivity.
      + apply Permutation_flat_map. exact Pf.
    - intros i j Hi Hj. change (if big (h i j) then h i j else zero) with (trunc K zero big (h i j)). rewrite <- (one_body K zero conj re big big big_conj nmo h h_herm i j Hi Hj).
      refine (fold2_perm zero conj big (fun i j => trunc K zero big (h i j)) _ _ _ _ (fun _ _ => zero) i j).
      + intros w Hw. apply in_flat_map in Hw. destruct Hw as ([a b] & H0 & Hw). apply filter_In in H0. destruct H0 as [_ Hb].
        cbn [fst snd] in Hb, Hw. destruct Hw as [<-|[<-|[]]]; cbn [fst snd]; unfold trunc; rewrite ?(h_herm a b), ?big_conj, Hb; reflexivity.
      + apply Permutation_flat_map. exact Pg.
  Qed.
End More.

(** cplx=False always exits *)
Lemma real_exits (K : Type) zero ad mu conj re big npk qk hcore (chol : list (cholq K)) enuc nmo nelec sym paren :
  npk <> [] -> chol <> [] ->
  write_fcidump_kpoint K zero ad mu conj re big npk qk hcore chol enuc nmo nelec sym false paren = Err SystemExit.
Proof. destruct npk; [contradiction|]. destruct chol; [contradiction|]. reflexivity. Qed.
