(* Proofs about the back propagation estimator. *)

From Verif Require Import Base BaseFacts BPEst_Model BPEst_Spec.
Open Scope nat_scope.

Section Vectors.
Variable K : Type.
Variables (k0 : K) (kadd : K -> K -> K).
Notation vadd := (vadd K kadd).
Notation vsum := (vsum K k0 kadd).

Lemma combine_vadd : forall a b,
  map (fun '(x, y) => kadd x y) (combine a b) = vadd a b.
Proof. induction a as [|x a IH]; intros [|y b]; simpl; auto. f_equal; auto. Qed.

Lemma vadd_length : forall a b, length a = length b -> length (vadd a b) = length a.
Proof.
  induction a as [|x a IH]; intros [|y b] H; simpl in *; try discriminate; auto.
Qed.

Lemma vadd_app : forall a b c d, length a = length b ->
  vadd (a ++ c) (b ++ d) = vadd a b ++ vadd c d.
Proof.
  induction a as [|x a IH]; intros [|y b] c d H; simpl in *; try discriminate; auto.
  f_equal; auto.
Qed.

Lemma fold_vadd_length : forall vs a, (forall v, In v vs -> length v = length a) ->
  length (fold_left vadd vs a) = length a.
Proof.
  induction vs as [|v vs IH]; intros a H; simpl; auto.
  assert (E : length v = length a) by (apply H; left; auto).
  rewrite IH; rewrite vadd_length; auto.
  intros u Hu; apply H; right; auto.
Qed.

Lemma vsum_length : forall n vs, (forall v, In v vs -> length v = n) ->
  length (vsum n vs) = n.
Proof.
  intros n vs H; unfold BPEst_Spec.vsum.
  rewrite fold_vadd_length; rewrite repeat_length; auto.
Qed.

Lemma fold_vadd_app : forall W (f g : W -> list K) ws a c,
  (forall w, In w ws -> length (f w) = length a) ->
  fold_left vadd (map (fun w => f w ++ g w) ws) (a ++ c)
  = fold_left vadd (map f ws) a ++ fold_left vadd (map g ws) c.
Proof.
  intros W f g; induction ws as [|w ws IH]; intros a c H; simpl; auto.
  assert (E : length (f w) = length a) by (apply H; left; auto).
  rewrite vadd_app by auto. apply IH.
  intros u Hu; rewrite vadd_length by auto; apply H; right; auto.
Qed.

Lemma vsum_app : forall W (f g : W -> list K) ws n m,
  (forall w, In w ws -> length (f w) = n) ->
  vsum (n + m) (map (fun w => f w ++ g w) ws)
  = vsum n (map f ws) ++ vsum m (map g ws).
Proof.
  intros W f g ws n m H; unfold BPEst_Spec.vsum.
  rewrite repeat_app. apply fold_vadd_app.
  intros w Hw; rewrite repeat_length; auto.
Qed.

Lemma vtotal_app : forall W (f g : W -> list K) wss n m,
  (forall ws w, In ws wss -> In w ws -> length (f w) = n) ->
  vtotal k0 kadd (n + m) (fun w => f w ++ g w) wss
  = vtotal k0 kadd n f wss ++ vtotal k0 kadd m g wss.
Proof.
  intros W f g wss n m H; unfold vtotal.
  rewrite <- vsum_app.
  - f_equal. apply map_ext_in. intros ws Hw. apply vsum_app. eauto.
  - intros ws Hw. apply vsum_length.
    intros v Hv; apply in_map_iff in Hv as (w & <- & I); eauto.
Qed.

Lemma vtotal_length : forall W (f : W -> list K) wss n,
  (forall ws w, In ws wss -> In w ws -> length (f w) = n) ->
  length (vtotal k0 kadd n f wss) = n.
Proof.
  intros W f wss n H; apply vsum_length.
  intros v Hv; apply in_map_iff in Hv as (ws & <- & I).
  apply vsum_length. intros u Hu; apply in_map_iff in Hu as (w & <- & J); eauto.
Qed.

End Vectors.

Lemma split_at : forall K (l : list K) n m, length l = n + m ->
  exists a b, l = a ++ b /\ length a = n /\ length b = m.
Proof.
  intros K l n m H. exists (firstn n l), (skipn n l).
  rewrite firstn_skipn, firstn_length, skipn_length. repeat split; lia.
Qed.

Lemma firstn_exact : forall A (a b : list A) n, length a = n -> firstn n (a ++ b) = a.
Proof. intros A a b n <-; rewrite firstn_app, Nat.sub_diag, firstn_all; simpl; apply app_nil_r. Qed.

Lemma skipn_exact : forall A (a b : list A) n, length a = n -> skipn n (a ++ b) = b.
Proof. intros A a b n <-; rewrite skipn_app, Nat.sub_diag, skipn_all; reflexivity. Qed.

Section BPEst.
Variable K : Type.
Variables (k0 : K) (kadd kmul kdiv : K -> K -> K).
Variable o : opts.
Notation meas := (meas K).
Notation vadd := (vadd K kadd).
Notation size := (size o).
Notation n_two := (n_two o).
Notation two_given := (two_given o).
Notation two_true := (two_true o).

Definition scaled (f : meas -> list K) (w : meas) : list K :=
  map (kmul (w_weight K w)) (f w).

Definition shaped (w : meas) : Prop :=
  length (w_energies K w) = 3 /\ length (w_g K w) = n_g o
  /\ (two_given = true -> length (w_two K w) = n_two)
  /\ (o_ekt o = true -> length (w_1p K w) = n_g0 o /\ length (w_1h K w) = n_g0 o).

Definition weight1 (w : meas) : list K := [w_weight K w].
Definition n_ekt : nat := if o_ekt o then n_g0 o + n_g0 o else 0.
Definition two_part (w : meas) : list K :=
  if two_given then scaled (w_two K) w else [].
Definition ekt_part (w : meas) : list K :=
  if o_ekt o then scaled (w_1p K) w ++ scaled (w_1h K) w else [].
Definition cells (w : meas) : list K :=
  scaled (w_energies K) w ++ (weight1 w ++ (scaled (w_g K) w
    ++ (two_part w ++ ekt_part w))).

Lemma size_alt : size = 3 + (1 + (n_g o + (n_two + n_ekt))).
Proof. unfold BPEst_Model.size, n_ekt, nreg; lia. Qed.

Local Opaque BPEst_Model.size.

Lemma n_two_none : two_given = false -> n_two = 0.
Proof. unfold BPEst_Model.two_given, BPEst_Model.n_two; destruct (o_two o); auto; discriminate. Qed.

Lemma scaled_length : forall f w, length (scaled f w) = length (f w).
Proof. intros; apply map_length. Qed.

Lemma two_part_length : forall w, shaped w -> length (two_part w) = n_two.
Proof.
  intros w (_ & _ & H & _). unfold two_part.
  destruct two_given eqn:T.
  - rewrite scaled_length; auto.
  - rewrite n_two_none; auto.
Qed.

Lemma ekt_part_length : forall w, shaped w -> length (ekt_part w) = n_ekt.
Proof.
  intros w (_ & _ & _ & H). unfold ekt_part, n_ekt.
  destruct (o_ekt o); auto. destruct (H eq_refl).
  rewrite app_length, !scaled_length; lia.
Qed.

Lemma cells_length : forall w, shaped w -> length (cells w) = size.
Proof.
  intros w S; unfold cells. rewrite size_alt, !app_length, !scaled_length.
  rewrite (two_part_length w S), (ekt_part_length w S).
  destruct S as (-> & -> & _). reflexivity.
Qed.

Lemma add_slice_at : forall a b c v st, length a = st -> length b = length v ->
  add_slice K kadd st v (a ++ b ++ c) = Ok (a ++ vadd b v ++ c).
Proof.
  intros a b c v st Ha Hb; unfold add_slice.
  rewrite (firstn_exact _ a), (skipn_exact _ a), (firstn_exact _ b), (skipn_exact _ b) by auto.
  rewrite Hb, Nat.eqb_refl, combine_vadd. reflexivity.
Qed.

Lemma accumulate_cells : forall w buf, shaped w -> length buf = size ->
  accumulate K kadd kmul o w buf = Ok (vadd buf (cells w)).
Proof.
  intros w buf S L.
  pose proof (two_part_length w S) as LT. pose proof (ekt_part_length w S) as LK.
  destruct S as (He & Hg & Ht & Hk).
  rewrite size_alt in L.
  destruct (split_at _ buf _ _ L) as (be & r1 & -> & Le & L1).
  destruct (split_at _ r1 _ _ L1) as (bw & r2 & -> & Lw & L2).
  destruct (split_at _ r2 _ _ L2) as (bg & r3 & -> & Lg & L3).
  destruct (split_at _ r3 _ _ L3) as (bt & bk & -> & Lt & Lk).
  unfold cells.
  rewrite !vadd_app by (rewrite ?scaled_length; unfold weight1; simpl; congruence).
  unfold accumulate.
  assert (E1 : add_slice K kadd 0 (map (kmul (w_weight K w)) (w_energies K w))
     (be ++ bw ++ bg ++ bt ++ bk)
     = Ok (vadd be (scaled (w_energies K) w) ++ bw ++ bg ++ bt ++ bk)).
  { apply (add_slice_at [] be); auto. rewrite ?map_length, ?scaled_length; congruence. }
  rewrite E1; cbn [rbind].
  set (be' := vadd be (scaled (w_energies K) w)).
  assert (Le' : length be' = 3).
  { unfold be'; rewrite vadd_length; rewrite ?scaled_length; congruence. }
  assert (E2 : add_slice K kadd nreg [w_weight K w] (be' ++ bw ++ bg ++ bt ++ bk)
     = Ok (be' ++ vadd bw (weight1 w) ++ bg ++ bt ++ bk)).
  { apply add_slice_at; auto. }
  rewrite E2; cbn [rbind].
  set (bw' := vadd bw (weight1 w)).
  assert (Lw' : length bw' = 1) by (unfold bw'; rewrite vadd_length; auto).
  assert (E3 : add_slice K kadd (nreg + 1) (map (kmul (w_weight K w)) (w_g K w))
     (be' ++ bw' ++ bg ++ bt ++ bk)
     = Ok (be' ++ bw' ++ vadd bg (scaled (w_g K) w) ++ bt ++ bk)).
  { rewrite !(app_assoc be' bw'). apply add_slice_at.
    - rewrite app_length; unfold nreg; lia.
    - rewrite ?map_length, ?scaled_length; congruence. }
  rewrite E3; cbn [rbind].
  set (bg' := vadd bg (scaled (w_g K) w)).
  assert (Lg' : length bg' = n_g o).
  { unfold bg'; rewrite vadd_length; rewrite ?scaled_length; congruence. }
  assert (L4 : forall r, be' ++ bw' ++ bg' ++ r = (be' ++ bw' ++ bg') ++ r).
  { intro r; rewrite <- !app_assoc; reflexivity. }
  assert (L5 : length (be' ++ bw' ++ bg') = nreg + 1 + length (w_g K w)).
  { rewrite !app_length; unfold nreg; lia. }
  set (pre := be' ++ bw' ++ bg') in *.
  rewrite !L4.
  assert (E4 : (if two_given then
        add_slice K kadd (nreg + 1 + length (w_g K w))
          (map (kmul (w_weight K w)) (w_two K w)) (pre ++ bt ++ bk)
      else Ok (pre ++ bt ++ bk))
     = Ok (pre ++ vadd bt (two_part w) ++ bk)).
  { unfold two_part in *. destruct two_given eqn:T.
    - apply add_slice_at; auto. rewrite ?map_length, ?scaled_length, Ht by auto; auto.
    - assert (length bt = 0) by (rewrite Lt; apply n_two_none; auto).
      destruct bt; [reflexivity | discriminate]. }
  cbv zeta. rewrite E4; cbn [rbind].
  set (bt' := vadd bt (two_part w)).
  assert (Lt' : length bt' = n_two).
  { unfold bt'; rewrite vadd_length; congruence. }
  unfold ekt_part in *; unfold n_ekt in Lk. destruct (o_ekt o) eqn:EK.
  2:{ destruct bk; [|discriminate]. reflexivity. }
  destruct (Hk eq_refl) as [Hp Hh].
  destruct (split_at _ bk _ _ Lk) as (bp & bh & -> & Lp & Lh).
  assert (Lfin : length (pre ++ bt') =
    (if two_given then nreg + 1 + length (w_g K w) + length (w_two K w)
     else nreg + 1 + length (w_g K w))).
  { rewrite app_length, L5, Lt'. destruct two_given eqn:T.
    - rewrite Ht; auto.
    - rewrite n_two_none; auto. }
  rewrite (app_assoc pre bt' (bp ++ bh)).
  rewrite (add_slice_at (pre ++ bt') bp bh); auto; [|rewrite ?map_length, ?scaled_length; congruence].
  cbn [rbind].
  assert (Lp' : length (vadd bp (scaled (w_1p K) w)) = n_g0 o).
  { rewrite vadd_length; rewrite ?scaled_length; congruence. }
  fold (scaled (w_1p K) w).
  rewrite (app_assoc (pre ++ bt') (vadd bp (scaled (w_1p K) w)) bh).
  replace bh with (bh ++ []) at 1 by apply app_nil_r.
  rewrite (add_slice_at _ bh []).
  - rewrite vadd_app by (rewrite scaled_length; congruence).
    rewrite app_nil_r, <- !app_assoc. reflexivity.
  - rewrite app_length, Lfin, Lp', Hp; reflexivity.
  - rewrite ?map_length, ?scaled_length; congruence.
Qed.

Lemma update_walkers_cells : forall ws buf, (forall w, In w ws -> shaped w) ->
  length buf = size ->
  update_walkers K kadd kmul o ws buf = Ok (fold_left vadd (map cells ws) buf).
Proof.
  induction ws as [|w ws IH]; intros buf S L; simpl; auto.
  assert (Sw : shaped w) by (apply S; left; auto).
  rewrite accumulate_cells; auto; simpl. apply IH.
  - intros u Hu; apply S; right; auto.
  - rewrite vadd_length; auto. rewrite cells_length; auto.
Qed.

Lemma update_all : forall wss nproc, length wss = nproc ->
  (forall ws w, In ws wss -> In w ws -> shaped w) ->
  map2 (fun b w => update_walkers K kadd kmul o w b)
    (repeat (repeat k0 size) nproc) wss
  = Ok (map (fun ws => vsum K k0 kadd size (map cells ws)) wss).
Proof.
  induction wss as [|ws wss IH]; intros nproc <- S; simpl; auto.
  rewrite update_walkers_cells.
  - simpl. rewrite IH; auto. intros; eapply S; [right|]; eauto.
  - intros; eapply S; [left|]; eauto.
  - apply repeat_length.
Qed.

Lemma reduce_vsum : forall bufs, reduce K k0 kadd o bufs = vsum K k0 kadd size bufs.
Proof.
  intro bufs; unfold reduce, vsum. generalize (repeat k0 size).
  induction bufs as [|b bufs IH]; intro a; simpl; auto.
  rewrite combine_vadd. apply IH.
Qed.

(* The accumulated buffer, part by part. *)
Section Parts.
Variable wss : list (list meas).
Hypothesis S : forall ws w, In ws wss -> In w ws -> shaped w.
Notation tot n f := (vtotal k0 kadd n f wss).

Definition T_e := tot 3 (scaled (w_energies K)).
Definition T_w := tot 1 weight1.
Definition T_g := tot (n_g o) (scaled (w_g K)).
Definition T_t := tot n_two two_part.
Definition T_p := tot (n_g0 o) (scaled (w_1p K)).
Definition T_h := tot (n_g0 o) (scaled (w_1h K)).
Definition T_k := tot n_ekt ekt_part.

Lemma total_cells :
  tot size cells = T_e ++ (T_w ++ (T_g ++ (T_t ++ T_k))).
Proof.
  rewrite size_alt. unfold cells.
  rewrite vtotal_app.
  2:{ intros ws w A B; rewrite scaled_length; apply (S ws w A B). }
  rewrite vtotal_app by reflexivity.
  rewrite vtotal_app.
  2:{ intros ws w A B; rewrite scaled_length; apply (S ws w A B). }
  rewrite vtotal_app; [reflexivity|].
  intros ws w A B; apply two_part_length; eauto.
Qed.

Lemma T_k_split : o_ekt o = true -> T_k = T_p ++ T_h.
Proof.
  intro E. unfold T_k, ekt_part, n_ekt. rewrite E. apply vtotal_app.
  intros ws w A B; rewrite scaled_length.
  destruct (S ws w A B) as (_ & _ & _ & H). apply H; auto.
Qed.

Lemma T_k_none : o_ekt o = false -> T_k = [].
Proof.
  intro E. apply length_zero_iff_nil. unfold T_k.
  replace 0 with n_ekt by (unfold n_ekt; rewrite E; auto).
  apply vtotal_length. intros; apply ekt_part_length; eauto.
Qed.

Lemma L_e : length T_e = 3.
Proof. apply vtotal_length; intros ws w A B; rewrite scaled_length; apply (S ws w A B). Qed.
Lemma L_w : length T_w = 1.
Proof. apply vtotal_length; reflexivity. Qed.
Lemma L_g : length T_g = n_g o.
Proof. apply vtotal_length; intros ws w A B; rewrite scaled_length; apply (S ws w A B). Qed.
Lemma L_t : length T_t = n_two.
Proof. apply vtotal_length; intros; apply two_part_length; eauto. Qed.
Lemma L_k : length T_k = n_ekt.
Proof. apply vtotal_length; intros; apply ekt_part_length; eauto. Qed.
Lemma L_p : o_ekt o = true -> length T_p = n_g0 o.
Proof.
  intro E; apply vtotal_length; intros ws w A B; rewrite scaled_length.
  destruct (S ws w A B) as (_ & _ & _ & H); apply H; auto.
Qed.
Lemma L_h : o_ekt o = true -> length T_h = n_g0 o.
Proof.
  intro E; apply vtotal_length; intros ws w A B; rewrite scaled_length.
  destruct (S ws w A B) as (_ & _ & _ & H); apply H; auto.
Qed.

Lemma slice_at : forall (a b c : list K) st n, length a = st -> length b = n ->
  slice K st (st + n) (a ++ b ++ c) = b.
Proof.
  intros a b c st n Ha Hb; unfold slice.
  rewrite (skipn_exact _ a) by auto.
  replace (st + n - st) with n by lia. apply firstn_exact; auto.
Qed.

Definition p_energies : list (dataset * list K) :=
  if o_energy o then
    [(Energies, if o_fp o then T_e else map (fun x => kdiv x (hd k0 T_w)) T_e)]
  else [].
Definition p_one : list (dataset * list K) :=
  if o_one o then [(OneRdm, T_g)] else [].
Definition p_two : list (dataset * list K) :=
  if two_true then [(TwoRdm, T_t)] else [].

Definition p_ekt (st : nat) : list (dataset * list K) :=
  if o_ekt o then
    let r := T_g ++ T_t ++ T_p ++ T_h in
    [(Fock1p, firstn (n_g0 o) (skipn st r));
     (Fock1h, firstn (n_g0 o) (skipn (st + n_g0 o) r))]
  else [].

Definition ekt_start : nat :=
  (if o_one o then n_g o else 0) + (if two_true then n_two else 0).

Lemma blocks : print_blocks K k0 kdiv o (tot size cells)
  = Ok ((Denominator, T_w) :: p_energies ++ p_one ++ p_two ++ p_ekt ekt_start).
Proof.
  rewrite total_cells. unfold print_blocks.
  pose proof L_e as Le. pose proof L_w as Lw. pose proof L_g as Lg.
  pose proof L_t as Lt.
  assert (LL : length (T_e ++ T_w) = nreg + 1) by (rewrite app_length, Le, Lw; reflexivity).
  assert (Ew : nth nreg (T_e ++ T_w ++ T_g ++ T_t ++ T_k) k0 = hd k0 T_w).
  { rewrite app_nth2 by (unfold nreg; lia). rewrite Le.
    destruct T_w; [discriminate|]. reflexivity. }
  assert (Ed : [hd k0 T_w] = T_w).
  { destruct T_w as [|x [|y l]]; try discriminate; reflexivity. }
  assert (Ee : firstn nreg (T_e ++ T_w ++ T_g ++ T_t ++ T_k) = T_e)
    by (apply firstn_exact; auto).
  rewrite Ew, Ed, Ee.
  assert (E1 : slice K (nreg + 1) (nreg + 1 + n_g o) (T_e ++ T_w ++ T_g ++ T_t ++ T_k)
               = T_g).
  { rewrite (app_assoc T_e T_w). apply slice_at; auto. }
  assert (E2 : slice K (nreg + 1 + n_g o) (nreg + 1 + n_g o + n_two)
                 (T_e ++ T_w ++ T_g ++ T_t ++ T_k) = T_t).
  { rewrite (app_assoc T_e T_w), (app_assoc (T_e ++ T_w) T_g).
    apply slice_at; auto. rewrite app_length, LL, Lg; reflexivity. }
  rewrite E1, E2. unfold reshape. rewrite Lg, Lt, !Nat.eqb_refl.
  assert (P1 : (if o_one o then rbind (Ok T_g) (fun r : list K => Ok [(OneRdm, r)])
                else Ok []) = Ok p_one) by (unfold p_one; destruct (o_one o); auto).
  assert (P2 : (if two_true then rbind (Ok T_t) (fun r : list K => Ok [(TwoRdm, r)])
                else Ok []) = Ok p_two) by (unfold p_two; destruct two_true; auto).
  cbv zeta. rewrite P1, P2. cbn [rbind].
  assert (P0 : forall tl, [(Denominator, T_w)] ++
      (if o_energy o then if o_fp o then [(Energies, T_e)]
         else [(Energies, map (fun x => kdiv x (hd k0 T_w)) T_e)] else []) ++ tl
      = (Denominator, T_w) :: p_energies ++ tl).
  { intro tl; unfold p_energies; destruct (o_energy o), (o_fp o); reflexivity. }
  assert (P3 : (if o_ekt o then
     rbind (reshape K (n_g0 o)
       (slice K (nreg + 1 + (if o_one o then n_g o else 0) + (if two_true then n_two else 0))
          (nreg + 1 + (if o_one o then n_g o else 0) + (if two_true then n_two else 0) + n_g0 o)
          (T_e ++ T_w ++ T_g ++ T_t ++ T_k)))
       (fun p => rbind (reshape K (n_g0 o)
          (slice K (nreg + 1 + (if o_one o then n_g o else 0) + (if two_true then n_two else 0) + n_g0 o)
          (nreg + 1 + (if o_one o then n_g o else 0) + (if two_true then n_two else 0) + n_g0 o + n_g0 o)
          (T_e ++ T_w ++ T_g ++ T_t ++ T_k)))
          (fun h => Ok [(Fock1p, p); (Fock1h, h)]))
     else Ok []) = Ok (p_ekt ekt_start)).
  { unfold p_ekt. destruct (o_ekt o) eqn:EK; auto.
    rewrite (T_k_split EK). pose proof (L_p EK) as Lp. pose proof (L_h EK) as Lh.
    set (st := ekt_start).
    replace (nreg + 1 + (if o_one o then n_g o else 0) + (if two_true then n_two else 0))
      with (nreg + 1 + st) by (unfold st, ekt_start; lia).
    assert (Hst : st <= n_g o + n_two).
    { unfold st, ekt_start; destruct (o_one o), two_true; lia. }
    set (r := T_g ++ T_t ++ T_p ++ T_h).
    assert (Lr : length r = n_g o + (n_two + (n_g0 o + n_g0 o))).
    { unfold r; rewrite !app_length, Lg, Lt, Lp, Lh; reflexivity. }
    assert (SL : forall s n, slice K (nreg + 1 + s) (nreg + 1 + s + n) (T_e ++ T_w ++ r)
                 = firstn n (skipn s r)).
    { intros s n. unfold slice. rewrite (app_assoc T_e T_w).
      replace (nreg + 1 + s + n - (nreg + 1 + s)) with n by lia.
      rewrite skipn_app, skipn_all2 by lia.
      rewrite LL. replace (nreg + 1 + s - (nreg + 1)) with s by lia. reflexivity. }
    rewrite SL. replace (nreg + 1 + st + n_g0 o) with (nreg + 1 + (st + n_g0 o)) by lia.
    rewrite SL. unfold reshape.
    assert (F1 : length (firstn (n_g0 o) (skipn st r)) = n_g0 o).
    { rewrite firstn_length, skipn_length, Lr; lia. }
    assert (F2 : length (firstn (n_g0 o) (skipn (st + n_g0 o) r)) = n_g0 o).
    { rewrite firstn_length, skipn_length, Lr; lia. }
    rewrite F1, F2, Nat.eqb_refl. reflexivity. }
  unfold reshape in P3. rewrite P3. cbn [rbind]. rewrite P0. reflexivity.
Qed.

(* In the intended order when both matrices are written. *)
Lemma ekt_right : o_ekt o = true -> o_one o = true -> (o_two o <> TFalse) ->
  p_ekt ekt_start = [(Fock1p, T_p); (Fock1h, T_h)].
Proof.
  intros EK EO ET. unfold p_ekt, ekt_start. rewrite EK, EO.
  assert (E : (if two_true then n_two else 0) = n_two).
  { unfold BPEst_Model.two_true, BPEst_Model.n_two.
    destruct (o_two o); auto; contradiction. }
  rewrite E. pose proof (L_p EK) as Lp. pose proof (L_h EK) as Lh.
  pose proof L_g as Lg. pose proof L_t as Lt.
  assert (A : length (T_g ++ T_t) = n_g o + n_two) by (rewrite app_length; congruence).
  assert (B : length ((T_g ++ T_t) ++ T_p) = n_g o + n_two + n_g0 o)
    by (rewrite app_length; congruence).
  rewrite (app_assoc T_g T_t). cbv zeta.
  rewrite (skipn_exact _ (T_g ++ T_t)) by auto. rewrite (firstn_exact _ T_p) by auto.
  rewrite (app_assoc (T_g ++ T_t) T_p). rewrite (skipn_exact _ _ _ _ B).
  rewrite <- Lh, firstn_all. reflexivity.
Qed.

End Parts.

(* The whole run. *)
Definition measured (st : nat * list (list meas)) : bool :=
  existsb (Nat.eqb (fst st)) (splits o).
Definition written (st : nat * list (list meas)) : record K :=
  (fst st,
   (Denominator, T_w (snd st)) :: p_energies (snd st) ++ p_one (snd st)
     ++ p_two (snd st) ++ p_ekt (snd st) ekt_start,
   fst st =? last (splits o) 0).

Lemma run_written : forall steps nproc ix0,
  (forall st, In st steps -> length (snd st) = nproc) ->
  (forall st ws w, In st steps -> In ws (snd st) -> In w ws -> shaped w) ->
  run K k0 kadd kmul kdiv o steps
    (MkState K (repeat (repeat k0 size) nproc) false ix0)
  = Ok (map written (filter measured steps)).
Proof.
  induction steps as [|[ix wss] steps IH]; intros nproc ix0 L S; simpl; auto.
  assert (Lw : length wss = nproc) by (apply (L (ix, wss)); left; auto).
  assert (Sw : forall ws w, In ws wss -> In w ws -> shaped w).
  { intros ws w A B; apply (S (ix, wss) ws w); auto; left; auto. }
  unfold update, measured; simpl.
  destruct (existsb (Nat.eqb ix) (splits o)) eqn:M.
  - rewrite update_all by auto. simpl.
    unfold print_step; simpl.
    rewrite reduce_vsum. fold (vtotal k0 kadd size cells wss).
    rewrite blocks by auto. simpl.
    assert (R : map (fun _ : list K => repeat k0 size)
       (map (fun ws => vsum K k0 kadd size (map cells ws)) wss)
       = repeat (repeat k0 size) nproc).
    { rewrite map_map, <- Lw. clear. induction wss as [|w l IHl]; simpl; auto.
      f_equal; auto. }
    rewrite R, IH; auto.
    + intros st I; apply L; right; auto.
    + intros st ws w I; apply S; right; auto.
  - simpl. unfold print_step; simpl. rewrite IH; auto.
    + intros st I; apply L; right; auto.
    + intros st ws w I; apply S; right; auto.
Qed.

End BPEst.

(* In the words of the specification. *)
Section Final.
Variable K : Type.
Variables (k0 : K) (kadd kmul kdiv : K -> K -> K).
Variable o : opts.
Notation meas := (meas K).

Lemma two_size_right : n_two o = two_size o.
Proof. unfold n_two, two_size; destruct (o_two o); reflexivity. Qed.

Lemma sizes_shaped : forall w : meas, sizes o w -> shaped K o w.
Proof.
  intros w (A & B & C & D); repeat split; auto; try (apply D; auto).
  intro T. rewrite two_size_right. apply C. unfold two_given in T.
  destruct (o_two o); discriminate.
Qed.

Lemma splits_right : splits o = measurements o.
Proof.
  unfold splits, measurements. rewrite <- seq_shift, map_map.
  apply map_ext; intro i. f_equal; lia.
Qed.

Lemma T_t_right : forall wss, o_two o <> TNone ->
  T_t K k0 kadd kmul o wss = weighted k0 kadd kmul (two_size o) (w_two K) wss.
Proof.
  intros wss N; unfold T_t, weighted, two_part. rewrite two_size_right.
  assert (two_given o = true) as ->
    by (unfold two_given; destruct (o_two o); auto; contradiction).
  reflexivity.
Qed.

Lemma written_expected : forall st,
  (forall ws w, In ws (snd st) -> In w ws -> sizes o w) ->
  (o_ekt o = true -> o_one o = true /\ o_two o <> TFalse) ->
  written K k0 kadd kmul kdiv o st
  = (fst st, expected k0 kadd kmul kdiv o (snd st), fst st =? last (measurements o) 0).
Proof.
  intros st S H; unfold written. rewrite splits_right.
  f_equal. f_equal. unfold expected.
  assert (S' : forall ws w, In ws (snd st) -> In w ws -> shaped K o w)
    by (intros; apply sizes_shaped; eauto).
  assert (P2 : p_two K k0 kadd kmul o (snd st)
    = match o_two o with
      | TNone | TFalse => []
      | _ => [(TwoRdm, weighted k0 kadd kmul (two_size o) (w_two K) (snd st))]
      end).
  { unfold p_two, two_true. destruct (o_two o) eqn:T; auto;
      rewrite T_t_right by congruence; reflexivity. }
  assert (P3 : p_ekt K k0 kadd kmul o (snd st) (ekt_start o)
    = if o_ekt o then
        [(Fock1p, weighted k0 kadd kmul (n_g0 o) (w_1p K) (snd st));
         (Fock1h, weighted k0 kadd kmul (n_g0 o) (w_1h K) (snd st))]
      else []).
  { destruct (o_ekt o) eqn:EK.
    - destruct (H eq_refl) as [H1 H2]. rewrite ekt_right; auto.
    - unfold p_ekt; rewrite EK; reflexivity. }
  rewrite P2, P3. reflexivity.
Qed.

Lemma run_expected : forall steps nproc,
  (forall st, In st steps -> length (snd st) = nproc) ->
  (forall st ws w, In st steps -> In ws (snd st) -> In w ws -> sizes o w) ->
  (o_ekt o = true -> o_one o = true /\ o_two o <> TFalse) ->
  run K k0 kadd kmul kdiv o steps (init K k0 o nproc)
  = Ok (map (fun st => (fst st, expected k0 kadd kmul kdiv o (snd st),
                        fst st =? last (measurements o) 0))
          (filter (fun st => existsb (Nat.eqb (fst st)) (measurements o)) steps)).
Proof.
  intros steps nproc L S H. unfold init.
  rewrite run_written; auto.
  - f_equal. unfold measured. rewrite splits_right.
    apply map_ext_in. intros st I. apply filter_In in I as [I _].
    apply written_expected; auto. intros; eapply S; eauto.
  - intros; apply sizes_shaped; eauto.
Qed.

(* One measurement with any options. *)
Lemma run_one : forall ix wss, (forall ws w, In ws wss -> In w ws -> sizes o w) ->
  In ix (measurements o) ->
  run K k0 kadd kmul kdiv o [(ix, wss)] (init K k0 o (length wss))
  = Ok [written K k0 kadd kmul kdiv o (ix, wss)].
Proof.
  intros ix wss S I. unfold init. rewrite run_written.
  - simpl. unfold measured; simpl. rewrite splits_right.
    assert (existsb (Nat.eqb ix) (measurements o) = true) as ->.
    { apply existsb_exists. exists ix; split; auto. apply Nat.eqb_refl. }
    reflexivity.
  - intros st [<-|[]]; reflexivity.
  - intros st ws w [<-|[]] A B; simpl in A. apply sizes_shaped; eauto.
Qed.

(* The Fock matrices when the Green's functions are not wanted. *)
Lemma fock_wrong : forall ix wss, (forall ws w, In ws wss -> In w ws -> sizes o w) ->
  In ix (measurements o) -> o_ekt o = true -> o_one o = false -> o_two o = TNone ->
  n_g0 o <= n_g o ->
  exists rest last_, run K k0 kadd kmul kdiv o [(ix, wss)] (init K k0 o (length wss))
  = Ok [(ix, rest, last_)]
  /\ In (Fock1p, firstn (n_g0 o) (weighted k0 kadd kmul (n_g o) (w_g K) wss)) rest
  /\ forall d, In (Fock1p, d) rest ->
     d = firstn (n_g0 o) (weighted k0 kadd kmul (n_g o) (w_g K) wss).
Proof.
  intros ix wss S I EK EO ET Hn.
  rewrite run_one by auto. unfold written; simpl fst; simpl snd.
  eexists _, _; split; [reflexivity|].
  assert (Lg : length (T_g K k0 kadd kmul o wss) = n_g o).
  { apply L_g. intros; apply sizes_shaped; eauto. }
  assert (E : p_ekt K k0 kadd kmul o wss (ekt_start o)
    = [(Fock1p, firstn (n_g0 o) (weighted k0 kadd kmul (n_g o) (w_g K) wss));
       (Fock1h, firstn (n_g0 o) (skipn (n_g0 o)
          (T_g K k0 kadd kmul o wss ++ T_t K k0 kadd kmul o wss
           ++ T_p K k0 kadd kmul o wss ++ T_h K k0 kadd kmul o wss)))]).
  { unfold p_ekt, ekt_start, two_true. rewrite EK, EO, ET. cbv zeta. simpl plus.
    cbn [skipn]. rewrite firstn_app, Lg.
    replace (n_g0 o - n_g o) with 0 by lia. rewrite firstn_O, app_nil_r. reflexivity. }
  rewrite E. unfold p_one, p_two, two_true, p_energies. rewrite EO, ET.
  split.
  - right. rewrite !in_app_iff. right; right; right; left; reflexivity.
  - intros d [D|D]; [discriminate|].
    rewrite !in_app_iff in D. destruct D as [D|[[]|[[]|[D|[D|[]]]]]]; try congruence.
    destruct (o_energy o); simpl in D; [destruct D as [D|[]]; discriminate | contradiction].
Qed.

(* The Fock matrices when two_rdm is False rather than missing. *)
Lemma fock_wrong_two : forall ix wss, (forall ws w, In ws wss -> In w ws -> sizes o w) ->
  In ix (measurements o) -> o_ekt o = true -> o_one o = true -> o_two o = TFalse ->
  n_g0 o <= n_b4 o ->
  exists rest last_, run K k0 kadd kmul kdiv o [(ix, wss)] (init K k0 o (length wss))
  = Ok [(ix, rest, last_)]
  /\ In (Fock1p, firstn (n_g0 o) (weighted k0 kadd kmul (n_b4 o) (w_two K) wss)) rest
  /\ forall d, In (Fock1p, d) rest ->
     d = firstn (n_g0 o) (weighted k0 kadd kmul (n_b4 o) (w_two K) wss).
Proof.
  intros ix wss S I EK EO ET Hn.
  rewrite run_one by auto. unfold written; simpl fst; simpl snd.
  eexists _, _; split; [reflexivity|].
  assert (SH : forall ws w, In ws wss -> In w ws -> shaped K o w)
    by (intros; apply sizes_shaped; eauto).
  assert (Lg : length (T_g K k0 kadd kmul o wss) = n_g o) by (apply L_g; auto).
  assert (Lt : length (T_t K k0 kadd kmul o wss) = n_b4 o).
  { rewrite L_t; auto. rewrite two_size_right; unfold two_size; rewrite ET; auto. }
  assert (E : exists h, p_ekt K k0 kadd kmul o wss (ekt_start o)
    = [(Fock1p, firstn (n_g0 o) (weighted k0 kadd kmul (n_b4 o) (w_two K) wss));
       (Fock1h, h)]).
  { unfold p_ekt, ekt_start, two_true. rewrite EK, EO, ET. cbv zeta.
    rewrite Nat.add_0_r. rewrite (skipn_exact _ _ _ _ Lg).
    rewrite firstn_app, Lt. replace (n_g0 o - n_b4 o) with 0 by lia.
    rewrite firstn_O, app_nil_r. rewrite T_t_right by congruence.
    assert (two_size o = n_b4 o) as -> by (unfold two_size; rewrite ET; auto).
    eexists; reflexivity. }
  destruct E as [h E]. rewrite E. unfold p_one, p_two, two_true, p_energies. rewrite EO, ET.
  split.
  - right. rewrite !in_app_iff. right; right; right; left; reflexivity.
  - intros d [D|D]; [discriminate|].
    rewrite !in_app_iff in D. destruct D as [D|[[D|[]]|[[]|[D|[D|[]]]]]]; try congruence.
    destruct (o_energy o); simpl in D; [destruct D as [D|[]]; discriminate | contradiction].
Qed.

(* A two-body density matrix larger than what was allocated. *)
Lemma add_slice_short : forall st v buf, 2 <= length v -> length buf < st + length v ->
  add_slice K kadd st v buf = Err ValueError.
Proof.
  intros st v buf Hv Hb; unfold add_slice.
  assert (N : length (firstn (length v) (skipn st buf)) < length v)
    by (rewrite firstn_length, skipn_length; lia).
  destruct (Nat.eqb_spec (length (firstn (length v) (skipn st buf))) (length v)); [lia|].
  destruct v as [|x [|y v]]; simpl in Hv; auto; lia.
Qed.

Lemma add_slice_length : forall st v buf b, add_slice K kadd st v buf = Ok b ->
  length b = length buf.
Proof.
  intros st v buf b E; unfold add_slice in E.
  assert (D : length buf = length (firstn st buf) + (length (firstn (length v) (skipn st buf))
              + length (skipn (length v) (skipn st buf)))).
  { rewrite <- (firstn_skipn st buf) at 1. rewrite app_length. f_equal.
    rewrite <- (firstn_skipn (length v) (skipn st buf)) at 1. apply app_length. }
  destruct (Nat.eqb_spec (length (firstn (length v) (skipn st buf))) (length v)) as [A|A].
  - injection E as <-. rewrite !app_length, map_length, combine_length.
    rewrite D, A. lia.
  - destruct v as [|x [|y v]]; try discriminate.
    injection E as <-. rewrite !app_length, map_length, D. reflexivity.
Qed.

Lemma structure_error : forall w buf, o_two o = TStructure ->
  length buf = size o ->
  length (w_energies K w) = 3 -> length (w_g K w) = n_g o ->
  length (w_two K w) = n_b4 o -> n_s o < n_b4 o -> 2 <= n_b4 o ->
  (o_ekt o = true -> 2 <= n_g0 o /\ length (w_1p K w) = n_g0 o
     /\ length (w_1h K w) = n_g0 o) ->
  accumulate K kadd kmul o w buf = Err ValueError.
Proof.
  intros w buf T L He Hg Ht Hs H2 Hk. unfold accumulate.
  assert (Tg : two_given o = true) by (unfold two_given; rewrite T; auto).
  assert (Sz : size o = 4 + (n_g o + (n_s o + if o_ekt o then n_g0 o + n_g0 o else 0))).
  { unfold size, n_two, nreg; rewrite T; lia. }
  assert (OK : forall st v b, length v <> 0 -> length b = size o ->
     st + length v <= size o -> exists b', add_slice K kadd st v b = Ok b'
       /\ length b' = size o).
  { intros st v b V Lb LE. unfold add_slice.
    assert (Q : length (firstn (length v) (skipn st b)) = length v)
      by (rewrite firstn_length, skipn_length; lia).
    rewrite Q, Nat.eqb_refl. eexists; split; [reflexivity|].
    rewrite !app_length, map_length, combine_length, Q, !firstn_length, !skipn_length. lia. }
  assert (OK' : forall st v b, length b = size o ->
     st + length v <= size o -> exists b', add_slice K kadd st v b = Ok b'
       /\ length b' = size o).
  { intros st v b Lb LE. destruct v as [|x v].
    - unfold add_slice; simpl. eexists; split; [reflexivity|].
      rewrite app_length, firstn_length, skipn_length; lia.
    - apply OK; simpl; auto. }
  set (sc := map (kmul (w_weight K w))).
  assert (Lsc : forall l, length (sc l) = length l) by (intro; apply map_length).
  destruct (OK' 0 (sc (w_energies K w)) buf L) as (b1 & E1 & L1);
    [rewrite Lsc, He, Sz; lia|].
  rewrite E1; cbn [rbind].
  destruct (OK' nreg [w_weight K w] b1 L1) as (b2 & E2 & L2);
    [rewrite Sz; simpl; unfold nreg; lia|].
  rewrite E2; cbn [rbind].
  destruct (OK' (nreg + 1) (sc (w_g K w)) b2 L2) as (b3 & E3 & L3);
    [rewrite Lsc, Hg, Sz; unfold nreg; lia|].
  cbv zeta. rewrite E3; cbn [rbind]. rewrite Tg.
  destruct (add_slice K kadd (nreg + 1 + length (w_g K w)) (sc (w_two K w)) b3)
    as [b4|e] eqn:E4; cbn [rbind].
  - pose proof (add_slice_length _ _ _ _ E4) as L4.
    destruct (o_ekt o) eqn:EK.
    + destruct (Hk eq_refl) as (G2 & Lp & Lh).
      destruct (add_slice K kadd (nreg + 1 + length (w_g K w) + length (w_two K w))
        (sc (w_1p K w)) b4) as [b5|e] eqn:E5; cbn [rbind].
      * pose proof (add_slice_length _ _ _ _ E5) as L5.
        apply add_slice_short; rewrite Lsc, Lh; auto.
        rewrite L5, L4, L3, Sz, Hg, Ht, Lp. unfold nreg; lia.
      * unfold add_slice in E5.
        destruct (_ =? _); [discriminate|].
        destruct (sc (w_1p K w)) as [|? [|? ?]]; congruence.
    + rewrite add_slice_short in E4; [discriminate | rewrite Lsc; lia|].
      rewrite Lsc, L3, Sz, Hg, Ht. unfold nreg; lia.
  - unfold add_slice in E4.
    destruct (_ =? _); [discriminate|].
    destruct (sc (w_two K w)) as [|? [|? ?]]; congruence.
Qed.

Lemma structure_run : forall ix w ws wss steps nproc, o_two o = TStructure ->
  In ix (measurements o) -> 0 < nproc ->
  length (w_energies K w) = 3 -> length (w_g K w) = n_g o ->
  length (w_two K w) = n_b4 o -> n_s o < n_b4 o -> 2 <= n_b4 o ->
  (o_ekt o = true -> 2 <= n_g0 o /\ length (w_1p K w) = n_g0 o
     /\ length (w_1h K w) = n_g0 o) ->
  run K k0 kadd kmul kdiv o ((ix, (w :: ws) :: wss) :: steps) (init K k0 o nproc)
  = Err ValueError.
Proof.
  intros ix w ws wss steps nproc T I N He Hg Ht Hs H2 Hk.
  destruct nproc as [|n]; [lia|].
  cbn [run]. unfold update, init. cbn [s_bufs repeat].
  rewrite splits_right.
  assert (existsb (Nat.eqb ix) (measurements o) = true) as ->.
  { apply existsb_exists. exists ix; split; auto. apply Nat.eqb_refl. }
  cbn [map2 update_walkers].
  rewrite structure_error; auto. apply repeat_length.
Qed.

End Final.

Lemma measurements_last : forall o, 0 < nsplit o ->
  last (measurements o) 0 = nsplit o * (nmax o / nsplit o).
Proof.
  intros o H; unfold measurements.
  destruct (nsplit o) as [|n]; [lia|].
  rewrite seq_S, map_app; simpl map. rewrite last_last. reflexivity.
Qed.

Lemma measurements_increasing : forall o i x y,
  nth_error (measurements o) i = Some x -> nth_error (measurements o) (S i) = Some y ->
  y = x + nmax o / nsplit o.
Proof.
  intros o i x y A B; unfold measurements in *.
  rewrite nth_error_map in A, B.
  destruct (nth_error (seq 1 (nsplit o)) i) as [a|] eqn:P; [|discriminate].
  destruct (nth_error (seq 1 (nsplit o)) (S i)) as [b|] eqn:Q; [|discriminate].
  simpl in A, B. injection A as <-. injection B as <-.
  assert (Li : S i < nsplit o).
  { rewrite <- (seq_length (nsplit o) 1). apply nth_error_Some. congruence. }
  apply nth_error_nth with (d := 0) in P, Q.
  rewrite seq_nth in P, Q by lia. nia.
Qed.
