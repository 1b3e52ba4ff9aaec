From Verif Require Import Base BaseFacts.
Set Warnings "-notation-overridden,-ambiguous-paths".
From mathcomp Require Import all_ssreflect all_fingroup all_algebra all_field.
From Verif Require Import LEnergy_Model LEnergy_Spec LEnergy_Proofs HHEnergy_Model HHEnergy_Spec.

Set Implicit Arguments.
Unset Strict Implicit.
Unset Printing Implicit Defensive.

Import Order.TTheory GRing.Theory Num.Theory.
Local Open Scope ring_scope.

Section RingFacts.
Variables (K : Type) (z o : K) (ad mu sb : K -> K -> K) (op : K -> K).
Hypothesis Kth : ring_theory z o ad mu sb op (@eq K).
Add Ring Kring : Kth.
Local Notation "a +' b" := (ad a b) (at level 50, left associativity).
Local Notation "a *' b" := (mu a b) (at level 40, left associativity).
Local Notation "-' a" := (op a) (at level 35).
Lemma rf_pos (ke pe h w w2 m xx l im n e : K) :
  ke +' pe +' o *' h *' w2 *' m *' xx +' (-' (o *' h) *' l *' im +' -' (o *' h *' w *' n)) +' e
  = ke +' e +' pe +' (m *' w2 *' h *' xx +' -' (l *' (h *' im)) +' -' (n *' w *' h)).
Proof. ring. Qed.
Lemma rf_root (t im iw m w : K) :
  t *' (im *' iw) *' (m *' (w *' w) *' (m *' (w *' w)))
  = t *' m *' w *' (m *' im) *' ((w *' (w *' w)) *' iw).
Proof. ring. Qed.
Lemma rf_mom (ke pe h w w2 m pp l im n e : K) :
  ke +' pe +' -' (o *' h) *' w2 *' m *' l +' (o *' h *' pp *' im +' -' (o *' h *' w *' n)) +' e
  = ke +' e +' pe +' (pp *' (h *' im) +' -' (m *' w2 *' h *' l) +' -' (n *' w *' h)).
Proof. ring. Qed.
Lemma rf_site (h mw2 gm gs nu nd x : K) : nu *' nu = nu -> nd *' nd = nd -> (o +' o) *' h = o ->
  mw2 *' gm = gs ->
  mw2 *' h *' ((x +' gm *' (nu +' nd)) *' (x +' gm *' (nu +' nd)))
    +' -' (gs *' (nu +' nd) *' (x +' gm *' (nu +' nd)))
  = (gm *' gm *' mw2 +' -' ((o +' o) *' gm *' gs)) *' (nu *' nd)
    +' (gm *' gm *' mw2 *' h +' -' (gm *' gs)) *' (nu +' nd) +' mw2 *' h *' (x *' x).
Proof.
intros Hu Hd Hh Hg.
replace ((x +' gm *' (nu +' nd)) *' (x +' gm *' (nu +' nd)))
  with (x *' x +' (o +' o) *' gm *' x *' (nu +' nd)
        +' gm *' gm *' (nu *' nu +' nd *' nd +' (o +' o) *' (nu *' nd))) by ring.
replace (gs *' (nu +' nd) *' (x +' gm *' (nu +' nd)))
  with (gs *' (nu +' nd) *' x +' gs *' gm *' (nu *' nu +' nd *' nd +' (o +' o) *' (nu *' nd))) by ring.
rewrite Hu Hd -Hg.
replace (mw2 *' h *' (x *' x +' (o +' o) *' gm *' x *' (nu +' nd)
        +' gm *' gm *' (nu +' nd +' (o +' o) *' (nu *' nd))))
  with (mw2 *' h *' (x *' x) +' ((o +' o) *' h) *' (mw2 *' gm *' x *' (nu +' nd))
        +' gm *' gm *' mw2 *' h *' (nu +' nd)
        +' ((o +' o) *' h) *' (mw2 *' gm *' gm *' (nu *' nd))) by ring.
rewrite Hh. ring.
Qed.
Lemma rf_last (U gm m w2 t g r a b c : K) :
  U *' a +' ((gm *' gm *' (m *' w2) +' -' (t *' gm *' (g *' r))) *' a +' b +' c)
  = (U +' gm *' gm *' m *' w2 +' -' (t *' g *' gm *' r)) *' a +' b +' c.
Proof. ring. Qed.
Lemma rf_shuffle (m w g : K) : m *' (w *' w) *' g = g *' w *' (m *' w).
Proof. ring. Qed.
Lemma rf_ph (h w m a : K) : h *' (w *' w) *' m *' (a *' a) = w *' (a *' a *' (m *' w *' h)).
Proof. ring. Qed.
Lemma rf_eph (t s r x : K) : t *' s *' (r *' x) = r *' (t *' (x *' s)).
Proof. ring. Qed.
Lemma rf_sq (f c d o' : K) : f *' (c *' d) *' o' = d *' c *' (f *' o').
Proof. ring. Qed.
Lemma rf_chain (a b c : K) :
  -' (a *' b) +' (-' (b *' a) +' -' (b *' c) +' -' (c *' b))
  = -' (b *' (a +' c) +' b *' (a +' c)).
Proof. ring. Qed.
Lemma rf_pairs (a b c : K) :
  (b *' (a +' c) +' b *' (a +' c)) +' (a *' c +' a *' c)
  = (a +' (b +' c)) *' (a +' (b +' c)) +' -' (a *' a +' (b *' b +' c *' c)).
Proof. ring. Qed.
Lemma rf_min (k rs x c d : K) : k *' c = rs ->
  k *' d *' (x *' x) +' -' ((o +' o) *' d *' rs *' x)
  = k *' d *' (c *' c) +' -' ((o +' o) *' d *' rs *' c) +' k *' d *' ((x +' -' c) *' (x +' -' c)).
Proof. intros <-. ring. Qed.
End RingFacts.

Section Position.
Variable C : numClosedFieldType.
Variable M : nat.
Notation mat2 := ('M[C]_M * 'M[C]_M)%type.

Lemma wick1_sum (T G : mat2) :
  wick1 T G = \sum_i \sum_j (T.1 i j * G.1 i j + T.2 i j * G.2 i j).
Proof.
rewrite wick1E /sum_prod -big_split /=; apply: eq_bigr => i _.
by rewrite -big_split.
Qed.

Lemma wick1_both (T G : mat2) d :
  wick1 (on_both T d) G = wick1 T G + \sum_i (G.1 i i + G.2 i i) * d i.
Proof.
rewrite !wick1_sum -big_split /=; apply: eq_bigr => i _.
rewrite (eq_bigr (fun j => (T.1 i j * G.1 i j + T.2 i j * G.2 i j)
    + (if j == i then (G.1 i j + G.2 i j) * d i else 0))); last first.
  move=> j _; rewrite !mxE; case: (i =P j) => [->|/eqP nij].
    by rewrite eqxx !mulr1n !mulrDl ![d j * _]mulrC addrACA.
  by rewrite [j == i]eq_sym (negbTE nij) !mulr0n !addr0.
by rewrite big_split /= -[in X in _ + X]big_mkcond /= big_pred1_eq.
Qed.

Lemma twoNZ : (2%:R : C) != 0. Proof. by rewrite pnatr_eq0. Qed.

Lemma position_right (y : hh C M) G X Lap : hm y != 0 ->
  (hh_position y G X Lap).1.1 = holstein (hT y) (hU y) (hg y) (hm y) (hw y) G X Lap.
Proof.
move=> m0; rewrite /hh_position /holstein /= wick1_both hubbard_wick2 wick1_sum.
have -> : \sum_i (G.1 i i + G.2 i i) * - (hg y * sqrtC (2%:R * hm y * hw y) * X i)
  = - hg y * sqrtC (hm y * hw y * 2%:R) * \sum_i (G.1 i i + G.2 i i) * X i.
  rewrite mulr_sumr; apply: eq_bigr => i _.
  by rewrite -[2%:R * _ * _]mulrA [2%:R * _]mulrC mulrN !mulNr mulrCA.
have -> : \sum_i X i ^+ 2 = \sum_i X i * X i by apply: eq_bigr => i _; rewrite expr2.
rewrite /half invfM.
exact: (rf_pos (comring_th C)).
Qed.

(* Momentum space. *)
Lemma root_rel (m w : C) : 0 < m -> 0 < w ->
  sqrtC (2%:R / (m * w ^+ 3)) * m * w ^+ 2 = sqrtC (2%:R * m * w).
Proof.
move=> m0 w0.
have mN : m != 0 by rewrite lt0r_neq0.
have wN : w != 0 by rewrite lt0r_neq0.
rewrite -mulrA -[LHS]sqrCK; last first.
  apply: mulr_ge0; first by rewrite sqrtC_ge0 divr_ge0 ?ler0n // mulr_ge0 ?exprn_ge0 // ltW.
  by rewrite mulr_ge0 ?exprn_ge0 // ltW.
congr sqrtC; rewrite exprMn sqrtCK invfM !exprS expr0 !mulr1.
transitivity (2%:R * m * w * (m / m) * ((w * (w * w)) / (w * (w * w)))).
  exact: (rf_root (comring_th C)).
by rewrite !mulfV ?mulf_neq0 // !mulr1.
Qed.

Lemma gamma_rel (y : hh C M) : 0 < hm y -> 0 < hw y ->
  hm y * hw y ^+ 2 * gamma_lf y true = hg y * sqrttwomw y.
Proof.
move=> m0 w0; rewrite /gamma_lf /sqrttwomw -(root_rel m0 w0).
by rewrite mulrC -!mulrA.
Qed.

Lemma root_neq0 (y : hh C M) : 0 < hm y -> 0 < hw y -> sqrttwomw y != 0.
Proof.
by move=> m0 w0; rewrite /sqrttwomw sqrtC_eq0 !mulf_neq0 ?twoNZ // lt0r_neq0.
Qed.

Lemma gamma_assert (y : hh C M) : 0 < hm y -> 0 < hw y ->
  (gamma_lf y true * hw y == hg y * sqrttwomw y) = ((hg y == 0) || (hm y * hw y == 1)).
Proof.
move=> m0 w0; have r := gamma_rel m0 w0.
have mN : hm y != 0 by rewrite lt0r_neq0.
have wN : hw y != 0 by rewrite lt0r_neq0.
rewrite -r.
case: (altP (hg y =P 0)) => [g0|gN] /=.
  by rewrite /gamma_lf g0 !mul0r mulr0 eqxx.
have gmN : gamma_lf y true != 0.
  apply: contraNneq (mulf_neq0 gN (root_neq0 m0 w0)) => g0.
  by rewrite -r g0 mulr0.
have -> : hm y * hw y ^+ 2 * gamma_lf y true = gamma_lf y true * hw y * (hm y * hw y).
  by rewrite expr2; exact: (rf_shuffle (comring_th C)).
rewrite -{1}[gamma_lf y true * hw y]mulr1.
apply/eqP/eqP => [/(mulfI (mulf_neq0 gmN wN))|->] //.
Qed.

Lemma half_two : (half C) = 1 / 2%:R. Proof. by []. Qed.

Lemma momentum_ok expi (y : hh C M) G P Lap : 0 < hm y -> 0 < hw y -> hm y * hw y = 1 ->
  exists e, hh_momentum expi y true G P Lap = Ok e /\
    let gm := gamma_lf y true in
    e.1.1 = lang_firsov (hT y) (fun i => expi (gm * P i)) (Ueff y)
      (gm ^+ 2 * (hm y * hw y ^+ 2) / 2%:R - gm * (hg y * sqrttwomw y))
      (hm y) (hw y) G P Lap.
Proof.
move=> m0 w0 mw; rewrite /hh_momentum gamma_assert // mw eqxx orbT.
eexists; split; first by [].
cbv zeta; set gm := gamma_lf y true.
rewrite /= /lang_firsov wick1_both hubbard_wick2 wick1_sum.
have E A : phases expi gm P *m A *m phases_conj expi gm P
   = \matrix_(i, j) (expi (gm * P i) * A i j * (expi (gm * P j))^*).
  apply/matrixP => i j.
  by rewrite /phases /phases_conj mul_mx_diag mul_diag_mx !mxE.
rewrite !E /=.
have -> : gm ^+ 2 * hw y = gm ^+ 2 * (hm y * hw y ^+ 2) by rewrite [hw y ^+ 2]expr2 [hm y * _]mulrA mw mul1r.
have -> : hU y + gm ^+ 2 * (hm y * hw y ^+ 2) - 2%:R * hg y * gm * sqrttwomw y = Ueff y.
  by rewrite /Ueff -/gm mulrA.
have -> : \sum_i P i ^+ 2 = \sum_i P i * P i by apply: eq_bigr => i _; rewrite expr2.
have -> : (gm ^+ 2 * (hm y * hw y ^+ 2) / 2%:R - hg y * gm * sqrttwomw y) * (\sum_i (G.1 i i + G.2 i i))
  = \sum_i (G.1 i i + G.2 i i) * (gm ^+ 2 * (hm y * hw y ^+ 2) / 2%:R - gm * (hg y * sqrttwomw y)).
  by rewrite mulrC mulr_suml [hg y * gm]mulrC -[_ * _ * sqrttwomw y]mulrA.
rewrite /half [(2%:R * hm y)^-1]invfM.
exact: (rf_mom (comring_th C)).
Qed.

Lemma momentum_raises expi (y : hh C M) G P Lap : 0 < hm y -> 0 < hw y ->
  (hh_momentum expi y true G P Lap = Err AssertionError <-> hg y != 0 /\ hm y * hw y != 1).
Proof.
move=> m0 w0; rewrite /hh_momentum gamma_assert //.
by case: (hg y == 0); case: (hm y * hw y == 1) => /=; split => // -[].
Qed.

Lemma momentum_off expi (y : hh C M) G P Lap : 0 < hm y -> 0 < hw y -> hg y != 0 ->
  hh_momentum expi y false G P Lap = Err AssertionError.
Proof.
move=> m0 w0 gN; rewrite /hh_momentum /= mul0r.
by rewrite eq_sym (negbTE (mulf_neq0 gN (root_neq0 m0 w0))).
Qed.

Lemma site_identity (y : hh C M) (nu nd x : C) : 0 < hm y -> 0 < hw y ->
  nu * nu = nu -> nd * nd = nd ->
  let gm := gamma_lf y true in let n := nu + nd in
  hU y * (nu * nd) + (hm y * hw y ^+ 2 / 2%:R * (x + gm * n) ^+ 2
    - hg y * sqrttwomw y * n * (x + gm * n))
  = Ueff y * (nu * nd)
    + (gm ^+ 2 * (hm y * hw y ^+ 2) / 2%:R - gm * (hg y * sqrttwomw y)) * n
    + hm y * hw y ^+ 2 / 2%:R * x ^+ 2.
Proof.
move=> m0 w0 hu hd; cbv zeta.
have h2 : (1 + 1) * (2%:R)^-1 = 1 :> C by rewrite -(natrD _ 1 1) mulfV ?twoNZ.
have E := rf_site (comring_th C) x hu hd h2 (gamma_rel m0 w0).
set gm := gamma_lf y true in E *.
rewrite [(x + _) ^+ 2]expr2 [x ^+ 2]expr2 [gm ^+ 2]expr2 E /Ueff -/gm -/(sqrttwomw y).
rewrite [gm ^+ 2]expr2 -(natrD _ 1 1).
exact: (rf_last (comring_th C)).
Qed.

(* Coherent states. *)
Lemma root_half (m w : C) : 0 < m -> 0 < w ->
  sqrtC (m * w * 2%:R) = 2%:R * sqrtC (m * w / 2%:R) /\ sqrtC (m * w / 2%:R) ^+ 2 = m * w / 2%:R.
Proof.
move=> m0 w0; split; last by rewrite sqrtCK.
rewrite -[RHS]sqrCK; last first.
  by rewrite mulr_ge0 ?ler0n // sqrtC_ge0 divr_ge0 ?ler0n // mulr_ge0 // ltW.
by congr sqrtC; rewrite exprMn sqrtCK expr2 mulrACA mulfV ?twoNZ // mulr1 mulrC.
Qed.

Lemma zero_point (m w : C) (sh : 'I_M -> C) : m != 0 ->
  - half C * (\sum_i (hh_laplacian m w sh sh i)) / m - half C * w * M%:R = 0.
Proof.
move=> mN.
rewrite (eq_bigr (fun _ => - (w * m))); last first.
  by move=> i _; rewrite /hh_laplacian subrr mulr0 sub0r.
rewrite sumr_const card_ord -mulr_natr [- (w * m) * _]mulNr mulrNN.
by rewrite [w * m * _]mulrAC [half C * (_ * m)]mulrA mulfK // mulrA subrr.
Qed.

Lemma coherent_closed (y : hh C M) (G : mat2) sh : 0 < hm y -> 0 < hw y ->
  let e := coherent_energy y G sh in
  let b i := sh i * sqrtC (hm y * hw y / 2%:R) in
  [/\ e.1.1 = e.1.2 + e.2,
      e.1.2 = wick1 (hT y) G + wick2 (fun p r q u => onsite (hU y) p r q u) G
    & e.2 = hw y * (\sum_i b i * b i) + - hg y * (\sum_i (G.1 i i + G.2 i i) * (b i + b i))].
Proof.
move=> m0 w0 e b; have mN : hm y != 0 by rewrite lt0r_neq0.
have [r1 r2] := root_half m0 w0.
rewrite {}/e /coherent_energy /hh_jax zero_point //=; split.
- by rewrite add0r addr0 addrA.
- by rewrite hubbard_wick2 wick1_sum.
rewrite add0r r1; congr (_ + _).
  rewrite !mulr_sumr; apply: eq_bigr => i _.
  rewrite /b [sh i * _ * (sh i * _)]mulrACA -[sqrtC _ * sqrtC _]expr2 r2 [hw y ^+ 2]expr2 /half mul1r.
  exact: (rf_ph (comring_th C)).
rewrite -mulrA; congr (_ * _); rewrite mulr_sumr; apply: eq_bigr => i _.
have D (a : C) : a + a = 2%:R * a by rewrite mulr_natl mulr2n.
by rewrite (D (b i)); exact: (rf_eph (comring_th C)).
Qed.

Lemma shift_minimum (y : hh C M) (G : mat2) sh : 0 < hm y -> 0 < hw y -> hg y \is Num.real ->
  (forall i, G.1 i i \is Num.real /\ G.2 i i \is Num.real) ->
  (coherent_energy y G sh).1.1
  = (coherent_energy y G (first_shift y G)).1.1
    + hm y * hw y ^+ 2 / 2%:R * (\sum_i (sh i - first_shift y G i) ^+ 2).
Proof.
move=> m0 w0 gR GR.
have mN : hm y != 0 by rewrite lt0r_neq0.
have wN : hw y != 0 by rewrite lt0r_neq0.
have fR i : first_shift y G i
  = sqrtC (hw y * 2%:R * hm y) * hg y * (G.1 i i + G.2 i i) / (hm y * hw y ^+ 2).
  apply/Creal_ReP; have [ga gb] := GR i.
  apply: rpred_div; last by rewrite rpredM ?rpredX // ger0_real // ltW.
  apply: rpredM; last exact: rpredD.
  by apply: rpredM => //; rewrite ger0_real // sqrtC_ge0 !mulr_ge0 ?ler0n // ltW.
rewrite /coherent_energy /hh_jax !zero_point //= !addr0 -!addrA; congr (_ + (_ + _)).
rewrite !mulr_sumr -!big_split /=; apply: eq_bigr => i _.
have c0 : hm y * hw y ^+ 2 * first_shift y G i
  = hg y * sqrtC (hm y * hw y * 2%:R) * (G.1 i i + G.2 i i).
  rewrite fR [_ / _]mulrC mulVKf; last by rewrite mulf_neq0 // expf_neq0.
  by congr (_ * _); rewrite mulrC; congr (_ * sqrtC _); rewrite mulrC mulrA.
have := rf_min (comring_th C) (sh i) (2%:R)^-1 c0.
have h2 : (1 + 1) * (2%:R)^-1 = 1 :> C by rewrite -(natrD _ 1 1) mulfV ?twoNZ.
rewrite h2 !mul1r /half !mul1r => E.
have H : hw y ^+ 2 * hm y = hm y * hw y ^+ 2 by rewrite mulrC.
have L (t r x : C) : - hg y * t * (r * x) = - (hg y * t * r * x) by rewrite !mulNr !mulrA.
rewrite !L -![_ * hw y ^+ 2 * hm y]mulrA H ![2%:R^-1 * _]mulrC E [(sh i - _) ^+ 2]expr2.
by rewrite addrA.
Qed.
End Position.

(* Sums over pairs. *)
Lemma sum_sym (C : numClosedFieldType) n (f : 'I_n -> 'I_n -> C) : (forall i j, f i j = f j i) ->
  \sum_i \sum_j f i j = \sum_i f i i + \sum_(i < n) \sum_(j < n | (i < j)%N) f i j * 2%:R.
Proof.
move=> sy.
have S i : \sum_j f i j = f i i + (\sum_(j < n | (i < j)%N) f i j + \sum_(j < n | (j < i)%N) f i j).
  rewrite (bigD1 i) //=; congr (_ + _).
  rewrite (bigID (fun j : 'I_n => (i < j)%N)) /=; congr (_ + _); apply: eq_bigl => j.
    by rewrite -val_eqE /= neq_ltn; case: ltngtP.
  by rewrite -val_eqE /= neq_ltn; case: ltngtP.
rewrite (eq_bigr _ (fun i _ => S i)) big_split big_split /=; congr (_ + _).
have -> : \sum_(i < n) \sum_(j < n | (j < i)%N) f i j = \sum_(i < n) \sum_(j < n | (i < j)%N) f i j.
  rewrite (eq_bigr (fun i : 'I_n => \sum_(j < n) if (j < i)%N then f i j else 0)); last first.
    by move=> i _; rewrite big_mkcond.
  rewrite exchange_big /=; apply: eq_bigr => i _; rewrite [RHS]big_mkcond /=.
  by apply: eq_bigr => j _; case: ifP => // _; rewrite sy.
rewrite -mulr2n -[LHS]mulr_natr mulr_suml; apply: eq_bigr => i _.
by rewrite mulr_suml.
Qed.

Section Many.
Variable C : numClosedFieldType.
Variables M na nb : nat.
Variable expo : C -> C.
Notation mat2 := ('M[C]_M * 'M[C]_M)%type.

Definition real_mx m n (A : 'M[C]_(m, n)) : Prop := map_mx conjC A = A.
Definition real_state (s : coherent C M na nb) : Prop :=
  [/\ real_mx (oa s), real_mx (ob s), (forall i, sh s i \is Num.real) & co s \is Num.real].

Lemma adjoint_real m n (A : 'M[C]_(m, n)) : real_mx A -> adjoint A = A^T.
Proof. by rewrite /adjoint => ->. Qed.

Lemma gab_rdm n (A B : 'M[C]_(M, n)) : gab A B = (one_rdm A B)^T.
Proof. by rewrite /gab /one_rdm trmxK -mulmxA. Qed.

Lemma rdm_swap n (A B : 'M[C]_(M, n)) : real_mx A -> real_mx B -> one_rdm B A = (one_rdm A B)^T.
Proof.
move=> rA rB; rewrite /one_rdm !adjoint_real // trmxK !trmx_mul trmxK trmx_inv trmx_mul trmxK.
by rewrite mulmxA.
Qed.

Variable y : hh C M.
Hypothesis m0 : 0 < hm y.
Hypothesis w0 : 0 < hw y.
Hypothesis symT : (hT y).1^T = (hT y).1 /\ (hT y).2^T = (hT y).2.

Lemma beta_real (s : coherent C M na nb) i : real_state s -> (beta y s i)^* = beta y s i.
Proof.
move=> [_ _ rs _]; apply/CrealP; rewrite rpredM //.
by rewrite ger0_real // sqrtC_ge0 divr_ge0 ?ler0n // mulr_ge0 // ltW.
Qed.

Lemma overlap_right (s t : coherent C M na nb) : real_state s -> real_state t ->
  overlap expo y s t = coherent_overlap expo (oa s) (oa t) (ob s) (ob t) (beta y s) (beta y t).
Proof.
move=> rs rt; have [ra rb _ _] := rs.
rewrite /overlap /coherent_overlap !adjoint_real //; congr (_ * _).
apply: eq_bigr => i _; congr expo.
by rewrite beta_real // !normCK !beta_real // !expr2.
Qed.

Lemma overlap_sym (s t : coherent C M na nb) : overlap expo y s t = overlap expo y t s.
Proof.
rewrite /overlap -(det_tr ((oa s)^T *m _)) -(det_tr ((ob s)^T *m _)) !trmx_mul !trmxK.
by congr (_ * _); apply: eq_bigr => i _; rewrite [_ * beta y s i]mulrC [beta y t i ^+ 2 + _]addrC.
Qed.

Lemma wick1_tr (T G : mat2) : T.1^T = T.1 -> T.2^T = T.2 -> wick1 T (G.1^T, G.2^T) = wick1 T G.
Proof.
have E (A B : 'M[C]_M) : A^T = A -> sum_prod A B^T = sum_prod A B.
  move=> sA; rewrite /sum_prod exchange_big /=; apply: eq_bigr => i _.
  by apply: eq_bigr => j _; rewrite -{1}sA !mxE.
by move=> h1 h2; rewrite !wick1E /= !E.
Qed.

Lemma pair_right (s t : coherent C M na nb) : real_state s -> real_state t ->
  (pair_energy y s t).1 = electron_part (hT y) (hU y) (oa s) (oa t) (ob s) (ob t) /\
  (pair_energy y s t).2
    = phonon_part (hg y) (hw y) (oa s) (oa t) (ob s) (ob t) (beta y s) (beta y t).
Proof.
move=> rs rt; have [s1 s2] := symT; rewrite /pair_energy /electron_part /phonon_part; cbv zeta.
rewrite -!wick1_sum hubbard_wick2 /greens /= !gab_rdm; split.
  rewrite (wick1_tr (_, _) s1 s2); congr (_ + _ * _).
  by apply: eq_bigr => i _; rewrite !mxE.
rewrite !mulr_sumr -big_split /=; apply: eq_bigr => i _.
by rewrite beta_real // !mxE mulNr !mulrA.
Qed.

Lemma pair_sym (s t : coherent C M na nb) : real_state s -> real_state t ->
  (pair_energy y s t).1 = (pair_energy y t s).1 /\ (pair_energy y s t).2 = (pair_energy y t s).2.
Proof.
move=> rs rt; have [ra rb _ _] := rs; have [rc rd _ _] := rt.
have [s1 s2] := symT; rewrite /pair_energy; cbv zeta; rewrite -!wick1_sum /greens /= !gab_rdm.
rewrite (rdm_swap ra rc) (rdm_swap rb rd); split.
  rewrite (wick1_tr (_, _) s1 s2) trmxK trmxK; congr (_ + _ * _).
  by apply: eq_bigr => i _; rewrite !mxE.
congr (_ * _ + _ * _); apply: eq_bigr => i _; first by rewrite mulrC.
by rewrite !mxE addrC [X in _ = _ * X]addrC.
Qed.

Lemma diag_right (s : coherent C M na nb) :
  let e := coherent_energy y (greens s s) (sh s) in
  e.1.1 = (pair_energy y s s).1 + (pair_energy y s s).2 /\
  e.1.2 = (pair_energy y s s).1 /\ e.2 = (pair_energy y s s).2.
Proof.
have [e1 e2 e3] := coherent_closed (greens s s) (sh s) m0 w0.
have E2 : (coherent_energy y (greens s s) (sh s)).1.2 = (pair_energy y s s).1.
  by rewrite e2 /pair_energy /= hubbard_wick2 wick1_sum.
have E3 : (coherent_energy y (greens s s) (sh s)).2 = (pair_energy y s s).2 by rewrite e3.
by cbv zeta; rewrite e1 E2 E3.
Qed.

Lemma twice_right n (st : 'I_n -> coherent C M na nb) f g :
  (forall i, real_state (st i)) ->
  (forall i j, f (st i) (st j) = f (st j) (st i)) ->
  (forall i, g i = f (st i) (st i)) ->
  \sum_i g i * `|co (st i)| ^+ 2 * overlap expo y (st i) (st i) + twice expo y st f
  = \sum_i \sum_j (co (st i))^* * co (st j) * (f (st i) (st j) * overlap expo y (st i) (st j)).
Proof.
move=> rs fs gf.
have rc i : (co (st i))^* = co (st i) by apply/CrealP; case: (rs i).
rewrite sum_sym; last first.
  by move=> i j; rewrite !rc fs overlap_sym [co (st i) * _]mulrC.
congr (_ + _); first by apply: eq_bigr => i _; rewrite gf normCK; exact: (rf_sq (comring_th C)).
apply: eq_bigr => i _; apply: eq_bigr => j _; rewrite rc; congr (_ * _).
by rewrite -mulrA mulrC.
Qed.

Lemma multi_right n (st : 'I_n -> coherent C M na nb) : (forall i, real_state (st i)) ->
  let e f := expectation (fun i => co (st i)) f
    (fun i j => coherent_overlap expo (oa (st i)) (oa (st j)) (ob (st i)) (ob (st j))
                  (beta y (st i)) (beta y (st j))) in
  let el i j := electron_part (hT y) (hU y) (oa (st i)) (oa (st j)) (ob (st i)) (ob (st j)) in
  let ph i j := phonon_part (hg y) (hw y) (oa (st i)) (oa (st j)) (ob (st i)) (ob (st j))
                  (beta y (st i)) (beta y (st j)) in
  multi_energy expo y st = (e (fun i j => el i j + ph i j), e el, e ph).
Proof.
move=> rs; cbv zeta; rewrite /multi_energy.
have P i j := pair_right (rs i) (rs j).
have S i j := pair_sym (rs i) (rs j).
have D i := diag_right (st i).
rewrite !twice_right //.
  have N : \sum_i overlap expo y (st i) (st i) * `|co (st i)| ^+ 2 + twice expo y st (fun _ _ => 1)
    = \sum_i \sum_j (co (st i))^* * co (st j) * overlap expo y (st i) (st j).
    rewrite (eq_bigr (fun i => 1 * `|co (st i)| ^+ 2 * overlap expo y (st i) (st i))); last first.
      by move=> i _; rewrite mul1r mulrC.
    rewrite (twice_right (f := fun _ _ => 1)) //.
    by apply: eq_bigr => i _; apply: eq_bigr => j _; rewrite mul1r.
  rewrite N /expectation.
  have O : \sum_i \sum_j (co (st i))^* * co (st j) * overlap expo y (st i) (st j)
    = \sum_i \sum_j (co (st i))^* * co (st j)
      * coherent_overlap expo (oa (st i)) (oa (st j)) (ob (st i)) (ob (st j))
          (beta y (st i)) (beta y (st j)).
    by apply: eq_bigr => i _; apply: eq_bigr => j _; rewrite overlap_right.
  rewrite O; congr (_ / _, _ / _, _ / _); apply: eq_bigr => i _; apply: eq_bigr => j _;
    rewrite overlap_right //; have [p1 p2] := P i j; by rewrite ?p1 ?p2.
all: try by move=> i j; case: (S i j) => -> ->.
all: try by move=> i j; case: (S i j).
all: try by move=> i; case: (D i) => ? [? ?].
Qed.

(* Permuted states. *)
Lemma rows_perm n (A : 'M[C]_(M, n)) (p : 'S_M) : \matrix_(i, j) A (p i) j = row_perm p A.
Proof. by apply/matrixP => i j; rewrite !mxE. Qed.
Lemma gab_perm n (A B : 'M[C]_(M, n)) (p : 'S_M) i j :
  gab (row_perm p A) (row_perm p B) i j = gab A B (p i) (p j).
Proof.
have E : (map_mx conjC (row_perm p A))^T = (map_mx conjC A)^T *m perm_mx p^-1.
  by rewrite row_permE map_mxM /= map_perm_mx trmx_mul tr_perm_mx.
rewrite /gab E row_permE [_ *m perm_mx p^-1 *m _]mulmxA -[_ *m perm_mx p^-1 *m perm_mx p]mulmxA.
rewrite -perm_mxM mulVg perm_mx1 mulmx1.
have -> : perm_mx p *m B *m (invmx ((map_mx conjC A)^T *m B) *m ((map_mx conjC A)^T *m perm_mx p^-1))
  = row_perm p (col_perm p (gab A B)) by rewrite row_permE col_permE /gab !mulmxA.
by rewrite !mxE.
Qed.

Lemma gab_real_sym n (A : 'M[C]_(M, n)) : real_mx A -> (gab A A)^T = gab A A.
Proof. by move=> rA; rewrite gab_rdm trmxK [LHS]rdm_swap. Qed.

Lemma perm_real (s : coherent C M na nb) c p : real_state s -> c \is Num.real -> real_state (permuted s c p).
Proof.
move=> [ra rb rs _] rc; split => //=.
- by rewrite /real_mx; apply/matrixP => i j; rewrite -[in RHS]ra !mxE.
- by rewrite /real_mx; apply/matrixP => i j; rewrite -[in RHS]rb !mxE.
Qed.

Lemma overlap_one (s : coherent C M na nb) : (oa s)^T *m oa s = 1%:M -> (ob s)^T *m ob s = 1%:M -> expo 0 = 1 ->
  overlap expo y s s = 1.
Proof.
move=> na1 nb1 e0; rewrite /overlap na1 nb1 !det1 !mul1r big1 // => i _.
rewrite -e0; congr expo; rewrite -expr2 -mulr2n -[_ *+ 2]mulr_natl mulrA /half mulNr mul1r mulVf ?twoNZ //.
by rewrite mulN1r addNr.
Qed.

Lemma perm_overlap (s : coherent C M na nb) c p : (oa s)^T *m oa s = 1%:M -> (ob s)^T *m ob s = 1%:M -> expo 0 = 1 ->
  overlap expo y (permuted s c p) (permuted s c p) = 1.
Proof.
have E n (A : 'M[C]_(M, n)) : A^T *m A = 1%:M -> (row_perm p A)^T *m row_perm p A = 1%:M.
  move=> o; rewrite row_permE trmx_mul tr_perm_mx mulmxA -[_ *m perm_mx p^-1 *m _]mulmxA.
  by rewrite -perm_mxM mulVg perm_mx1 mulmx1.
by move=> na1 nb1 e0; apply: overlap_one => //=; rewrite rows_perm; apply: E.
Qed.

Lemma perm_diag (s : coherent C M na nb) c (p : 'S_M) : real_state s ->
  (forall i j, (hT y).1 (p i) (p j) = (hT y).1 i j) ->
  (forall i j, (hT y).2 (p i) (p j) = (hT y).2 i j) ->
  coherent_energy y ((gab (oa s) (oa s))^T, (gab (ob s) (ob s))^T) (sh s)
  = coherent_energy y (greens (permuted s c p) (permuted s c p)) (sh (permuted s c p)).
Proof.
move=> [ra rb _ _] i1 i2; rewrite !gab_real_sym // /coherent_energy /hh_jax.
have mN : hm y != 0 by rewrite lt0r_neq0.
rewrite !zero_point //=.
have P n (A : 'M[C]_(M, n)) i j :
  gab (\matrix_(i, j) A (p i) j) (\matrix_(i, j) A (p i) j) i j = gab A A (p i) (p j)
  by rewrite rows_perm; exact: gab_perm.
have K : \sum_i \sum_j ((hT y).1 i j * gab (oa s) (oa s) i j + (hT y).2 i j * gab (ob s) (ob s) i j)
  = \sum_i \sum_j ((hT y).1 i j * gab (\matrix_(i, j) oa s (p i) j) (\matrix_(i, j) oa s (p i) j) i j
     + (hT y).2 i j * gab (\matrix_(i, j) ob s (p i) j) (\matrix_(i, j) ob s (p i) j) i j).
  rewrite (reindex_perm p); apply: eq_bigr => i _; rewrite (reindex_perm p); apply: eq_bigr => j _.
  by rewrite !P i1 i2.
have U1 : \sum_i gab (oa s) (oa s) i i * gab (ob s) (ob s) i i
  = \sum_i gab (\matrix_(i, j) oa s (p i) j) (\matrix_(i, j) oa s (p i) j) i i
    * gab (\matrix_(i, j) ob s (p i) j) (\matrix_(i, j) ob s (p i) j) i i.
  by rewrite (reindex_perm p); apply: eq_bigr => i _; rewrite !P.
have X1 : \sum_i sh s i * sh s i = \sum_i sh s (p i) * sh s (p i) by rewrite (reindex_perm p).
have E1 : \sum_i (gab (oa s) (oa s) i i + gab (ob s) (ob s) i i) * sh s i
  = \sum_i (gab (\matrix_(i, j) oa s (p i) j) (\matrix_(i, j) oa s (p i) j) i i
    + gab (\matrix_(i, j) ob s (p i) j) (\matrix_(i, j) ob s (p i) j) i i) * sh s (p i).
  by rewrite (reindex_perm p); apply: eq_bigr => i _; rewrite !P.
by rewrite K U1 X1 E1.
Qed.

Lemma perm_right n (s : coherent C M na nb) (c : 'I_n -> C) (p : 'I_n -> 'S_M) :
  real_state s -> (forall i, c i \is Num.real) ->
  (oa s)^T *m oa s = 1%:M -> (ob s)^T *m ob s = 1%:M -> expo 0 = 1 ->
  (forall k i j, (hT y).1 (p k i) (p k j) = (hT y).1 i j) ->
  (forall k i j, (hT y).2 (p k i) (p k j) = (hT y).2 i j) ->
  let st i := permuted s (c i) (p i) in
  perm_energy expo y st s = multi_energy expo y st.
Proof.
move=> rs rc o1 o2 e0 i1 i2 st; rewrite /perm_energy /multi_energy.
have O i : overlap expo y (st i) (st i) = 1 by exact: perm_overlap.
have D i := perm_diag (c i) rs (i1 i) (i2 i).
have S i : co (st i) ^+ 2 = `|co (st i)| ^+ 2 by rewrite real_normK // rc.
by congr (_ / _, _ / _, _ / _); congr (_ + _); apply: eq_bigr => i _;
  rewrite ?O ?mulr1 ?mul1r S // -/(st i) (D i).
Qed.
End Many.

Lemma multiE (C : numClosedFieldType) M na nb (expo : C -> C) (y : hh C M) n
    (st : 'I_n -> coherent C M na nb) :
  (multi_energy expo y st).1.1
  = (\sum_i (coherent_energy y (greens (st i) (st i)) (sh (st i))).1.1
             * `|co (st i)| ^+ 2 * overlap expo y (st i) (st i)
     + twice expo y st (fun s t => (pair_energy y s t).1 + (pair_energy y s t).2))
    / (\sum_i overlap expo y (st i) (st i) * `|co (st i)| ^+ 2 + twice expo y st (fun _ _ => 1)).
Proof. by []. Qed.
Lemma permE (C : numClosedFieldType) M na nb (expo : C -> C) (y : hh C M) n
    (st : 'I_n -> coherent C M na nb) s :
  (perm_energy expo y st s).1.1
  = (\sum_i (coherent_energy y ((gab (oa s) (oa s))^T, (gab (ob s) (ob s))^T) (sh s)).1.1
             * co (st i) ^+ 2
     + twice expo y st (fun s t => (pair_energy y s t).1 + (pair_energy y s t).2))
    / (\sum_i co (st i) ^+ 2 + twice expo y st (fun _ _ => 1)).
Proof. by []. Qed.

(* Two coherent states with coefficients 1 and i. *)
Section Witness.
Variable C : numClosedFieldType.
Variable expo : C -> C.
Hypothesis expo0 : expo 0 = 1.
Hypothesis expoN : forall x, expo x != 0.

Definition one_site : hh C 1 := HH (0, 0) 0 0 2%:R 1 false.
Definition two_states (i : 'I_2) : coherent C 1 1 0 :=
  Coherent 1%:M 0 (fun _ => (i : nat)%:R) (if i == 0 then 1 else 'i).

Lemma beta1 i k : beta one_site (two_states i) k = (i : nat)%:R.
Proof. by rewrite /beta /= mulr1 divff ?pnatr_eq0 // sqrtC1 mulr1. Qed.

Lemma pair1 i j : (pair_energy one_site (two_states i) (two_states j)).1 = 0 /\
  (pair_energy one_site (two_states i) (two_states j)).2 = (i : nat)%:R * (j : nat)%:R.
Proof.
rewrite /pair_energy /= !big_ord1 !beta1 !mxE !mul0r oppr0 !mul0r !addr0 mul1r.
by split.
Qed.

Lemma overlap1 i : overlap expo one_site (two_states i) (two_states i) = 1.
Proof.
apply: overlap_one => //=; first by rewrite trmx1 mul1mx.
by apply/matrixP => -[].
Qed.

Lemma multi1 : (multi_energy expo one_site two_states).1.1
  = 1 / (2%:R + overlap expo one_site (two_states 0) (two_states 1) * 'i * 2%:R).
Proof.
have m0 : 0 < hm one_site by rewrite /= ltr0n.
have w0 : 0 < hw one_site by rewrite /= ltr01.
have E i : (coherent_energy one_site (greens (two_states i) (two_states i)) (sh (two_states i))).1.1
  = (i : nat)%:R * (i : nat)%:R.
  by have [-> _] := diag_right m0 w0 (two_states i); have [-> ->] := pair1 i i; rewrite add0r.
have P i j : (pair_energy one_site (two_states i) (two_states j)).1
    + (pair_energy one_site (two_states i) (two_states j)).2 = (i : nat)%:R * (j : nat)%:R.
  by have [-> ->] := pair1 i j; rewrite add0r.
rewrite multiE.
under eq_bigr do rewrite E overlap1.
under [\sum_i overlap _ _ _ _ * _]eq_bigr do rewrite overlap1.
rewrite /twice.
under [\sum_(i < 2) \sum_(j < 2 | _) (_ + _) * _ * _ * _ * _]eq_bigr do under eq_bigr do rewrite P.
rewrite !big_ord_recl !big_ord0 ![\sum_(j < 2 | _) _]big_mkcond.
rewrite !big_ord_recl !big_ord0 /=.
rewrite !mul0r !mulr1 !addr0 !add0r normr1 normCi expr1n !mul1r.
rewrite [X in 1 + X]big1 ?addr0; last by case=> -[|[|]].
have -> : lift ord0 ord0 = 1 :> 'I_2 by apply: val_inj.
by rewrite -(natrD _ 1 1) mul1r.
Qed.

Lemma adjoint1 n : adjoint (1%:M : 'M[C]_n) = 1%:M.
Proof. by rewrite /adjoint map_mx1 trmx1. Qed.

Lemma expect1 :
  expectation (fun i => co (two_states i))
    (fun i j => electron_part (hT one_site) (hU one_site)
        (oa (two_states i)) (oa (two_states j)) (ob (two_states i)) (ob (two_states j))
      + phonon_part (hg one_site) (hw one_site)
        (oa (two_states i)) (oa (two_states j)) (ob (two_states i)) (ob (two_states j))
        (beta one_site (two_states i)) (beta one_site (two_states j)))
    (fun i j => coherent_overlap expo (oa (two_states i)) (oa (two_states j))
        (ob (two_states i)) (ob (two_states j))
        (beta one_site (two_states i)) (beta one_site (two_states j))) = 1 / 2%:R.
Proof.
have Ov i j : coherent_overlap expo (oa (two_states i)) (oa (two_states j))
        (ob (two_states i)) (ob (two_states j))
        (beta one_site (two_states i)) (beta one_site (two_states j))
   = overlap expo one_site (two_states i) (two_states j).
  rewrite /overlap /coherent_overlap /= adjoint1 trmx1; congr (_ * _ * _).
    by rewrite !det_mx00.
  by apply: eq_bigr => k _; rewrite !beta1 !normr_nat conjC_nat.
have El i j : electron_part (hT one_site) (hU one_site)
        (oa (two_states i)) (oa (two_states j)) (ob (two_states i)) (ob (two_states j)) = 0.
  rewrite /electron_part hubbard_wick2 wick1_sum !big_ord1 /= !mxE !mul0r !addr0 //.
have Ph i j : phonon_part (hg one_site) (hw one_site)
        (oa (two_states i)) (oa (two_states j)) (ob (two_states i)) (ob (two_states j))
        (beta one_site (two_states i)) (beta one_site (two_states j)) = (i : nat)%:R * (j : nat)%:R.
  by rewrite /phonon_part big_ord1 !beta1 conjC_nat /= !mul0r subr0 mul1r.
have L : lift ord0 ord0 = 1 :> 'I_2 by apply: val_inj.
rewrite /expectation; congr (_ / _).
  under eq_bigr do under eq_bigr do rewrite El Ph Ov.
  rewrite !big_ord_recl !big_ord0 /= L !overlap1 (overlap_sym _ _ (two_states 1) (two_states ord0)).
  rewrite conjC1 conjCi !(mulr0, mul0r, addr0, add0r, mulr1).
  by rewrite mulNr -expr2 sqrCi opprK.
under eq_bigr do under eq_bigr do rewrite Ov.
rewrite !big_ord_recl !big_ord0 /= L !overlap1 (overlap_sym _ _ (two_states 1) (two_states ord0)).
rewrite conjC1 conjCi !addr0 !mulr1 !mul1r !mulNr -expr2 sqrCi opprK.
by rewrite addrA addrK -(natrD _ 1 1).
Qed.

Lemma multi_differs :
  (multi_energy expo one_site two_states).1.1 != 1 / 2%:R.
Proof.
rewrite multi1 !mul1r; apply/eqP => /invr_inj /eqP.
rewrite -subr_eq0 addrC addKr !mulf_eq0 (negbTE (neq0Ci _)) pnatr_eq0 !orbF.
rewrite /= trmx1 mulmx1 det1 det_mx00 big_ord1 oner_eq0 /=.
by rewrite (negbTE (expoN _)).
Qed.

(* A chain of three sites, symmetrized over all permutations. *)
Definition chain3 : 'M[C]_3 :=
  \matrix_(i, j) if (i == 1) (+) (j == 1) then -1 else 0.
Definition three_sites : hh C 3 := HH (chain3, chain3) 0 0 1 1 false.
Definition psi3 : 'cV[C]_3 :=
  \col_i (if i == 0 then 3%:R / 5%:R else if i == 1 then 4%:R / 5%:R else 0).
Definition state3 : coherent C 3 1 0 := Coherent psi3 0 (fun _ => 0) 1.
Definition norm3 : C := (sqrtC #|'S_3|%:R)^-1.
Definition perms3 (k : 'I_#|'S_3|) : coherent C 3 1 0 := permuted state3 norm3 (enum_val k).

Lemma psi3_norm : psi3^T *m psi3 = 1%:M.
Proof.
apply/matrixP => i j; rewrite !ord1 !mxE !big_ord_recl big_ord0 !mxE /= mulr0 !addr0.
have n5 : (25%:R : C) != 0 by rewrite pnatr_eq0.
rewrite !mulf_div -mulrDl -!natrM -natrD; exact: divff.
Qed.
Lemma psi3_ge0 i : 0 <= psi3 i 0.
Proof. by rewrite mxE; do 2?case: ifP => _; rewrite ?divr_ge0 ?ler0n. Qed.
Lemma psi3_real : real_mx psi3.
Proof.
apply/matrixP => i j; rewrite mxE ord1; apply/CrealP; exact: ger0_real (psi3_ge0 i).
Qed.

Lemma gab_norm1 (A : 'cV[C]_3) i j : real_mx A -> A^T *m A = 1%:M -> gab A A i j = A i 0 * A j 0.
Proof. by move=> r o; rewrite /gab r o invmx1 mul1mx !mxE big_ord1 !mxE. Qed.
Lemma gab_none (A B : 'M[C]_(3, 0)) i j : gab A B i j = 0.
Proof. by rewrite /gab !mxE big_ord0. Qed.

Lemma energy3 (A : 'cV[C]_3) (B : 'M[C]_(3, 0)) : real_mx A -> A^T *m A = 1%:M ->
  (coherent_energy three_sites (gab A A, gab B B) (fun _ => 0)).1.1
  = - (2%:R * (A 1 0 * (A 0 0 + A 2%:R 0))).
Proof.
move=> r o; rewrite /coherent_energy /hh_jax /= zero_point ?oner_neq0 //.
rewrite !(mul0r, mulr0, oppr0, addr0, add0r, big1_eq).
rewrite !big_ord_recl !big_ord0 !gab_none !gab_norm1 // !mxE /=.
have -> : lift ord0 ord0 = 1 :> 'I_3 by apply: val_inj.
have -> : lift ord0 (lift ord0 ord0) = 2%:R :> 'I_3 by apply: val_inj.
rewrite !(mul0r, mulr0, addr0, add0r).
rewrite /= !mulN1r [2%:R * _]mulr_natl mulr2n.
exact: (rf_chain (comring_th C) (A 0 0) (A 1 0) (A 2%:R 0)).
Qed.

(* The sum over pairs of sites is the same for all permutations. *)
Lemma pairs3 (p : 'S_3) (f := fun i => psi3 (p i) 0) :
  2%:R * (f 1 * (f 0 + f 2%:R)) = 24%:R / 25%:R - 2%:R * (f 0 * f 2%:R).
Proof.
have S1 : \sum_i f i = 7%:R / 5%:R.
  transitivity (\sum_i psi3 i 0); first by rewrite [RHS](reindex_perm p).
  by rewrite !big_ord_recl big_ord0 !mxE /= !addr0 -mulrDl -natrD.
have S2 : \sum_i f i * f i = 1.
  transitivity (\sum_i psi3 i 0 * psi3 i 0); first by rewrite [RHS](reindex_perm p).
  transitivity ((psi3^T *m psi3) 0 0); last by rewrite psi3_norm mxE.
  by rewrite mxE; apply: eq_bigr => i _; rewrite [in RHS]mxE.
move: S1 S2; rewrite !big_ord_recl !big_ord0 !addr0.
have -> : lift ord0 ord0 = 1 :> 'I_3 by apply: val_inj.
have -> : lift ord0 (lift ord0 ord0) = 2%:R :> 'I_3 by apply: val_inj.
have -> : ord0 = 0 :> 'I_3 by [].
move=> S1 S2.
have E : 2%:R * (f 1 * (f 0 + f 2%:R)) + 2%:R * (f 0 * f 2%:R)
  = (f 0 + (f 1 + f 2%:R)) * (f 0 + (f 1 + f 2%:R)) - (f 0 * f 0 + (f 1 * f 1 + f 2%:R * f 2%:R)).
  by rewrite ![2%:R * _]mulr_natl !mulr2n; exact: (rf_pairs (comring_th C)).
apply/eqP; rewrite eq_sym subr_eq eq_sym; apply/eqP; rewrite E S1 S2.
have n25 : (25%:R : C) != 0 by rewrite pnatr_eq0.
rewrite mulf_div -!natrM; apply: (mulIf n25); rewrite mulrBl !mulfVK // mul1r.
by rewrite -natrB.
Qed.

Lemma perm3_real (p : 'S_3) : real_mx (row_perm p psi3) /\ (row_perm p psi3)^T *m row_perm p psi3 = 1%:M.
Proof.
split.
  by apply/matrixP => i j; rewrite !mxE; move/matrixP: psi3_real => /(_ (p i) j); rewrite !mxE.
rewrite row_permE trmx_mul tr_perm_mx mulmxA -[_ *m perm_mx p^-1 *m _]mulmxA.
by rewrite -perm_mxM mulVg perm_mx1 mulmx1 psi3_norm.
Qed.

Lemma energy_perm3 k :
  (coherent_energy three_sites (greens (perms3 k) (perms3 k)) (sh (perms3 k))).1.1
  = - (24%:R / 25%:R) + 2%:R * (psi3 (enum_val k 0) 0 * psi3 (enum_val k 2%:R) 0).
Proof.
have [r o] := perm3_real (enum_val k).
rewrite /greens /perms3 /permuted; cbn [oa ob sh]; rewrite rows_perm energy3 //.
have X i : row_perm (enum_val k) psi3 i 0 = psi3 (enum_val k i) 0 by rewrite [LHS]mxE.
by rewrite !X (pairs3 (enum_val k)) opprB addrC.
Qed.

Lemma overlap_perm3 k l : 0 <= overlap expo three_sites (perms3 k) (perms3 l).
Proof.
rewrite /overlap /perms3 /permuted; cbn [oa ob sh]; rewrite det_mx00 det_mx11 mulr1.
rewrite [\prod_i _]big1 ?mulr1; last first.
  by move=> i _; rewrite /beta /= !(mul0r, expr0n, addr0, mulr0) expo0.
rewrite mxE; apply: sumr_ge0 => i _; rewrite [X in 0 <= X * _]mxE.
by apply: mulr_ge0; rewrite [X in 0 <= X]mxE; apply: psi3_ge0.
Qed.

Lemma perm_differs :
  (perm_energy expo three_sites perms3 state3).1.1 != (multi_energy expo three_sites perms3).1.1.
Proof.
have nz : (#|'S_3|%:R : C) != 0 by rewrite pnatr_eq0 -lt0n; apply/card_gt0P; exists 1%g.
have n0 : 0 < norm3 by rewrite invr_gt0 sqrtC_gt0 ltr0n; apply/card_gt0P; exists 1%g.
have c2 k : `|co (perms3 k)| ^+ 2 = norm3 ^+ 2 by rewrite /= ger0_norm // ltW.
have O k : overlap expo three_sites (perms3 k) (perms3 k) = 1.
  apply: perm_overlap => //; first exact: psi3_norm.
  by apply/matrixP => -[].
have P0 : (coherent_energy three_sites
    ((gab (oa state3) (oa state3))^T, (gab (ob state3) (ob state3))^T) (sh state3)).1.1
  = - (24%:R / 25%:R).
  rewrite [(gab (oa _) _)^T]gab_real_sym; last exact: psi3_real.
  have -> : (gab (ob state3) (ob state3))^T = gab (ob state3) (ob state3).
    by apply/matrixP => i j; rewrite mxE !gab_none.
  rewrite energy3; [|exact: psi3_real|exact: psi3_norm].
  have := pairs3 1%g; cbv zeta beta; rewrite !perm1 => ->.
  by rewrite ![psi3 2%:R 0]mxE /= !mulr0 subr0.
rewrite permE multiE.
set tw := twice _ _ _ (fun s t => _); set td := twice _ _ _ (fun _ _ => 1).
have -> : \sum_i overlap expo three_sites (perms3 i) (perms3 i) * `|co (perms3 i)| ^+ 2
  = \sum_i co (perms3 i) ^+ 2 by apply: eq_bigr => i _; rewrite O mul1r c2.
set D := _ + td.
have Dpos : 0 < D.
  apply: ltr_paddr.
    apply: sumr_ge0 => i _; apply: sumr_ge0 => j _; rewrite mul1r.
    apply: mulr_ge0; last exact: ler0n.
    by do 2![apply: mulr_ge0; last exact: ltW]; exact: overlap_perm3.
  by rewrite (eq_bigr (fun _ => norm3 ^+ 2)) // sumr_const card_ord pmulrn_lgt0 ?exprn_gt0 //; apply/card_gt0P; exists 1%g.
have DN : D != 0 by rewrite lt0r_neq0.
apply/eqP => /(mulIf (invr_neq0 DN)) /addIr /eqP; rewrite eq_sym -subr_eq0 -sumrB.
have E k : (coherent_energy three_sites (greens (perms3 k) (perms3 k)) (sh (perms3 k))).1.1
    * `|co (perms3 k)| ^+ 2 * overlap expo three_sites (perms3 k) (perms3 k)
    - (coherent_energy three_sites
    ((gab (oa state3) (oa state3))^T, (gab (ob state3) (ob state3))^T) (sh state3)).1.1
    * co (perms3 k) ^+ 2
  = 2%:R * (psi3 (enum_val k 0) 0 * psi3 (enum_val k 2%:R) 0) * norm3 ^+ 2.
  by rewrite energy_perm3 P0 O mulr1 c2 -mulrBl opprK addrC addrA subrr add0r.
rewrite (eq_bigr _ (fun k _ => E k)) => /eqP S0.
have G (k : 'I_#|'S_3|) : true ->
    0 <= 2%:R * (psi3 (enum_val k 0) 0 * psi3 (enum_val k 2%:R) 0) * norm3 ^+ 2.
  by move=> _; rewrite !mulr_ge0 ?psi3_ge0 ?ler0n ?exprn_ge0 // ltW.
have Z (k : 'I_#|'S_3|) : 2%:R * (psi3 (enum_val k 0) 0 * psi3 (enum_val k 2%:R) 0) * norm3 ^+ 2 = 0.
  exact: (psumr_eq0P G S0).
have := Z (enum_rank (tperm (1 : 'I_3) 2%:R)).
rewrite enum_rankK tpermR tpermD // !mxE /=; apply/eqP.
have nN : norm3 != 0 by rewrite lt0r_neq0.
apply: mulf_neq0; last by rewrite expf_neq0.
by rewrite !(mulf_eq0, invr_eq0, pnatr_eq0).
Qed.
End Witness.
