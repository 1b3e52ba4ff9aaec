(* Proofs about the energy of plane waves by fast Fourier transforms. *)

From Verif Require Import Base BaseFacts.
Set Warnings "-notation-overridden,-ambiguous-paths".
From mathcomp Require Import all_ssreflect all_algebra zify.
From Verif Require Import LEnergy_Model LEnergy_Spec LEnergy_Proofs Reorder_Model Reorder_Proofs.
From Verif Require UEGEnergy_Model.
From Verif Require Import UEGEnergy_Spec UEGEnergy_Proofs.
From Verif Require Import Kspace_Spec Kspace_Proofs PWFFT_Model PWFFT_Proofs PWGrid_Proofs.

Set Implicit Arguments.
Unset Strict Implicit.
Unset Printing Implicit Defensive.

Import Order.TTheory GRing.Theory Num.Theory.
Local Open Scope ring_scope.

Section Energy.
Variable C : numClosedFieldType.
Variable w : nat -> C.
Hypothesis wP : roots w.
Variable nfl : nat -> nat.
Hypothesis nflP : forall n, (n <= nfl n)%N.

Variable sys : system C.
Let nm := nmax sys.
Let n := (2 * nm + 1)%N.
Let m := (2 * (nm * 2) + 1)%N.
Variables P PQ : pred nat.
Hypothesis Psym : forall i, (i < n ^ 3)%N -> P (n ^ 3 - 1 - i)%N = P i.
Hypothesis gmapE : gmap sys = [seq i <- iota 0 (n ^ 3) | P i].
Hypothesis basisE : basis sys = [seq kvec nm i | i <- gmap sys].
Hypothesis qmapE : qmap sys = [seq i <- iota 0 (m ^ 3) | PQ i].
Hypothesis qvecsE : qvecs sys = [seq kvec (nm * 2) i | i <- qmap sys].

Let k (a : nat) : vec := nth 0 (basis sys) a.
Let q (b : nat) : vec := nth 0 (qvecs sys) b.
Let M := size (basis sys).

Lemma size_gmap : size (gmap sys) = M.
Proof. by rewrite /M basisE size_map. Qed.
Lemma size_qmap : size (qmap sys) = size (qvecs sys).
Proof. by rewrite qvecsE size_map. Qed.

Lemma gmap_lt a : (a < M)%N -> (nth 0%N (gmap sys) a < n ^ 3)%N.
Proof.
rewrite -size_gmap => h; have := mem_nth 0%N h.
by rewrite {2}gmapE mem_filter mem_iota => /andP [_ /andP [_]].
Qed.
Lemma qmap_lt b : (b < size (qvecs sys))%N -> (nth 0%N (qmap sys) b < m ^ 3)%N.
Proof.
rewrite -size_qmap => h; have := mem_nth 0%N h.
by rewrite {2}qmapE mem_filter mem_iota => /andP [_ /andP [_]].
Qed.

Lemma k_gmap a : (a < M)%N -> k a = kvec nm (nth 0%N (gmap sys) a).
Proof. by move=> h; rewrite /k basisE (nth_map 0%N) // size_gmap. Qed.
Lemma q_qmap b : (b < size (qvecs sys))%N -> q b = kvec (nm * 2) (nth 0%N (qmap sys) b).
Proof. by move=> h; rewrite /q qvecsE (nth_map 0%N) // size_qmap. Qed.

Lemma gmap_rev a : (a < M)%N ->
  nth 0%N (gmap sys) (M - 1 - a) = (n ^ 3 - 1 - nth 0%N (gmap sys) a)%N.
Proof.
move=> h; have e := rev_filter Psym; rewrite -gmapE in e.
rewrite -{1}e (nth_map 0%N); last by rewrite size_rev size_gmap; lia.
rewrite nth_rev; last by rewrite size_gmap; lia.
by rewrite size_gmap; congr (_ - nth _ _ _)%N; lia.
Qed.

(* the basis in reverse order has the opposite vectors *)
Lemma k_rev a : (a < M)%N -> k (M - 1 - a) = - k a.
Proof.
move=> h; rewrite !k_gmap //; last by lia.
by rewrite gmap_rev // kvec_rev // gmap_lt.
Qed.

Lemma n_odd : (n + n - 1 = m)%N.
Proof. by rewrite /n /m; lia. Qed.

Lemma transfersE (f g : seq C) : size f = M -> size g = M ->
  exists c, [/\ transfers w nfl sys f g = Ok c, size c = size (qvecs sys) &
    forall b, (b < size (qvecs sys))%N -> nth 0 c b
      = \sum_(a < M) \sum_(a' < M) (k a + k a' == - q b)%:R * (nth 0 f a * nth 0 g a')].
Proof.
move=> sf sg; rewrite /transfers (_ : (nmax sys * 2 + 1)%N = n); last by rewrite /n /nm mulnC.
have un : uniq (gmap sys) by rewrite gmapE filter_uniq // iota_uniq.
have al : all (fun i => (i < n ^ 3)%N) (gmap sys).
  by apply/allP => i; rewrite gmapE mem_filter mem_iota => /andP [_ /andP [_]].
have [fc [-> sfc hf]] := scatterE (etrans sf (esym size_gmap)) un al.
have [gc [-> sgc hg]] := scatterE (etrans sg (esym size_gmap)) un al.
cbn [rbind]; have n0 : (0 < n)%N by rewrite /n; lia.
have [c [-> sc hc]] := @convolveE C w wP nfl n fc gc n0 (nflP _) sfc sgc.
cbn [rbind]; rewrite n_odd in sc hc.
have aq : all (fun i => (i < size (rev c))%N) (qmap sys).
  apply/allP => i; rewrite size_rev sc qmapE mem_filter mem_iota.
  by move=> /andP [_ /andP [_]].
rewrite /gather aq; eexists; split; [by []|by rewrite size_map size_qmap|].
move=> b hb; rewrite (nth_map 0%N) ?size_qmap //.
have hq := qmap_lt hb.
rewrite nth_rev ?sc // hc; last by lia.
set r := (m ^ 3 - _)%N.
have hr : (r < (n + n - 1) ^ 3)%N by rewrite n_odd /r; lia.
have er : kvec (nm * 2) r = - q b.
  by rewrite q_qmap // -kvec_rev // /r subnS subn1 -!subn1 subnAC.
transitivity (\sum_(i < n ^ 3) nth 0 fc i * (\sum_(j < n ^ 3) nth 0 gc j
    * (kvec nm i + kvec nm j == - q b)%:R)).
  apply: eq_bigr => i _; rewrite mulr_sumr; apply: eq_bigr => j _.
  by rewrite adds_kvec // er mulrC mulrA.
rewrite (hf (fun i => \sum_(j < n ^ 3) nth 0 gc j * (kvec nm i + kvec nm j == - q b)%:R)).
rewrite size_gmap; apply: eq_bigr => a _.
rewrite (hg (fun j => (kvec nm _ + kvec nm j == - q b)%:R)) size_gmap mulr_sumr.
by apply: eq_bigr => a' _; rewrite -!k_gmap // mulrA mulrC.
Qed.

(* with the second list in reverse order: pairs with k' - k = q *)
Lemma transfers_rev (f g : seq C) : size f = M -> size g = M ->
  exists c, [/\ transfers w nfl sys f (rev g) = Ok c, size c = size (qvecs sys) &
    forall b, (b < size (qvecs sys))%N -> nth 0 c b
      = \sum_(a < M) \sum_(a' < M) (k a' == k a + q b)%:R * (nth 0 f a * nth 0 g a')].
Proof.
move=> sf sg; have sr : size (rev g) = M by rewrite size_rev.
have [c [e s h]] := transfersE sf sr; exists c; split=> // b hb; rewrite h //.
apply: eq_bigr => a _; rewrite (reindex_inj rev_ord_inj); apply: eq_bigr => a' _ /=.
have -> : (M - a'.+1 = M - 1 - a')%N by lia.
rewrite k_rev // nth_rev; last by rewrite sg; have := ltn_ord a'; lia.
rewrite sg (_ : (M - (M - 1 - a').+1)%N = a'); last by have := ltn_ord a'; lia.
by rewrite subr_eq [- q b + _]addrC eq_sym subr_eq.
Qed.

Lemma accumulateE (T : Type) (f : T -> res (seq C)) (v : T -> nat -> C) s acc N :
  size acc = N ->
  (forall x, exists c, [/\ f x = Ok c, size c = N & forall b, (b < N)%N -> nth 0 c b = v x b]) ->
  exists c, [/\ accumulate f s acc = Ok c, size c = N &
    forall b, (b < N)%N -> nth 0 c b = nth 0 acc b + \sum_(x <- s) v x b].
Proof.
move=> sa h; elim: s acc sa => [|x s IH] acc sa.
  by exists acc; split=> // b _; rewrite big_nil addr0.
rewrite /=; have [c [-> sc hc]] := h x; cbn [rbind].
have sz : size (zip acc c) = N by rewrite size_zip sa sc minnn.
have [d [e sd hd]] := IH [seq p.1 + p.2 | p <- zip acc c] (etrans (size_map _ _) sz).
exists d; split=> // b hb; rewrite hd // big_cons addrA; congr (_ + _).
by rewrite (nth_map (0, 0)) ?sz // nth_zip ?sa ?sc //= hc.
Qed.

Lemma size_arow p (A : 'M[C]_(p, M)) i : size (arow A i) = M.
Proof. by rewrite size_map size_enum_ord. Qed.
Lemma nth_arow p (A : 'M[C]_(p, M)) i (a : 'I_M) : nth 0 (arow A i) a = A i a.
Proof. by rewrite (nth_map a) ?size_enum_ord // nth_ord_enum. Qed.

Lemma nth_zeros b : nth 0 (zeros sys) b = 0.
Proof. by rewrite nth_nseq; case: ifP. Qed.

Notation mat2 := ('M[C]_M * 'M[C]_M)%type.
Let kb (a : 'I_M) : vec := k a.

Lemma GpmqE p (CT Gh : 'M[C]_(p, M)) : let G := CT^T *m Gh in
  exists c, [/\ Gpmq w nfl sys CT Gh = Ok c, size c = size (qvecs sys) &
    forall b, (b < size (qvecs sys))%N -> nth 0 c b
      = \sum_(a < M) \sum_(a' < M) (kb a' == kb a + q b)%:R * G a a'].
Proof.
move=> G.
pose v (i : 'I_p) b := \sum_(a < M) \sum_(a' < M) (kb a' == kb a + q b)%:R * (CT i a * Gh i a').
have H (i : 'I_p) : exists c, [/\ transfers w nfl sys (arow CT i) (rev (arow Gh i)) = Ok c,
    size c = size (qvecs sys) & forall b, (b < size (qvecs sys))%N -> nth 0 c b = v i b].
  have [c [e s h]] := transfers_rev (size_arow CT i) (size_arow Gh i).
  exists c; split=> // b hb; rewrite h //.
  by apply: eq_bigr => a _; apply: eq_bigr => a' _; rewrite !nth_arow.
have [c [e s h]] := accumulateE (enum 'I_p) (size_nseq _ _ : size (zeros sys) = _) H.
exists c; split=> // b hb; rewrite h // nth_zeros add0r big_enum /=.
rewrite exchange_big; apply: eq_bigr => a _; rewrite exchange_big; apply: eq_bigr => a' _.
by rewrite -mulr_sumr mxE; congr (_ * _); apply: eq_bigr => i _; rewrite mxE.
Qed.

Lemma GkpqE p (CT Gh : 'M[C]_(p, M)) : let G := CT^T *m Gh in
  exists c, [/\ Gkpq w nfl sys CT Gh = Ok c, size c = size (qvecs sys) &
    forall b, (b < size (qvecs sys))%N -> nth 0 c b
      = \sum_(a < M) \sum_(a' < M) (kb a' == kb a - q b)%:R * G a a'].
Proof.
move=> G.
pose v (i : 'I_p) b := \sum_(a < M) \sum_(a' < M) (kb a' == kb a - q b)%:R * (CT i a * Gh i a').
have H (i : 'I_p) : exists c, [/\ transfers w nfl sys (arow Gh i) (rev (arow CT i)) = Ok c,
    size c = size (qvecs sys) & forall b, (b < size (qvecs sys))%N -> nth 0 c b = v i b].
  have [c [e s h]] := transfers_rev (size_arow Gh i) (size_arow CT i).
  exists c; split=> // b hb; rewrite h // exchange_big.
  apply: eq_bigr => a _; apply: eq_bigr => a' _; rewrite !nth_arow [Gh i a' * _]mulrC.
  by congr (_%:R * _); rewrite -subr_eq eq_sym.
have [c [e s h]] := accumulateE (enum 'I_p) (size_nseq _ _ : size (zeros sys) = _) H.
exists c; split=> // b hb; rewrite h // nth_zeros add0r big_enum /=.
rewrite exchange_big; apply: eq_bigr => a _; rewrite exchange_big; apply: eq_bigr => a' _.
by rewrite -mulr_sumr mxE; congr (_ * _); apply: eq_bigr => i _; rewrite mxE.
Qed.

Lemma exchangeE p (CT Gh : 'M[C]_(p, M)) : let G := CT^T *m Gh in
  exists c, [/\ exchange_fft w nfl sys CT Gh = Ok c, size c = size (qvecs sys) &
    forall b, (b < size (qvecs sys))%N -> nth 0 c b
      = \sum_(a < M) \sum_(a' < M) \sum_(d < M) \sum_(d' < M)
         (kb a' == kb a + q b)%:R * (kb d' == kb d - q b)%:R * (G d a' * G a d')].
Proof.
move=> G.
pose v (ij : 'I_p * 'I_p) b :=
  (\sum_(a < M) \sum_(a' < M) (kb a' == kb a + q b)%:R * (CT ij.2 a * Gh ij.1 a'))
  * (\sum_(d < M) \sum_(d' < M) (kb d' == kb d - q b)%:R * (CT ij.1 d * Gh ij.2 d')).
have H ij : exists c, [/\
    rbind (transfers w nfl sys (arow CT ij.2) (rev (arow Gh ij.1))) (fun lQ_ji =>
    rbind (transfers w nfl sys (arow Gh ij.2) (rev (arow CT ij.1))) (fun lQ_ij =>
    Ok [seq p.1 * p.2 | p <- zip lQ_ji lQ_ij])) = Ok c,
    size c = size (qvecs sys) & forall b, (b < size (qvecs sys))%N -> nth 0 c b = v ij b].
  case: ij => i j /=; have [c [-> s h]] := transfers_rev (size_arow CT j) (size_arow Gh i).
  have [c' [-> s' h']] := transfers_rev (size_arow Gh j) (size_arow CT i); cbn [rbind].
  have sz : size (zip c c') = size (qvecs sys) by rewrite size_zip s s' minnn.
  eexists; split; [by []|by rewrite size_map|] => b hb.
  rewrite (nth_map (0, 0)) ?sz // nth_zip ?s ?s' //= h // h' // /v /=.
  congr (_ * _); first by do 2 (apply: eq_bigr => ? _); rewrite !nth_arow.
  rewrite exchange_big; do 2 (apply: eq_bigr => ? _); rewrite !nth_arow [Gh _ _ * _]mulrC.
  by congr (_%:R * _); rewrite -subr_eq eq_sym.
have [c [e s h]] := accumulateE [seq (i, j) | i <- enum 'I_p, j <- enum 'I_p]
  (size_nseq _ _ : size (zeros sys) = _) H.
exists c; split=> // b hb; rewrite h // nth_zeros add0r big_allpairs big_enum /=.
pose t (a a' d d' : 'I_M) (i j : 'I_p) := (kb a' == kb a + q b)%:R * (kb d' == kb d - q b)%:R
   * ((CT i d * Gh i a') * (CT j a * Gh j d')).
transitivity (\sum_i \sum_j \sum_a \sum_a' \sum_d \sum_d' t a a' d d' i j).
  apply: eq_bigr => i _; rewrite big_enum; apply: eq_bigr => j _.
  rewrite /v /= mulr_suml; apply: eq_bigr => a _.
  rewrite mulr_suml; apply: eq_bigr => a' _.
  rewrite mulr_sumr; apply: eq_bigr => d _; rewrite mulr_sumr; apply: eq_bigr => d' _.
  rewrite /t mulrACA; congr (_ * _).
  by rewrite [CT j a * _]mulrC [LHS]mulrACA [Gh i a' * _]mulrC.
transitivity (\sum_a \sum_a' \sum_d \sum_d' \sum_i \sum_j t a a' d d' i j); last first.
  do 4 (apply: eq_bigr => ? _); rewrite /G !mxE big_distrlr mulr_sumr; apply: eq_bigr => i _.
  by rewrite mulr_sumr; apply: eq_bigr => j _; rewrite !mxE.
rewrite pair_bigA /= exchange_big; apply: eq_bigr => a _.
rewrite exchange_big; apply: eq_bigr => a' _; rewrite exchange_big; apply: eq_bigr => d _.
rewrite exchange_big; apply: eq_bigr => d' _.
by rewrite -(pair_bigA _ (fun i j => t a a' d d' i j)).
Qed.

(* ------------------------------------------------------------ the energy *)

Variables pi vol kfac : C.
Hypothesis kfacP : (10%:R ^+ 10)^-1 <= kfac ^+ 2.
Hypothesis vqvecE : vqvec sys = [seq vq pi kfac Q | Q <- qvecs sys].
Hypothesis full : forall a a' : 'I_M, kb a - kb a' \in qvecs sys.

Let norm (Q : vec) : C := kfac ^+ 2 * (dot2 Q)%:~R.
Let v := coulomb kb (bare pi vol norm).
Let qs := [seq Q <- qvecs sys | Q != 0].

Lemma kb_inj : injective kb.
Proof.
move=> a a'; rewrite /kb !k_gmap // => /kvec_inj e; apply: val_inj => /=.
have un : uniq (gmap sys) by rewrite gmapE filter_uniq // iota_uniq.
apply/eqP; rewrite -(nth_uniq 0%N _ _ un) ?size_gmap //; apply/eqP; apply: e; exact: gmap_lt.
Qed.

Lemma qs_uniq : uniq qs.
Proof.
apply: filter_uniq; rewrite qvecsE map_inj_in_uniq; first by rewrite qmapE filter_uniq // iota_uniq.
move=> i j; rewrite qmapE !mem_filter !mem_iota => /andP [_ /andP [_ hi]] /andP [_ /andP [_ hj]].
exact: kvec_inj.
Qed.

Lemma qs_full i j : i != j -> kb i - kb j \in qs.
Proof. by move=> ne; rewrite mem_filter full subr_eq0 (inj_eq kb_inj) ne. Qed.
Lemma qs0 : 0 \notin qs.
Proof. by rewrite mem_filter eqxx. Qed.

Lemma dot2_0 (Q : vec) : 0 <= dot2 Q ?= iff (Q == 0).
Proof.
split; first by rewrite /dot2 !addr_ge0 // -expr2 sqr_ge0.
case: Q => [[x y] z]; rewrite /dot2 /=; apply/eqP/eqP => [e|[-> -> ->] //].
have [x0 y0 z0] : [/\ x = 0, y = 0 & z = 0] by split; nia.
by rewrite x0 y0 z0.
Qed.

Lemma vq_right Q : vq pi kfac Q = if Q == 0 then 0 else 4%:R * pi / norm Q.
Proof.
have [g e] := dot2_0 Q; rewrite /vq /norm.
have t0 : 0 < (10%:R ^+ 10)^-1 :> C by rewrite invr_gt0 exprn_gt0 // ltr0n.
case: (altP (Q =P 0)) => [->|ne]; first by rewrite mulr0 t0.
have d1 : 1 <= (dot2 Q)%:~R :> C.
  by rewrite -[1]/(1%:~R) ler_int; move: g; rewrite le_eqVlt e (negbTE ne).
case: ifP => // lt; have h := lt_le_trans lt kfacP.
have k0 : 0 < kfac ^+ 2 := lt_le_trans t0 kfacP.
by move: h; rewrite gtr_pmulr // => h; have := lt_le_trans h d1; rewrite ltxx.
Qed.

Lemma vdotE (a : seq C) : size a = size (qvecs sys) ->
  vdot sys a = \sum_(b < size (qvecs sys)) vq pi kfac (q b) * nth 0 a b.
Proof.
move=> sa; have sv : size (vqvec sys) = size (qvecs sys) by rewrite vqvecE size_map.
rewrite /vdot (big_nth (0, 0)) size_zip sv sa minnn big_mkord; apply: eq_bigr => b _.
by rewrite nth_zip ?sv ?sa //= {1}vqvecE (nth_map 0).
Qed.

(* the sum over momentum transfers *)
Lemma transfer_vdot (X : 'I_M -> 'I_M -> 'I_M -> 'I_M -> C) (a : seq C) :
  size a = size (qvecs sys) ->
  (forall b, (b < size (qvecs sys))%N -> nth 0 a b = \sum_p \sum_r \sum_q' \sum_u
      (if (kb r == kb p + q b) && (kb u == kb q' - q b) then X p r q' u else 0)) ->
  1 / (2%:R * vol) * vdot sys a = half C * \sum_p \sum_r \sum_q' \sum_u v p r q' u * X p r q' u.
Proof.
move=> sa h; rewrite vdotE //.
pose F (Q : vec) := \sum_p \sum_r \sum_q' \sum_u
      (if (kb r == kb p + Q) && (kb u == kb q' - Q) then X p r q' u else 0).
rewrite (eq_bigr (fun b : 'I_(size (qvecs sys)) => vq pi kfac (q b) * F (q b))); last first.
  by move=> b _; rewrite h.
rewrite -(big_mkord xpredT (fun b => vq pi kfac (q b) * F (q b))) -(big_nth 0 xpredT (fun Q => vq pi kfac Q * F Q)).
rewrite -(transfer_sum pi vol norm qs_uniq qs_full qs0 X) mulr_sumr /qs big_filter.
rewrite [RHS]big_mkcond; apply: eq_bigr => Q _; rewrite vq_right -/(F Q).
by case: eqP => _ /=; rewrite ?mul0r ?mulr0 // mulrA.
Qed.

Lemma nth_times (a b : seq C) N i : size a = N -> size b = N -> (i < N)%N ->
  nth 0 (times a b) i = nth 0 a i * nth 0 b i.
Proof.
by move=> sa sb h; rewrite (nth_map (0, 0)) ?size_zip ?sa ?sb ?minnn // nth_zip ?sa ?sb.
Qed.
Lemma nth_minus (a b : seq C) N i : size a = N -> size b = N -> (i < N)%N ->
  nth 0 (minus a b) i = nth 0 a i - nth 0 b i.
Proof.
by move=> sa sb h; rewrite (nth_map (0, 0)) ?size_zip ?sa ?sb ?minnn // nth_zip ?sa ?sb.
Qed.
Lemma size_times (a b : seq C) N : size a = N -> size b = N -> size (times a b) = N.
Proof. by move=> sa sb; rewrite size_map size_zip sa sb minnn. Qed.
Lemma size_minus (a b : seq C) N : size a = N -> size b = N -> size (minus a b) = N.
Proof. by move=> sa sb; rewrite size_map size_zip sa sb minnn. Qed.

(* the two factors of the direct terms, and the exchange terms *)
Let pm (A : 'M[C]_M) b := \sum_(a < M) \sum_(a' < M) (kb a' == kb a + q b)%:R * A a a'.
Let kp (A : 'M[C]_M) b := \sum_(a < M) \sum_(a' < M) (kb a' == kb a - q b)%:R * A a a'.
Let ex (A : 'M[C]_M) b := \sum_(a < M) \sum_(a' < M) \sum_(d < M) \sum_(d' < M)
   (kb a' == kb a + q b)%:R * (kb d' == kb d - q b)%:R * (A d a' * A a d').

Lemma indicator (x y : bool) (X : C) : x%:R * y%:R * X = if x && y then X else 0.
Proof. by case: x; case: y; rewrite ?(mul1r, mul0r). Qed.

Lemma direct_term (A B : 'M[C]_M) (l : seq C) : size l = size (qvecs sys) ->
  (forall b, (b < size (qvecs sys))%N -> nth 0 l b = kp B b * pm A b) ->
  1 / (2%:R * vol) * vdot sys l = half C * coul4 v A B.
Proof.
move=> sl h; rewrite (@transfer_vdot (fun p r q' u => A p r * B q' u)) //.
  by congr (_ * _); do 4 (apply: eq_bigr => ? _); rewrite mulrA.
move=> b hb; rewrite h // mulrC /pm mulr_suml; apply: eq_bigr => p _.
rewrite mulr_suml; apply: eq_bigr => r _; rewrite mulr_sumr; apply: eq_bigr => q' _.
by rewrite mulr_sumr; apply: eq_bigr => u _; rewrite mulrACA indicator.
Qed.

Lemma same_term (A : 'M[C]_M) (l : seq C) : size l = size (qvecs sys) ->
  (forall b, (b < size (qvecs sys))%N -> nth 0 l b = kp A b * pm A b - ex A b) ->
  1 / (2%:R * vol) * vdot sys l = half C * (coul4 v A A - exch4 v A A).
Proof.
move=> sl h; rewrite (@transfer_vdot (fun p r q' u => A p r * A q' u - A q' r * A p u)) //.
  congr (_ * _); rewrite -wick_same; do 4 (apply: eq_bigr => ? _).
  by rewrite [A _ _ * A _ _ in X in _ * (_ - X)]mulrC.
move=> b hb; rewrite h // mulrC /pm mulr_suml -sumrB; apply: eq_bigr => p _.
rewrite mulr_suml -sumrB; apply: eq_bigr => r _; rewrite mulr_sumr -sumrB; apply: eq_bigr => q' _.
rewrite mulr_sumr -sumrB; apply: eq_bigr => u _; rewrite mulrACA !indicator.
by case: ifP; rewrite ?subrr.
Qed.

Lemma energy_ofE ma mb (ke : C) (CTa Ga : 'M[C]_(ma, M)) (CTb Gb : 'M[C]_(mb, M)) :
  let pe := wick2 v (CTa^T *m Ga, CTb^T *m Gb) in
  energy_of w nfl sys vol ke CTa Ga CTb Gb = Ok (ke + pe, ke, pe).
Proof.
rewrite /energy_of.
have [pma [-> s1 h1]] := GpmqE CTa Ga; have [kpa [-> s2 h2]] := GkpqE CTa Ga.
have [pmb [-> s3 h3]] := GpmqE CTb Gb; have [kpb [-> s4 h4]] := GkpqE CTb Gb.
have [xa [-> s5 h5]] := exchangeE CTa Ga; have [xb [-> s6 h6]] := exchangeE CTb Gb.
cbn [rbind].
set A := CTa^T *m Ga in h1 h2 h5 *; set B := CTb^T *m Gb in h3 h4 h6 *.
have sa := size_times s2 s1; have sb := size_times s4 s3.
rewrite (@same_term A); first last.
- by move=> b hb; rewrite (nth_minus sa s5) // (nth_times s2 s1) // h1 // h2 // h5.
- exact: size_minus.
rewrite (@same_term B); first last.
- by move=> b hb; rewrite (nth_minus sb s6) // (nth_times s4 s3) // h3 // h4 // h6.
- exact: size_minus.
rewrite (@direct_term B A (times kpa pmb)); first last.
- by move=> b hb; rewrite (nth_times s2 s3) // h2 // h3.
- exact: size_times.
rewrite (@direct_term A B (times kpb pma)); first last.
- by move=> b hb; rewrite (nth_times s4 s1) // h4 // h1.
- exact: size_times.
rewrite wick2E /= addrA -[X in X = _]/(Ok _).
have E : half C * (coul4 v A A - exch4 v A A) + half C * (coul4 v B B - exch4 v B B)
   + half C * coul4 v B A + half C * coul4 v A B
  = half C * (coul4 v A A - exch4 v A A) + half C * (coul4 v B B - exch4 v B B)
   + half C * coul4 v A B + half C * coul4 v B A by rewrite -!addrA; congr (_ + (_ + _)); rewrite addrC.
by rewrite E.
Qed.
End Energy.
