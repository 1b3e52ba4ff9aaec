(* Proofs about the propagator of plane waves by fast Fourier transforms. *)

From Verif Require Import Base BaseFacts.
Set Warnings "-notation-overridden,-ambiguous-paths".
From mathcomp Require Import all_ssreflect all_algebra zify.
From Verif Require Import Taylor_Spec Kspace_Spec Kspace_Proofs PWFFT_Model PWFFT_Proofs PWGrid_Proofs PWEnergy_Proofs.
From Verif Require Import PWFFT_Spec PWProp_Spec PWProp_Model PWConv_Proofs.

Set Implicit Arguments.
Unset Strict Implicit.
Unset Printing Implicit Defensive.

Import Order.TTheory GRing.Theory Num.Theory.
Local Open Scope ring_scope.

Section Propagator.
Variable C : numClosedFieldType.
Variable w : nat -> C.
Hypothesis wP : roots w.
Variable nfl : nat -> nat.
Hypothesis nflP : forall n, (n <= nfl n)%N.

Variable sys : system C.
Let nm := nmax sys.
Let n := (2 * nm + 1)%N.
Let m := (2 * (nm * 2) + 1)%N.
Variables P PQ : pred nat.
Hypothesis Psym : forall i, (i < n ^ 3)%N -> P (n ^ 3 - 1 - i)%N = P i.
Hypothesis gmapE : gmap sys = [seq i <- iota 0 (n ^ 3) | P i].
Hypothesis basisE : basis sys = [seq kvec nm i | i <- gmap sys].
Hypothesis qmapE : qmap sys = [seq i <- iota 0 (m ^ 3) | PQ i].
Hypothesis qvecsE : qvecs sys = [seq kvec (nm * 2) i | i <- qmap sys].
Hypothesis qnmaxE : qnmax sys = (nm * 2)%N.

Notation M := (size (basis sys)).
Notation nq := (size (qvecs sys)).
Let k (a : 'I_M) : vec := nth 0 (basis sys) a.
Let q (b : nat) : vec := nth 0 (qvecs sys) b.
Let gm (a : nat) : nat := nth 0%N (gmap sys) a.

Lemma ngridE : ngrid sys = (n ^ 3)%N.
Proof. by rewrite /ngrid mulnC. Qed.
Lemma nqgridE : nqgrid sys = (m ^ 3)%N.
Proof. by rewrite /nqgrid qnmaxE [(_ * 2 * 2)%N]mulnC. Qed.
Lemma num_vplusE : num_vplus sys = nq.
Proof. by rewrite /num_vplus mulKn. Qed.

Let sgm : size (gmap sys) = M := size_gmap basisE.
Let sqm : size (qmap sys) = nq := size_qmap qvecsE.
Lemma gm_lt (a : 'I_M) : (gm a < n ^ 3)%N.
Proof. exact: (gmap_lt gmapE basisE). Qed.
Lemma gm_all : all (fun i => (i < n ^ 3)%N) (gmap sys).
Proof. by apply/allP => i; rewrite gmapE mem_filter mem_iota => /andP [_ /andP [_]]. Qed.
Lemma gm_uniq : uniq (gmap sys).
Proof. by rewrite gmapE filter_uniq // iota_uniq. Qed.
Lemma qm_all : all (fun i => (i < m ^ 3)%N) (qmap sys).
Proof. by apply/allP => i; rewrite qmapE mem_filter mem_iota => /andP [_ /andP [_]]. Qed.
Lemma qm_uniq : uniq (qmap sys).
Proof. by rewrite qmapE filter_uniq // iota_uniq. Qed.
Lemma k_gm (a : 'I_M) : k a = kvec nm (gm a).
Proof. exact: (k_gmap basisE). Qed.
Lemma q_qm b : (b < nq)%N -> q b = kvec (nm * 2) (nth 0%N (qmap sys) b).
Proof. exact: (q_qmap qvecsE). Qed.

(* the grid g has the vector u at the plane waves, and zeros elsewhere *)
Definition holds (g : seq C) (u : 'cV[C]_M) : Prop :=
  size g = (n ^ 3)%N /\
  forall F : nat -> C, \sum_(j < n ^ 3) nth 0 g j * F j = \sum_(a < M) u a 0 * F (gm a).

Lemma scatter_holds (v : seq C) (u : 'cV[C]_M) : size v = M -> (forall a : 'I_M, nth 0 v a = u a 0) ->
  exists g, scatter (n ^ 3) (gmap sys) v = Ok g /\ holds g u.
Proof.
move=> sv hv; have [g [e s h]] := scatterE (etrans sv (esym sgm)) gm_uniq gm_all.
exists g; split=> //; split=> // F; rewrite h sgm; apply: eq_bigr => a _.
by rewrite hv.
Qed.

Lemma holds_at g u (a : 'I_M) : holds g u -> nth 0 g (gm a) = u a 0.
Proof.
move=> [s h]; have := h (fun j => (j == gm a)%:R).
rewrite (bigD1 (Ordinal (gm_lt a))) //= eqxx mulr1 big1 ?addr0; last first.
  move=> j ne; rewrite (_ : (_ == _) = false) ?mulr0 //.
  by apply/negbTE; apply: contra ne => /eqP e; apply/eqP; apply: val_inj.
move=> ->; rewrite (bigD1 a) //= eqxx mulr1 big1 ?addr0 // => b ne.
rewrite /gm nth_uniq ?sgm // ?gm_uniq // (_ : (_ == _) = false) ?mulr0 //.
by apply: negbTE.
Qed.

Lemma sum_rev g u (F : nat -> C) : holds g u ->
  \sum_(j < n ^ 3) nth 0 (rev g) j * F j = \sum_(a < M) u a 0 * F (n ^ 3 - 1 - gm a)%N.
Proof.
move=> [s h]; rewrite -(h (fun j => F (n ^ 3 - 1 - j)%N)) (reindex_inj rev_ord_inj).
apply: eq_bigr => j _ /=; have hj := ltn_ord j.
rewrite nth_rev s; last by move: hj; move: (n ^ 3)%N j => N j; lia.
by congr (nth _ _ _ * F _); move: hj; move: (n ^ 3)%N j => N j; lia.
Qed.

Section Fields.
Variables (X : seq C) (xc : seq C).
Hypothesis sX : size X = nq.
Hypothesis xcE : scatter (m ^ 3) (qmap sys) X = Ok xc.

Lemma xcP : size xc = (m ^ 3)%N /\ forall F : nat -> C,
  \sum_(i < m ^ 3) nth 0 xc i * F i = \sum_(b < nq) nth 0 X b * F (nth 0%N (qmap sys) b).
Proof.
have [g [e s h]] := scatterE (etrans sX (esym sqm)) qm_uniq qm_all.
by move: e; rewrite xcE => -[->]; split=> // F; rewrite h sqm.
Qed.

Lemma conv_grid (g : seq C) : size g = (n ^ 3)%N ->
  exists l, [/\ fftconvolve_valid w nfl xc m g n = Ok l, size l = (n ^ 3)%N &
    forall r, (r < n ^ 3)%N -> nth 0 l r
      = \sum_(b < nq) nth 0 X b * \sum_(j < n ^ 3) nth 0 g j * (q b + kvec nm j == kvec nm r)%:R].
Proof.
move=> sg; have [sx hx] := xcP.
have v : (m - n + 1 = n)%N by rewrite /m /n; lia.
have le : (0 < n <= m)%N by rewrite /m /n; lia.
have [l []] := @validE C w wP nfl m n xc g le (nflP _) sx sg.
rewrite v => e s h; exists l; split=> // r hr; rewrite h //.
transitivity (\sum_(i < m ^ 3) nth 0 xc i * \sum_(j < n ^ 3) nth 0 g j
     * (kvec (nm * 2) i + kvec nm j == kvec nm r)%:R).
  apply: eq_bigr => i _; rewrite mulr_sumr; apply: eq_bigr => j _.
  by rewrite vadds_kvec mulrC mulrA.
rewrite (hx (fun i => \sum_(j < n ^ 3) nth 0 g j * (kvec (nm * 2) i + kvec nm j == kvec nm r)%:R)).
by apply: eq_bigr => b _; rewrite -q_qm.
Qed.

(* sum_Q X(Q) u(G - Q) *)
Lemma conv_holds g u : holds g u ->
  exists l, [/\ fftconvolve_valid w nfl xc m g n = Ok l, size l = (n ^ 3)%N &
    forall a : 'I_M, nth 0 l (gm a)
      = \sum_(a' < M) (\sum_(b < nq) nth 0 X b * (k a == k a' + q b)%:R) * u a' 0].
Proof.
move=> [s h]; have [l [e sl hl]] := conv_grid s; exists l; split=> // a.
rewrite hl ?gm_lt // (eq_bigr (fun b : 'I_nq => \sum_(a' < M)
   nth 0 X b * (k a == k a' + q b)%:R * u a' 0)); last first.
  move=> b _; rewrite (h (fun j => (q b + kvec nm j == kvec nm (gm a))%:R)) mulr_sumr.
  apply: eq_bigr => a' _; rewrite -!k_gm [k a' + _]addrC eq_sym.
  by rewrite -mulrA; congr (_ * _); rewrite mulrC.
by rewrite exchange_big; apply: eq_bigr => a' _; rewrite mulr_suml.
Qed.

(* sum_Q X(Q) u(G + Q) *)
Lemma conv_rev g u : holds g u ->
  exists l, [/\ fftconvolve_valid w nfl xc m (rev g) n = Ok l, size l = (n ^ 3)%N &
    forall a : 'I_M, nth 0 (rev l) (gm a)
      = \sum_(a' < M) (\sum_(b < nq) nth 0 X b * (k a == k a' - q b)%:R) * u a' 0].
Proof.
move=> hg; have [s h] := hg; have sr : size (rev g) = (n ^ 3)%N by rewrite size_rev.
have [l [e sl hl]] := conv_grid sr; exists l; split=> // a.
have ga := gm_lt a.
rewrite nth_rev sl // hl; last by move: ga; move: (n ^ 3)%N => N; lia.
have -> : (n ^ 3 - (gm a).+1 = n ^ 3 - 1 - gm a)%N by move: (n ^ 3)%N => N; lia.
rewrite (eq_bigr (fun b : 'I_nq => \sum_(a' < M)
   nth 0 X b * (k a == k a' - q b)%:R * u a' 0)); last first.
  move=> b _; rewrite (sum_rev (fun j => (q b + kvec nm j == kvec nm (n ^ 3 - 1 - gm a)%N)%:R) hg) mulr_sumr.
  apply: eq_bigr => a' _; rewrite !kvec_rev ?gm_lt // -!k_gm.
  rewrite -eqr_opp opprD !opprK [- q b + _]addrC eq_sym.
  by rewrite -mulrA; congr (_ * _); rewrite mulrC.
by rewrite exchange_big; apply: eq_bigr => a' _; rewrite mulr_suml.
Qed.
End Fields.

Section Series.
Variables (X Y xp xm : seq C).
Hypothesis sX : size X = nq.
Hypothesis sY : size Y = nq.
Hypothesis xpE : scatter (m ^ 3) (qmap sys) X = Ok xp.
Hypothesis xmE : scatter (m ^ 3) (qmap sys) Y = Ok xm.
Let rho := density C k.
Definition Vm : 'M[C]_M := \sum_(b < nq) ((nth 0 X b * 'i) *: (rho (q b) + rho (- q b))
                                - nth 0 Y b *: (rho (q b) - rho (- q b))).

Lemma apply_VE g u n0 : holds g u ->
  exists V, [/\ apply_V w nfl sys xp xm n0 g = Ok V, size V = (n ^ 3)%N &
    forall a : 'I_M, nth 0 V (gm a) = (n0%:R^-1 *: (Vm *m u)) a 0].
Proof.
move=> hg; rewrite /apply_V qnmaxE.
rewrite (_ : (nm * 2 * 2 + 1 = m)%N); last by rewrite /m; lia.
rewrite (_ : (nmax sys * 2 + 1 = n)%N); last by rewrite /n /nm; lia.
have [l1 [-> s1 h1]] := conv_holds sX xpE hg.
have [l2 [-> s2 h2]] := conv_rev sX xpE hg.
have [l3 [-> s3 h3]] := conv_holds sY xmE hg.
have [l4 [-> s4 h4]] := conv_rev sY xmE hg.
cbn [rbind]; eexists; split; [by []| |].
  by rewrite size_map !size_zip !size_rev s1 s2 s3 s4 !minnn.
move=> a; have ga := gm_lt a.
rewrite (nth_map (0, 0, (0, 0))); last by rewrite !size_zip !size_rev s1 s2 s3 s4 !minnn.
rewrite nth_zip; last by rewrite !size_zip !size_rev s1 s2 s3 s4.
rewrite !nth_zip ?size_rev ?s1 ?s2 ?s3 ?s4 //=.
rewrite h1 h2 h3 h4 [RHS]mxE mulrC; congr (_ * _).
rewrite mxE -big_split /= -sumrB mulr_sumr -sumrB; apply: eq_bigr => a' _.
rewrite -mulrDl -mulrBl mulrA -mulrBl; congr (_ * _).
rewrite -big_split /= -sumrB mulr_sumr -sumrB /Vm summxE; apply: eq_bigr => b _.
by rewrite !mxE; rewrite -!mulrDr -mulrBr mulrA ['i * _]mulrC.
Qed.

Lemma maskE V (u : 'cV[C]_M) : size V = (n ^ 3)%N -> (forall a : 'I_M, nth 0 V (gm a) = u a 0) ->
  exists g, mask sys V = Ok g /\ holds g u.
Proof.
move=> sV hV; rewrite /mask /gather sV gm_all; cbn [rbind]; rewrite ngridE.
apply: scatter_holds; first by rewrite size_map sgm.
by move=> a; rewrite (nth_map 0%N) ?sgm // hV.
Qed.

Lemma seriesE N n0 g acc (phi : 'cV[C]_M) :
  holds g (n0`!%:R^-1 *: (mxpow Vm n0 *m phi)) -> size acc = M ->
  (forall a : 'I_M, nth 0 acc a = (taylor n0 Vm *m phi) a 0) ->
  exists c, [/\ series w nfl sys xp xm n0.+1 N g acc = Ok c, size c = M &
    forall a : 'I_M, nth 0 c a = (taylor (n0 + N) Vm *m phi) a 0].
Proof.
elim: N n0 g acc => [|N IH] n0 g acc hg sa ha.
  by exists acc; rewrite addn0.
rewrite /=; have [V [-> sV hV]] := apply_VE n0.+1 hg; cbn [rbind].
have E : n0.+1%:R^-1 *: (Vm *m (n0`!%:R^-1 *: (mxpow Vm n0 *m phi)))
       = (n0.+1)`!%:R^-1 *: (mxpow Vm n0.+1 *m phi) :> 'cV[C]_M.
  rewrite -scalemxAr scalerA mulmxA -invfM -natrM factS //.
rewrite E in hV.
have [g' [-> hg']] := maskE sV hV; cbn [rbind].
have [sg' _] := hg'.
rewrite /gather sg' gm_all; cbn [rbind].
have sz : size (zip acc [seq nth 0 g' i | i <- gmap sys]) = M.
  by rewrite size_zip size_map sgm sa minnn.
have := IH n0.+1 g' [seq p.1 + p.2 | p <- zip acc [seq nth 0 g' i | i <- gmap sys]] hg'.
rewrite size_map sz addnS -addSn; apply=> // a.
rewrite (nth_map (0, 0)) ?sz // nth_zip ?size_map ?sgm //= ha (nth_map 0%N) ?sgm //.
rewrite (holds_at a hg') /taylor [X in _ = (X *m _) _ _]big_ord_recr /=.
by rewrite mulmxDl [RHS]mxE -scalemxAl.
Qed.
End Series.

Variables pi vol kfac sqrt_dt : C.
Hypothesis vol0 : 0 < vol.
Hypothesis kfacP : (10%:R ^+ 10)^-1 <= kfac ^+ 2.
Hypothesis vqvecE : vqvec sys = [seq vq pi kfac Q | Q <- qvecs sys].

Lemma svq : size (vqvec sys) = nq.
Proof. by rewrite vqvecE size_map. Qed.

Lemma strengthE Q : sqrtC (1 / (4%:R * vol)) * sqrtC (vq pi kfac Q) = strength pi vol kfac Q.
Proof.
rewrite (vq_right nflP Psym pi kfacP) /strength; case: eqP => [_|_]; first by rewrite sqrtC0 mulr0.
rewrite -rootCMl; last by rewrite divr_ge0 ?ler01 // mulr_ge0 ?ler0n // ltW.
congr (sqrtC _); rewrite (_ : dot2 Q = len2 Q); last by rewrite /dot2 /len2 !expr2.
move: (kfac ^+ 2 * _) => X.
by rewrite mul1r !invfM -[4%:R * pi / X]mulrA mulrACA mulVf ?pnatr_eq0 // mul1r mulrCA.
Qed.

Lemma nth_vq b : (b < nq)%N -> nth 0 (vqvec sys) b = vq pi kfac (q b).
Proof. by move=> h; rewrite vqvecE (nth_map 0). Qed.

Lemma size_acol N (phi : 'M[C]_(M, N)) i : size (acol phi i) = M.
Proof. by rewrite size_map size_enum_ord. Qed.
Lemma nth_acol N (phi : 'M[C]_(M, N)) i (a : 'I_M) : nth 0 (acol phi i) a = phi a i.
Proof. by rewrite (nth_map a) ?size_enum_ord // nth_ord_enum. Qed.

Lemma apply_expE exp_nmax N (xs : seq C) (phi : 'M[C]_(M, N)) i : size xs = (2 * nq)%N ->
  exists c, [/\ apply_exp w nfl vol sqrt_dt exp_nmax xs phi i = Ok c, size c = M &
    forall a : 'I_M, nth 0 c a
      = (taylor exp_nmax (field_operator pi vol kfac k sqrt_dt (qvecs sys) xs) *m phi) a i].
Proof.
move=> sx; rewrite /apply_exp num_vplusE nqgridE ngridE.
set vf := [seq _ | _ <- vqvec sys].
have svf : size vf = nq by rewrite size_map svq.
have st : size (take nq xs) = nq by rewrite size_take sx; case: ltnP => //; lia.
have sd : size (drop nq xs) = nq by rewrite size_drop sx; lia.
set X := [seq p.1 * p.2 | p <- zip (take nq xs) vf].
set Y := [seq p.1 * p.2 | p <- zip (drop nq xs) vf].
have sX : size X = nq by rewrite size_map size_zip st svf minnn.
have sY : size Y = nq by rewrite size_map size_zip sd svf minnn.
have nvf b : (b < nq)%N -> nth 0 vf b = sqrt_dt * strength pi vol kfac (q b).
  by move=> hb; rewrite (nth_map 0) ?svq // nth_vq // -mulrA strengthE.
have nX b : (b < nq)%N -> nth 0 X b = nth 0 xs b * (sqrt_dt * strength pi vol kfac (q b)).
  move=> hb; rewrite (nth_map (0, 0)) ?size_zip ?st ?svf ?minnn // nth_zip ?st ?svf //= nvf //.
  by rewrite nth_take.
have nY b : (b < nq)%N -> nth 0 Y b = nth 0 xs (nq + b) * (sqrt_dt * strength pi vol kfac (q b)).
  move=> hb; rewrite (nth_map (0, 0)) ?size_zip ?sd ?svf ?minnn // nth_zip ?sd ?svf //= nvf //.
  by rewrite nth_drop.
have [xp [xpE _ _]] := scatterE (etrans sX (esym sqm)) qm_uniq qm_all.
have [xm [xmE _ _]] := scatterE (etrans sY (esym sqm)) qm_uniq qm_all.
rewrite xpE xmE; cbn [rbind].
have hc (a : 'I_M) : nth 0 (acol phi i) a = (col i phi) a 0 by rewrite nth_acol mxE.
have [g [-> hg]] := scatter_holds (size_acol phi i) hc; cbn [rbind].
have hg' : holds g (0`!%:R^-1 *: (mxpow (Vm X Y) 0 *m col i phi)).
  by rewrite fact0 invr1 scale1r /mxpow /= mul1mx.
have [|c [-> sc h]] := seriesE sX sY xpE xmE exp_nmax hg' (size_acol phi i).
  by move=> a; rewrite /taylor big_ord1 fact0 invr1 scale1r /mxpow /= mul1mx hc.
exists c; split=> // a; rewrite h add0n mxE [RHS]mxE; apply: eq_bigr => a' _.
rewrite [col i phi _ _]mxE; congr (taylor _ _ a a' * _).
rewrite /Vm /field_operator scaler_sumr; apply: eq_bigr => b _.
rewrite nX // nY // scalerDr !scalerA; congr (_ + _).
  by rewrite !mulrA; congr (_ *: _); rewrite -!mulrA mulrCA.
by rewrite mulrN scaleNr -mulrA mulrCA.
Qed.

(* ------------------------------------------------------------ force bias *)

Lemma conv_transfer (fc gc : seq C) (u v : 'cV[C]_M) : holds fc u -> holds gc v ->
  exists c, [/\ rbind (convolve w nfl fc (rev gc) (nmax sys * 2 + 1)) (fun l => gather (rev l) (qmap sys)) = Ok c,
    size c = nq & forall b, (b < nq)%N -> nth 0 c b
      = \sum_(a < M) \sum_(a' < M) (k a' == k a + q b)%:R * (u a 0 * v a' 0)].
Proof.
move=> hf hg; have [sf Hf] := hf; have [sg Hg] := hg.
rewrite (_ : (nmax sys * 2 + 1)%N = n); last by rewrite /n /nm mulnC.
have n0 : (0 < n)%N by rewrite /n; lia.
have sr : size (rev gc) = (n ^ 3)%N by rewrite size_rev.
have nn : (n + n - 1 = m)%N by rewrite /n /m; lia.
have [c [-> sc hc]] := @convolveE C w wP nfl n fc (rev gc) n0 (nflP _) sf sr.
cbn [rbind]; rewrite nn in sc hc.
rewrite /gather size_rev sc qm_all; eexists; split; [by []|by rewrite size_map sqm|].
move=> b hb; rewrite (nth_map 0%N) ?sqm //.
have hq : (nth 0%N (qmap sys) b < m ^ 3)%N by apply: (qmap_lt qmapE qvecsE).
rewrite nth_rev ?sc // hc; last by move: hq; move: (m ^ 3)%N => N; lia.
set r := (m ^ 3 - _)%N.
have hr : (r < (n + n - 1) ^ 3)%N by rewrite nn /r; move: hq; move: (m ^ 3)%N => N; lia.
have er : kvec (nm * 2) r = - q b.
  by rewrite q_qm // -kvec_rev // /r subnS subn1 -!subn1 subnAC.
transitivity (\sum_(i < n ^ 3) nth 0 fc i * (\sum_(j < n ^ 3) nth 0 (rev gc) j
    * (kvec nm i + kvec nm j == - q b)%:R)).
  apply: eq_bigr => i _; rewrite mulr_sumr; apply: eq_bigr => j _.
  by rewrite adds_kvec // er mulrC mulrA.
rewrite (Hf (fun i => \sum_(j < n ^ 3) nth 0 (rev gc) j * (kvec nm i + kvec nm j == - q b)%:R)).
apply: eq_bigr => a _.
rewrite (sum_rev (fun j => (kvec nm _ + kvec nm j == - q b)%:R) hg) mulr_sumr.
apply: eq_bigr => a' _; rewrite kvec_rev ?gm_lt // -!k_gm mulrA mulrC; congr (_%:R * _).
by rewrite subr_eq [- q b + _]addrC eq_sym subr_eq.
Qed.

Let rho := density C k.
(* one orbital *)
Definition bias_of (G : 'M[C]_M) (b : nat) : C :=
  if (b < nq)%N then 'i * expectation (rho (q b) + rho (- q b)) G
  else - expectation (rho (q (b - nq)) - rho (- q (b - nq))) G.

Lemma bias_termE p (CT Gh : 'M[C]_(p, M)) (i : 'I_p) :
  exists c, [/\ bias_term w nfl CT Gh i = Ok c, size c = (2 * nq)%N &
    forall b, (b < 2 * nq)%N -> nth 0 c b = bias_of (\matrix_(a, a') (CT i a * Gh i a')) b].
Proof.
rewrite /bias_term ngridE.
have hG (a : 'I_M) : nth 0 (arow Gh i) a = (row i Gh)^T a 0.
  by rewrite (nth_map a) ?size_enum_ord // nth_ord_enum !mxE.
have hC (a : 'I_M) : nth 0 (arow CT i) a = (row i CT)^T a 0.
  by rewrite (nth_map a) ?size_enum_ord // nth_ord_enum !mxE.
have sG : size (arow Gh i) = M by rewrite size_map size_enum_ord.
have sC : size (arow CT i) = M by rewrite size_map size_enum_ord.
have [gc [-> hg]] := scatter_holds sG hG; have [cc [-> hc]] := scatter_holds sC hC.
cbn [rbind].
have [l1 [e1 s1 h1]] := conv_transfer hg hc.
have [l2 [e2 s2 h2]] := conv_transfer hc hg.
move: e1; case E1 : (convolve _ _ _ _ _) => [c1|//]; cbn [rbind] => ->; cbn [rbind].
move: e2; case E2 : (convolve _ _ _ _ _) => [c2|//]; cbn [rbind] => ->; cbn [rbind].
have sz : size (zip l1 l2) = nq by rewrite size_zip s1 s2 minnn.
eexists; split; [by []|by rewrite size_cat !size_map sz mul2n addnn|].
move=> b hb; rewrite nth_cat size_map sz /bias_of.
have OE a a' : (\matrix_(a, a') (CT i a * Gh i a')) a a' = CT i a * Gh i a' by rewrite mxE.
have addE (A B : 'M[C]_M) a a' : (A + B) a a' = A a a' + B a a' by rewrite mxE.
have subE (A B : 'M[C]_M) a a' : (A - B) a a' = A a a' - B a a' by rewrite !mxE.
have X1 b' : (b' < nq)%N -> nth 0 l1 b'
    = \sum_a \sum_a' rho (q b') a a' * (CT i a * Gh i a').
  move=> hb'; rewrite h1 // exchange_big; apply: eq_bigr => a _; apply: eq_bigr => a' _.
  by rewrite !mxE [CT i a * _]mulrC.
have X2 b' : (b' < nq)%N -> nth 0 l2 b'
    = \sum_a \sum_a' rho (- q b') a a' * (CT i a * Gh i a').
  move=> hb'; rewrite h2 //; apply: eq_bigr => a _; apply: eq_bigr => a' _.
  by rewrite !mxE [k a == _]eq_sym subr_eq.
case: ifP => hb'.
  rewrite (nth_map (0, 0)) ?sz // nth_zip ?s1 ?s2 //= X1 // X2 // mulrC; congr (_ * _).
  rewrite -big_split; apply: eq_bigr => a _; rewrite -big_split; apply: eq_bigr => a' _ /=.
  by rewrite OE addE mulrDl.
have hb2 : (b - nq < nq)%N by move: hb hb'; move: nq => N; lia.
rewrite (nth_map (0, 0)) ?sz // nth_zip ?s1 ?s2 //= X1 // X2 //.
rewrite -[LHS]opprK opprD opprK; congr (- _).
rewrite -sumrB; apply: eq_bigr => a _; rewrite -sumrB; apply: eq_bigr => a' _ /=.
by rewrite OE subE mulrBl.
Qed.

Lemma expectation_sum (I : finType) (A : 'M[C]_M) (G : I -> 'M[C]_M) :
  expectation A (\sum_i G i) = \sum_i expectation A (G i).
Proof.
rewrite /expectation [RHS]exchange_big; apply: eq_bigr => a _.
rewrite [RHS]exchange_big; apply: eq_bigr => a' _.
by rewrite summxE mulr_sumr.
Qed.
Lemma bias_sum (I : finType) (G : I -> 'M[C]_M) b : \sum_i bias_of (G i) b = bias_of (\sum_i G i) b.
Proof.
rewrite /bias_of; case: ifP => _; rewrite expectation_sum ?mulr_sumr //.
by rewrite sumrN.
Qed.
Lemma expectationDr (A G H : 'M[C]_M) : expectation A (G + H) = expectation A G + expectation A H.
Proof.
rewrite /expectation -big_split; apply: eq_bigr => a _; rewrite -big_split.
by apply: eq_bigr => a' _; rewrite mxE mulrDr.
Qed.
Lemma expectationZl c (A G : 'M[C]_M) : expectation (c *: A) G = c * expectation A G.
Proof.
rewrite /expectation mulr_sumr; apply: eq_bigr => a _; rewrite mulr_sumr.
by apply: eq_bigr => a' _; rewrite mxE mulrA.
Qed.
Lemma biasD G H b : bias_of (G + H) b = bias_of G b + bias_of H b.
Proof.
by rewrite /bias_of; case: ifP => _; rewrite expectationDr ?mulrDr // opprD.
Qed.

Lemma sum_orbitals p (CT Gh : 'M[C]_(p, M)) :
  \sum_(i < p) (\matrix_(a, a') (CT i a * Gh i a')) = CT^T *m Gh.
Proof. by apply/matrixP => a a'; rewrite summxE mxE; apply: eq_bigr => i _; rewrite !mxE. Qed.

Lemma bias_spin p (CT Gh : 'M[C]_(p, M)) acc : size acc = (2 * nq)%N ->
  exists c, [/\ accumulate (bias_term w nfl CT Gh) (enum 'I_p) acc = Ok c, size c = (2 * nq)%N &
    forall b, (b < 2 * nq)%N -> nth 0 c b = nth 0 acc b + bias_of (CT^T *m Gh) b].
Proof.
move=> sa; have [c [e s h]] := accumulateE (enum 'I_p) sa (bias_termE CT Gh).
by exists c; split=> // b hb; rewrite h // big_enum /= bias_sum sum_orbitals.
Qed.

Lemma force_biasE (ragged : bool) nup ndown (Ga : 'M[C]_(nup, M)) (Gb : 'M[C]_(ndown, M))
    (A : 'M[C]_(M, nup)) (B : 'M[C]_(M, ndown)) :
  nup = ndown \/ ragged ->
  let G := map_mx conjC A *m Ga + map_mx conjC B *m Gb in
  exists c, [/\ construct_force_bias w nfl vol sqrt_dt ragged Ga Gb (row_mx A B) = Ok c,
    size c = (2 * nq)%N &
    forall b, (b < nq)%N ->
      nth 0 c b = - sqrt_dt * expectation (vplus pi vol kfac k (q b)) G
      /\ nth 0 c (nq + b) = - sqrt_dt * expectation (vminus pi vol kfac k (q b)) G].
Proof.
move=> hr G; rewrite /construct_force_bias.
rewrite ifN; last by rewrite negb_and negbK; case: hr => ->; rewrite ?eqxx ?orbT.
have eA : CTdagger (row_mx A B) 0 nup = (map_mx conjC A)^T.
  apply/matrixP => i a; rewrite !mxE add0n.
  case: insubP => [j _ ej|]; last by rewrite ltn_addr.
  by rewrite (_ : j = lshift _ i) ?row_mxEl //; apply: val_inj.
have eB : CTdagger (row_mx A B) nup ndown = (map_mx conjC B)^T.
  apply/matrixP => i a; rewrite !mxE.
  case: insubP => [j _ ej|]; last by rewrite ltn_add2l ltn_ord.
  by rewrite (_ : j = rshift _ i) ?row_mxEr //; apply: val_inj.
rewrite eA eB.
have [va [-> sa ha]] := bias_spin (map_mx conjC A)^T Ga (size_nseq (2 * nq) 0).
cbn [rbind].
have [vb [-> sb hb]] := bias_spin (map_mx conjC B)^T Gb sa; cbn [rbind].
rewrite num_vplusE.
have H b : (b < 2 * nq)%N -> nth 0 vb b = bias_of G b.
  move=> h; rewrite hb // ha // nth_nseq h add0r !trmxK.
  by rewrite /G biasD.
pose sc (l : seq C) := [seq p.1 * (sqrtC (1 / (4%:R * vol)) * sqrtC p.2) | p <- zip l (vqvec sys)].
have ssc l : size l = nq -> size (sc l) = nq.
  by move=> h; rewrite size_map size_zip svq h minnn.
have nsc l b : size l = nq -> (b < nq)%N -> nth 0 (sc l) b = nth 0 l b * strength pi vol kfac (q b).
  move=> h h'; rewrite (nth_map (0, 0)) ?size_zip ?svq ?h ?minnn // nth_zip ?svq //=.
  by rewrite nth_vq // strengthE.
have st : size (take nq vb) = nq by rewrite size_take sb; case: ltnP => //; lia.
have sd : size (drop nq vb) = nq by rewrite size_drop sb; lia.
exists [seq - sqrt_dt * x | x <- sc (take nq vb) ++ sc (drop nq vb)].
split; [by []|by rewrite size_map size_cat !ssc // mul2n addnn|].
move=> b h.
have h1 : (b < 2 * nq)%N by move: h; move: nq => N; lia.
have h2 : (nq + b < 2 * nq)%N by move: h; move: nq => N; lia.
split.
  rewrite (nth_map 0); last by rewrite size_cat !ssc // addnn -mul2n.
  rewrite nth_cat ssc // h nsc // nth_take // H // /bias_of h.
  by rewrite /vplus expectationZl; congr (_ * _); rewrite mulrC mulrA.
rewrite (nth_map 0); last by rewrite size_cat !ssc // addnn -mul2n.
rewrite nth_cat ssc // ltnNge leq_addr /= addKn nsc // nth_drop H // /bias_of.
rewrite ltnNge leq_addr /= addKn.
by rewrite /vminus expectationZl; congr (_ * _); rewrite mulNr mulNr mulrC.
Qed.
End Propagator.
