(* Proofs for C47 and C48. *)

From Verif Require Import Base BaseFacts.
Set Warnings "-notation-overridden,-ambiguous-paths".
From mathcomp Require Import all_ssreflect all_algebra zify.
From Verif Require Import LEnergy_Model LEnergy_Proofs Ortho_Spec Ortho_Proofs.
From Verif Require Import Chol_Model Chol_Spec.

Set Implicit Arguments.
Unset Strict Implicit.
Unset Printing Implicit Defensive.

Import Order.TTheory GRing.Theory Num.Theory.
Local Open Scope ring_scope.

Section RingFacts.
Variables (K : Type) (z o : K) (ad mu sb : K -> K -> K) (op : K -> K).
Hypothesis Kth : ring_theory z o ad mu sb op (@eq K).
Add Ring Kring : Kth.
Notation "x +' y" := (ad x y) (at level 50, left associativity).
Notation "x *' y" := (mu x y) (at level 40, left associativity).
Notation "-' x" := (op x) (at level 35, right associativity).

Lemma rf_schur (q t u c d a : K) : a *' c = t -> a *' d = u ->
  q +' (-' (d *' t)) = q +' (-' (c *' u)) +' (-' (d *' t +' (-' (d *' (c *' a))))).
Proof. move=> E1 E2; rewrite -E1 -E2; ring. Qed.
End RingFacts.

Section Positive.
Variable C : numClosedFieldType.
Variable n : nat.
Implicit Types (R M : 'M[C]_n) (x v : 'cV[C]_n).

Local Notation qf R x := ((adj x *m R *m x) 0 0).

Lemma adjE m k (A : 'M[C]_(m, k)) i j : adj A i j = conjC (A j i).
Proof. by rewrite !mxE. Qed.

Lemma adjK m k (A : 'M[C]_(m, k)) : adj (adj A) = A.
Proof. by apply/matrixP=> i j; rewrite !adjE conjCK. Qed.

Lemma adjB m k (A B : 'M[C]_(m, k)) : adj (A - B) = adj A - adj B.
Proof. by apply/matrixP=> i j; rewrite !(adjE, mxE) rmorphB. Qed.

Lemma adjD m k (A B : 'M[C]_(m, k)) : adj (A + B) = adj A + adj B.
Proof. by apply/matrixP=> i j; rewrite !(adjE, mxE) rmorphD. Qed.

Lemma adjZ m k a (A : 'M[C]_(m, k)) : adj (a *: A) = conjC a *: adj A.
Proof. by apply/matrixP=> i j; rewrite !(adjE, mxE) rmorphM. Qed.

Lemma adj0 m k : adj (0 : 'M[C]_(m, k)) = 0.
Proof. by apply/matrixP=> i j; rewrite !(adjE, mxE) conjC0. Qed.

Lemma entryB m k (A B : 'M[C]_(m, k)) i j : (A - B) i j = A i j - B i j.
Proof. by rewrite !mxE. Qed.
Lemma entryZ m k a (A : 'M[C]_(m, k)) i j : (a *: A) i j = a * A i j.
Proof. by rewrite mxE. Qed.

Lemma hermE R p q : hermitian R -> conjC (R p q) = R q p.
Proof. by move=> H; rewrite -{2}H adjE. Qed.

Notation e nu := (delta_mx nu (0 : 'I_1) : 'cV[C]_n).

Lemma quad_entry R p q : (adj (e p) *m R *m e q) 0 0 = R p q.
Proof.
rewrite -colE mxE (_ : adj (e p) = delta_mx 0 p).
  by rewrite -rowE mxE.
apply/matrixP=> i j; rewrite adjE !mxE andbC.
by case: (_ && _); rewrite ?conjC1 ?conjC0.
Qed.

Lemma diag_ge0 R p : positive R -> 0 <= R p p.
Proof. by move=> H; rewrite -quad_entry. Qed.

(* Taking the column of a pivot away. *)
Definition deflate R nu : 'M[C]_n :=
  R - (R nu nu)^-1 *: (col nu R *m adj (col nu R)).

Lemma deflateE R nu p q :
  deflate R nu p q = R p q - (R nu nu)^-1 * (R p nu * conjC (R q nu)).
Proof.
by rewrite entryB entryZ [X in _ * X]mxE big_ord1 adjE !mxE.
Qed.

Lemma deflate_herm R nu : hermitian R -> hermitian (deflate R nu).
Proof.
move=> H; apply/matrixP=> p q; rewrite adjE !deflateE rmorphB rmorphM fmorphV.
by rewrite !(hermE _ _ H) rmorphM !(hermE _ _ H) [R nu q * _]mulrC.
Qed.

Lemma deflate_zero R nu q : hermitian R -> R nu nu != 0 ->
  deflate R nu nu q = 0.
Proof. by move=> H a0; rewrite deflateE (hermE _ _ H) mulKf // subrr. Qed.

Lemma deflate_keep R nu p q : R p nu = 0 -> R p q = 0 -> deflate R nu p q = 0.
Proof. by move=> E1 E2; rewrite deflateE E1 E2 mul0r mulr0 subr0. Qed.

Lemma deflate_pos R nu : hermitian R -> positive R -> R nu nu != 0 ->
  positive (deflate R nu).
Proof.
move=> H P a0 x; set a := R nu nu in a0.
pose t := (adj (col nu R) *m x) 0 0.
pose c := a^-1 * t.
have ca : conjC a = a by rewrite /a (hermE _ _ H).
have Et : (adj x *m col nu R) 0 0 = conjC t.
  by rewrite -adjE adjM adjK.
have Er : adj (e nu) *m R = adj (col nu R) by rewrite colE adjM H.
suff -> : qf (deflate R nu) x = qf R (x - c *: e nu) by exact: P.
rewrite /deflate -/a mulmxBr mulmxBl entryB -!scalemxAr -!scalemxAl entryZ.
rewrite (_ : (adj x *m (col nu R *m adj (col nu R)) *m x) 0 0 = conjC t * t);
  last first.
  by rewrite mulmxA -mulmxA mxE big_ord1 Et.
rewrite adjB adjZ mulmxBl mulmxBl !mulmxBr -!scalemxAl -!scalemxAr !entryB.
rewrite !entryZ Er.
rewrite (_ : (adj x *m R *m e nu) 0 0 = conjC t); last by rewrite -mulmxA -colE.
rewrite (_ : (adj (col nu R) *m e nu) 0 0 = a); last first.
  by rewrite -Er quad_entry.
rewrite -/t mulrA.
have -> : a^-1 * conjC t = conjC c by rewrite rmorphM fmorphV ca.
apply: (rf_schur (comring_th C)).
- by rewrite /c mulVKf.
- by rewrite /c rmorphM fmorphV ca mulVKf.
Qed.

(* |R_pq|^2 <= R_pp R_qq *)
Lemma cauchy R p q : hermitian R -> positive R ->
  `|R p q| ^+ 2 <= R p p * R q q.
Proof.
move=> H P; rewrite normCK.
have K u w : R u u != 0 -> R w u * conjC (R w u) <= R w w * R u u.
  move=> u0; have /(diag_ge0 w) := deflate_pos H P u0.
  have u1 : 0 < R u u by rewrite lt_def u0 diag_ge0.
  by rewrite deflateE subr_ge0 ler_pdivr_mull // [R u u * _]mulrC.
case: (eqVneq (R q q) 0) => [q0|]; last exact: K.
case: (eqVneq (R p p) 0) => [p0|np]; last first.
  have := K p q np.
  by rewrite -(hermE p q H) conjCK [conjC _ * _]mulrC [R q q * _]mulrC.
have := P (e q - R p q *: e p).
rewrite adjB adjZ mulmxBl mulmxBl !mulmxBr -!scalemxAl -!scalemxAr !entryB.
rewrite !entryZ !quad_entry p0 q0 !mulr0 subr0 sub0r.
rewrite -(hermE p q H) [R p q * _]mulrC -opprD oppr_ge0 -mulr2n.
by rewrite [conjC _ * _]mulrC pmulrn_lle0.
Qed.

Lemma small_entries R (tol : C) : hermitian R -> positive R ->
  (forall p, R p p <= tol) -> forall p q, `|R p q| <= tol.
Proof.
move=> H P D p q.
have t0 : 0 <= tol by apply: le_trans (D p); exact: diag_ge0.
rewrite -(@ler_pexpn2r _ 2) ?nnegrE //.
apply: le_trans (cauchy p q H P) _.
by rewrite expr2 ler_pmul ?diag_ge0.
Qed.
End Positive.

Section Argmax.
Variable C : numClosedFieldType.
Variable n : nat.

Lemma argmax_ext (f g : 'I_n -> C) i0 : f =1 g -> argmax f i0 = argmax g i0.
Proof.
move=> E; rewrite /argmax; elim: (enum _) i0 => //= i s IH b.
by rewrite !E IH.
Qed.

Lemma argmax_max (f : 'I_n -> C) i0 : (forall i, f i \is Num.real) ->
  forall i, f i <= f (argmax f i0).
Proof.
move=> Rf i; rewrite /argmax.
have: i \in enum 'I_n by rewrite mem_enum.
elim: (enum _) i0 => //= j s IH b.
have K c : f c <= f (foldl (fun best i => if f best < f i then i else best) c s).
  elim: s {IH} c => //= k s IH c; apply: le_trans (IH _).
  by case: ifP => // /ltW.
rewrite in_cons => /orP [/eqP -> | hi]; last exact: IH.
apply: le_trans (K _); case: ifP => // /negbT.
by rewrite -real_leNgt.
Qed.
End Argmax.

Section Loop.
Variable C : numClosedFieldType.
Variable n : nat.
Variable M : 'M[C]_n.
Variable tol : C.
Variable i0 : 'I_n.
Hypothesis HM : hermitian M.
Hypothesis PM : positive M.
Hypothesis tol0 : 0 <= tol.
Implicit Types (L : seq 'cV[C]_n) (cur v : 'cV[C]_n) (nu : 'I_n).

Definition rest (L : seq 'cV[C]_n) : 'M[C]_n := M - rebuilt L.

Definition diagonal_matrix : Prop := forall p q, p != q -> M p q = 0.

Record inv (pivots : seq 'I_n) (L : seq 'cV[C]_n) : Prop := Inv {
  inv_herm : hermitian (rest L);
  inv_pos : positive (rest L);
  inv_uniq : uniq pivots;
  inv_size : size pivots = size L;
  inv_exact : forall p q, p \in pivots -> rest L p q = 0;
  inv_diag : diagonal_matrix -> forall p q, p \notin pivots -> rest L p q = M p q;
  inv_nz : all (fun v => v != 0) L }.

Record at_pivot (L : seq 'cV[C]_n) nu cur (Mapprox : 'I_n -> C) dm : Prop := AtPivot {
  ap_approx : forall p, Mapprox p = rebuilt L p p;
  ap_dm : dm = rest L nu nu;
  ap_max : forall p, rest L p p <= dm;
  ap_cur : cur = (sqrtC dm)^-1 *: col nu (rest L) }.

Lemma rebuilt_rcons L v : rebuilt (rcons L v) = rebuilt L + v *m adj v.
Proof. by rewrite /rebuilt -cats1 big_cat big_seq1. Qed.

Lemma rest_rcons L v : rest (rcons L v) = rest L - v *m adj v.
Proof. by rewrite /rest rebuilt_rcons opprD addrA. Qed.

Lemma outer_diag (v : 'cV[C]_n) p : (v *m adj v) p p = v p 0 * conjC (v p 0).
Proof. by rewrite mxE big_ord1 adjE. Qed.

Lemma rest_col L nu :
  col nu M - \sum_(v <- L) conjC (v nu 0) *: v = col nu (rest L).
Proof.
apply/matrixP=> p q; rewrite !mxE ord1 (summxE _ _ _ p 0) /rebuilt.
rewrite (summxE _ _ _ p nu); congr (_ - _); apply: eq_bigr => v _.
by rewrite mxE [RHS]mxE big_ord1 adjE mulrC.
Qed.

Lemma outer_cur L nu dm cur : 0 < dm -> dm = rest L nu nu ->
  cur = (sqrtC dm)^-1 *: col nu (rest L) ->
  rest (rcons L cur) = deflate (rest L) nu.
Proof.
move=> d0 Ed ->; rewrite rest_rcons /deflate -Ed; congr (_ - _).
have cs : conjC (sqrtC dm) = sqrtC dm.
  by apply: geC0_conj; rewrite sqrtC_ge0 ltW.
rewrite adjZ -scalemxAl -scalemxAr scalerA fmorphV cs; congr (_ *: _).
by rewrite -invfM -expr2 sqrtCK.
Qed.

Lemma inv_nil : inv [::] [::].
Proof.
have E : rest [::] = M by rewrite /rest /rebuilt big_nil subr0.
by split; rewrite ?E.
Qed.

Lemma inv_step pivots L nu cur Mapprox dm :
  inv pivots L -> at_pivot L nu cur Mapprox dm -> 0 < dm ->
  inv (rcons pivots nu) (rcons L cur).
Proof.
case=> H P U S E D Z [Ea Ed Em Ec] d0.
have ER := outer_cur d0 Ed Ec.
have a0 : rest L nu nu != 0 by rewrite -Ed gt_eqF.
have np : nu \notin pivots.
  by apply/negP => /(E nu nu) E0; rewrite E0 eqxx in a0.
split; rewrite ?ER ?size_rcons ?S //.
- exact: deflate_herm.
- exact: deflate_pos.
- by rewrite rcons_uniq np.
- move=> p q; rewrite mem_rcons inE => /orP [/eqP -> | hp].
    exact: deflate_zero.
  by apply: deflate_keep; exact: E.
- move=> Dm p q; rewrite mem_rcons inE negb_or => /andP [pn hp].
  by rewrite deflateE !(D Dm p) // (Dm p nu pn) mul0r mulr0 subr0.
rewrite all_rcons Z andbT Ec; apply/eqP => /matrixP /(_ nu 0).
rewrite !mxE -[(M nu nu - _)]/(_) -/(rebuilt L).
move=> E0; have : (sqrtC dm)^-1 * rest L nu nu != 0.
  by rewrite mulf_neq0 ?invr_neq0 ?sqrtC_eq0 // gt_eqF.
by rewrite /rest !mxE E0 eqxx.
Qed.

Lemma pivot_step pivots L nu cur Mapprox dm :
  inv pivots L -> at_pivot L nu cur Mapprox dm -> 0 < dm ->
  let Mapprox' := fun p => Mapprox p + cur p 0 * conjC (cur p 0) in
  let delta := fun p => M p p - Mapprox' p in
  let nu' := argmax (fun p => `|delta p|) i0 in
  let L' := rcons L cur in
  at_pivot L' nu'
    ((sqrtC `|delta nu'|)^-1 *:
       (col nu' M - \sum_(v <- L') conjC (v nu' 0) *: v))
    Mapprox' `|delta nu'|.
Proof.
move=> I A d0 Mapprox' delta nu' L'.
have I' := inv_step I A d0; have {A} [Ea Ed Em Ec] := A.
have EM p : Mapprox' p = rebuilt L' p p.
  by rewrite /Mapprox' /L' Ea rebuilt_rcons [RHS]mxE outer_diag.
have Edl p : delta p = rest L' p p by rewrite /delta EM /rest [RHS]mxE [X in _ = _ + X]mxE.
have Nd p : `|delta p| = rest L' p p.
  by rewrite Edl ger0_norm //; apply: diag_ge0; case: I'.
split=> //.
- move=> p; rewrite -Nd; apply: (argmax_max (f := fun p => `|delta p|)) => i.
  exact: normr_real.
- by rewrite rest_col.
Qed.

Lemma start_pivot :
  let nu := argmax (fun p => `|M p p|) i0 in
  at_pivot [::] nu ((sqrtC (M nu nu))^-1 *: col nu M) (fun=> 0) (M nu nu).
Proof.
move=> nu.
have E : rest [::] = M by rewrite /rest /rebuilt big_nil subr0.
have Z p : `|M p p| = M p p by rewrite ger0_norm // diag_ge0.
split; rewrite ?E //.
- by move=> p; rewrite /rebuilt big_nil mxE.
- move=> p; rewrite -(Z p) -(Z nu).
  by apply: (argmax_max (f := fun p => `|M p p|)) => i; exact: normr_real.
Qed.

Lemma dm_pos pivots L nu cur Mapprox dm :
  inv pivots L -> at_pivot L nu cur Mapprox dm ->
  `|dm| = dm /\ (tol < `|dm| -> 0 < dm).
Proof.
move=> I [_ Ed _ _]; have d0 : 0 <= dm.
  by rewrite Ed; apply: diag_ge0; case: I.
rewrite ger0_norm //; split=> // h; exact: le_lt_trans h.
Qed.

Definition finished (L : seq 'cV[C]_n) : Prop :=
  exists pivots, inv pivots L /\ forall p, rest L p p <= tol.

(* The loop with a buffer that is large enough. *)
Lemma loop_ok fuel pivots L nu cur Mapprox dm nmax :
  inv pivots L -> at_pivot L nu cur Mapprox dm ->
  (n < nmax)%N -> (fuel + size L = nmax.+1)%N ->
  exists2 L', mc_loop nmax M tol i0 fuel L cur Mapprox dm = Ok L'
              & finished L'.
Proof.
elim: fuel pivots L nu cur Mapprox dm => [|fuel IH] pivots L nu cur Mapprox dm I A hn hf.
  have := uniq_leq_size (inv_uniq I) (fun x _ => mem_enum 'I_n x).
  by rewrite (inv_size I) size_enum_ord; lia.
have [Nd Pd] := dm_pos I A.
rewrite [mc_loop _ _ _ _ _ _ _ _ _]/=; case: ifP => [ht | hf'].
  have d0 := Pd ht.
  have I' := inv_step I A d0; have A' := pivot_step I A d0.
  have: (size (rcons pivots nu) <= n)%N.
    have := uniq_leq_size (inv_uniq I') (fun x _ => mem_enum 'I_n x).
    by rewrite size_enum_ord.
  rewrite (inv_size I') => hs.
  rewrite (leq_ltn_trans hs hn); apply: IH A' hn _; first exact: I'.
  by rewrite size_rcons; lia.
exists L => //; exists pivots; split=> // p.
apply: le_trans (ap_max A p) _; rewrite -Nd.
by rewrite real_leNgt ?normr_real ?hf' // ger0_real.
Qed.

Lemma loop_grows fuel L cur Mapprox dm nmax L' :
  mc_loop nmax M tol i0 fuel L cur Mapprox dm = Ok L' ->
  (size L <= size L')%N.
Proof.
elim: fuel L cur Mapprox dm => [|fuel IH] L cur Mapprox dm //.
rewrite [mc_loop _ _ _ _ _ _ _ _ _]/=; case: ifP => _; last by case=> ->.
by case: ifP => // _ /IH; rewrite size_rcons => /ltnW.
Qed.

Lemma loop_buffer fuel L cur Mapprox dm nmax L' fuel' nmax' :
  mc_loop nmax M tol i0 fuel L cur Mapprox dm = Ok L' ->
  (fuel' + size L = nmax'.+1)%N -> (size L < nmax')%N ->
  mc_loop nmax' M tol i0 fuel' L cur Mapprox dm
  = if (size L' < nmax')%N then Ok L' else Err IndexError.
Proof.
elim: fuel L cur Mapprox dm fuel' => [|fuel IH] L cur Mapprox dm [|fuel'] //.
  by lia.
rewrite [mc_loop _ _ _ _ fuel.+1 _ _ _ _]/= [mc_loop _ _ _ _ fuel'.+1 _ _ _ _]/=.
case: ifP => _; last by case=> <- _ ->.
case: ifP => // h E hf hs.
case: ifP => [h'|/negbT h'].
  by apply: IH E _ h'; rewrite size_rcons; lia.
have := loop_grows E; move: h'; rewrite -leqNgt => h1 h2.
by rewrite ltnNge (leq_trans h1 h2).
Qed.
End Loop.

Section Main.
Variable C : numClosedFieldType.
Variable n : nat.
Variable M : 'M[C]_n.
Variable tol : C.
Hypothesis HM : hermitian M.
Hypothesis PM : positive M.
Hypothesis tol0 : 0 <= tol.

Notation start nmax fuel i0 :=
  (mc_loop nmax M tol i0 fuel [::]
    ((sqrtC (M (argmax (fun p => `|M p p|) i0) (argmax (fun p => `|M p p|) i0)))^-1
       *: col (argmax (fun p => `|M p p|) i0) M) (fun=> 0)
    (M (argmax (fun p => `|M p p|) i0) (argmax (fun p => `|M p p|) i0))).

Lemma start_finishes i0 : exists L, finished M tol L /\
  start n.+1 n.+2 i0 = Ok L.
Proof.
have [L E F] := loop_ok i0 tol0 (inv_nil HM PM) (start_pivot i0 PM)
  (ltnSn n) (addn0 n.+2).
by exists L; split.
Qed.

Lemma mc_total : (0 < n)%N -> exists L, finished M tol L
  /\ forall nmax, modified_cholesky nmax M tol
       = if (size L < nmax)%N then Ok L else Err IndexError.
Proof.
move=> n0; rewrite /modified_cholesky; case: insubP => [i0 _ _ | /negP //].
have [L [F E]] := start_finishes i0.
exists L; split=> // -[|nmax]; first by rewrite ltn0.
by rewrite (loop_buffer (fuel' := nmax.+2) (nmax' := nmax.+1) tol0 E) ?addn0.
Qed.

Lemma finished_small L : finished M tol L ->
  forall p q, `|M p q - rebuilt L p q| <= tol.
Proof.
case=> pivots [[H P _ _ _ _ _] D] p q.
have := small_entries H P D p q.
by rewrite /rest [X in `|X| <= _]mxE [X in `|_ + X| <= _]mxE.
Qed.

Lemma finished_pivots L : finished M tol L ->
  exists pivots, [/\ uniq pivots, size pivots = size L & exact_on pivots M L].
Proof.
case=> pivots [[H P U S E _ _] D]; exists pivots; split=> // p q hp.
have := E p q hp.
by rewrite /rest [X in X = _]mxE [X in _ + X]mxE => /eqP; rewrite subr_eq0 => /eqP.
Qed.

Lemma finished_size L : finished M tol L -> (size L <= n)%N.
Proof.
case=> pivots [[_ _ U S _ _ _] _]; rewrite -S.
have := uniq_leq_size U (fun x _ => mem_enum 'I_n x).
by rewrite size_enum_ord.
Qed.

Lemma finished_nz L : finished M tol L -> all (fun v => v != 0) L.
Proof. by case=> pivots [[_ _ _ _ _ _ Z] _]. Qed.

Lemma finished_diag L : finished M tol L -> diagonal_matrix M ->
  (forall p, tol < M p p) -> size L = n.
Proof.
case=> pivots [[_ _ U S E Dg _] D] hd ht; rewrite -S.
have hp p : p \in pivots.
  apply/negPn/negP => hp; have := D p; rewrite (Dg hd) // => h.
  by have := lt_le_trans (ht p) h; rewrite ltxx.
have : size pivots = #|pivots| by rewrite (card_uniqP U).
by move=> ->; rewrite -[RHS]card_ord; apply: eq_card => p; rewrite hp.
Qed.
End Main.

(* Shells. *)
Lemma dims_nth sizes s : (s <= size sizes)%N ->
  nth 0%N (shell_dims sizes) s = sumn (take s sizes).
Proof.
rewrite /shell_dims; case: s => [|s] hs /=; first by rewrite take0.
by rewrite nth_scanl // sumnE foldlE big_cons.
Qed.

Lemma dims_size sizes : size (shell_dims sizes) = (size sizes).+1.
Proof. by rewrite /= size_scanl. Qed.

Lemma sumn_takeS sizes s : (s < size sizes)%N ->
  sumn (take s.+1 sizes) = (sumn (take s sizes) + nth 0%N sizes s)%N.
Proof. by move=> h; rewrite (take_nth 0%N h) sumn_rcons. Qed.

Lemma sumn_take_mono sizes s t : (s <= t)%N ->
  (sumn (take s sizes) <= sumn (take t sizes))%N.
Proof.
elim: sizes s t => [|x l IH] [|s] [|t] //=.
by rewrite ltnS leq_add2l => /IH.
Qed.

Lemma find_shell_right sizes j : all (fun s => 0 < s)%N sizes ->
  (j < sumn sizes)%N ->
  exists s off, find_shell (shell_dims sizes) j = Ok (s, off)
                /\ in_shell sizes j s off.
Proof.
move=> pos hj; rewrite /find_shell /searchsorted.
set dims := shell_dims sizes; set a := fun d => (j <= d)%N.
have ha : has a dims.
  apply/(has_nthP 0%N); exists (size sizes); first by rewrite dims_size.
  by rewrite /a dims_nth // take_size ltnW.
have hs : (find a dims < size dims)%N by rewrite -has_find.
have hf := nth_find 0%N ha.
have hb i : (i < find a dims)%N -> ~~ a (nth 0%N dims i).
  by move=> h; rewrite (before_find 0%N h).
rewrite hs; set s := find a dims in hs hf hb *.
move: hs; rewrite dims_size ltnS => hs.
have En : nth 0%N dims s = sumn (take s sizes) by rewrite dims_nth.
case: (eqVneq (nth 0%N dims s) j) => [Ej | nj] /=.
  exists s, 0%N; split; first by rewrite Ej subnn.
  have hlt : (s < size sizes)%N.
    rewrite ltn_neqAle hs andbT; apply/eqP => e.
    by move: Ej; rewrite En e take_size => e1; rewrite e1 ltnn in hj.
  split=> //; split; last by rewrite addn0 -En.
  by apply: (allP pos); exact: mem_nth.
have j0 : j != 0%N.
  apply/eqP => e; have es : s = 0%N by rewrite /s /a e.
  by rewrite es e in nj.
have s0 : (0 < s)%N.
  rewrite lt0n; apply/eqP => e; move: hf; rewrite e /a /=; lia.
rewrite j0 /=; exists s.-1, (j - nth 0%N dims s.-1)%N; split=> //.
have := hb s.-1; rewrite prednK // leqnn => /(_ isT); rewrite /a -ltnNge.
have E1 : nth 0%N dims s.-1 = sumn (take s.-1 sizes) by rewrite dims_nth //; lia.
have E2 := @sumn_takeS sizes s.-1; rewrite prednK // in E2.
move: hf; rewrite /a En => hf; rewrite E1 => h1.
rewrite -En in hf; split; first by lia.
have h2 := E2 (leq_trans (leqnn s) hs); rewrite -En in h2.
split; last by lia.
move/eqP: nj => nj; lia.
Qed.

Lemma in_shell_unique sizes j s off s' off' :
  in_shell sizes j s off -> in_shell sizes j s' off' -> s = s' /\ off = off'.
Proof.
have K u o v o' : in_shell sizes j u o -> in_shell sizes j v o' -> ~ (u < v)%N.
  move=> [h1 [h2 h3]] [h4 [h5 h6]] uv.
  have := sumn_take_mono sizes uv; rewrite sumn_takeS //; lia.
move=> H H'; have E : s = s' by have := K _ _ _ _ H H'; have := K _ _ _ _ H' H; lia.
subst s'; split=> //; case: H => _ [_ h]; case: H' => _ [_ h']; lia.
Qed.

Section ChunkedProofs.
Variable C : numClosedFieldType.
Variable nao : nat.
Variable M : 'M[C]_(nao * nao).
Variable sizes : seq nat.
Variable tol : C.
Hypothesis HM : hermitian M.
Hypothesis PM : positive M.
Hypothesis RM : real_matrix M.
Hypothesis tol0 : 0 <= tol.
Hypothesis pos : all (fun s => 0 < s)%N sizes.
Hypothesis tot : sumn sizes = nao.

Notation vec := ('cV[C]_(nao * nao)).
Notation pair := ('I_(nao * nao)).

Lemma orbital_pair_flat (i j : 'I_nao) : orbital_pair nao i j = Some (flat i j).
Proof. by rewrite /orbital_pair !valK. Qed.

Lemma get_column_right nu : get_column M sizes nu = Ok (col nu M).
Proof.
have L (i : 'I_nao) : exists s off, find_shell (shell_dims sizes) i = Ok (s, off)
    /\ in_shell sizes i s off.
  by apply: find_shell_right => //; rewrite tot.
rewrite /get_column.
have [s [o [-> [h1 [h2 h3]]]]] := L (flat_row nu).
have [t [u [-> [h4 [h5 h6]]]]] := L (flat_col nu).
rewrite /= /eri_column h2 h5 /=.
have E1 : nth 0%N (0%N :: scanl addn 0%N sizes) s = sumn (take s sizes).
  by apply: dims_nth; exact: ltnW.
have E2 : nth 0%N (0%N :: scanl addn 0%N sizes) t = sumn (take t sizes).
  by apply: dims_nth; exact: ltnW.
by rewrite E1 E2 -h3 -h6 orbital_pair_flat flatE.
Qed.

Lemma shell_diag_nth pre szs a b : (b < nao)%N ->
  (sumn pre <= a < sumn pre + sumn szs)%N ->
  nth 0 (shell_diag M (sumn pre :: scanl addn (sumn pre) szs) szs)
     ((a - sumn pre) * nao + b) = diag_entry M a b.
Proof.
move=> hb; elim: szs pre => [|s szs IH] pre /=; first by lia.
move=> h; rewrite nth_cat.
have Sz : forall d k, size (flatten [seq [seq diag_entry M a0 b0 | b0 <- iota 0 nao]
    | a0 <- iota d k]) = (k * nao)%N.
  move=> d k; elim: k d => //= k IHk d.
  by rewrite size_cat IHk size_map size_iota mulSn.
rewrite Sz.
case: (ltnP a (sumn pre + s)) => ha.
  have -> : ((a - sumn pre) * nao + b < s * nao)%N.
    apply: leq_trans (_ : (a - sumn pre).+1 * nao <= _)%N.
      by rewrite mulSn addnC ltn_add2r.
    by rewrite leq_mul2r; apply/orP; right; lia.
  have [k Ek] : exists k, a = (sumn pre + k)%N by exists (a - sumn pre)%N; lia.
  have hk : (k < s)%N by lia.
  rewrite Ek addKn; move: (sumn pre) => d.
  clear -hb hk; elim: s k d hk => // s IHs [|k] d hk /=.
    by rewrite mul0n add0n nth_cat size_map size_iota hb addn0
               (nth_map 0%N) ?size_iota // nth_iota.
  rewrite nth_cat size_map size_iota mulSn -addnA ltnNge leq_addr /= addKn.
  by rewrite IHs // addSnnS.
have -> : ((a - sumn pre) * nao + b < s * nao)%N = false.
  apply/negbTE; rewrite -leqNgt; apply: leq_trans (leq_addr _ _).
  by rewrite leq_mul2r; apply/orP; right; lia.
have := IH (rcons pre s); rewrite sumn_rcons => <-; last by lia.
congr (nth _ _ _); rewrite -addnBAC; last by rewrite leq_mul2r; apply/orP; right; lia.
by rewrite -mulnBl; congr (_ * _ + _)%N; lia.
Qed.

Lemma diagonal_right x : diagonal M sizes x = M x x.
Proof.
rewrite /diagonal.
have hb : (x %% nao < nao)%N := ltn_ord (flat_col x).
have ha : (x %/ nao < nao)%N := ltn_ord (flat_row x).
have := @shell_diag_nth [::] sizes (x %/ nao) (x %% nao) hb.
rewrite /= tot => /(_ ha); rewrite subn0 -divn_eq => ->.
rewrite /diag_entry (_ : orbital_pair nao (x %/ nao) (x %% nao) = Some x) //.
by have := orbital_pair_flat (flat_row x) (flat_col x); rewrite flatE.
Qed.

Definition real_vec (v : vec) : Prop := forall p, conjC (v p 0) = v p 0.

Lemma real_next (L : seq vec) nu (d : C) : 0 <= d ->
  (forall v, v \in L -> real_vec v) ->
  real_vec ((sqrtC d)^-1 *: (col nu M - \sum_(v <- L) conjC (v nu 0) *: v)).
Proof.
move=> d0 hL p; rewrite !mxE summxE rmorphM rmorphB fmorphV rmorph_sum.
rewrite (geC0_conj _) ?sqrtC_ge0 // (conj_Creal (RM _ _)); congr (_ * (_ - _)).
rewrite big_seq [RHS]big_seq; apply: eq_bigr => v hv.
by rewrite mxE rmorphM conjCK !(hL v hv).
Qed.

Lemma ch_mc nmax i0 fuel (L : seq vec) cur f g dm :
  (forall v, v \in rcons L cur -> real_vec v) -> f =1 g ->
  ch_loop M sizes nmax tol i0 fuel L cur f dm
  = mc_loop nmax M tol i0 fuel L cur g dm.
Proof.
elim: fuel L cur f g dm => //= fuel IH L cur f g dm hr fg.
case: ifP => // _.
have hc := hr cur; rewrite mem_rcons mem_head in hc; have {}hc := hc isT.
have Ed p : diagonal M sizes p - (f p + cur p 0 * cur p 0)
          = M p p - (g p + cur p 0 * conjC (cur p 0)).
  by rewrite diagonal_right fg hc.
set nu := argmax _ _; set nu' := argmax _ _.
have <- : nu = nu' by apply: argmax_ext => p; rewrite Ed.
rewrite get_column_right /=; case: ifP => // _.
have ES : \sum_(v <- rcons L cur) conjC (v nu 0) *: v
        = \sum_(v <- rcons L cur) v nu 0 *: v.
  by rewrite big_seq [RHS]big_seq; apply: eq_bigr => v hv; rewrite (hr v hv).
rewrite -Ed -ES; apply: IH; last by move=> p; rewrite fg hc.
move=> v; rewrite mem_rcons inE => /orP [/eqP -> | hv]; last exact: hr.
exact: real_next.
Qed.

Lemma first_pivot i0 :
  argmax (diagonal M sizes) i0 = argmax (fun p => `|M p p|) i0.
Proof.
by apply: argmax_ext => p; rewrite diagonal_right ger0_norm // diag_ge0.
Qed.

Lemma first_real nu : real_vec ((sqrtC (M nu nu))^-1 *: col nu M).
Proof.
move=> p; rewrite !mxE rmorphM fmorphV (conj_Creal (RM _ _)) (geC0_conj _) //.
by rewrite sqrtC_ge0 diag_ge0.
Qed.

Lemma chunked_is_modified nmax :
  chunked_cholesky M sizes false nmax tol = modified_cholesky nmax M tol.
Proof.
rewrite /chunked_cholesky /modified_cholesky; case: insubP => // i0 _ _.
rewrite first_pivot get_column_right diagonal_right /rbind.
case: nmax => // nmax; apply: ch_mc => // v; rewrite mem_seq1 => /eqP -> p.
exact: first_real.
Qed.

Lemma sum_chunks (G : nat -> vec) a cs :
  \sum_(ic < a) \sum_(k < cs) G (ic * cs + k)%N = \sum_(0 <= i < a * cs) G i.
Proof.
elim: a => [|a IH]; first by rewrite big_ord0 big_geq.
rewrite big_ord_recr IH [RHS](@big_cat_nat _ _ _ (a * cs)) ?leq_mul2r ?leqnSn ?orbT //.
congr (_ + _); rewrite -{2}[(a * cs)%N]add0n big_addn mulSn addnK big_mkord.
by apply: eq_bigr => k _; rewrite addnC.
Qed.

Lemma residual_right cs (L : seq vec) cur file buf nu : (0 < cs)%N ->
  (forall i, file i = if (i < size L %/ cs * cs)%N then nth 0 L i else 0) ->
  (forall k, (k <= size L %% cs)%N ->
     buf k = nth 0 (rcons L cur) (size L %/ cs * cs + k)%N) ->
  residual cs file buf (size L %/ cs) (size L %% cs) nu
  = \sum_(v <- rcons L cur) v nu 0 *: v.
Proof.
move=> c0 hf hb; rewrite /residual (sum_chunks (fun i => file i nu 0 *: file i)).
rewrite [RHS](big_nth 0) size_rcons.
have hq : (size L %/ cs * cs <= size L)%N by exact: leq_trunc_div.
rewrite [RHS](@big_cat_nat _ _ _ (size L %/ cs * cs)) ?leqW //; congr (_ + _).
  apply: eq_big_nat => i /andP [_ hi].
  by rewrite hf hi nth_rcons (leq_trans hi hq).
have EE : (size L %/ cs * cs = 0 + size L %/ cs * cs)%N by [].
rewrite [X in _ = \sum_(X <= _ < _) _]EE big_addn.
have -> : ((size L).+1 - size L %/ cs * cs = (size L %% cs).+1)%N.
  by rewrite {1}(divn_eq (size L) cs) -addnS addKn.
rewrite big_mkord; apply: eq_bigr => k _.
by rewrite hb; [rewrite addnC | rewrite -ltnS].
Qed.

Definition stored cs (L : seq vec) (file : nat -> vec) : Prop :=
  forall i, file i = if (i < size L %/ cs * cs)%N then nth 0 L i else 0.

Lemma oc_sim cs nmax nmax' i0 fuel fuel' (L : seq vec) cur f g dm L' file buf :
  (1 < cs)%N ->
  mc_loop nmax M tol i0 fuel L cur g dm = Ok L' ->
  (forall v, v \in rcons L cur -> real_vec v) -> f =1 g ->
  stored cs L file ->
  (forall k, (k <= size L %% cs)%N ->
     buf k = nth 0 (rcons L cur) (size L %/ cs * cs + k)%N) ->
  (size L' < fuel' + size L)%N ->
  let r := oc_loop M sizes nmax' cs tol i0 fuel' (size L) (size L %/ cs)
             file buf f dm in
  (size L %/ cs * cs <= nmax')%N ->
  if (size L' %/ cs * cs <= nmax')%N
  then exists2 file', r = Ok (size L', file') & stored cs L' file'
  else r = Err TypeError.
Proof.
move=> c1; have c0 := ltnW c1.
elim: fuel fuel' L cur f g dm file buf => [|fuel IH] fuel' L cur f g dm file buf //.
move=> E; have hg := loop_grows E; move: E.
case: fuel' => [|fuel']; first by move=> *; lia.
rewrite [mc_loop _ _ _ _ _ _ _ _ _]/= [oc_loop _ _ _ _ _ _ _ _ _ _ _ _ _]/=.
case: ifP => [_ | _]; last first.
  by case=> <- hr fg hf hb hl r hn; rewrite hn; exists file.
case: ifP => // h E hr fg hf hb hl r hn; rewrite {}/r.
have hcb : buf (size L %% cs)%N = cur.
  by rewrite hb // -divn_eq nth_rcons ltnn eqxx.
rewrite hcb.
have hc := hr cur; rewrite mem_rcons mem_head in hc; have {}hc := hc isT.
have Ed p : diagonal M sizes p - (f p + cur p 0 * cur p 0)
          = M p p - (g p + cur p 0 * conjC (cur p 0)).
  by rewrite diagonal_right fg hc.
set nu := argmax _ _; set nu' := argmax _ _ in E.
have En : nu = nu' by apply: argmax_ext => p; rewrite Ed.
rewrite get_column_right /rbind (residual_right nu c0 hf hb).
have ES : \sum_(v <- rcons L cur) conjC (v nu 0) *: v
        = \sum_(v <- rcons L cur) v nu 0 *: v.
  by rewrite big_seq [RHS]big_seq; apply: eq_bigr => v hv; rewrite (hr v hv).
rewrite -ES Ed {ES}.
rewrite -En -/nu in E *.
set d := `|_| in E *; set v := _ *: _ in E *.
have hr' : forall w, w \in rcons (rcons L cur) v -> real_vec w.
  move=> w; rewrite mem_rcons inE => /orP [/eqP -> | hv]; last exact: hr.
  by apply: real_next => //; exact: normr_ge0.
have fg' : (fun p => f p + cur p 0 * cur p 0)
        =1 (fun p => g p + cur p 0 * conjC (cur p 0)).
  by move=> p /=; rewrite fg hc.
have hl' : (size L' < fuel' + size (rcons L cur))%N by rewrite size_rcons; lia.
have hgr := loop_grows E.
have IH' := IH fuel' _ _ _ _ _ _ _ E hr' fg' _ _ hl'.
rewrite size_rcons in IH' hgr.
have hm := modnS (size L) cs; have hd := divnS (size L) c0.
case: (boolP (cs %| (size L).+1)%N) hm hd => hk hm hd; rewrite [X in (X + _)%N]/= in hd.
  rewrite hm eqxx; rewrite add1n in hd.
  have hs0 : (0 < size L)%N by have := dvdn_leq (ltn0Sn _) hk; lia.
  have eq1 : (size L).+1 = ((size L %/ cs).+1 * cs)%N.
    by rewrite -[LHS](divnK hk) hd.
  rewrite hs0 [true && true]/=; case: (boolP ((size L %/ cs).+1 * cs <= nmax')%N) => hn'.
    rewrite hd hm in IH'.
    apply: IH' => //; first move=> i.
      rewrite size_rcons hd /write_chunk -eq1.
      case: (ltnP i (size L).+1) => hi; last by rewrite andbF hf; case: ifP => //; lia.
      rewrite andbT; case: leqP => hi2.
        rewrite hb; first by congr (nth _ _ _); lia.
        have := divn_eq (size L) cs; move: eq1; rewrite mulSn; lia.
      by rewrite hf hi2 nth_rcons (leq_trans hi2 (leq_trunc_div _ _)).
    move=> k; rewrite leqn0 => /eqP ->.
    by rewrite /set_row eqxx addn0 -eq1 nth_rcons size_rcons ltnn eqxx.
  case: ifP => // hn2; have := leq_div2r cs hgr; rewrite hd => h3.
  rewrite -(leq_pmul2r c0) in h3; have := leq_trans h3 hn2.
  by rewrite (negbTE hn').
rewrite hm andbF; rewrite hd add0n hm in IH'.
apply: IH' => //.
  move=> i; rewrite size_rcons hd add0n hf; case: ifP => // hi.
  by rewrite nth_rcons (leq_trans hi (leq_trunc_div _ _)).
move=> k hk2; rewrite /set_row; case: eqP => [-> | nk].
  rewrite addnS -divn_eq nth_rcons size_rcons ltnn eqxx //.
rewrite hb; last by lia.
rewrite [in RHS]nth_rcons size_rcons; case: ltnP => //.
move: (divn_eq (size L) cs) nk hk2.
move: (size L %/ cs * cs)%N (size L %% cs)%N => q m; clear => E n1 h1 h2; exfalso; rewrite E in h2; lia.
Qed.

Lemma oc_start cs nmax nmax' i0 fuel fuel' (cur : vec) f g dm L' buf :
  (1 < cs)%N ->
  mc_loop nmax M tol i0 fuel [::] cur g dm = Ok L' ->
  real_vec cur -> f =1 g -> buf 0%N = cur -> (size L' < fuel')%N ->
  let r := oc_loop M sizes nmax' cs tol i0 fuel' 0 0 (fun=> 0) buf f dm in
  if (size L' %/ cs * cs <= nmax')%N
  then exists2 file', r = Ok (size L', file') & stored cs L' file'
  else r = Err TypeError.
Proof.
move=> c1 E hr fg hb hl r.
have hr' : forall v, v \in rcons [::] cur -> real_vec v.
  by move=> v; rewrite mem_seq1 => /eqP ->.
have hf : stored cs ([::] : seq vec) (fun=> 0) by move=> i; rewrite div0n.
have hb' k : (k <= size ([::] : seq vec) %% cs)%N ->
    buf k = nth 0 (rcons [::] cur) (size ([::] : seq vec) %/ cs * cs + k)%N.
  by rewrite mod0n leqn0 => /eqP ->; rewrite div0n.
have hl' : (size L' < fuel' + size ([::] : seq vec))%N by rewrite addn0.
have := oc_sim (nmax' := nmax') c1 E hr' fg hf hb' hl'.
by rewrite [size [::]]/= div0n mul0n; apply.
Qed.

(* Chunks of one vector: the test nchol > 0 skips the first chunk. *)
Lemma oc_one nmax nmax' i0 fuel fuel' (cur : vec) f g dm L' buf :
  mc_loop nmax M tol i0 fuel [::] cur g dm = Ok L' -> size L' = 1%N ->
  real_vec cur -> f =1 g -> buf 0%N = cur ->
  oc_loop M sizes nmax' 1 tol i0 fuel'.+2 0 0 (fun=> 0) buf f dm
  = Ok (1%N, fun=> 0).
Proof.
case: fuel => // fuel E h1 hc fg hb; move: E.
rewrite [mc_loop _ _ _ _ _ _ _ _ _]/=.
set F := fuel'.+1; rewrite [oc_loop _ _ _ _ _ _ _ _ _ _ _ _ _]/= hb.
case: ifP => _; last by case=> E; rewrite -E in h1.
have Ed p : diagonal M sizes p - (f p + cur p 0 * cur p 0)
          = M p p - (g p + cur p 0 * conjC (cur p 0)).
  by rewrite diagonal_right fg hc.
set nu := argmax _ _; set nu' := argmax _ _.
have En : nu = nu' by apply: argmax_ext => p; rewrite Ed.
rewrite get_column_right /rbind Ed -En; case: ifP => // _.
set v := _ *: _; set h := fun p => _; set d := `|_|.
case: fuel => // fuel; rewrite /F.
rewrite [mc_loop _ _ _ _ _ _ _ _ _]/=.
by case: ifP => // _; case: ifP => // _ /loop_grows; rewrite h1.
Qed.

Lemma outcore_right : (0 < nao)%N -> exists L, finished M tol L
  /\ (forall nmax, modified_cholesky nmax M tol
        = if (size L < nmax)%N then Ok L else Err IndexError)
  /\ (forall fuel nmax cs, (1 < cs)%N -> (size L < fuel)%N ->
      let r := chunked_cholesky_outcore M sizes fuel nmax cs tol in
      if (size L %/ cs * cs <= nmax)%N
      then exists2 file, r = Ok (size L, file) & stored cs L file
      else r = Err TypeError)
  /\ (forall fuel nmax, size L = 1%N -> (1 < fuel)%N ->
      chunked_cholesky_outcore M sizes fuel nmax 1 tol = Ok (1%N, fun=> 0)).
Proof.
move=> n0; have n1 : (0 < nao * nao)%N by rewrite muln_gt0 n0.
rewrite /chunked_cholesky_outcore /modified_cholesky; case: insubP => [i0 _ _ | /negP //].
rewrite first_pivot get_column_right diagonal_right /rbind.
have [L [F E]] := start_finishes HM PM tol0 i0.
exists L; split=> //; split; last split.
- case=> [|nmax]; first by rewrite ltn0.
  by rewrite (loop_buffer (fuel' := nmax.+2) (nmax' := nmax.+1) tol0 E) ?addn0.
- move=> fuel nmax [|[|cs]] // _ hf.
  by apply: oc_start E _ _ _ hf => //; exact: first_real.
move=> [|[|fuel]] // nmax h1 _.
by apply: oc_one E h1 _ _ _ => //; exact: first_real.
Qed.

End ChunkedProofs.

Section Identity.
Variable C : numClosedFieldType.
Variable n : nat.

Lemma one_hermitian : hermitian (1%:M : 'M[C]_n).
Proof.
apply/matrixP => p q; rewrite adjE !mxE eq_sym.
by case: (_ == _); rewrite ?conjC1 ?conjC0.
Qed.

Lemma one_positive : positive (1%:M : 'M[C]_n).
Proof.
move=> x; rewrite mulmx1 mxE sumr_ge0 // => i _.
by rewrite adjE mulrC mul_conjC_ge0.
Qed.

Lemma one_real : real_matrix (1%:M : 'M[C]_n).
Proof. by move=> p q; rewrite mxE realn. Qed.

Lemma one_size (tol : C) L : 0 <= tol -> tol < 1 ->
  finished (1%:M : 'M[C]_n) tol L -> size L = n.
Proof.
move=> t0 t1 F; apply: (finished_diag F).
  by move=> p q /negbTE pq; rewrite mxE pq.
by move=> p; rewrite mxE eqxx.
Qed.
End Identity.
