(* Proofs about the transformation to real orbitals. *)

From Verif Require Import Base.
Set Warnings "-notation-overridden,-ambiguous-paths".
From mathcomp Require Import all_ssreflect all_algebra.
From Verif Require Import RealUEG_Model RealUEG_Spec.

Set Implicit Arguments.
Unset Strict Implicit.
Unset Printing Implicit Defensive.

Import Order.TTheory GRing.Theory Num.Theory.
Local Open Scope ring_scope.

Lemma sq_eq0 (v : 'rV[int]_3) : (sq v == 0) = (v == 0).
Proof.
apply/idP/eqP => [|->]; last by rewrite /sq big1 // => c _; rewrite mxE expr0n.
rewrite /sq psumr_eq0 => [/allP h|c _]; last exact: sqr_ge0.
apply/rowP => c; rewrite mxE; apply/eqP; rewrite -sqrf_eq0.
by apply: h; rewrite mem_index_enum.
Qed.

Section Proofs.
Variables (C : numClosedFieldType) (n : nat) (basis : 'I_n -> 'rV[int]_3) (sg : 'I_n -> 'I_n).
Hypothesis inj : injective basis.
Hypothesis sgE : forall i, basis (sg i) = - basis i.

Lemma sgK : involutive sg.
Proof. by move=> i; apply: inj; rewrite !sgE opprK. Qed.

Lemma sg_eq a b : (a == sg b) = (sg a == b).
Proof. by apply/eqP/eqP => [->|<-]; rewrite sgK. Qed.

Lemma fixed i : (sq (basis i) == 0) = (sg i == i).
Proof.
rewrite sq_eq0; apply/eqP/eqP => [h|h]; first by apply: inj; rewrite sgE h oppr0.
have := sgE i; rewrite h => /rowP e; apply/rowP => c; have := e c; rewrite !mxE => e'.
have : basis i 0 c + basis i 0 c == 0 by rewrite {2}e' subrr.
by rewrite -mulr2n mulrn_eq0 => /eqP.
Qed.

Lemma partnersE i : partners basis i = [:: sg i].
Proof.
rewrite /partners -(filter_pred1_uniq (enum_uniq 'I_n) (mem_enum _ (sg i))).
apply: eq_filter => j /=; rewrite sq_eq0 opprK addr_eq0 -sgE.
by apply/eqP/eqP => [/inj|->].
Qed.

(* The rows of the matrix before it is transposed. *)
Let r : C := (sqrtC 2%:R)^-1.
Definition c1 (a : 'I_n) : C := if sg a == a then 1 else if (a < sg a)%N then r else 'i * r.
Definition c2 (a : 'I_n) : C := if sg a == a then 0 else if (a < sg a)%N then r else - 'i * r.
Definition row_at (a b : 'I_n) : C := c1 a * (b == a)%:R + c2 a * (b == sg a)%:R.
Definition rep (a : 'I_n) : 'I_n := if (sg a < a)%N then sg a else a.

Lemma r_real : r^* = r.
Proof. by apply: CrealP; rewrite rpredV ger0_real // sqrtC_ge0 ler0n. Qed.
Lemma r_sq : r * r + r * r = 1.
Proof. by rewrite -mulr2n -mulr_natl -expr2 exprVn sqrtCK mulfV // pnatr_eq0. Qed.

Definition step (U : 'M[C]_n) (i : 'I_n) : 'M[C]_n :=
  if sg i == i then upd U i i 1 else
  if (i < sg i)%N then upd (upd (upd (upd U i i r) i (sg i) r) (sg i) i (- 'i * r)) (sg i) (sg i) ('i * r)
  else U.

Lemma set_pairsE s U : set_pairs basis s U = Ok (foldl step U s).
Proof.
elim: s U => //= i s IH U; rewrite /set_pair fixed partnersE /step.
by case: eqP => _ /=; [exact: IH|case: ifP => _ /=; exact: IH].
Qed.

Lemma ltn_sg a : sg a != a -> (sg a < a)%N = ~~ (a < sg a)%N.
Proof. by rewrite -val_eqE /= => h; rewrite -leqNgt [RHS]leq_eqVlt (negbTE h). Qed.

Lemma repE a i : (rep a == i) = if sg i == i then a == i else
  if (i < sg i)%N then (a == i) || (a == sg i) else false.
Proof.
rewrite /rep; case: (sg i =P i) => [f|/eqP f].
  case: ifP => // lt; rewrite -sg_eq f.
  by [].
case lt: (i < sg i)%N; case lt': (sg a < a)%N.
- rewrite -sg_eq; case: (a =P i) => [e|//]; subst a.
  by move: lt'; rewrite ltnNge ltnW.
- case: (a =P sg i) => [e|_]; last by rewrite orbF.
  by move: lt'; rewrite e sgK lt.
- by apply/negbTE; apply/negP; rewrite -sg_eq => /eqP e; move: lt'; rewrite e sgK lt.
by apply/negbTE; apply/negP => /eqP e; move: lt'; rewrite e ltn_sg // lt.
Qed.

Lemma stepE (U : 'M[C]_n) (i a b : 'I_n) : (forall a b, rep a == i -> U a b = 0) ->
  step U i a b = if rep a == i then row_at a b else U a b.
Proof.
move=> Z; have := Z a b; rewrite !repE /step /row_at /c1 /c2.
case: (sg i =P i) => [f|/eqP f].
  rewrite mxE; case: (a =P i) => [->|//] /(_ isT) -> /=.
  by rewrite f eqxx mul0r addr0 mul1r; case: (b == i).
case: ifP => lt //; rewrite !mxE.
case: (a =P i) => [->|/eqP ai] /=.
  move=> /(_ isT) ->; rewrite lt (negbTE f) eq_sym (negbTE f) /=.
  case: (b =P i) => [->|_] /=; first by rewrite eq_sym (negbTE f) mulr1 mulr0 addr0.
  by case: (b =P sg i) => _; rewrite ?mulr0 ?mulr1 ?add0r ?addr0.
case: (a =P sg i) => [->|//] /= /(_ isT) ->.
have f' : (i == sg i) = false by rewrite eq_sym (negbTE f).
rewrite sgK f' ltnNge (ltnW lt) /=.
case: (b =P sg i) => [->|_] /=; first by rewrite (negbTE f) mulr1 mulr0 addr0.
by case: (b =P i) => _; rewrite ?mulr0 ?mulr1 ?add0r ?addr0.
Qed.

Lemma foldE (s : seq 'I_n) (a b : 'I_n) : uniq s -> foldl step 0 s a b = if rep a \in s then row_at a b else 0.
Proof.
elim/last_ind: s a b => [|s i IH] a b; first by rewrite mxE.
rewrite rcons_uniq => /andP [ni us]; rewrite foldl_rcons stepE => [|a' b' /eqP e].
  by rewrite mem_rcons inE IH //; case: eqP.
by rewrite IH // e (negbTE ni).
Qed.

Lemma transformE : compute_real_transformation C basis = Ok (\matrix_(m, p) row_at p m).
Proof.
rewrite /compute_real_transformation set_pairsE /=; congr Ok; apply/matrixP => m p.
by rewrite !mxE foldE ?enum_uniq // mem_enum.
Qed.

Lemma c_norm a : (c1 a)^* * c1 a + (c2 a)^* * c2 a = 1.
Proof.
rewrite /c1 /c2; case: ifP => _; first by rewrite rmorph1 rmorph0 mul0r addr0 mul1r.
case: ifP => _; first by rewrite r_real r_sq.
have ir : (- 'i * r) * ('i * r) = r * r by rewrite mulrACA mulNr -expr2 sqrCi opprK mul1r.
by rewrite !rmorphM rmorphN /= conjCi r_real opprK ir ['i * r * _]mulrC ir r_sq.
Qed.

Lemma c_cross a : (c1 a)^* * c2 (sg a) + (c2 a)^* * c1 (sg a) = 0.
Proof.
rewrite /c1 /c2 sgK eq_sym; case: ifP => f; first by rewrite mulr0 rmorph0 mul0r addr0.
rewrite ltn_sg ?(negbTE _) //; last by rewrite eq_sym f.
case: ifP => _ /=; first by rewrite r_real mulNr mulrN addNr.
by rewrite !rmorphM rmorphN /= conjCi opprK mulNr mulNr addNr.
Qed.

Lemma c_conj a : sg a != a -> c2 a = (c1 a)^*.
Proof.
rewrite /c1 /c2 => /negbTE ->; case: ifP => _; first by rewrite r_real.
by rewrite rmorphM conjCi r_real.
Qed.

Local Notation W := (\matrix_(m, p) row_at p m : 'M[C]_n).

Lemma row_sum a (f : 'I_n -> C) : \sum_b (row_at a b)^* * f b = (c1 a)^* * f a + (c2 a)^* * f (sg a).
Proof.
have one x (c : C) : \sum_b c * (b == x)%:R * f b = c * f x.
  rewrite (bigD1 x) //= eqxx mulr1 big1 ?addr0 // => b /negbTE ->.
  by rewrite mulr0 mul0r.
rewrite -(one a) -(one (sg a)) -big_split; apply: eq_bigr => b _ /=.
by rewrite rmorphD !rmorphM !rmorph_nat mulrDl.
Qed.

Lemma W_unitary : unitary W.
Proof.
apply/matrixP => a a'; rewrite !mxE.
rewrite (eq_bigr (fun b => (row_at a b)^* * row_at a' b)) => [|b _]; last by rewrite !mxE.
rewrite row_sum /row_at (inj_eq (inv_inj sgK)) -[sg a == a']sg_eq.
have cross : a = sg a' -> (c1 a)^* * c2 a' + (c2 a)^* * c1 a' = 0.
  by move=> e; have := c_cross a; rewrite {2 4}e sgK.
case: (a =P a') => [e|_].
  rewrite -{}e in cross *; case: (a =P sg a) => [e|_]; last by rewrite !mulr1 !mulr0 addr0 add0r c_norm.
  by rewrite !mulr1 !mulrDr [X in _ + X]addrC addrACA c_norm cross // addr0.
case: (a =P sg a') => [e|_]; last by rewrite !mulr0 !addr0 !mulr0 addr0.
by rewrite !mulr1 !mulr0 add0r addr0 cross.
Qed.

Lemma W_real : real_orbitals basis W.
Proof.
move=> m m' p; rewrite -sgE => /inj ->; rewrite !mxE /row_at rmorphD !rmorphM !rmorph_nat.
rewrite -[sg m == p]sg_eq (inj_eq (inv_inj sgK)).
case: (sg p =P p) => [f|/eqP f]; last by rewrite (c_conj f) conjCK addrC.
by rewrite /c1 /c2 f eqxx rmorph1 rmorph0.
Qed.

Lemma transformed_basis (U : 'M[C]_n) eri p q s t : eri_transformed U eri p q s t = in_basis U eri p q s t.
Proof.
apply: eq_bigr => d _; rewrite mulr_sumr; apply: eq_bigr => l _; rewrite !mulr_sumr; apply: eq_bigr => k _.
by rewrite !mulr_sumr; apply: eq_bigr => m _; rewrite !mulrA.
Qed.

Lemma basis_real (U : 'M[C]_n) eri p q s t : real_orbitals basis U -> inversion_symmetric basis eri ->
  (in_basis U eri p q s t)^* = in_basis U eri p q s t.
Proof.
move=> RU [re sy]; have ij := inv_inj sgK; have Us m x : U (sg m) x = (U m x)^* by apply: RU.
rewrite /in_basis rmorph_sum [RHS](reindex_inj ij); apply: eq_bigr => d _.
rewrite rmorph_sum [RHS](reindex_inj ij); apply: eq_bigr => l _.
rewrite rmorph_sum [RHS](reindex_inj ij); apply: eq_bigr => k _.
rewrite rmorph_sum [RHS](reindex_inj ij); apply: eq_bigr => m _.
by rewrite !rmorphM /= re !Us; congr (_ * _); symmetry; apply: sy.
Qed.
End Proofs.

Lemma lone_raises (C : numClosedFieldType) n (basis : 'I_n -> 'rV[int]_3) i (s : seq 'I_n) (U : 'M[C]_n) :
  i \in s -> (forall j, basis j <> - basis i) -> set_pairs basis s U = Err AssertionError.
Proof.
move=> + no; have ni : (sq (basis i) == 0) = false.
  by rewrite sq_eq0; apply/eqP => e; apply: (no i); rewrite e oppr0.
have np : partners basis i = [::].
  rewrite /partners -(filter_pred0 (enum 'I_n)); apply: eq_filter => j /=.
  by rewrite sq_eq0 opprK addr_eq0; apply/eqP; exact: no.
elim: s U => //= j s IH U; rewrite inE => /orP [/eqP <-|/IH h].
  by rewrite /set_pair ni np.
by rewrite /set_pair; case: ifP => _ /=; [exact: h|case: (partners basis j) => [|k [|? ?]] //=; case: ifP => _ /=; exact: h].
Qed.
