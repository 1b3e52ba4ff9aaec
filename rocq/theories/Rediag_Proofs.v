(* Lemmas for C75: the variational principle, and the loops of recompute_ci_coeffs. *)

From Verif Require Import Base.
Set Warnings "-notation-overridden,-ambiguous-paths".
From mathcomp Require Import all_ssreflect all_fingroup all_algebra.
From Verif Require Import Rank1_Spec Ortho_Spec Ortho_Model Ortho_Proofs MultiDet_Spec MultiDet_Model
  MultiDet_Proofs PivotQR_Proofs TGreen_Proofs Spectral_Proofs Fock_Spec Fock_Proofs CI_Model CI_Proofs
  Rediag_Model Rediag_Spec.

Set Implicit Arguments.
Unset Strict Implicit.
Unset Printing Implicit Defensive.

Import Order.TTheory GRing.Theory Num.Theory.
Local Open Scope ring_scope.

Section Ritz.
Variable C : numClosedFieldType.
Local Notation cj := (@conjC C).

Definition colv N (a : 'I_N -> C) : 'cV[C]_N := \col_i a i.

Lemma colvE N (x : 'cV[C]_N) : colv (fun i => x i 0) = x.
Proof. by apply/matrixP => i j; rewrite mxE ord1. Qed.

Lemma sesqE N (F : 'I_N -> 'I_N -> C) (a : 'I_N -> C) :
  sesq F a a = (adj (colv a) *m (\matrix_(i, j) F i j) *m colv a) 0 0.
Proof.
rewrite /sesq mxE exchange_big /=; apply: eq_bigr => j _.
rewrite mxE mulr_suml; apply: eq_bigr => i _.
by rewrite !mxE mulrAC.
Qed.

Lemma quad_mx N (A : 'M[C]_N) (v : 'M[C]_N) (y : 'cV[C]_N) :
  adj (v *m y) *m A *m (v *m y) = adj y *m (adj v *m A *m v) *m y.
Proof. by rewrite adjM !mulmxA. Qed.

Lemma diag_quad N (w : 'rV[C]_N) (y : 'cV[C]_N) :
  (adj y *m diag_mx w *m y) 0 0 = \sum_i w 0 i * `|y i 0| ^+ 2.
Proof.
rewrite mxE; apply: eq_bigr => i _; rewrite mul_mx_diag mxE adj_ent normCK.
by rewrite [_^* * w _ _]mulrC -mulrA [_^* * _]mulrC.
Qed.

Lemma one_quad N (y : 'cV[C]_N) : (adj y *m 1%:M *m y) 0 0 = \sum_i `|y i 0| ^+ 2.
Proof.
rewrite mulmx1 mxE; apply: eq_bigr => i _.
by rewrite adj_ent normCK [_^* * _]mulrC.
Qed.

Section Min.
Variables (m : nat) (H S v : 'M[C]_m.+1) (w : 'rV[C]_m.+1).
Hypothesis hS : adj v *m S *m v = 1%:M.
Hypothesis hH : H *m v = S *m v *m diag_mx w.

Lemma v_unit : v \in unitmx.
Proof. by have := mulmx1_unit hS => -[]. Qed.

Lemma vHv : adj v *m H *m v = diag_mx w.
Proof. by rewrite -mulmxA hH mulmxA [adj v *m (S *m v)]mulmxA hS mul1mx. Qed.

Lemma quadS (x : 'cV[C]_m.+1) : (adj x *m S *m x) 0 0 = \sum_i `|(invmx v *m x) i 0| ^+ 2.
Proof. by rewrite -{1 2}[x](mulKVmx v_unit) quad_mx hS one_quad. Qed.

Lemma quadH (x : 'cV[C]_m.+1) : (adj x *m H *m x) 0 0 = \sum_i w 0 i * `|(invmx v *m x) i 0| ^+ 2.
Proof. by rewrite -{1 2}[x](mulKVmx v_unit) quad_mx vHv diag_quad. Qed.

Lemma inv_col k i : (invmx v *m col k v) i 0 = (i == k)%:R.
Proof. by rewrite colE mulKmx ?v_unit // mxE eqxx andbT. Qed.

Lemma colS k : (adj (col k v) *m S *m col k v) 0 0 = 1.
Proof.
rewrite quadS (bigD1 k) //= big1 ?addr0 => [|i /negPf hi]; rewrite inv_col ?hi ?eqxx.
  by rewrite normr1 expr1n.
by rewrite normr0 expr0n.
Qed.

Lemma colH k : (adj (col k v) *m H *m col k v) 0 0 = w 0 k.
Proof.
rewrite quadH (bigD1 k) //= big1 ?addr0 => [|i /negPf hi]; rewrite inv_col ?hi ?eqxx.
  by rewrite normr1 expr1n mulr1.
by rewrite normr0 expr0n mulr0.
Qed.

Lemma ritz_low (x : 'cV[C]_m.+1) : increasing w -> 0 < (adj x *m S *m x) 0 0 ->
  w 0 0 <= (adj x *m H *m x) 0 0 / (adj x *m S *m x) 0 0.
Proof.
move=> hw hx; rewrite ler_pdivl_mulr // quadH quadS mulr_sumr.
by apply: ler_sum => i _; rewrite ler_wpmul2r ?exprn_ge0 // hw.
Qed.

Lemma ritz_high (x : 'cV[C]_m.+1) : increasing w -> 0 < (adj x *m S *m x) 0 0 ->
  (adj x *m H *m x) 0 0 / (adj x *m S *m x) 0 0 <= w 0 ord_max.
Proof.
move=> hw hx; rewrite ler_pdivr_mulr // quadH quadS mulr_sumr.
by apply: ler_sum => i _; rewrite ler_wpmul2r ?exprn_ge0 // hw // -ltnS.
Qed.
End Min.

Lemma lowest_eig m (F S : 'I_m.+1 -> 'I_m.+1 -> C) (v : 'M[C]_m.+1) w :
  increasing w ->
  adj v *m (\matrix_(i, j) S i j) *m v = 1%:M ->
  (\matrix_(i, j) F i j) *m v = (\matrix_(i, j) S i j) *m v *m diag_mx w ->
  lowest F S (fun i => (col 0 v) i 0).
Proof.
move=> hw hS hH; split; first by rewrite sesqE colvE (colS hS).
move=> x hx; rewrite /expectation !sesqE colvE (colS hS) (colH hS hH) divr1.
by apply: (ritz_low hS hH hw); rewrite -sesqE.
Qed.

(** The assumption on eigh can be met. *)
Lemma from_upper_herm N (A : 'M[C]_N) : adj (from_upper A) = from_upper A.
Proof.
apply/matrixP => i j; rewrite adj_ent !mxE; case: ltngtP => [lt|gt|/val_inj ->] //.
  by rewrite conjCK.
by rewrite (CrealP (Creal_Re _)).
Qed.

Lemma from_upper_id N (A : 'M[C]_N) : adj A = A -> from_upper A = A.
Proof.
move=> hA; apply/matrixP => i j; rewrite !mxE; case: ltngtP => // [lt|/val_inj ->].
  by rewrite -adj_ent hA.
have h : A j j \is Num.real by apply/CrealP; rewrite -adj_ent hA.
exact: (Creal_ReP _ h).
Qed.

Lemma adj_diag N (d : 'rV[C]_N) : (forall i, d 0 i \is Num.real) -> adj (diag_mx d) = diag_mx d.
Proof.
move=> hd; apply/matrixP => i j; rewrite adj_ent !mxE eq_sym; case: eqP => [->|_].
  by rewrite !mulr1n (CrealP (hd _)).
by rewrite !mulr0n conjC0.
Qed.

Lemma eig_sorted N (H : 'M[C]_N) : adj H = H -> exists (w : 'rV[C]_N) (v : 'M[C]_N),
  [/\ increasing w, orthonormal v & H *m v = v *m diag_mx w].
Proof.
move=> hH; have [U hU [d dr hd]] := spectral hH.
have [s hs] := sort_perm dr.
exists (\row_i d 0 (s i)), (\matrix_(i, j) U i (s j)); split.
- by move=> i j ij; rewrite !mxE; exact: hs.
- apply/matrixP => i j; have := congr1 (fun A : 'M_N => A (s i) (s j)) hU.
  rewrite !mxE (inj_eq perm_inj) => <-; apply: eq_bigr => k _; by rewrite !mxE.
- apply/matrixP => i j; have := congr1 (fun A : 'M_N => A i (s j)) hd.
  rewrite !mul_mx_diag !mxE => <-; by apply: eq_bigr => k _; rewrite !mxE.
Qed.

Lemma eig2_sorted N (H S : 'M[C]_N) : adj H = H -> adj S = S -> pos_def S ->
  exists (w : 'rV[C]_N) (v : 'M[C]_N),
  [/\ increasing w, adj v *m S *m v = 1%:M & H *m v = S *m v *m diag_mx w].
Proof.
move=> hH hS pS; have [d [U [_ hU hd]]] := eig_sorted hS.
have UU : adj U *m U = 1%:M := hU.
have dp i : 0 < d 0 i.
  have U0 : col i U != 0.
    apply/eqP => e; have := congr1 (fun A : 'M_N => A i i) UU.
    rewrite !mxE eqxx big1 => [/eqP|k _]; first by rewrite eq_sym oner_eq0.
    by have := congr1 (fun A : 'cV_N => A k 0) e; rewrite !mxE => ->; rewrite mulr0.
  have := pS _ U0; rewrite (_ : _ 0 0 = (adj U *m S *m U) i i).
    by rewrite -mulmxA hd mulmxA UU mul1mx !mxE eqxx mulr1n.
  rewrite !mxE; apply: eq_bigr => k _; rewrite !mxE; congr (_ * _).
  by apply: eq_bigr => l _; rewrite !mxE.
pose s : 'rV[C]_N := \row_i (sqrtC (d 0 i))^-1.
have sr i : s 0 i \is Num.real by rewrite mxE realV ger0_real // sqrtC_ge0 ltW.
pose X := U *m diag_mx s.
have XS : adj X *m (S *m X) = 1%:M.
  rewrite /X adjM (adj_diag sr) -mulmxA [S *m _]mulmxA hd !mulmxA -[_ *m adj U *m U]mulmxA UU mulmx1.
  apply/matrixP => i j; rewrite !mul_mx_diag !mxE; case: eqP => [->|_]; last by rewrite !mulr0n !mul0r.
  have r0 : sqrtC (d 0 j) != 0 by rewrite sqrtC_eq0 gt_eqF.
  rewrite !mulr1n -{2}[d 0 j]sqrtCK expr2 mulrA mulVf // mul1r divff //.
have aXu : adj X \in unitmx := (mulmx1_unit XS).1.
have SX : S *m X = invmx (adj X) by rewrite -[LHS](mulKmx aXu) XS mulmx1.
clearbody X; clear sr; pose K := adj X *m (H *m X).
have hK : adj K = K by rewrite /K adjM adjM TGreen_Proofs.adjK hH -mulmxA.
have [w [V [hw hV hVw]]] := eig_sorted hK.
exists w, (X *m V); split=> //.
- by rewrite adjM -!mulmxA [S *m _]mulmxA [adj X *m _]mulmxA XS mul1mx.
- rewrite [S *m _]mulmxA SX -[_ *m V *m _]mulmxA -hVw /K !mulmxA.
  by rewrite mulVmx // mul1mx.
Qed.

Lemma eigh_exists N (H : 'M[C]_N) : exists (w : 'rV[C]_N) (v : 'M[C]_N), [/\ increasing w, orthonormal v
  & from_upper H *m v = v *m diag_mx w].
Proof. exact: eig_sorted (from_upper_herm H). Qed.

Lemma eigh2_exists N (H S : 'M[C]_N) : pos_def (from_upper S) -> exists (w : 'rV[C]_N) (v : 'M[C]_N), [/\ increasing w,
  adj v *m from_upper S *m v = 1%:M & from_upper H *m v = from_upper S *m v *m diag_mx w].
Proof. exact: eig2_sorted (from_upper_herm H) (from_upper_herm S). Qed.
End Ritz.

(** The loops. *)
Lemma first_errE (A : Type) (l : seq (res A)) :
  first_err l = None <-> List.Forall (fun r => exists x, r = Ok x) l.
Proof.
elim: l => [|[x|e] l IH] /=; first by split.
- rewrite IH; split=> [h|h]; first by constructor => //; exists x.
  by inversion h.
- by split=> // h; inversion h as [|? ? [x hx]].
Qed.

Lemma mem_upper n (i j : 'I_n) : ((i, j) \in upper_pairs n) = (i <= j)%N.
Proof.
rewrite mem_filter /= andbC; case: (i <= j)%N; rewrite ?andbF // andbT.
by apply/allpairsP; exists (i, j); rewrite !mem_enum.
Qed.

Lemma first_err_map (A : Type) (T : eqType) (f : T -> res A) (l : seq T) :
  (forall p, p \in l -> exists x, f p = Ok x) -> first_err [seq f p | p <- l] = None.
Proof.
elim: l => //= p l IH h; have [x ->] := h p (mem_head _ _).
by apply: IH => q hq; apply: h; rewrite inE hq orbT.
Qed.

Lemma first_err_none (A : Type) (T : eqType) (f : T -> res A) (l : seq T) p :
  first_err [seq f p | p <- l] = None -> p \in l -> exists x, f p = Ok x.
Proof.
elim: l => //= q l IH; case E : (f q) => [x|e] // h.
by rewrite inE => /orP [/eqP -> |/(IH h)] //; exists x.
Qed.

Lemma first_err_only (A : Type) (T : eqType) (f : T -> res A) (l : seq T) p e0 :
  (forall q e, f q = Err e -> e = e0) -> p \in l -> f p = Err e0 ->
  first_err [seq f p | p <- l] = Some e0.
Proof.
move=> h; elim: l => //= q l IH; rewrite inE => hp fp.
case E : (f q) => [x|e]; last by rewrite (h q e E).
case/orP: hp => [/eqP e|hp]; first by move: fp; rewrite e E.
exact: IH.
Qed.

Section Fock75.
Variable C : numClosedFieldType.

(** Linearity of the operators. *)
Section Lin.
Variables (M N : nat) (A : 'I_N -> {set 'I_M}) (x : 'I_N -> C).

Definition lincomb (g : 'I_N -> state C M) : state C M := fun T => \sum_i x i * g i T.

Lemma create_lin p g T : create p (lincomb g) T = lincomb (fun i => create p (g i)) T.
Proof.
rewrite /create /lincomb; case: (p \in T); last by rewrite big1 // => i _; rewrite mulr0.
by rewrite mulr_sumr; apply: eq_bigr => i _; rewrite mulrCA.
Qed.

Lemma annihilate_lin p g T : annihilate p (lincomb g) T = lincomb (fun i => annihilate p (g i)) T.
Proof.
rewrite /annihilate /lincomb; case: (p \in T); first by rewrite big1 // => i _; rewrite mulr0.
by rewrite mulr_sumr; apply: eq_bigr => i _; rewrite mulrCA.
Qed.

Lemma create_ext p (f g : state C M) : f =1 g -> create p f =1 create p g.
Proof. by move=> h T; rewrite /create h. Qed.
Lemma annihilate_ext p (f g : state C M) : f =1 g -> annihilate p f =1 annihilate p g.
Proof. by move=> h T; rewrite /annihilate h. Qed.

Lemma one_body_lin h g T : Fock_Spec.one_body h (lincomb g) T = lincomb (fun i => Fock_Spec.one_body h (g i)) T.
Proof.
rewrite /Fock_Spec.one_body /lincomb.
under [RHS]eq_bigr do rewrite mulr_sumr.
rewrite [RHS]exchange_big /=; apply: eq_bigr => p _.
under [RHS]eq_bigr do rewrite mulr_sumr.
rewrite [RHS]exchange_big /=; apply: eq_bigr => q _.
rewrite (create_ext p (annihilate_lin q g)) create_lin /lincomb mulr_sumr.
by apply: eq_bigr => i _; rewrite mulrCA.
Qed.

Lemma two_body_lin half v g T :
  two_body half v (lincomb g) T = lincomb (fun i => two_body half v (g i)) T.
Proof.
rewrite /two_body /lincomb.
under [RHS]eq_bigr do rewrite mulrCA; rewrite -mulr_sumr; congr (_ * _).
under [RHS]eq_bigr do rewrite mulr_sumr.
rewrite [RHS]exchange_big /=; apply: eq_bigr => p _.
under [RHS]eq_bigr do rewrite mulr_sumr.
rewrite [RHS]exchange_big /=; apply: eq_bigr => q _.
under [RHS]eq_bigr do rewrite mulr_sumr.
rewrite [RHS]exchange_big /=; apply: eq_bigr => r _.
under [RHS]eq_bigr do rewrite mulr_sumr.
rewrite [RHS]exchange_big /=; apply: eq_bigr => s _.
have e1 : annihilate s (annihilate r (lincomb g))
    =1 lincomb (fun i => annihilate s (annihilate r (g i))).
  by move=> U; rewrite (annihilate_ext s (annihilate_lin r g)) annihilate_lin.
have e2 : create q (annihilate s (annihilate r (lincomb g)))
    =1 lincomb (fun i => create q (annihilate s (annihilate r (g i)))).
  by move=> U; rewrite (create_ext q e1) create_lin.
rewrite (create_ext p e2) create_lin /lincomb mulr_sumr.
by apply: eq_bigr => i _; rewrite mulrCA.
Qed.

Lemma hamiltonian_lin half e0 h v g T :
  hamiltonian half e0 h v (lincomb g) T = lincomb (fun i => hamiltonian half e0 h v (g i)) T.
Proof.
rewrite /hamiltonian one_body_lin two_body_lin /lincomb mulr_sumr -!big_split /=.
by apply: eq_bigr => i _; rewrite !mulrDr mulrCA.
Qed.

Lemma inner_comb (f : state C M) : inner (combination A x) f = \sum_i (x i)^* * f (A i).
Proof.
rewrite /inner /combination.
transitivity (\sum_T \sum_i (x i)^* * ((T == A i)%:R * f T)).
  apply: eq_bigr => T _; rewrite rmorph_sum mulr_suml; apply: eq_bigr => i _.
  by rewrite rmorphM /= /ket rmorph_nat mulrA.
rewrite exchange_big /=; apply: eq_bigr => i _.
rewrite (bigD1 (A i)) //= eqxx mul1r big1 ?addr0 // => T /negPf ->.
by rewrite mul0r mulr0.
Qed.

Lemma inner_norm : injective A -> inner (combination A x) (combination A x) = \sum_i `|x i| ^+ 2.
Proof.
move=> inj; rewrite inner_comb; apply: eq_bigr => i _; rewrite /combination (bigD1 i) //=.
rewrite /ket eqxx mulr1 big1 ?addr0; first by rewrite mulrC -normCK.
by move=> j hj; rewrite (inj_eq inj) eq_sym (negPf hj) mulr0.
Qed.

Lemma inner_op half e0 h v :
  inner (combination A x) (hamiltonian half e0 h v (combination A x))
  = sesq (fun i j => hamiltonian half e0 h v (ket C (A j)) (A i)) x x.
Proof.
rewrite inner_comb; apply: eq_bigr => i _.
rewrite (hamiltonian_lin half e0 h v (fun j => ket C (A j))) /lincomb mulr_sumr.
by apply: eq_bigr => j _; rewrite mulrA.
Qed.
End Lin.
End Fock75.
