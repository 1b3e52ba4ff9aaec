(* Proofs: mean-field shifts. *)

From Verif Require Import Base.
Set Warnings "-notation-overridden,-ambiguous-paths".
From mathcomp Require Import all_ssreflect all_algebra.
From Verif Require Import LEnergy_Model LEnergy_Proofs Reorder_Model Reorder_Spec Reorder_Proofs.
From Verif Require Import MFShift_Model MFShift_Spec.

Set Implicit Arguments.
Unset Strict Implicit.
Unset Printing Implicit Defensive.

Import Order.TTheory GRing.Theory Num.Theory.
Local Open Scope ring_scope.

Section RingFacts.
Variable K : Type.
Variables (z o : K) (ad mu sb : K -> K -> K) (op : K -> K).
Hypothesis Kth : ring_theory z o ad mu sb op (@eq K).
Add Ring Kring : Kth.

Lemma rf_gauss (h x y b : K) : ad h h = o ->
  ad (op (mu h x)) (sb y (mu h b)) = op (mu h (sb (sb x y) (sb y b))).
Proof.
move=> e; transitivity (ad (op (mu h x)) (sb (mu (ad h h) y) (mu h b))); last by ring.
by rewrite e; ring.
Qed.

Lemma rf_bias (h y b : K) : ad h h = o ->
  ad (op (sb y b)) (sb y (mu h b)) = mu h b.
Proof.
move=> e; transitivity (ad (op (sb y (mu (ad h h) b))) (sb y (mu h b))); last by ring.
by rewrite e; ring.
Qed.

Lemma rf_ij (i x y : K) : mu i i = op o ->
  ad (mu (mu i (ad x y)) (mu i (ad y x))) (mu (op (sb x y)) (op (sb y x)))
  = op (mu (ad o o) (ad (mu x x) (mu y y))).
Proof.
move=> e; transitivity (ad (mu (mu i i) (mu (ad x y) (ad y x))) (mu (op (sb x y)) (op (sb y x)))).
  by ring.
by rewrite e; ring.
Qed.

End RingFacts.

Section Square.
Variable C : numClosedFieldType.
Variable A : algType C.

Lemma square_shift (v : A) (m : C) :
  (v - m%:A) ^+ 2 = v ^+ 2 - (m *: v) *+ 2 + (m ^+ 2)%:A.
Proof.
rewrite expr2 mulrBl !mulrBr -!expr2 mulr_algl mulr_algr.
have -> : m%:A ^+ 2 = (m ^+ 2)%:A :> A by rewrite expr2 mulr_algl scalerA expr2.
by rewrite opprB mulr2n opprD !addrA [RHS]addrAC.
Qed.

Lemma half_half : 1 / 2%:R + 1 / 2%:R = 1 :> C.
Proof. by rewrite -mulr2n -mulr_natr mul1r mulVf // pnatr_eq0. Qed.

Lemma half_double (x : A) : (1 / 2%:R : C) *: (x *+ 2) = x.
Proof. by rewrite mulr2n scalerDr -scalerDl half_half scale1r. Qed.

Lemma completedE N (e : C) (h : A) (v : 'I_N -> A) (m : 'I_N -> C) :
  completed e h v m
  = (e - 1 / 2%:R * \sum_n m n ^+ 2)%:A + (h + \sum_n m n *: v n)
    - (1 / 2%:R) *: \sum_n v n ^+ 2.
Proof.
rewrite /completed (eq_bigr (fun n => v n ^+ 2 - (m n *: v n) *+ 2 + (m n ^+ 2)%:A));
  last by move=> n _; rewrite square_shift.
rewrite !big_split /= sumrN sumrMnl !scalerDr scalerN half_double.
rewrite -scaler_suml scalerA scalerBl !opprD opprK.
rewrite -!addrA; congr (_ + _); rewrite [RHS]addrCA; congr (_ + _).
by rewrite addrCA [RHS]addrCA; congr (_ + _); rewrite addrC.
Qed.

Lemma completed_right N (e : C) (h : A) (v : 'I_N -> A) (m : 'I_N -> C) :
  completed (e + 1 / 2%:R * \sum_n m n ^+ 2) (h - \sum_n m n *: v n) v m
  = e%:A + h - (1 / 2%:R) *: \sum_n v n ^+ 2.
Proof. by rewrite completedE addrK subrK. Qed.

End Square.

Section Fields.
Variable C : numClosedFieldType.

Lemma dotE N (x y : 'cV[C]_N) : dot x y = sprod x y.
Proof. by []. Qed.

Lemma dot_unit N (n : 'I_N) (y : 'cV[C]_N) : dot (unit_field C n) y = y n 0.
Proof.
rewrite /dot (bigD1 n) //= big1 => [|i ne]; rewrite /unit_field !mxE ?eqxx ?mul1r ?addr0 //.
by rewrite (negbTE ne) mul0r.
Qed.

Lemma dot_lin N (y : 'cV[C]_N) : linear_fields (fun x => dot x y : C^o).
Proof. by move=> x; rewrite [LHS]/dot; apply: eq_bigr => n _; rewrite dot_unit. Qed.

Lemma dot0 N (y : 'cV[C]_N) : dot 0 y = 0.
Proof. by rewrite /dot big1 // => i _; rewrite mxE mul0r. Qed.
Lemma dotC N (x y : 'cV[C]_N) : dot x y = dot y x.
Proof. by apply: eq_bigr => i _; rewrite mulrC. Qed.
Lemma dotDl N (x y z : 'cV[C]_N) : dot (x + y) z = dot x z + dot y z.
Proof. by rewrite /dot -big_split /=; apply: eq_bigr => i _; rewrite mxE mulrDl. Qed.
Lemma dotZl N a (x z : 'cV[C]_N) : dot (a *: x) z = a * dot x z.
Proof. by rewrite /dot mulr_sumr; apply: eq_bigr => i _; rewrite mxE mulrA. Qed.
Lemma dotNl N (x z : 'cV[C]_N) : dot (- x) z = - dot x z.
Proof. by rewrite -scaleN1r dotZl mulN1r. Qed.
Lemma dotBl N (x y z : 'cV[C]_N) : dot (x - y) z = dot x z - dot y z.
Proof. by rewrite dotDl dotNl. Qed.
Lemma dotZr N a (x z : 'cV[C]_N) : dot x (a *: z) = a * dot x z.
Proof. by rewrite dotC dotZl dotC. Qed.
Lemma dotBr N (x y z : 'cV[C]_N) : dot x (y - z) = dot x y - dot x z.
Proof. by rewrite dotC dotBl ![dot _ x]dotC. Qed.

Lemma bound0 N (bd : C) : bound bd 0 = 0 :> 'cV[C]_N.
Proof. by apply/colP => i; rewrite !mxE mul0r if_same. Qed.

Lemma two_body_plain M N (p : cont C M N) s bd x G :
  two_body_propagator p s bd false x G = (- s * dot x (c_shift p), 0, x, c_VHS p x).
Proof. by rewrite /two_body_propagator bound0 subr0 [dot x 0]dotC !dot0 mulr0 subr0. Qed.

(* The bias. *)
Lemma two_body_same M N (p : cont C M N) s bd fb x G :
  let '(cmf, cfb, y, V) := two_body_propagator p s bd fb x G in
  cmf = (two_body_propagator p s bd false y G).1.1.1
  /\ V = (two_body_propagator p s bd false y G).2.
Proof. by rewrite /= !bound0 subr0. Qed.

Lemma two_body_gauss M N (p : cont C M N) s bd fb x G :
  let '(cmf, cfb, y, V) := two_body_propagator p s bd fb x G in
  - (1 / 2%:R * sprod x x) + cfb = - (1 / 2%:R * sprod y y).
Proof.
rewrite /two_body_propagator /=; set b := bound _ _.
rewrite -!dotE dotBl !dotBr [dot b x]dotC /half.
exact: (rf_gauss (comring_th C) _ _ _ (half_half C)).
Qed.

(* The bias and the factors of a walker. *)
Lemma two_body_bias M N (p : cont C M N) s bd x G :
  (forall i, `|c_bias p G i 0| <= bd) ->
  (forall y, trace2 (c_VHS p y) G - s * dot y (c_shift p) = - dot y (c_bias p G)) ->
  let '(cmf, cfb, y, V) := two_body_propagator p s bd true x G in
  trace2 V G + cmf + cfb = 1 / 2%:R * sprod (c_bias p G) (c_bias p G).
Proof.
move=> small E; rewrite /two_body_propagator /=.
have -> : bound bd (c_bias p G) = c_bias p G.
  apply/colP => i; rewrite mxE; case: ifP => // lt.
  by have := lt_le_trans lt (small i); rewrite ltxx.
rewrite mulNr E -dotE dotBl /half.
exact: (rf_bias (comring_th C) _ _ (half_half C)).
Qed.

End Fields.

Section Step.
Variable C : numClosedFieldType.
Variable A : algType C.
Variable M : nat.
Variables cd c : 'I_M -> bool -> A.
Notation obop x := (one_body_op cd c (by_spin x)).
Notation op := (op cd c).
Notation mat2 := ('M[C]_M * 'M[C]_M)%type.

Lemma obop_same (X : 'M[C]_M) : obop (X, X) = op X.
Proof. by apply: one_body_ext; case. Qed.
Lemma obopB (h : mat2) (X : 'M[C]_M) : obop (h.1 - X, h.2 - X) = obop h - op X.
Proof.
rewrite -opN -one_body_add; apply: one_body_ext; by case.
Qed.

Definition step_op N (p : cont C M N) s bd G : A :=
  of_step cd c s (c_core p) (c_one p)
    (fun x => (two_body_propagator p s bd false x G).2)
    (fun x => (two_body_propagator p s bd false x G).1.1.1).

Lemma step_completed N (p : cont C M N) s bd G (v : 'I_N -> A) : s != 0 ->
  (forall n, obop (c_VHS p (unit_field C n)) = s *: v n) ->
  step_op p s bd G = completed (c_core p) (obop (c_one p)) v (fun n => c_shift p n 0).
Proof.
move=> s0 E; rewrite /step_op /of_step /completed; congr (_ - _ *: _).
apply: eq_bigr => n _; rewrite !two_body_plain /= E dot_unit.
by rewrite scalerA mulVf // scale1r mulNr mulrN opprK mulKf.
Qed.

Lemma step_right N (p : cont C M N) s bd G (v : 'I_N -> A) e h : s != 0 ->
  (forall n, obop (c_VHS p (unit_field C n)) = s *: v n) ->
  c_core p = e + half C * dot (c_shift p) (c_shift p) ->
  obop (c_one p) = h - \sum_n c_shift p n 0 *: v n ->
  step_op p s bd G = e%:A + h - (1 / 2%:R) *: \sum_n v n ^+ 2.
Proof.
move=> s0 E ec hc; rewrite (step_completed _ _ s0 E) ec hc.
rewrite -(completed_right e h v (fun n => c_shift p n 0)).
by congr (completed _ _ _ _); congr (_ + _ * _).
Qed.

Section Generic.
Variable naux : nat.
Variable chol : 'M[C]_(M * M, naux).
Notation L n := (chol_mx chol n).

Lemma potE x : pot chol x = \sum_n x n 0 *: L n.
Proof.
by apply/matrixP => p r; rewrite mxE mxE mxE summxE; apply: eq_bigr => n _;
  rewrite [RHS]mxE mxE mulrC.
Qed.
Lemma pot_unit n : pot chol (unit_field C n) = L n.
Proof.
rewrite potE (bigD1 n) //= big1 => [|i ne]; rewrite /unit_field mxE ?eqxx ?scale1r ?addr0 //.
by rewrite (negbTE ne) scale0r.
Qed.
Lemma pot_op x : op ('i *: pot chol x) = \sum_n x n 0 *: ('i *: op (L n)).
Proof.
rewrite opZ potE op_sum scaler_sumr; apply: eq_bigr => n _.
by rewrite opZ !scalerA mulrC.
Qed.
Lemma VHS_generic_unit s n : obop (VHS_generic chol s (unit_field C n)) = s *: ('i *: op (L n)).
Proof. by rewrite obop_same opZ pot_unit scalerA mulrC. Qed.

Lemma squares_i : - ((1 / 2%:R) *: \sum_n ('i *: op (L n)) ^+ 2)
  = (1 / 2%:R) *: \sum_n op (L n) ^+ 2.
Proof.
rewrite -scalerN -sumrN; congr (_ *: _); apply: eq_bigr => n _.
by rewrite expr2 -scalerAl -scalerAr scalerA -expr2 sqrCi scaleN1r opprK expr2.
Qed.

Lemma step_generic s bd e h G mf bias : s != 0 ->
  step_op (MkCont mf (core_generic e mf) (one_body_generic chol h mf) (VHS_generic chol s) bias)
    s bd G
  = e%:A + obop h + (1 / 2%:R) *: \sum_n op (L n) ^+ 2.
Proof.
move=> s0; rewrite (step_right (v := fun n => 'i *: op (L n)) (e := e) (h := obop h) bd G s0) //=.
- by rewrite squares_i.
- by move=> n; rewrite VHS_generic_unit.
by rewrite obopB pot_op.
Qed.

Lemma electrons_op : electrons cd c = op 1%:M.
Proof.
have -> : 1%:M = \sum_(p < M) delta_mx p p :> 'M[C]_M.
  rewrite -diag_const_mx diag_mx_sum_delta; apply: eq_bigr => p _.
  by rewrite mxE scale1r.
rewrite op_sum; apply: eq_bigr => p _.
by rewrite op_site big_bool addrC.
Qed.
Lemma op_scalar a : op a%:M = a *: electrons cd c.
Proof. by rewrite electrons_op -opZ scalemx1. Qed.

Lemma t_generic_right s e mu h G bd G' : s != 0 ->
  exists p, t_generic chol s e mu h true G = Ok p /\
  step_op p s bd G' = e%:A + (obop h - mu *: electrons cd c) + (1 / 2%:R) *: \sum_n op (L n) ^+ 2.
Proof.
move=> s0; eexists; split; first by [].
rewrite (step_right (v := fun n => 'i *: op (L n)) (e := e)
  (h := obop h - mu *: electrons cd c) bd G' s0) //=.
- by rewrite squares_i.
- by move=> n; rewrite VHS_generic_unit.
rewrite obopB opD pot_op op_scalar opprD addrA addrAC; congr (_ - _).
Qed.
End Generic.

Section Hubbard.
Variables (s U : C).
Notation iu := ('i * sqrtC U).
Notation n p := (\sum_sg number cd c p sg).

Lemma diag_op (d : 'rV[C]_M) : op (diag_mx d) = \sum_p d 0 p *: n p.
Proof.
rewrite diag_mx_sum_delta op_sum; apply: eq_bigr => p _.
by rewrite opZ op_site.
Qed.

Lemma diag_unit a p : op (diag_mx (\row_i (a * unit_field C p i 0))) = a *: n p.
Proof.
rewrite diag_op (bigD1 p) //= [X in _ + X]big1 => [|i ne]; rewrite /unit_field !mxE ?eqxx ?mulr1 ?addr0 //.
by rewrite (negbTE ne) mulr0 scale0r.
Qed.

Lemma squares_u : - ((1 / 2%:R) *: \sum_p (iu *: n p) ^+ 2) = \sum_p (1 / 2%:R * U) *: n p ^+ 2.
Proof.
rewrite scaler_sumr -sumrN; apply: eq_bigr => p _.
rewrite expr2 -scalerAl -scalerAr !scalerA -expr2 -scaleNr; congr (_ *: _).
by rewrite -mulrA -[iu * iu]expr2 exprMn sqrCi sqrtCK mulN1r mulrN opprK.
Qed.

Lemma step_hubbard bd h G G' : s != 0 ->
  step_op (hubbard s U h G) s bd G' = obop h + \sum_p (1 / 2%:R * U) *: n p ^+ 2.
Proof.
move=> s0; rewrite (step_right (v := fun p => iu *: n p) (e := 0) (h := obop h) bd G' s0) //=.
- by rewrite squares_u scale0r add0r.
- move=> p; rewrite obop_same diag_unit !scalerA; congr (_ *: _).
- by rewrite add0r.
rewrite obopB opZ diag_op scaler_sumr; congr (_ - _); apply: eq_bigr => p _.
by rewrite !scalerA mulrC mxE.
Qed.

Lemma step_t_hubbard alt mu bd h G G' : s != 0 ->
  step_op (t_hubbard s U alt mu h G) s bd G'
  = obop h + ((if alt then 1 else -1) * mu) *: electrons cd c
    + \sum_p (1 / 2%:R * U) *: n p ^+ 2.
Proof.
move=> s0.
rewrite (step_right (v := fun p => iu *: n p) (e := 0)
  (h := obop h + ((if alt then 1 else -1) * mu) *: electrons cd c) bd G' s0) //=.
- by rewrite squares_u scale0r add0r.
- move=> p; rewrite obop_same diag_unit !scalerA; congr (_ *: _).
- by rewrite add0r.
rewrite obopB opD opN opZ diag_op op_scalar opprB addrA scaler_sumr; congr (_ - _).
apply: eq_bigr => p _.
by rewrite !scalerA mulrC mxE.
Qed.

End Hubbard.
End Step.

(* Series in the square root of the time step. *)
Section Series.
Variable C : numClosedFieldType.
Variable A : algType C.

Lemma expXn (b : A) d i : (b *: 'X^d) ^+ i = b ^+ i *: 'X^(d * i).
Proof.
rewrite -!mul_polyC exprMn_comm; last exact: commr_polyXn.
by rewrite -exprM polyC_exp.
Qed.

Lemma texp_coef K (b : A) d i :
  (texp K (b *: 'X^d))`_i
  = \sum_(j < K.+1) if i == (d * j)%N then (j`!%:R : C)^-1 *: b ^+ j else 0.
Proof.
rewrite /texp coef_sum; apply: eq_bigr => j _.
rewrite expXn !coefZ coefXn -scalerAl mul1r; case: ifP => _; first by rewrite mulr1.
by rewrite mulr0 scaler0.
Qed.

Lemma texp1 k (b : A) i : (i <= k)%N ->
  (texp k (b *: 'X))`_i = (i`!%:R : C)^-1 *: b ^+ i.
Proof.
move=> le; rewrite -[X in texp k (b *: X)]expr1 texp_coef.
rewrite (bigD1 (Ordinal (le : (i < k.+1)%N))) //= mul1n eqxx big1 ?addr0 // => j ne.
rewrite mul1n; case: eqP => // e; case/eqP: ne; exact: val_inj.
Qed.

Lemma texp2 K (b : A) i : (3 <= K)%N -> (i < 4)%N ->
  (texp K (b *: 'X^2))`_i = [:: 1; 0; b; 0]`_i.
Proof.
case: K => [|[|[|K]]] // _ lt; rewrite texp_coef !big_ord_recl big1 ?addr0 => [|j _].
  by case: i lt => [|[|[|[|i]]]] //= _; rewrite ?fact0 ?expr0 ?expr1 ?invr1 ?scale1r ?addr0 ?add0r.
by rewrite /= /bump /=; case: eqP => // e; move: lt; rewrite e.
Qed.

Lemma cube_shift (v : A) (m : C) :
  (v - m%:A) ^+ 3 = v ^+ 3 - (m *: v ^+ 2) *+ 3 + (m ^+ 2 *: v) *+ 3 - (m ^+ 3)%:A.
Proof.
rewrite exprS square_shift mulrBl mulr_algl !mulrDr mulrN -exprS mulrnAr.
rewrite -scalerAr -expr2 mulr_algr !scalerDr scalerN -scalerMnr !scalerA -expr2 -exprS.
rewrite !opprD opprK.
set a := v ^+ 3; set b := m *: v ^+ 2; set d := m ^+ 2 *: v; set e := _%:A.
rewrite [d *+ 3]mulrS mulr2n !addrA; congr (_ - _); congr (_ + _ + _).
by rewrite addrAC.
Qed.

Lemma cube_shift2 (v : A) (m : C) :
  (v - m%:A) ^+ 3 = v ^+ 3 - (3%:R * m) *: v ^+ 2 + (3%:R * m ^+ 2) *: v - (m ^+ 3)%:A.
Proof. by rewrite cube_shift -!scaler_nat !scalerA. Qed.

Lemma fact_inv2 : (2`!%:R : C)^-1 = 1 / 2%:R.
Proof. by rewrite mul1r. Qed.
Lemma half_sixth : (1 / 2%:R : C) = (3`!%:R)^-1 * 3%:R.
Proof.
by rewrite mul1r (_ : 3`! = (2 * 3)%N) // natrM invfM mulfVK // pnatr_eq0.
Qed.

Section OneStep.
Variable N : nat.
Variables (K k : nat) (h : A) (v : 'I_N -> A) (m : 'I_N -> C).
Hypothesis K3 : (3 <= K)%N.
Hypothesis k3 : (3 <= k)%N.
Let w n := v n - (m n)%:A.
Let ws (x : 'I_N -> C) := \sum_n x n *: w n.

Lemma wsE x : ws x = \sum_n x n *: v n - (\sum_n x n * m n)%:A.
Proof.
rewrite scaler_suml -sumrB; apply: eq_bigr => n _.
by rewrite scalerBr scalerA.
Qed.

Lemma fieldpart x i : (i < 4)%N ->
  (texp K ((- \sum_n x n * m n)%:A *: 'X) * texp k ((\sum_n x n *: v n) *: 'X))`_i
  = (i`!%:R : C)^-1 *: ws x ^+ i.
Proof.
move=> lt; rewrite coefM wsE; set mu := \sum_n _ * _; set y := \sum_n _ *: _.
have P j : (- mu)%:A ^+ j = ((- mu) ^+ j)%:A :> A.
  by elim: j => [|j IH]; rewrite ?expr0 ?scale1r // !exprS IH mulr_algl scalerA.
have Q j l : (j <= 3)%N -> (l <= 3)%N ->
  (texp K ((- mu)%:A *: 'X))`_j * (texp k (y *: 'X))`_l
  = ((j`!%:R : C)^-1 * (- mu) ^+ j * (l`!%:R : C)^-1) *: y ^+ l.
  move=> a b; rewrite !texp1 ?(leq_trans _ k3) ?(leq_trans _ K3) // P.
  by rewrite scalerA -scalerAl mul1r scalerA.
case: i lt => [|[|[|[|i]]]] // _; rewrite !big_ord_recl big_ord0 /= !Q //.
- by rewrite !expr0 fact0 !invr1 !mul1r addr0.
- rewrite !expr0 !expr1 !invr1 !mul1r !mulr1 !scale1r addr0.
  by rewrite scaleNr.
- rewrite square_shift !expr0 !expr1 !invr1 !mul1r !mulr1 !addr0 scalerDr scalerBr.
  rewrite [in RHS]fact_inv2 half_double -[1 / _]fact_inv2 sqrrN scalerA.
  by rewrite addrA scaleNr.
rewrite cube_shift2 !expr0 !expr1 !invr1 !mul1r !mulr1 !addr0 !scalerDr !scalerN.
rewrite sqrrN !(scalerA, mulr1) ![_ * (3%:R * _)]mulrA -half_sixth -fact_inv2.
rewrite !addrA mulNr scaleNr [mu / _]mulrC; congr (_ - _ + _ + _).
by rewrite exprNn -signr_odd /= expr1 mulN1r mulrN scaleNr.
Qed.

Lemma one_step_coef x i : (i < 4)%N ->
  (one_step K k h v m x)`_i
  = [:: 1; ws x; (1 / 2%:R) *: ws x ^+ 2 - h;
        (3`!%:R : C)^-1 *: ws x ^+ 3 - (1 / 2%:R) *: (h * ws x + ws x * h)]`_i.
Proof.
move=> lt; rewrite /one_step.
have E j : (j < 4)%N ->
  (texp K ((- (1 / 2%:R : C))%:A *: (h *: 'X^2)))`_j = [:: 1; 0; - ((1 / 2%:R : C) *: h); 0]`_j.
  by move=> lj; rewrite scalerA mulr_algl texp2 ?scaleNr.
set f := texp K _ in E *.
have F j : (j < 4)%N -> (f * texp K ((- \sum_n x n * m n)%:A *: 'X)
   * texp k ((\sum_n x n *: v n) *: 'X))`_j
  = [:: 1; ws x; (1 / 2%:R) *: ws x ^+ 2 - (1 / 2%:R) *: h;
        (3`!%:R : C)^-1 *: ws x ^+ 3 - (1 / 2%:R) *: (h * ws x)]`_j.
  move=> lj; rewrite -mulrA coefM.
  case: j lj => [|[|[|[|j]]]] // _; rewrite !big_ord_recl big_ord0 /= !E // !fieldpart //=.
  - by rewrite expr0 fact0 invr1 scale1r !mul1r addr0.
  - by rewrite expr0 expr1 !invr1 !scale1r !mul1r mul0r !addr0.
  - by rewrite expr0 expr1 !invr1 !scale1r !mul1r mul0r add0r addr0 mulr1 fact_inv2.
  by rewrite expr0 expr1 !invr1 !scale1r !mul1r !mul0r !add0r !addr0 mulNr -scalerAl.
rewrite coefM; case: i lt => [|[|[|[|i]]]] // _;
  rewrite !big_ord_recl big_ord0 /= !E // !F //=.
- by rewrite mul1r addr0.
- by rewrite mulr1 mulr0 add0r addr0.
- rewrite mulr0 mulr1 [1 * - _]mul1r add0r addr0 addrC -addrA; congr (_ + _).
  by rewrite -opprD -scalerDl half_half scale1r.
rewrite mulr0 mulr1 mulr0 add0r addr0 add0r mulrN -scalerAr addrC -addrA.
by rewrite -opprD -scalerDr.
Qed.

Section Average.
Variable D : seq (C * ('I_N -> C)).
Hypothesis nD : like_normal D.

Lemma avg1 : \sum_(d <- D) d.1 *: ws d.2 = 0.
Proof.
under eq_bigr => d _ do rewrite scaler_sumr.
rewrite exchange_big big1 //= => n _.
under eq_bigr => d _ do rewrite scalerA.
by rewrite -scaler_suml (ln1 nD) scale0r.
Qed.

Lemma avg2 : \sum_(d <- D) d.1 *: ws d.2 ^+ 2 = \sum_n w n ^+ 2.
Proof.
transitivity (\sum_(d <- D) \sum_i \sum_j (d.1 * (d.2 i * d.2 j)) *: (w i * w j)).
  apply: eq_bigr => d _; rewrite expr2 mulr_suml scaler_sumr; apply: eq_bigr => i _.
  rewrite mulr_sumr scaler_sumr; apply: eq_bigr => j _.
  by rewrite -scalerAl -scalerAr !scalerA mulrA.
rewrite exchange_big; apply: eq_bigr => i _.
rewrite exchange_big (bigD1 i) //= [X in _ + X]big1 => [|j ne].
  by rewrite -scaler_suml (ln2 nD) eqxx scale1r addr0 expr2.
by rewrite -scaler_suml (ln2 nD) eq_sym (negbTE ne) scale0r.
Qed.

Lemma avg3 : \sum_(d <- D) d.1 *: ws d.2 ^+ 3 = 0.
Proof.
transitivity (\sum_(d <- D) \sum_i \sum_j \sum_l
  (d.1 * (d.2 i * d.2 j * d.2 l)) *: (w i * w j * w l)).
  apply: eq_bigr => d _; rewrite exprS expr2 mulr_suml scaler_sumr; apply: eq_bigr => i _.
  rewrite mulr_suml mulr_sumr scaler_sumr; apply: eq_bigr => j _.
  rewrite !mulr_sumr scaler_sumr; apply: eq_bigr => l _.
  by rewrite -!(scalerAl, scalerAr) !scalerA !mulrA.
rewrite exchange_big big1 //= => i _; rewrite exchange_big big1 //= => j _.
rewrite exchange_big big1 //= => l _.
by rewrite -scaler_suml (ln3 nD) scale0r.
Qed.

Lemma average_coef i : (i < 4)%N ->
  (\sum_(d <- D) d.1%:A *: one_step K k h v m d.2)`_i
  = [:: 1; 0; - completed 0 h v m; 0]`_i.
Proof.
move=> lt; rewrite coef_sum.
transitivity (\sum_(d <- D) d.1 *: (one_step K k h v m d.2)`_i).
  by apply: eq_bigr => d _; rewrite coefZ mulr_algl.
under eq_bigr => d _ do rewrite one_step_coef //.
case: i lt => [|[|[|[|i]]]] // _ /=.
- by rewrite -scaler_suml (ln0 nD) scale1r.
- exact: avg1.
- under eq_bigr => d _ do rewrite scalerBr scalerA mulrC -scalerA.
  rewrite sumrB -scaler_sumr avg2 -scaler_suml (ln0 nD) scale1r.
  by rewrite /completed scale0r add0r opprB.
transitivity ((3`!%:R : C)^-1 *: (\sum_(d <- D) d.1 *: ws d.2 ^+ 3)
  - (1 / 2%:R) *: (h * (\sum_(d <- D) d.1 *: ws d.2) + (\sum_(d <- D) d.1 *: ws d.2) * h)).
  rewrite mulr_sumr mulr_suml -big_split /= !scaler_sumr -sumrB; apply: eq_bigr => d _.
  by rewrite scalerBr -scalerAr -scalerAl -scalerDr !scalerA ![d.1 * _]mulrC.
by rewrite avg3 avg1 mulr0 mul0r addr0 !scaler0 subr0.
Qed.

End Average.
End OneStep.
End Series.

(* Fields of this kind: a single field is on, with strength plus or minus the
   square root of the number of fields. *)
Section Points.
Variable C : numClosedFieldType.
Variable N : nat.

Definition points : seq (C * ('I_N.+1 -> C)) :=
  [seq ((2%:R * N.+1%:R)^-1, fun j => (j == i)%:R * ((-1) ^+ b * sqrtC N.+1%:R))
    | i <- enum 'I_N.+1, b <- [:: 1%N; 0%N]].

Lemma sum_points (f : C -> ('I_N.+1 -> C) -> C) :
  \sum_(d <- points) f d.1 d.2
  = \sum_i (f (2%:R * N.+1%:R)^-1 (fun j => (j == i)%:R * (- sqrtC N.+1%:R))
            + f (2%:R * N.+1%:R)^-1 (fun j => (j == i)%:R * sqrtC N.+1%:R)).
Proof.
rewrite big_allpairs_dep big_enum; apply: eq_bigr => i _.
by rewrite !big_cons big_nil /= addr0 expr1 expr0 mulN1r mul1r.
Qed.

Lemma points_normal : like_normal points.
Proof.
have n0 : (N.+1%:R : C) != 0 by rewrite pnatr_eq0.
have t0 : (2%:R : C) != 0 by rewrite pnatr_eq0.
split.
- rewrite (sum_points (fun a _ => a)) sumr_const card_ord -mulr2n -mulrnA.
  by rewrite -[LHS]mulr_natr natrM mulVf // mulf_neq0.
- move=> i; rewrite (sum_points (fun a x => a * x i)) big1 // => j _.
  by rewrite mulrN mulrN addrC subrr.
- move=> i j; rewrite (sum_points (fun a x => a * (x i * x j))).
  under eq_bigr => l _ do rewrite !(mulrN, mulNr) opprK -mulr2n.
  case: (i =P j) => [<-|ne].
    rewrite (bigD1 i) //= eqxx !mul1r big1 => [|l ne].
      by rewrite addr0 -expr2 sqrtCK invfM mulfVK // -[LHS]mulr_natr mulVf.
    by rewrite eq_sym (negbTE ne) !mul0r mulr0 mul0rn.
  rewrite big1 // => l _; case: (i =P l) => [e|_]; last by rewrite !mul0r mulr0 mul0rn.
  by case: (j =P l) => [e'|_]; [case: ne; rewrite e e'|rewrite mul0r !mulr0 mul0rn].
- move=> i j l; rewrite (sum_points (fun a x => a * (x i * x j * x l))) big1 // => n _.
  by rewrite !(mulrN, mulNr) opprK addrC subrr.
Qed.

End Points.

(* The spin decomposition of the Hubbard model. *)
Section Spin.
Variable C : numClosedFieldType.
Variable A : algType C.
Variable M : nat.
Variables cd c : 'I_M -> bool -> A.
Hypothesis H : car cd c.
Notation obop x := (one_body_op cd c (by_spin x)).
Notation num := (number cd c).

Lemma number_sq p s : num p s ^+ 2 = num p s.
Proof.
rewrite expr2 /number -mulrA [c p s * (_ * _)]mulrA.
have -> : c p s * cd p s = 1 - cd p s * c p s.
  have := car_cd H p s p s; rewrite !eqxx /= => E.
  by rewrite -[1 in RHS]/(1%:R) -E addrK.
by rewrite mulrBl mul1r mulrBr !mulrA (cd_sq H) !mul0r subr0.
Qed.

Lemma number_swap p : num p true * num p false = num p false * num p true.
Proof.
have N s t : s != t -> num p s * num p t = cd p s * cd p t * c p t * c p s.
  by move=> ne; rewrite /number (reorder4 H) (negbTE ne) andbF scale0r add0r.
rewrite !N // -[LHS]mulrA -[RHS]mulrA.
have -> : cd p true * cd p false = - (cd p false * cd p true).
  by apply/eqP; rewrite -subr_eq0 opprK (car_dd H).
have -> : c p false * c p true = - (c p true * c p false).
  by apply/eqP; rewrite -subr_eq0 opprK (car_cc H).
by rewrite mulrNN.
Qed.

Lemma number_neq0 p s : num p s != 0.
Proof.
apply/eqP => E; have := number_comm H p s p s; rewrite E mul0r mulr0 subr0 !eqxx mul1r.
by move=> e; have := cd_neq0 H p s; rewrite -e eqxx.
Qed.

Lemma spin_square p :
  (num p true - num p false) ^+ 2
  = num p false + num p true - (num p false * num p true) *+ 2.
Proof.
rewrite expr2 mulrBl !mulrBr -!expr2 !number_sq number_swap opprB addrA.
by rewrite mulr2n opprD addrA [num p false + num p true]addrC; congr (_ - _); rewrite addrAC.
Qed.

Lemma diag_spin (d e : 'rV[C]_M) :
  obop (diag_mx d, diag_mx e) = \sum_p (d 0 p *: num p false + e 0 p *: num p true).
Proof.
have D (x : 'rV[C]_M) s : \sum_p \sum_r (diag_mx x) p r *: (cd p s * c r s)
    = \sum_p x 0 p *: num p s.
  apply: eq_bigr => p _; rewrite (bigD1 p) //= [X in _ + X]big1 => [|q ne].
    by rewrite mxE eqxx mulr1n addr0.
  by rewrite mxE eq_sym (negbTE ne) mulr0n scale0r.
by rewrite /one_body_op big_bool /= !D addrC -big_split.
Qed.

Lemma step_spin (s U : C) bd H1 G G' : s != 0 ->
  step_op cd c (hubbard_spin s U (s * sqrtC U) H1 G) s bd G'
  = obop H1 + \sum_p U *: (num p false * num p true)
    - (2%:R * U) *: \sum_p (G.1 p p - G.2 p p) *: num p false.
Proof.
move=> s0.
rewrite (@step_completed _ _ _ _ _ _ _ _ _ _ (fun p => sqrtC U *: (num p true - num p false)) s0)
  => [|p]; last first.
  rewrite diag_spin (bigD1 p) //= [X in _ + X]big1 => [|i ne]; rewrite /unit_field !mxE.
    rewrite !eqxx !mulr1 addr0 scaleNr addrC -scalerBr scalerA //.
  by rewrite (negbTE ne) !mulr0 !scale0r addr0.
rewrite completedE /=.
have -> : half C * dot (shift_spin U G) (shift_spin U G)
  - 1 / 2%:R * (\sum_n shift_spin U G n 0 ^+ 2) = 0 by rewrite /half /dot subrr.
rewrite scale0r add0r.
have -> : obop (H1.1 + (half C * U) *: 1%:M - sqrtC U *: diag_mx (shift_spin U G)^T,
                H1.2 + (half C * U) *: 1%:M - sqrtC U *: diag_mx (shift_spin U G)^T)
  = obop H1 + \sum_p (1 / 2%:R * U - U * (G.1 p p - G.2 p p)) *: (num p false + num p true).
  have -> : obop H1 = obop (H1.1, H1.2) by case: (H1).
  rewrite -!addrA; set X := (half C * U) *: 1%:M - _.
  have -> : obop (H1.1 + X, H1.2 + X) = obop (H1.1, H1.2) + op cd c X.
    by rewrite -one_body_add; apply: one_body_ext; case.
  congr (_ + _); rewrite /X scalemx1 opD opN opZ op_scalar diag_op scaler_sumr /electrons scaler_sumr.
  rewrite -sumrB; apply: eq_bigr => p _.
  rewrite big_bool /= [num p true + _]addrC scalerBl scalerA !mxE; congr (_ *: _ - _ *: _).
  by rewrite mulrA -expr2 sqrtCK.
rewrite -!addrA; congr (_ + _).
rewrite !scaler_sumr -!sumrB -!big_split /=; apply: eq_bigr => p _.
rewrite !mxE; set m := G.1 p p + _; set a := num p false; set b := num p true.
have -> : (sqrtC U *: (b - a)) ^+ 2 = U *: (a + b - (a * b) *+ 2).
  by rewrite expr2 -scalerAl -scalerAr scalerA -expr2 sqrtCK -expr2 spin_square.
have -> : (sqrtC U * m) *: (sqrtC U *: (b - a)) = (U * m) *: (b - a).
  by rewrite scalerA mulrAC -expr2 sqrtCK.
have -> : (1 / 2%:R) *: (U *: (a + b - (a * b) *+ 2))
    = (1 / 2%:R * U) *: (a + b) - U *: (a * b).
  by rewrite [U *: _]scalerBr scalerBr -scalerMnr half_double scalerA.
have -> : (2%:R * U) *: (m *: a) = (U * m) *: (a + b) - (U * m) *: (b - a).
  by rewrite -scalerBr opprB addrACA subrr addr0 -mulr2n -scaler_nat !scalerA -mulrA mulrC.
rewrite scalerBl; move: (_ *: (a + b)) (_ *: (a + b)) (_ *: (b - a)) (U *: (a * b)) => x y u t.
rewrite !opprB [u + _]addrA [x - y]addrC addrACA subrr addr0.
by rewrite addrC [u + t]addrC -addrA.
Qed.

Lemma step_spin_wrong (s U : C) bd H1 G' (i : 'I_M) : s != 0 -> U != 0 ->
  exists G, step_op cd c (hubbard_spin s U (s * sqrtC U) H1 G) s bd G'
    <> obop H1 + \sum_p U *: (num p false * num p true).
Proof.
move=> s0 U0; exists (delta_mx i i, 0) => /eqP.
rewrite step_spin // -subr_eq0 addrAC subrr add0r oppr_eq0 (bigD1 i) //= big1 => [|j ne].
  rewrite !mxE !eqxx subr0 scale1r addr0 scaler_eq0 (negbTE (number_neq0 _ _)) orbF.
  by rewrite mulf_eq0 (negbTE U0) orbF pnatr_eq0.
by rewrite !mxE (negbTE ne) subr0 scale0r.
Qed.

End Spin.

(* The electron gas. *)
Section PlaneWave.
Variable C : numClosedFieldType.
Variable A : algType C.
Variable M : nat.
Variables cd c : 'I_M -> bool -> A.
Notation obop x := (one_body_op cd c (by_spin x)).
Notation op := (op cd c).
Variable V : zmodType.
Variables s pi vol : C.
Variable norm2 : V -> C.
Variable basis : 'I_M -> V.
Variable lookup : V -> option 'I_M.
Variable qvecs : seq V.
Notation nq := (size qvecs).
Notation iA := (iA pi vol norm2 basis lookup).
Notation iB := (iB pi vol norm2 basis lookup).
Notation qn n := (tnth (in_tuple qvecs) n).

Definition pw_mat (n : 'I_(nq + nq)) : 'M[C]_M :=
  match split n with inl i => iA (qn i) | inr i => iB (qn i) end.

Lemma VHS_planewaveE (x : 'cV[C]_(nq + nq)) : VHS_planewave s pi vol norm2 basis lookup x
  = (s *: \sum_n x n 0 *: pw_mat n, s *: \sum_n x n 0 *: pw_mat n).
Proof.
rewrite /VHS_planewave big_split_ord /=.
set X := \sum_n _ + \sum_n _; set Y := \sum_n _ + \sum_n _.
suff -> : X = Y by [].
by congr (_ + _); apply: eq_bigr => n _; rewrite mxE /pw_mat;
  [rewrite (unsplitK (inl n))|rewrite (unsplitK (inr n))].
Qed.

Lemma VHS_planewave_unit (n : 'I_(nq + nq)) :
  obop (VHS_planewave s pi vol norm2 basis lookup (unit_field C n)) = s *: op (pw_mat n).
Proof.
rewrite VHS_planewaveE obop_same opZ; congr (_ *: op _).
rewrite (bigD1 n) //= big1 => [|i ne]; rewrite /unit_field mxE ?eqxx ?scale1r ?addr0 //.
by rewrite (negbTE ne) scale0r.
Qed.

Lemma sum_pw (R : zmodType) (f : 'M[C]_M -> R) :
  \sum_n f (pw_mat n) = \sum_(q <- qvecs) (f (iA q) + f (iB q)).
Proof.
rewrite big_split_ord /= [RHS]big_split /=.
rewrite [\sum_(q <- qvecs) f (iA q)]big_tnth [\sum_(q <- qvecs) f (iB q)]big_tnth.
by congr (_ + _); apply: eq_bigr => n _; rewrite /pw_mat;
  [rewrite (unsplitK (inl n))|rewrite (unsplitK (inr n))].
Qed.

Lemma step_planewave bd h G : s != 0 ->
  step_op cd c (planewave s pi vol norm2 basis lookup qvecs h) s bd G
  = obop h - (1 / 2%:R) *: \sum_(q <- qvecs) (op (iA q) ^+ 2 + op (iB q) ^+ 2).
Proof.
move=> s0; rewrite (step_right (v := fun n => op (pw_mat n)) (e := 0) (h := obop h) bd G s0) /=.
- by rewrite scale0r add0r (sum_pw (fun X => op X ^+ 2)).
- exact: VHS_planewave_unit.
- by rewrite dot0 mulr0 addr0.
by rewrite big1 ?subr0 // => n _; rewrite mxE scale0r.
Qed.

Definition pw_mean (G : 'M[C]_M * 'M[C]_M) (X : 'M[C]_M) : C := trace2 (X, X) G.

Lemma expectE G n : expect_planewave pi vol norm2 basis lookup qvecs G n 0 = pw_mean G (pw_mat n).
Proof.
have E (X : 'M[C]_M) : sum_prod G.1 X + sum_prod G.2 X = pw_mean G X.
  rewrite /pw_mean /trace2 /sum_prod; congr (_ + _); apply: eq_bigr => i _;
  by apply: eq_bigr => j _; rewrite mulrC.
by rewrite /pw_mat mxE; case: (split n) => i; rewrite mxE E.
Qed.

Lemma step_t_planewave mu bd h G G' : s != 0 ->
  let m := pw_mean (rdm_of G) in
  step_op cd c (t_planewave s pi vol norm2 basis lookup qvecs mu h G) s bd G'
  = obop h - mu *: electrons cd c
    - (1 / 2%:R) *: (\sum_(q <- qvecs) (op (iA q) ^+ 2 + op (iB q) ^+ 2))
    + (op (\sum_(q <- qvecs) (m (iA q) *: iA q + m (iB q) *: iB q))
       - (1 / 2%:R * \sum_(q <- qvecs) (m (iA q) ^+ 2 + m (iB q) ^+ 2))%:A).
Proof.
move=> s0 m; rewrite (step_completed (v := fun n => op (pw_mat n)) bd G' s0) /=; last first.
  exact: VHS_planewave_unit.
rewrite completedE (sum_pw (fun X => op X ^+ 2)).
rewrite (eq_bigr (fun n => m (pw_mat n) ^+ 2)) => [|n _]; last by rewrite expectE.
rewrite (sum_pw (fun X => m X ^+ 2)) sub0r scaleNr obopB op_scalar.
rewrite (eq_bigr (fun n => m (pw_mat n) *: op (pw_mat n))) => [|n _]; last by rewrite expectE.
have -> : op (\sum_(q <- qvecs) (m (iA q) *: iA q + m (iB q) *: iB q))
    = \sum_n m (pw_mat n) *: op (pw_mat n).
  rewrite (sum_pw (fun X => m X *: op X)) op_sum.
  by apply: eq_bigr => q _; rewrite opD !opZ.
by rewrite [- _ + _]addrC -!addrA; congr (_ + (_ + _)); rewrite addrA addrC.
Qed.

Hypothesis basis_inj : injective basis.
Hypothesis lookupP : forall k i, lookup k = Some i <-> basis i = k.
Hypothesis q0 : 0 \notin qvecs.

Lemma pw_mean_diag (G : 'M[C]_M * 'M[C]_M) q : (forall i j, i != j -> G.1 i j = 0 /\ G.2 i j = 0) -> q \in qvecs ->
  pw_mean G (iA q) = 0 /\ pw_mean G (iB q) = 0.
Proof.
move=> dg qin; have q0' : q != 0 by apply: contra q0 => /eqP <-.
have D i : (rho_q pi vol norm2 basis lookup q) i i = 0.
  rewrite (rhoE pi vol norm2 lookupP) -subr_eq0 opprD addrA subrr add0r oppr_eq0.
  by rewrite (negbTE q0').
have Z (X : 'M[C]_M) : (forall i, X i i = 0) -> pw_mean G X = 0.
  move=> z; rewrite /pw_mean /trace2 /=.
  by rewrite !big1 ?addr0 // => i _; rewrite big1 // => j _;
    case: (i =P j) => [<-|/eqP ne]; rewrite ?z ?mul0r // ?(dg _ _ ne).1 ?(dg _ _ ne).2 mulr0.
have D' i : (rho_qH pi vol norm2 basis lookup q) i i = 0 by rewrite rhoHE D.
split; apply: Z => i; rewrite /Reorder_Model.iA /Reorder_Model.iB mxE mxE ?[(- rho_qH _ _ _ _ _ _) i i]mxE D D'.
  by rewrite addr0 mulr0.
by rewrite oppr0 addr0 oppr0.
Qed.

Lemma step_t_planewave_diag mu bd h (G : 'M[C]_M * 'M[C]_M) G' : s != 0 ->
  (forall i j, i != j -> G.1 i j = 0 /\ G.2 i j = 0) ->
  step_op cd c (t_planewave s pi vol norm2 basis lookup qvecs mu h G) s bd G'
  = obop h - mu *: electrons cd c
    - (1 / 2%:R) *: \sum_(q <- qvecs) (op (iA q) ^+ 2 + op (iB q) ^+ 2).
Proof.
move=> s0 dg; rewrite step_t_planewave //.
have dP i j : i != j -> (rdm_of G).1 i j = 0 /\ (rdm_of G).2 i j = 0.
  move=> ne; have [e1 e2] : G.1 j i = 0 /\ G.2 j i = 0 by apply: dg; rewrite eq_sym.
  by rewrite /rdm_of !mxE (negbTE ne) e1 e2 subr0.
have -> : \sum_(q <- qvecs) (pw_mean (rdm_of G) (iA q) *: iA q
                             + pw_mean (rdm_of G) (iB q) *: iB q) = 0.
  rewrite big_seq big1 // => q qin.
  by have [-> ->] := pw_mean_diag dP qin; rewrite !scale0r addr0.
have -> : \sum_(q <- qvecs) (pw_mean (rdm_of G) (iA q) ^+ 2
                             + pw_mean (rdm_of G) (iB q) ^+ 2) = 0.
  rewrite big_seq big1 // => q qin.
  by have [-> ->] := pw_mean_diag dP qin; rewrite expr0n addr0.
by rewrite op0 mulr0 scale0r subr0 addr0.
Qed.

Hypothesis H : car cd c.
Hypothesis quniq : uniq qvecs.
Hypothesis qfull : forall i j, i != j -> basis i - basis j \in qvecs.
Hypothesis norm2N : forall q, norm2 (- q) = norm2 q.

Lemma pair_comm p r t q u :
  cd p t * c r t * cd q u - cd q u * (cd p t * c r t) = ((r == q) && (t == u))%:R *: cd p t.
Proof.
have E : c r t * cd q u = ((r == q) && (t == u))%:R - cd q u * c r t.
  by rewrite -(car_cd H) addrK.
have F : cd q u * cd p t = - (cd p t * cd q u).
  by apply/eqP; rewrite -subr_eq0 opprK (car_dd H).
rewrite -mulrA E mulrBr !mulrA F mulNr opprK subrK.
by case: (_ && _); rewrite ?mulr1 ?scale1r // mulr0 scale0r.
Qed.

Lemma op_comm X q u : op X * cd q u - cd q u * op X = \sum_p X p q *: cd p u.
Proof.
rewrite /Reorder_Spec.op /one_body_op mulr_suml mulr_sumr -sumrB (bigD1 u) //=.
have E t : (\sum_p \sum_r X p r *: (cd p t * c r t)) * cd q u
     - cd q u * (\sum_p \sum_r X p r *: (cd p t * c r t))
   = \sum_p (t == u)%:R *: (X p q *: cd p t).
  rewrite mulr_suml mulr_sumr -sumrB; apply: eq_bigr => p _.
  rewrite mulr_suml mulr_sumr -sumrB (bigD1 q) //= [X in _ + X]big1 => [|r ne].
    rewrite -scalerAl -scalerAr -scalerBr pair_comm eqxx /= addr0 !scalerA mulrC //.
  by rewrite -scalerAl -scalerAr -scalerBr pair_comm (negbTE ne) scale0r scaler0.
rewrite E eqxx [X in _ + X]big1 => [|t ne].
  by rewrite addr0; apply: eq_bigr => p _; rewrite scale1r.
by rewrite E big1 // => p _; rewrite (negbTE ne) scale0r.
Qed.

Lemma op_scalar_eq0 X a i j : op X - a%:A = 0 -> X j i = 0.
Proof.
move=> /eqP; rewrite subr_eq0 => /eqP e.
have := op_comm X i true; rewrite e mulr_algl mulr_algr subrr => z.
have : c j true * (\sum_p X p i *: cd p true) + (\sum_p X p i *: cd p true) * c j true
    = X j i *: 1.
  rewrite mulr_sumr mulr_suml -big_split /= (bigD1 j) //= [X in _ + X]big1 => [|p ne].
    by rewrite -scalerAr -scalerAl -scalerDr (car_cd H) !eqxx addr0.
  by rewrite -scalerAr -scalerAl -scalerDr (car_cd H) eq_sym (negbTE ne) scaler0.
rewrite -z mulr0 mul0r addr0 => /esym/eqP; rewrite scaler_eq0 oner_eq0 orbF.
by move/eqP.
Qed.

Lemma step_t_planewave_wrong mu bd h G' i j : s != 0 -> i != j ->
  pi / vol / norm2 (basis i - basis j) != 0 ->
  exists G,
  step_op cd c (t_planewave s pi vol norm2 basis lookup qvecs mu h G) s bd G'
  <> obop h - mu *: electrons cd c
    - (1 / 2%:R) *: \sum_(q <- qvecs) (op (iA q) ^+ 2 + op (iB q) ^+ 2).
Proof.
move=> s0 ne f0; exists (1%:M - (delta_mx i j)^T, 1%:M).
rewrite step_t_planewave // => /eqP.
rewrite addrC -subr_eq0 addrK => /eqP /(op_scalar_eq0 i j).
set m := pw_mean _.
have mE X : m X = X i j.
  rewrite /m /pw_mean /trace2 /rdm_of /= raddfB /= !trmxK trmx1 subrr.
  rewrite [X in _ + X]big1 => [|k _]; last by rewrite big1 // => l _; rewrite mxE mulr0.
  rewrite addr0 opprB addrCA subrr addr0 (bigD1 i) //= [X in _ + X]big1 => [|k nk].
    rewrite addr0 (bigD1 j) //= [X in _ + X]big1 => [|l nl]; first by rewrite mxE !eqxx mulr1 addr0.
    by rewrite mxE (negbTE nl) andbF mulr0.
  by rewrite big1 // => l _; rewrite mxE (negbTE nk) mulr0.
rewrite summxE.
pose r q a b := rho_q pi vol norm2 basis lookup q a b.
have E q : (m (iA q) *: iA q + m (iB q) *: iB q) j i
    = - (2%:R * (r q i j ^+ 2 + r q j i ^+ 2)).
  have EA a b : iA q a b = 'i * (r q a b + r q b a) by rewrite mxE mxE rhoHE.
  have EB a b : iB q a b = - (r q a b - r q b a).
    by rewrite mxE mxE; congr (- (_ + _)); rewrite mxE rhoHE.
  have S (x : C) (X : 'M[C]_M) a b : (x *: X) a b = x * X a b by rewrite mxE.
  rewrite mxE [X in X + _]S [X in _ + X]S !mE !EA !EB !expr2.
  have ii : 'i * 'i = - 1 :> C by rewrite -expr2 sqrCi.
  exact: (rf_ij (comring_th C) _ _ ii).
rewrite (eq_bigr _ (fun q _ => E q)) sumrN -mulr_sumr big_split /=.
have F a b : a != b -> \sum_(q <- qvecs) r q a b ^+ 2 = pi / vol / norm2 (basis a - basis b).
  move=> nab; have := @sum_q _ _ _ basis qvecs quniq qfull q0
    (fun q => pi / vol / norm2 q) a b.
  rewrite (negbTE nab) => <-; apply: eq_bigr => q _.
  by rewrite /r (rhoE pi vol norm2 lookupP); case: ifP => _; rewrite ?expr0n // sqrtCK.
rewrite !F // 1?eq_sym // -[basis j - _]opprB norm2N => /eqP.
by rewrite oppr_eq0 -mulr2n mulf_eq0 pnatr_eq0 mulrn_eq0 (negbTE f0).
Qed.

End PlaneWave.

(* Force bias. *)
Section Bias.
Variable C : numClosedFieldType.
Variable M : nat.
Notation mat2 := ('M[C]_M * 'M[C]_M)%type.

Definition tr1 (V G : 'M[C]_M) : C := \sum_i \sum_j V i j * G i j.
Lemma trace2E (V G : mat2) : trace2 V G = tr1 V.1 G.1 + tr1 V.2 G.2.
Proof. by []. Qed.
Lemma tr1Z a V G : tr1 (a *: V) G = a * tr1 V G.
Proof.
rewrite /tr1 mulr_sumr; apply: eq_bigr => i _; rewrite mulr_sumr.
by apply: eq_bigr => j _; rewrite mxE mulrA.
Qed.
Lemma tr1_sum I (r : seq I) (F : I -> 'M[C]_M) G :
  tr1 (\sum_(n <- r) F n) G = \sum_(n <- r) tr1 (F n) G.
Proof.
rewrite /tr1 [RHS]exchange_big; apply: eq_bigr => i _; rewrite [RHS]exchange_big.
by apply: eq_bigr => j _; rewrite summxE mulr_suml.
Qed.
Lemma tr1_diag (d : 'rV[C]_M) G : tr1 (diag_mx d) G = \sum_p d 0 p * G p p.
Proof.
apply: eq_bigr => p _; rewrite (bigD1 p) //= big1 => [|j ne].
  by rewrite mxE eqxx mulr1n addr0.
by rewrite mxE eq_sym (negbTE ne) mulr0n mul0r.
Qed.

Section Generic.
Variable naux : nat.
Variable chol : 'M[C]_(M * M, naux).

Lemma tr1_pot x G : tr1 (pot chol x) G = dot x (chol^T *m ravel G).
Proof.
rewrite potE tr1_sum; apply: eq_bigr => n _; rewrite tr1Z dot_ravel; congr (_ * _).
by apply: eq_bigr => i _; apply: eq_bigr => j _; rewrite mxE.
Qed.

Lemma dotDr (x y z : 'cV[C]_naux) : dot x (y + z) = dot x y + dot x z.
Proof. by rewrite dotC dotDl ![dot _ x]dotC. Qed.

Lemma bias_generic s mf G y (W := chol^T *m ravel G.1 + chol^T *m ravel G.2) :
  trace2 (VHS_generic chol s y) G - s * dot y mf = - dot y (- s *: ('i *: W - mf)).
Proof.
rewrite trace2E /= !tr1Z !tr1_pot dotZr dotBr dotZr mulNr opprK mulrBr; congr (_ - _).
by rewrite -mulrDr -dotDr mulrA [s * _]mulrC.
Qed.

Lemma sparse_dense (G : 'M[C]_M) : ((ravel G)^T *m chol)^T = chol^T *m ravel G.
Proof. by rewrite trmx_mul trmxK. Qed.

(* The rotated vectors. *)
Lemma bias_fast_dense nu nd s mf e h1 (psia : 'M[C]_(M, nu)) (psib : 'M[C]_(M, nd)) Gmod :
  let sys := MkSystem h1 chol e in
  bias_fast false s mf (rotate psia sys) (rotate psib sys) Gmod
  = Ok (bias_slow chol s mf (map_mx conjC psia *m Gmod.1, map_mx conjC psib *m Gmod.2)).
Proof.
move=> sys; rewrite /bias_fast /bias_slow /=.
have E n (psi : 'M[C]_(M, n)) (Gm : 'M[C]_(n, M)) :
  (rotate psi sys)^T *m ravel Gm = chol^T *m ravel (map_mx conjC psi *m Gm).
  apply/colP => x; rewrite !dot_ravel.
  transitivity (\sum_i \sum_j \sum_m (psi m i)^* * chol (flat m j) x * Gm i j).
    apply: eq_bigr => i _; apply: eq_bigr => j _.
    by rewrite mxE !flatK mulr_suml.
  transitivity (\sum_m \sum_j \sum_i (psi m i)^* * chol (flat m j) x * Gm i j).
    rewrite exchange_big [RHS]exchange_big; apply: eq_bigr => j _ /=.
    by rewrite exchange_big.
  apply: eq_bigr => m _; apply: eq_bigr => j _; rewrite mxE mulr_sumr.
  by apply: eq_bigr => i _; rewrite mxE mulrCA mulrA.
by rewrite !E.
Qed.

End Generic.

Lemma bias_hubbard s U mf (G : mat2) y :
  trace2 (VHS_hubbard s U y) G - s * dot y mf = - dot y (- s *: (shift_hubbard U G - mf)).
Proof.
rewrite trace2E /= !tr1_diag dotZr dotBr mulNr opprK mulrBr; congr (_ - _).
rewrite -big_split /= /dot mulr_sumr; apply: eq_bigr => p _.
by rewrite !mxE -mulrDr [y p 0 * (_ * _)]mulrCA !mulrA.
Qed.

Lemma bias_spin s U mf (G : mat2) (y : 'cV[C]_M) :
  let V := (diag_mx (\row_i (- (s * sqrtC U) * y i 0)), diag_mx (\row_i (s * sqrtC U * y i 0))) in
  trace2 V G - s * dot y mf
  = - dot y (- s *: (shift_spin U G - mf)) - 2%:R * (s * dot y (shift_spin U G)).
Proof.
move=> V; rewrite trace2E /= !tr1_diag dotZr dotBr mulNr opprK mulrBr.
have -> : \sum_p (\row_i (- (s * sqrtC U) * y i 0)) 0 p * G.1 p p
        + \sum_p (\row_i (s * sqrtC U * y i 0)) 0 p * G.2 p p = - (s * dot y (shift_spin U G)).
  rewrite -big_split /= /dot mulr_sumr -sumrN; apply: eq_bigr => p _.
  by rewrite !mxE !mulrDr !mulrN !mulNr opprB addrC [y p 0 * (_ * _)]mulrCA ![y p 0 * (_ * _)]mulrCA !mulrA.
by rewrite addrAC; congr (_ - _); rewrite mulr_natl mulr2n opprD addrA subrr add0r.
Qed.

Section PW.
Variable V : zmodType.
Variables s pi vol : C.
Variable norm2 : V -> C.
Variable basis : 'I_M -> V.
Variable lookup : V -> option 'I_M.
Variable qvecs : seq V.

Lemma bias_planewave (G : mat2) y :
  trace2 (VHS_planewave s pi vol norm2 basis lookup y) G
  = - dot y (- s *: expect_planewave pi vol norm2 basis lookup qvecs G).
Proof.
rewrite VHS_planewaveE trace2E /= !tr1Z !tr1_sum -mulrDr -big_split /= dotZr mulNr opprK.
congr (_ * _); apply: eq_bigr => n _; rewrite !tr1Z -mulrDr; congr (_ * _).
by rewrite expectE.
Qed.
End PW.

End Bias.

Section Wrong.
Variable C : numClosedFieldType.

Lemma spin_bias_wrong M (i : 'I_M) (s U bd : C) H1 : s != 0 -> U != 0 -> 0 <= bd ->
  exists (G : 'M[C]_M * 'M[C]_M) x,
  let p := hubbard_spin s U (s * sqrtC U) H1 G in
  (forall i, `|c_bias p G i 0| <= bd) /\
  let '(cmf, cfb, y, V) := two_body_propagator p s bd true x G in
  trace2 V G + cmf + cfb <> 1 / 2%:R * sprod (c_bias p G) (c_bias p G).
Proof.
move=> s0 U0 bd0; exists (delta_mx i i, 0), (unit_field C i) => p.
have Z : c_bias p (delta_mx i i, 0) = 0 by rewrite /p /= subrr scaler0.
split=> [j|]; first by rewrite Z mxE normr0.
rewrite /two_body_propagator Z bound0 subr0 [dot _ 0]dotC !dot0 mulr0 subr0 addr0.
rewrite mulNr /p [c_VHS _ _]/= bias_spin -dotE dot0 mulr0 [c_shift _]/= subrr scaler0.
rewrite [dot _ 0]dotC dot0 oppr0 sub0r dot_unit !mxE !eqxx subr0 mulr1 => /eqP.
by rewrite oppr_eq0 !mulf_eq0 pnatr_eq0 (negbTE s0) sqrtC_eq0 (negbTE U0).
Qed.

Lemma fast_sparse_wrong (s : C) : s != 0 ->
  exists (chol : 'M[C]_(1 * 1, 1)) (psia psib : 'M[C]_1) (Gmod : 'M[C]_1 * 'M[C]_1),
  let sys := MkSystem (0, 0) chol 0 in
  exists b, bias_fast true s 0 (rotate psia sys) (rotate psib sys) Gmod = Ok b
  /\ b <> bias_slow chol s 0 (map_mx conjC psia *m Gmod.1, map_mx conjC psib *m Gmod.2).
Proof.
move=> s0; exists (const_mx 1), 1%:M, (2%:R)%:M, (0, 1%:M) => sys.
rewrite /bias_fast; case: eqP => // e; eexists; split; first by [].
have r0 : ravel (0 : 'M[C]_1) = 0 by apply/colP => x; rewrite !mxE.
have Z (a : C) (X : 'cV[C]_1) : (a *: X) 0 0 = a * X 0 0 by rewrite mxE.
move/colP/(_ 0); rewrite /bias_slow castmx_id !trmx_mul !trmxK /= mulmx0 r0 !mulmx0 !add0r !subr0.
rewrite !Z !dot_ravel !big_ord1 !mxE !big_ord1 !mxE !eqxx /= !mulr1n conjC1 !mulr1 !mul1r conjC_nat.
move=> /eqP; rewrite -subr_eq0 -mulrBr -['i in X in X - _]mulr1 -mulrBr !mulf_eq0 oppr_eq0.
rewrite (negbTE s0) (negbTE (neq0Ci _)) -[1]/(1%:R) -opprB oppr_eq0 -natrB //.
by rewrite pnatr_eq0.
Qed.

End Wrong.

(* Potentials and factors are linear in the fields. *)
Section Linear.
Variable C : numClosedFieldType.
Variable A : algType C.
Variable M : nat.
Variables cd c : 'I_M -> bool -> A.
Notation obop x := (one_body_op cd c (by_spin x)).

Definition linear_step N (p : cont C M N) s bd G :=
  linear_fields (fun x => obop (two_body_propagator p s bd false x G).2) /\
  linear_fields (fun x => (two_body_propagator p s bd false x G).1.1.1 : C^o).

Lemma linear_of N (p : cont C M N) s bd G (v : 'I_N -> A) :
  (forall x, obop (c_VHS p x) = \sum_n x n 0 *: v n) -> linear_step p s bd G.
Proof.
move=> E; have F x : obop (two_body_propagator p s bd false x G).2 = \sum_n x n 0 *: v n.
  by rewrite two_body_plain; exact: E.
have F' x : (two_body_propagator p s bd false x G).1.1.1 = - s * dot x (c_shift p).
  by rewrite two_body_plain.
split=> x.
  rewrite F; apply: eq_bigr => n _; rewrite F (bigD1 n) //= [X in _ + X]big1.
    by rewrite /unit_field mxE !eqxx scale1r addr0.
  by move=> j ne; rewrite /unit_field mxE (negbTE ne) scale0r.
rewrite F' /dot mulr_sumr; apply: eq_bigr => n _.
by rewrite F' dot_unit mulrCA.
Qed.

Lemma linear_generic naux (chol : 'M[C]_(M * M, naux)) s bd G mf e h b :
  linear_step (MkCont mf e h (VHS_generic chol s) b) s bd G.
Proof.
apply: (@linear_of _ _ _ _ _ (fun n => s *: ('i *: op cd c (chol_mx chol n)))) => x /=.
rewrite obop_same mulrC -scalerA opZ pot_op scaler_sumr.
by apply: eq_bigr => n _; rewrite !scalerA [s * _]mulrC.
Qed.

Lemma linear_hubbard s U bd G mf e h b : linear_step (MkCont mf e h (VHS_hubbard s U) b) s bd G.
Proof.
apply: (@linear_of _ _ _ _ _
  (fun p => (s * ('i * sqrtC U)) *: \sum_sg number cd c p sg)) => x /=.
by rewrite obop_same diag_op; apply: eq_bigr => n _; rewrite mxE mulrC scalerA.
Qed.

Lemma linear_spin s U ut H1 bd G G' : linear_step (hubbard_spin s U ut H1 G) s bd G'.
Proof.
apply: (@linear_of _ _ _ _ _
  (fun p => ut *: (number cd c p true - number cd c p false))) => x /=.
rewrite diag_spin; apply: eq_bigr => n _; rewrite !mxE scalerBr scalerBr !scalerA.
by rewrite mulNr scaleNr addrC ![x n 0 * _]mulrC.
Qed.

Lemma linear_planewave (V : zmodType) s pi vol (norm2 : V -> C) basis lookup (qvecs : seq V)
    bd G mf e h b :
  linear_step (MkCont mf e h (@VHS_planewave _ _ _ s pi vol norm2 basis lookup qvecs) b) s bd G.
Proof.
apply: (@linear_of _ _ _ _ _
  (fun n => s *: op cd c (pw_mat pi vol norm2 basis lookup n))) => x /=.
rewrite VHS_planewaveE obop_same opZ op_sum scaler_sumr.
by apply: eq_bigr => n _; rewrite opZ !scalerA mulrC.
Qed.

End Linear.
