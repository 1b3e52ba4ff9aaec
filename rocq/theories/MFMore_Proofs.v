(* Further proofs for C69: what the shifts are expectation values of. *)

From Verif Require Import Base.
Set Warnings "-notation-overridden,-ambiguous-paths".
From mathcomp Require Import all_ssreflect all_algebra.
From Verif Require Import LEnergy_Model LEnergy_Proofs Reorder_Spec Reorder_Model MFShift_Spec MFShift_Model MFShift_Proofs.

Set Implicit Arguments.
Unset Strict Implicit.
Unset Printing Implicit Defensive.

Import Order.TTheory GRing.Theory Num.Theory.
Local Open Scope ring_scope.

Section More.
Variable C : numClosedFieldType.
Variable M : nat.
Notation mat2 := ('M[C]_M * 'M[C]_M)%type.

(* the bias vanishes for the density matrix of the shift *)
Lemma centred N (p : cont C M N) (s bd : C) (G : mat2) :
  (forall y, trace2 (c_VHS p y) G - s * dot y (c_shift p) = - dot y (c_bias p G)) ->
  c_bias p G = 0 ->
  forall x G', let '(cmf, _, _, V) := two_body_propagator p s bd false x G' in
  trace2 V G + cmf = 0.
Proof.
move=> h h0 x G'; rewrite two_body_plain mulNr h h0.
by rewrite dotC dot0 oppr0.
Qed.

Section Generic.
Variable naux : nat.
Variable chol : 'M[C]_(M * M, naux).

Lemma ravelD (A B : 'M[C]_M) : ravel (A + B) = ravel A + ravel B.
Proof. by apply/matrixP => i j; rewrite !mxE. Qed.

Lemma bias0_generic s e h1 sparse G : c_bias (generic chol s e h1 sparse G) G = 0.
Proof.
rewrite /= /bias_slow /mean_field_shift; case: sparse.
  by rewrite ![((ravel _)^T *m chol)^T]sparse_dense -scalerDr subrr scaler0.
by rewrite ravelD mulmxDr subrr scaler0.
Qed.

Lemma t_bias0_generic s e mu h1 G p : t_generic chol s e mu h1 true G = Ok p ->
  c_bias p (rdm_of G) = 0.
Proof. by case=> <- /=; rewrite -scalerDr subrr scaler0. Qed.

Variable contract : 'M[C]_M -> C.
Hypothesis contractL : forall a A B, contract (a *: A + B) = a * contract A + contract B.

Lemma contract0 : contract 0 = 0.
Proof.
have := contractL 1 0 0; rewrite scaler0 addr0 mul1r => h.
by apply: (addrI (contract 0)); rewrite addr0 -h.
Qed.
Lemma contractZ a A : contract (a *: A) = a * contract A.
Proof. by have := contractL a A 0; rewrite !addr0 contract0 addr0. Qed.
Lemma contract_sum I (r : seq I) (F : I -> 'M[C]_M) :
  contract (\sum_(n <- r) F n) = \sum_(n <- r) contract (F n).
Proof.
elim: r => [|a r IH]; first by rewrite !big_nil contract0.
by rewrite !big_cons -IH -[X in contract (X + _)]scale1r contractL mul1r.
Qed.

Lemma contract_pot x : contract (pot chol x) = dot x (\col_n contract (reshape (row n chol^T))).
Proof.
rewrite potE contract_sum /dot; apply: eq_bigr => n _; rewrite contractZ mxE; congr (_ * contract _).
by apply/matrixP => i j; rewrite !mxE.
Qed.

Lemma multi_id s (mf : 'cV[C]_naux) y :
  contract (VHS_generic chol s y).1 - s * dot y mf = - dot y (bias_multi_det chol s mf contract).
Proof.
rewrite /= contractZ contract_pot /bias_multi_det dotZr dotBr dotZr mulNr opprK mulrBr; congr (_ - _).
by rewrite mulrA [s * _]mulrC.
Qed.

Lemma multi_bias0 s : bias_multi_det chol s (mean_field_shift_multi_det chol contract) contract = 0.
Proof.
rewrite /bias_multi_det /mean_field_shift_multi_det (_ : 'i *: _ = \col_n ('i * contract (reshape (row n chol^T)))).
  by rewrite subrr scaler0.
by apply/colP => n; rewrite !mxE.
Qed.

Lemma multi_right s bd x (G : mat2) (mf : 'cV[C]_naux) e h1 :
  let b := bias_multi_det chol s mf contract in
  let p := MkCont mf e h1 (VHS_generic chol s) (fun _ => b) in
  (forall i, `|b i 0| <= bd) ->
  let '(cmf, cfb, y, V) := two_body_propagator p s bd true x G in
  contract V.1 + cmf + cfb = 1 / 2%:R * sprod b b.
Proof.
move=> b p small; rewrite /two_body_propagator /=.
have -> : bound bd b = b.
  apply/colP => i; rewrite mxE; case: ifP => // lt.
  by have := lt_le_trans lt (small i); rewrite ltxx.
rewrite mulNr multi_id -dotE dotBl /half -/b.
exact: (rf_bias (comring_th C) _ _ (half_half C)).
Qed.
End Generic.

Lemma bias0_hubbard (s U : C) (h1 G : mat2) : c_bias (hubbard s U h1 G) G = 0.
Proof. by rewrite /= subrr scaler0. Qed.
Lemma t_bias0_hubbard (s U : C) alt (mu : C) (h1 G : mat2) : c_bias (t_hubbard s U alt mu h1 G) (rdm_of G) = 0.
Proof. by rewrite /= subrr scaler0. Qed.

Lemma shift_right (s bd : C) (G G' h1 : mat2) :
  let centred N (p : cont C M N) P :=
    c_bias p P = 0 /\
    forall x, let '(cmf, _, _, V) := two_body_propagator p s bd false x G' in trace2 V P + cmf = 0 in
  let rdm := (1%:M - G.1^T, 1%:M - G.2^T) in
  (forall naux (chol : 'M[C]_(M * M, naux)) e sparse, centred naux (generic chol s e h1 sparse G) G) /\
  (forall naux (chol : 'M[C]_(M * M, naux)) e mu sparse p,
     t_generic chol s e mu h1 sparse G = Ok p -> centred naux p rdm) /\
  (forall U, centred M (hubbard s U h1 G) G) /\
  (forall U alt mu, centred M (t_hubbard s U alt mu h1 G) rdm).
Proof.
move=> cen rdm; split; [|split; [|split]].
- move=> naux chol e sparse; split; first exact: bias0_generic.
  move=> x; refine (@centred _ (generic chol s e h1 sparse G) s bd G _ _ x G').
    by move=> y; exact: bias_generic.
  exact: bias0_generic.
- move=> naux chol e mu [] // p E; split; first exact: (t_bias0_generic E).
  move=> x; refine (@centred _ p s bd rdm _ (t_bias0_generic E) x G').
  case: E => <- y /=.
  by rewrite ![((ravel _)^T *m chol)^T]sparse_dense; exact: bias_generic.
- move=> U; split; first exact: bias0_hubbard.
  move=> x; refine (@centred _ (hubbard s U h1 G) s bd G _ (bias0_hubbard _ _ _ _) x G').
  by move=> y; exact: bias_hubbard.
move=> U alt mu; split; first exact: t_bias0_hubbard.
move=> x; refine (@centred _ (t_hubbard s U alt mu h1 G) s bd rdm _ (t_bias0_hubbard _ _ _ _ _ _) x G').
by move=> y; exact: bias_hubbard.
Qed.

Definition lin_expect (f : 'M[C]_M -> C) : Prop := forall a A B, f (a *: A + B) = a * f A + f B.

Lemma multi_shift naux (chol : 'M[C]_(M * M, naux)) (s bd e : C) (h1 : mat2)
    (trial walker : 'M[C]_M -> C) :
  lin_expect trial -> lin_expect walker ->
  let b := bias_multi_det chol s (mean_field_shift_multi_det chol trial) walker in
  let p := generic_multi_det chol s e h1 trial (fun _ => b) in
  (forall x G, let '(cmf, _, _, V) := two_body_propagator p s bd false x G in
     V.2 = V.1 /\ trial V.1 + cmf = 0) /\
  ((forall i, `|b i 0| <= bd) ->
   forall x G, let '(cmf, cfb, y, V) := two_body_propagator p s bd true x G in
     walker V.1 + cmf + cfb = 1 / 2%:R * sprod b b).
Proof.
move=> ht hw b p; split=> [x G|small x G]; last by apply: (multi_right hw).
rewrite two_body_plain; split=> //.
by rewrite mulNr (multi_id chol ht) multi_bias0 dotC dot0 oppr0.
Qed.
End More.
