(* Proofs for C49. *)

From Verif Require Import Base.
Set Warnings "-notation-overridden,-ambiguous-paths".
From mathcomp Require Import all_ssreflect all_algebra.
From Verif Require Import Ortho_Spec Taylor_Model Taylor_Spec.

Set Implicit Arguments.
Unset Strict Implicit.
Unset Printing Implicit Defensive.

Import Order.TTheory GRing.Theory Num.Theory.
Local Open Scope ring_scope.

Section Gen.
Variable K : fieldType.

Lemma mxpowS n (A : 'M[K]_n) k : mxpow A k.+1 = A *m mxpow A k.
Proof. by []. Qed.

Lemma mxpowSr n (A : 'M[K]_n) k : mxpow A k.+1 = mxpow A k *m A.
Proof.
elim: k => [|k IH]; first by rewrite /mxpow /= mulmx1 mul1mx.
by rewrite mxpowS {1}IH mulmxA -mxpowS.
Qed.

Lemma taylorS n N (A : 'M[K]_n) :
  taylor N.+1 A = taylor N A + ((N.+1)`!%:R)^-1 *: mxpow A N.+1.
Proof. by rewrite /taylor big_ord_recr. Qed.

Lemma taylor0 n (A : 'M[K]_n) : taylor 0 A = 1%:M.
Proof. by rewrite /taylor big_ord1 fact0 invr1 scale1r. Qed.

Lemma next_term n m (A : 'M[K]_n) (phi : 'M[K]_(n, m)) i :
  divn_mx (A *m ((i`!%:R)^-1 *: mxpow A i *m phi)) i.+1
  = (((i.+1)`!%:R)^-1 *: mxpow A i.+1) *m phi.
Proof.
rewrite /divn_mx factS natrM invfM -scalemxAl -scalemxAr !scalerA.
by rewrite -scalemxAl mxpowS mulmxA mulrC.
Qed.

Lemma expm_loopE n (M : 'M[K]_n) k i :
  expm_loop M (((i.+1)`!%:R)^-1 *: mxpow M i.+1) (taylor i M) i.+1 k
  = taylor (i + k) M.
Proof.
elim: k i => [|k IH] i /=; first by rewrite addn0.
have := next_term M 1%:M i.+1; rewrite !mulmx1 => ->.
by rewrite -taylorS IH addSnnS.
Qed.

Lemma exponentiate_matrixE n (M : 'M[K]_n) order :
  exponentiate_matrix M order = taylor (Z.to_nat order) M.
Proof.
rewrite /exponentiate_matrix -(add0n (Z.to_nat order)) -expm_loopE.
by rewrite taylor0 factS fact0 muln1 /mxpow /= mulmx1 invr1 scale1r.
Qed.

Lemma apply_loopE n m (V : 'M[K]_n) (phi : 'M[K]_(n, m)) k i :
  apply_loop V ((i`!%:R)^-1 *: mxpow V i *m phi) (taylor i V *m phi) i.+1 k
  = taylor (i + k) V *m phi.
Proof.
elim: k i => [|k IH] i /=; first by rewrite addn0.
by rewrite next_term -mulmxDl -taylorS IH addSnnS.
Qed.

Lemma apply_exponentialE n m nmax (phi : 'M[K]_(n, m)) V :
  apply_exponential nmax phi V = taylor (Z.to_nat nmax) V *m phi.
Proof.
rewrite /apply_exponential -(add0n (Z.to_nat nmax)) -apply_loopE.
by rewrite taylor0 fact0 invr1 scale1r !mul1mx.
Qed.

Lemma exponentiateE n nmax (V : 'M[K]_n) :
  exponentiate nmax V = taylor (Z.to_nat nmax) V.
Proof. by have := apply_exponentialE nmax 1%:M V; rewrite mulmx1. Qed.

Lemma of_to_grid ng n m (gmap : 'I_n -> 'I_ng) (phi : 'M[K]_(n, m)) :
  injective gmap -> of_grid gmap (to_grid gmap phi) = phi.
Proof.
move=> inj; apply/matrixP => i j; rewrite !mxE.
case: pickP => [i' /eqP /inj -> //|/(_ i)]; by rewrite eqxx.
Qed.

Lemma restrictE ng n m (gmap : 'I_n -> 'I_ng) (V : 'M[K]_ng)
    (phi : 'M[K]_(n, m)) : injective gmap ->
  of_grid gmap (V *m to_grid gmap phi) = restrict gmap V *m phi.
Proof.
move=> inj; apply/matrixP => i j; rewrite !mxE.
under eq_bigr do rewrite mxE.
rewrite (bigID (fun g => g \in [set gmap i | i : 'I_n])) /=.
rewrite [X in _ + X]big1 ?addr0; last first.
  move=> g; case: pickP => [k /eqP <- /negP|]; last by rewrite mulr0.
  by case; apply: imset_f.
rewrite big_imset /=; last by move=> a b _ _ /inj.
apply: eq_bigr => k _; rewrite mxE; case: pickP => [k' /eqP /inj -> //|/(_ k)].
by rewrite eqxx.
Qed.

Lemma grid_loopE ng n m (gmap : 'I_n -> 'I_ng) (V : 'M[K]_ng)
    (T phi : 'M[K]_(n, m)) k i : injective gmap ->
  grid_loop gmap V (to_grid gmap T) phi i k
  = apply_loop (restrict gmap V) T phi i k.
Proof.
move=> inj; elim: k T phi i => [//|k IH] T phi i /=.
have -> : of_grid gmap (divn_mx (V *m to_grid gmap T) i)
  = divn_mx (restrict gmap V *m T) i.
  rewrite /divn_mx -restrictE //; by apply/matrixP => a b; rewrite !mxE.
by rewrite of_to_grid // IH.
Qed.

Lemma apply_gridE ng n m nmax (gmap : 'I_n -> 'I_ng) (V : 'M[K]_ng)
    (phi : 'M[K]_(n, m)) : injective gmap ->
  apply_grid nmax gmap V phi = taylor (Z.to_nat nmax) (restrict gmap V) *m phi.
Proof. by move=> inj; rewrite /apply_grid grid_loopE // -apply_exponentialE. Qed.

Lemma mxpow_diag n (d : 'rV[K]_n) k :
  mxpow (diag_mx d) k = diag_mx (map_mx (fun x => x ^+ k) d).
Proof.
elim: k => [|k IH].
  rewrite /mxpow /= -diag_const_mx.
  by congr diag_mx; apply/matrixP => i j; rewrite !mxE.
rewrite mxpowS IH mulmx_diag; congr diag_mx.
by apply/matrixP => i j; rewrite !mxE exprS (ord1 i).
Qed.

Lemma taylor_diag n N (d : 'rV[K]_n) :
  taylor N (diag_mx d) = diag_mx (map_mx (taylor1 N) d).
Proof.
apply/matrixP => i j; rewrite /taylor summxE !mxE /taylor1 -sumrMnl.
apply: eq_bigr => k _; rewrite mxE mxpow_diag !mxE.
by rewrite mulrC mulrnAl.
Qed.

Lemma mxpow_conj n (P A : 'M[K]_n) k : P \in unitmx ->
  mxpow (P *m A *m invmx P) k = P *m mxpow A k *m invmx P.
Proof.
move=> u; elim: k => [|k IH]; first by rewrite /mxpow /= mulmx1 mulmxV.
rewrite !mxpowS IH !mulmxA; congr (_ *m _); congr (_ *m _).
by rewrite -[_ *m invmx P *m P]mulmxA mulVmx // mulmx1.
Qed.

Lemma taylor_conj n N (P A : 'M[K]_n) : P \in unitmx ->
  taylor N (P *m A *m invmx P) = P *m taylor N A *m invmx P.
Proof.
move=> u; rewrite /taylor mulmx_sumr mulmx_suml; apply: eq_bigr => k _.
by rewrite mxpow_conj // -scalemxAr -scalemxAl.
Qed.

Lemma taylor_commute n N (A B : 'M[K]_n) :
  A *m B = B *m A -> taylor N A *m B = B *m taylor N A.
Proof.
move=> e; rewrite /taylor mulmx_sumr mulmx_suml; apply: eq_bigr => k _.
rewrite -scalemxAr -scalemxAl; congr (_ *: _).
elim: (k : nat) => [|j IH]; first by rewrite /mxpow /= mul1mx mulmx1.
by rewrite mxpowS -mulmxA IH !mulmxA e.
Qed.

End Gen.

Section Adj.
Variable C : numClosedFieldType.

Lemma adj_mul n m p (A : 'M[C]_(n, m)) (B : 'M[C]_(m, p)) :
  adj (A *m B) = adj B *m adj A.
Proof. by rewrite /adj map_mxM trmx_mul. Qed.

Lemma adj_one n : adj (1%:M : 'M[C]_n) = 1%:M.
Proof. by rewrite /adj map_mx1 trmx1. Qed.

Lemma mxpow_adj n (A : 'M[C]_n) k : adj (mxpow A k) = mxpow (adj A) k.
Proof.
elim: k => [|k IH]; first exact: adj_one.
by rewrite mxpowSr adj_mul IH mxpowS.
Qed.

Lemma taylor_adj n N (A : 'M[C]_n) : adj (taylor N A) = taylor N (adj A).
Proof.
elim: N => [|N IH]; first by rewrite !taylor0 adj_one.
rewrite !taylorS -IH -mxpow_adj; apply/matrixP => i j.
by rewrite !mxE rmorphD rmorphM fmorphV rmorph_nat.
Qed.

(* A polynomial of positive degree takes a value other than 1 at a natural
   number. *)
Lemma poly_not_one (p : {poly C}) : (1 < size p)%N ->
  exists k : nat, p.[k%:R] != 1.
Proof.
move=> sp.
have nz : p - 1 != 0.
  apply/eqP => /eqP; rewrite subr_eq0 => /eqP e; move: sp.
  by rewrite e size_poly1.
pose rs := [seq (k%:R : C) | k <- iota 0 (size (p - 1))].
have u : uniq rs.
  rewrite map_inj_uniq ?iota_uniq //; move=> a b /eqP; by rewrite eqr_nat => /eqP.
case: (boolP (all (root (p - 1)) rs)) => h.
  by have := max_poly_roots nz h u; rewrite size_map size_iota ltnn.
case/allPn: h => x /mapP[k _ ->] h; exists k.
by move: h; rewrite rootE !hornerE subr_eq0.
Qed.

Definition tp N (z : C) : {poly C} := \poly_(k < N.+1) (z ^+ k / (k`!)%:R).

Lemma tpE N z x : (tp N z).[x] = taylor1 N (z * x).
Proof.
rewrite horner_poly /taylor1; apply: eq_bigr => k _.
by rewrite exprMn mulrAC.
Qed.

Lemma size_tp N z : z != 0 -> size (tp N z) = N.+1.
Proof.
move=> nz; apply: size_poly_eq; rewrite mulf_neq0 ?expf_neq0 //.
by rewrite invr_eq0 pnatr_eq0 -lt0n fact_gt0.
Qed.

Lemma not_unitary N : (0 < N)%N ->
  exists A : 'M[C]_1, adj A = - A /\ adj (taylor N A) *m taylor N A <> 1%:M.
Proof.
move=> N0.
have i0 : 'i != 0 :> C by rewrite -sqrf_eq0 sqrCi oppr_eq0 oner_eq0.
have mi0 : - 'i != 0 :> C by rewrite oppr_eq0.
have t0 (z : C) : z != 0 -> tp N z != 0.
  by move=> z0; rewrite -size_poly_eq0 size_tp.
have [|k hk] := @poly_not_one (tp N (- 'i) * tp N 'i).
  by rewrite size_mul ?t0 // !size_tp // addSn /= addnS ltnS addn_gt0 N0.
have d1 (x : C) : (x%:M : 'M[C]_1) = diag_mx (const_mx x).
  by rewrite diag_const_mx.
have aM (x : C) : adj (x%:M : 'M[C]_1) = (x^*)%:M.
  by apply/matrixP => a b; rewrite !mxE eq_sym -rmorphMn.
have tM (x : C) : taylor N (x%:M : 'M[C]_1) = (taylor1 N x)%:M.
  by rewrite d1 taylor_diag map_const_mx diag_const_mx.
have e : ('i * k%:R : C)^* = - 'i * k%:R.
  by rewrite rmorphM rmorph_nat conjCi.
exists (('i * k%:R)%:M); split.
  by rewrite aM e mulNr; apply/matrixP => a b; rewrite !mxE mulNrn.
rewrite taylor_adj aM !tM e -scalar_mxM => /matrixP /(_ ord0 ord0).
rewrite !mxE eqxx /= !mulr1n => h; move: hk.
by rewrite hornerM !tpE h eqxx.
Qed.

End Adj.
