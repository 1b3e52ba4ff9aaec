(* Proofs: sums of squares of one-body operators. *)

From Verif Require Import Base.
Set Warnings "-notation-overridden,-ambiguous-paths".
From mathcomp Require Import all_ssreflect all_algebra.
From Verif Require Import LEnergy_Model LEnergy_Proofs Reorder_Model Reorder_Spec.

Set Implicit Arguments.
Unset Strict Implicit.
Unset Printing Implicit Defensive.

Import Order.TTheory GRing.Theory Num.Theory.
Local Open Scope ring_scope.

Section RingFacts.
Variables (K : Type) (z o : K) (ad mu sb : K -> K -> K) (op : K -> K).
Hypothesis Kth : ring_theory z o ad mu sb op eq.
Add Ring Kring : Kth.

Lemma vol_ring (t i v p n : K) :
  mu (mu i v) (mu (mu (mu t t) p) n) = mu (mu i t) (mu t (mu (mu p v) n)).
Proof. ring. Qed.

End RingFacts.

Section Car.
Variable C : numClosedFieldType.
Variable A : algType C.
Variable M : nat.
Variable S : finType.
Variables cd c : 'I_M -> S -> A.
Hypothesis H : car cd c.

Local Notation op := (op cd c).
Local Notation one_body_op := (one_body_op cd c).
Local Notation two_body_op := (two_body_op cd c).

Lemma one_body_add h1 h2 :
  one_body_op (fun s => h1 s + h2 s) = one_body_op h1 + one_body_op h2.
Proof.
rewrite /one_body_op -big_split /=; apply: eq_bigr => s _.
rewrite -big_split /=; apply: eq_bigr => p _.
by rewrite -big_split /=; apply: eq_bigr => r _; rewrite mxE scalerDl.
Qed.

Lemma one_body_scale a h :
  one_body_op (fun s => a *: h s) = a *: one_body_op h.
Proof.
rewrite /one_body_op scaler_sumr; apply: eq_bigr => s _.
rewrite scaler_sumr; apply: eq_bigr => p _.
by rewrite scaler_sumr; apply: eq_bigr => r _; rewrite mxE scalerA.
Qed.

Lemma one_body_ext h1 h2 : (forall s, h1 s = h2 s) ->
  one_body_op h1 = one_body_op h2.
Proof. by move=> E; apply: eq_bigr => s _; rewrite E. Qed.

Lemma opD X Y : op (X + Y) = op X + op Y.
Proof. by rewrite -one_body_add. Qed.
Lemma opZ a X : op (a *: X) = a *: op X.
Proof. by rewrite -one_body_scale. Qed.
Lemma opN X : op (- X) = - op X.
Proof. by rewrite -scaleN1r opZ scaleN1r. Qed.
Lemma op0 : op 0 = 0.
Proof. by rewrite -(scale0r 0) opZ scale0r. Qed.
Lemma op_sum I (r : seq I) (P : pred I) (F : I -> 'M[C]_M) :
  op (\sum_(i <- r | P i) F i) = \sum_(i <- r | P i) op (F i).
Proof. by elim/big_rec2: _ => [|i x y _ <-]; rewrite ?op0 ?opD. Qed.

(* Normal-ordered product of two one-body operators. *)
Definition normal (X Y : 'M[C]_M) : A :=
  \sum_s \sum_t \sum_p \sum_r \sum_q \sum_u
    (X p r * Y q u) *: (cd p s * cd q t * c u t * c r s).

Lemma reorder4 p s r q t u :
  cd p s * c r s * (cd q t * c u t)
  = ((r == q) && (s == t))%:R *: (cd p s * c u t)
    + cd p s * cd q t * c u t * c r s.
Proof.
have E : c r s * cd q t = ((r == q) && (s == t))%:R - cd q t * c r s.
  by rewrite -(car_cd H) addrK.
have F : c r s * c u t = - (c u t * c r s).
  by apply/eqP; rewrite -subr_eq0 opprK (car_cc H).
rewrite -mulrA [c r s * _]mulrA E mulrBl mulrBr; congr (_ + _).
  by case: (_ && _); rewrite ?mul1r ?scale1r // mul0r mulr0 scale0r.
by rewrite -!mulrA F !mulrN opprK.
Qed.

Lemma op_mul X Y : op X * op Y = op (X *m Y) + normal X Y.
Proof.
rewrite /op /one_body_op.
transitivity (\sum_s \sum_t \sum_p \sum_r \sum_q \sum_u
    (X p r * Y q u) *: (((r == q) && (s == t))%:R *: (cd p s * c u t)
      + cd p s * cd q t * c u t * c r s)).
  rewrite mulr_suml; apply: eq_bigr => s _; rewrite mulr_sumr.
  apply: eq_bigr => t _; rewrite mulr_suml; apply: eq_bigr => p _.
  rewrite mulr_suml; apply: eq_bigr => r _; rewrite mulr_sumr.
  apply: eq_bigr => q _; rewrite mulr_sumr; apply: eq_bigr => u _.
  by rewrite -scalerAl -scalerAr scalerA reorder4.
transitivity (\sum_s \sum_t \sum_p \sum_r \sum_q \sum_u
    (X p r * Y q u) *: (((r == q) && (s == t))%:R *: (cd p s * c u t))
  + normal X Y).
  rewrite /normal -big_split /=; apply: eq_bigr => s _.
  rewrite -big_split /=; apply: eq_bigr => t _.
  rewrite -big_split /=; apply: eq_bigr => p _.
  rewrite -big_split /=; apply: eq_bigr => r _.
  rewrite -big_split /=; apply: eq_bigr => q _.
  by rewrite -big_split /=; apply: eq_bigr => u _; rewrite scalerDr.
congr (_ + _); apply: eq_bigr => s _.
rewrite (bigD1 s) //= [X in _ + X]big1 ?addr0; last first.
  move=> t ne; do 4 (rewrite big1 // => ? _).
  by rewrite [s == t]eq_sym (negbTE ne) andbF scale0r scaler0.
apply: eq_bigr => p _.
transitivity (\sum_r \sum_u (X p r * Y r u) *: (cd p s * c u s)).
  apply: eq_bigr => r _; rewrite (bigD1 r) //= [X in _ + X]big1 ?addr0.
    by apply: eq_bigr => u _; rewrite !eqxx scale1r.
  move=> q ne; rewrite big1 // => u _.
  by rewrite [r == q]eq_sym (negbTE ne) scale0r scaler0.
rewrite exchange_big /=; apply: eq_bigr => u _.
by rewrite mxE scaler_suml.
Qed.

Lemma normal_scale a b X Y : normal (a *: X) (b *: Y) = (a * b) *: normal X Y.
Proof.
rewrite /normal scaler_sumr; apply: eq_bigr => s _.
rewrite scaler_sumr; apply: eq_bigr => t _; rewrite scaler_sumr.
apply: eq_bigr => p _; rewrite scaler_sumr; apply: eq_bigr => r _.
rewrite scaler_sumr; apply: eq_bigr => q _; rewrite scaler_sumr.
by apply: eq_bigr => u _; rewrite !mxE scalerA mulrACA.
Qed.

Lemma normal_two I (r : seq I) (P : pred I) (X Y : I -> 'M[C]_M) v :
  (forall p k q u, 1 / 2%:R * v p k q u
     = \sum_(i <- r | P i) X i p k * Y i q u) ->
  \sum_(i <- r | P i) normal (X i) (Y i) = two_body_op v.
Proof.
move=> E; rewrite /normal /two_body_op.
rewrite exchange_big /=; apply: eq_bigr => s _.
rewrite exchange_big /=; apply: eq_bigr => t _.
rewrite exchange_big /=; apply: eq_bigr => p _.
rewrite exchange_big /=; apply: eq_bigr => k _.
rewrite exchange_big /=; apply: eq_bigr => q _.
rewrite exchange_big /=; apply: eq_bigr => u _.
by rewrite -scaler_suml -E.
Qed.

Lemma two_body_add v v1 v2 :
  (forall p r q u, v p r q u = v1 p r q u + v2 p r q u) ->
  two_body_op v = two_body_op v1 + two_body_op v2.
Proof.
move=> E; rewrite /two_body_op -big_split /=; apply: eq_bigr => s _.
rewrite -big_split /=; apply: eq_bigr => t _.
rewrite -big_split /=; apply: eq_bigr => p _.
rewrite -big_split /=; apply: eq_bigr => r _.
rewrite -big_split /=; apply: eq_bigr => q _.
by rewrite -big_split /=; apply: eq_bigr => u _; rewrite E mulrDr scalerDl.
Qed.

(* Any family of matrices L. *)
Lemma squares naux (L : 'I_naux -> 'M[C]_M) h :
  let v p r q u := \sum_n L n p r * L n q u in
  hamiltonian cd c h v
  = one_body_op (fun s => h s - half C *: \sum_n L n *m L n)
    + half C *: \sum_n op (L n) * op (L n).
Proof.
move=> v; rewrite /hamiltonian.
transitivity (one_body_op h + op (- (half C *: \sum_n L n *m L n))
   + (op (half C *: \sum_n L n *m L n) + two_body_op v)).
  by rewrite opN -addrA [- _ + _]addrA addNr add0r.
congr (_ + _); first by rewrite -one_body_add.
rewrite opZ op_sum scaler_sumr.
rewrite -(@normal_two _ (index_enum _) predT (fun n => half C *: L n) L v).
  rewrite -big_split scaler_sumr /=; apply: eq_bigr => n _.
  rewrite op_mul scalerDr; congr (_ + _).
  by have := normal_scale (half C) 1 (L n) (L n); rewrite scale1r mulr1 => ->.
move=> p r q u; rewrite mulr_sumr; apply: eq_bigr => n _.
by rewrite mxE mulrA.
Qed.


Definition chol_mx naux (chol : 'M[C]_(M * M, naux)) (n : 'I_naux) : 'M[C]_M :=
  \matrix_(i, k) chol (flat i k) n.

Lemma op_ext X Y : X = Y -> op X = op Y.
Proof. by move=> ->. Qed.

End Car.

Section Systems.
Variable C : numClosedFieldType.
Variable A : algType C.
Variable M : nat.
Variables cd c : 'I_M -> bool -> A.
Hypothesis H : car cd c.

Lemma generic_gap naux (chol : 'M[C]_(M * M, naux)) h1e :
  one_body_op cd c (by_spin (construct_h1e_mod chol h1e))
  + half C *: (\sum_n op cd c (chol_mx chol n) * op cd c (chol_mx chol n))
  = hamiltonian cd c (by_spin h1e)
      (fun p r q u => \sum_n chol (flat p r) n * chol (flat q u) n)
    + op cd c (half C *: \sum_n chol_mx chol n *m
                 (chol_mx chol n - (chol_mx chol n)^T)).
Proof.
have := squares H (chol_mx chol) (by_spin h1e); rewrite /=.
set v := fun p r q u => _; move=> E.
have -> : hamiltonian cd c (by_spin h1e)
    (fun p r q u => \sum_n chol (flat p r) n * chol (flat q u) n)
  = hamiltonian cd c (by_spin h1e) v.
  rewrite /hamiltonian; congr (_ + _); rewrite /two_body_op.
  apply: eq_bigr => s _; apply: eq_bigr => t _; apply: eq_bigr => p _.
  apply: eq_bigr => r _; apply: eq_bigr => q _; apply: eq_bigr => u _.
  by congr (_ * _ *: _); apply: eq_bigr => n _; rewrite !mxE.
rewrite E addrAC; congr (_ + _); rewrite -one_body_add.
apply: one_body_ext => s.
have -> : by_spin (construct_h1e_mod chol h1e) s
  = by_spin h1e s - half C *: \sum_n chol_mx chol n *m (chol_mx chol n)^T.
  rewrite /by_spin /construct_h1e_mod.
  have -> : (\matrix_(i, j) (half C * \sum_k \sum_n chol (flat i k) n * chol (flat j k) n))
    = half C *: \sum_n chol_mx chol n *m (chol_mx chol n)^T.
    apply/matrixP => i j; rewrite !mxE; congr (_ * _).
    rewrite summxE exchange_big /=; apply: eq_bigr => n _; rewrite mxE.
    by apply: eq_bigr => k _; rewrite !mxE.
  by case: s.
rewrite -addrA; congr (_ + _).
rewrite -scalerN -[- (half C *: _)]scalerN -scalerDr; congr (_ *: _).
rewrite -!sumrN -big_split /=; apply: eq_bigr => n _.
by rewrite mulmxBr addrA addNr add0r.
Qed.

Lemma generic_right naux (chol : 'M[C]_(M * M, naux)) h1e :
  (forall n, (chol_mx chol n)^T = chol_mx chol n) ->
  hamiltonian cd c (by_spin h1e)
      (fun p r q u => \sum_n chol (flat p r) n * chol (flat q u) n)
  = one_body_op cd c (by_spin (construct_h1e_mod chol h1e))
    + half C *: (\sum_n op cd c (chol_mx chol n) * op cd c (chol_mx chol n)).
Proof.
move=> sym; rewrite generic_gap.
rewrite big1 => [|n _]; last by rewrite sym subrr mulmx0.
by rewrite scaler0 op0 addr0.
Qed.

(* The Hubbard model. *)
Lemma op_site p : op cd c (delta_mx p p) = \sum_s number cd c p s.
Proof.
rewrite /op /one_body_op; apply: eq_bigr => s _.
rewrite (bigD1 p) //= [X in _ + X]big1 ?addr0 => [|q ne]; last first.
  by rewrite big1 // => r _; rewrite mxE (negbTE ne) scale0r.
rewrite (bigD1 p) //= [X in _ + X]big1 ?addr0 => [|q ne]; last first.
  by rewrite mxE (negbTE ne) andbF scale0r.
by rewrite mxE !eqxx scale1r.
Qed.

Lemma hubbard_two (U : C) :
  two_body_op cd c (fun p r q u => hijkl_hubbard U p q r u)
  = \sum_p normal cd c ((half C * U) *: delta_mx p p) (delta_mx p p).
Proof.
symmetry; apply: (@normal_two C A M _ cd c _ (index_enum _) predT) => p r q u.
rewrite /hijkl_hubbard.
rewrite (bigD1 p) //= [X in _ + X]big1 ?addr0 => [|i ne]; last first.
  by rewrite !mxE [p == i]eq_sym (negbTE ne) /= mulr0 mul0r.
rewrite !mxE eqxx /= -[1 / 2%:R]/(half C).
case: (altP (r =P p)) => [->|ne]; last first.
  rewrite mulr0 mul0r; case: ifP => //; last by rewrite mulr0.
  by case/and3P => /eqP e1 /eqP e2; rewrite -e2 -e1 eqxx in ne.
rewrite mulr1; case: (altP (q =P p)) => [->|ne] /=; last first.
  by rewrite andbF !mulr0.
rewrite eqxx [p == u]eq_sym /=.
by case: (altP (u =P p)) => [|ne]; rewrite ?mulr1 ?mulr0.
Qed.

Lemma hubbard_right (U : C) H1 :
  hamiltonian cd c (by_spin H1) (fun p r q u => hijkl_hubbard U p q r u)
  = one_body_op cd c (by_spin (construct_h1e_mod_hubbard false U H1))
    + \sum_p (half C * U) *: (\sum_s number cd c p s) ^+ 2.
Proof.
rewrite /hamiltonian hubbard_two.
have E : \sum_p (half C * U) *: (\sum_s number cd c p s) ^+ 2
  = op cd c ((half C * U) *: 1%:M)
    + \sum_p normal cd c ((half C * U) *: delta_mx p p) (delta_mx p p).
  transitivity (\sum_p ((half C * U) *: op cd c (delta_mx p p *m delta_mx p p)
    + normal cd c ((half C * U) *: delta_mx p p) (delta_mx p p))).
    apply: eq_bigr => p _; rewrite -op_site expr2 (op_mul H) scalerDr.
    congr (_ + _).
    have := normal_scale cd c (half C * U) 1 (delta_mx p p) (delta_mx p p).
    by rewrite scale1r mulr1.
  rewrite big_split /=; congr (_ + _).
  rewrite -scaler_sumr opZ -op_sum; congr (_ *: op cd c _).
  apply/matrixP => i j; rewrite summxE mxE.
  rewrite (bigD1 i) //= [X in _ + X]big1 ?addr0 => [|p ne].
    by rewrite mul_delta_mx mxE eqxx /= eq_sym.
  by rewrite mul_delta_mx mxE [i == p]eq_sym (negbTE ne).
rewrite E addrA; congr (_ + _).
rewrite -[op _ _ _]/(one_body_op cd c _) -one_body_add.
by apply: one_body_ext => s; rewrite /by_spin; case: s; rewrite /= subrK.
Qed.

(* n_p,up n_p,down *)
Lemma cd_sq p s : cd p s * cd p s = 0.
Proof.
have := car_dd H p s p s; rewrite -mulr2n -scaler_nat => /eqP.
by rewrite scaler_eq0 pnatr_eq0 => /eqP.
Qed.

Lemma hubbard_interaction (U : C) :
  two_body_op cd c (fun p r q u => hijkl_hubbard U p q r u)
  = \sum_p U *: (number cd c p false * number cd c p true).
Proof.
rewrite hubbard_two; apply: eq_bigr => p _.
have N s t : s != t ->
    cd p s * cd p t * c p t * c p s = number cd c p s * number cd c p t.
  by move=> ne; rewrite /number (reorder4 H) (negbTE ne) andbF scale0r add0r.
have K : number cd c p true * number cd c p false
       = number cd c p false * number cd c p true.
  rewrite -!N // -[LHS]mulrA -[RHS]mulrA.
  have -> : cd p true * cd p false = - (cd p false * cd p true).
    by apply/eqP; rewrite -subr_eq0 opprK (car_dd H).
  have -> : c p false * c p true = - (c p true * c p false).
    by apply/eqP; rewrite -subr_eq0 opprK (car_cc H).
  by rewrite mulrNN.
rewrite /normal.
transitivity (\sum_s \sum_t (half C * U) *: (cd p s * cd p t * c p t * c p s)).
  apply: eq_bigr => s _; apply: eq_bigr => t _.
  rewrite (bigD1 p) //= [X in _ + X]big1 ?addr0 => [|q ne]; last first.
    do 3 (rewrite big1 // => ? _).
    by rewrite !mxE (negbTE ne) mulr0 mul0r scale0r.
  rewrite (bigD1 p) //= [X in _ + X]big1 ?addr0 => [|q ne]; last first.
    do 2 (rewrite big1 // => ? _).
    by rewrite !mxE (negbTE ne) andbF mulr0 mul0r scale0r.
  rewrite (bigD1 p) //= [X in _ + X]big1 ?addr0 => [|q ne]; last first.
    rewrite big1 // => ? _.
    by rewrite !mxE (negbTE ne) mulr0 scale0r.
  rewrite (bigD1 p) //= [X in _ + X]big1 ?addr0 => [|q ne]; last first.
    by rewrite !mxE (negbTE ne) andbF mulr0 scale0r.
  by rewrite !mxE !eqxx !mulr1.
rewrite !big_bool /= !cd_sq !mul0r scaler0 add0r addr0.
rewrite (N true false) // (N false true) // K -scalerDl.
by rewrite -mulrDl half2 mul1r.
Qed.

(* With the symmetric option nothing is subtracted. *)
Lemma hubbard_symmetric (U : C) H1 :
  one_body_op cd c (by_spin (construct_h1e_mod_hubbard true U H1))
  + \sum_p (half C * U) *: (\sum_s number cd c p s) ^+ 2
  = hamiltonian cd c (by_spin H1) (fun p r q u => hijkl_hubbard U p q r u)
    + (half C * U) *: \sum_p \sum_s number cd c p s.
Proof.
rewrite hubbard_right addrAC; congr (_ + _).
have -> : (half C * U) *: (\sum_p \sum_s number cd c p s)
  = op cd c ((half C * U) *: 1%:M).
  rewrite opZ; congr (_ *: _); rewrite (eq_bigr _ (fun p _ => esym (op_site p))).
  rewrite -op_sum; congr (op cd c _); apply/matrixP => i j.
  rewrite summxE mxE (bigD1 i) //= [X in _ + X]big1 ?addr0 => [|p ne].
    by rewrite mxE eqxx /= eq_sym.
  by rewrite mxE [i == p]eq_sym (negbTE ne).
rewrite -[op _ _ _]/(one_body_op cd c _) -one_body_add.
by apply: one_body_ext => s; rewrite /by_spin; case: s; rewrite /= subrK.
Qed.

(* Number operators do not vanish in any algebra. *)
Lemma number_comm p s q t :
  number cd c p s * cd q t - cd q t * number cd c p s
  = ((p == q) && (s == t))%:R * cd p s.
Proof.
have E : c p s * cd q t = ((p == q) && (s == t))%:R - cd q t * c p s.
  by rewrite -(car_cd H) addrK.
have F : cd q t * cd p s = - (cd p s * cd q t).
  by apply/eqP; rewrite -subr_eq0 opprK (car_dd H).
rewrite /number -mulrA E mulrBr !mulrA F mulNr opprK subrK.
by case: (_ && _); rewrite ?mulr1 ?mul1r // mulr0 mul0r.
Qed.

Lemma cd_neq0 p s : cd p s != 0.
Proof.
apply/eqP => E; have := car_cd H p s p s.
by rewrite E mulr0 mul0r addr0 !eqxx => /eqP; rewrite eq_sym oner_eq0.
Qed.

Lemma site_neq0 p : \sum_s number cd c p s != 0.
Proof.
apply/eqP => E; have /eqP := cd_neq0 p true; case.
have : (\sum_s number cd c p s) * cd p true - cd p true * (\sum_s number cd c p s)
   = cd p true.
  rewrite !big_bool /= mulrDr mulrDl opprD addrACA !number_comm !eqxx /=.
  by rewrite mul1r mul0r addr0.
by rewrite E mulr0 mul0r subrr.
Qed.

Lemma generic_wrong (i j : 'I_M) : i != j ->
  exists (chol : 'M[C]_(M * M, 1)) h1e,
  one_body_op cd c (by_spin (construct_h1e_mod chol h1e))
  + half C *: (\sum_n op cd c (chol_mx chol n) * op cd c (chol_mx chol n))
  <> hamiltonian cd c (by_spin h1e)
      (fun p r q u => \sum_n chol (flat p r) n * chol (flat q u) n).
Proof.
move=> ne; exists (delta_mx (flat i j) 0), (0, 0); rewrite generic_gap => /eqP.
rewrite -[X in _ == X]addr0 (inj_eq (addrI _)) opZ big_ord_recl big_ord0 addr0.
have -> : chol_mx (delta_mx (flat i j) 0 : 'M[C]_(M * M, 1)) ord0 = delta_mx i j.
  apply/matrixP => a b; rewrite !mxE andbT; congr (nat_of_bool _)%:R.
  apply/eqP/andP => [e|[/eqP -> /eqP ->]] //.
  have := congr1 (@flat_row M M) e; have := congr1 (@flat_col M M) e.
  by rewrite !flatK => -> ->; rewrite !eqxx.
rewrite mulmxBr trmx_delta mul_delta_mx mul_delta_mx_0; last by rewrite eq_sym.
rewrite sub0r opN op_site scalerN oppr_eq0 scaler_eq0 (negbTE (site_neq0 i)) orbF.
by rewrite /half mul1r invr_eq0 pnatr_eq0.
Qed.

(* The uniform electron gas. *)
Section UEG.
Variable V : zmodType.
Variables pi vol : C.
Variable norm2 : V -> C.
Variable basis : 'I_M -> V.
Variable lookup : V -> option 'I_M.
Variable qvecs : seq V.
Hypothesis basis_inj : injective basis.
Hypothesis lookupP : forall k i, lookup k = Some i <-> basis i = k.
Hypothesis quniq : uniq qvecs.
Hypothesis qfull : forall i j, i != j -> basis i - basis j \in qvecs.
Hypothesis norm2N : forall q, norm2 (- q) = norm2 q.
Hypothesis q0 : 0 \notin qvecs.

Local Notation rho := (rho_q pi vol norm2 basis lookup).
Local Notation rhoH := (rho_qH pi vol norm2 basis lookup).
Local Notation vq := (vq pi norm2).
Local Notation f2 q := (pi / vol / norm2 q).

Lemma rhoE q a b : rho q a b
  = if basis a == basis b + q then sqrtC (f2 q) else 0.
Proof.
rewrite mxE; congr (if _ then _ else _).
by apply/eqP/eqP => e; apply/lookupP.
Qed.

Lemma rhoHE q a b : rhoH q a b = rho q b a.
Proof. by rewrite !mxE. Qed.

Lemma rhoH_tr q : rhoH q = (rho q)^T.
Proof. by apply/matrixP => a b; rewrite rhoHE [RHS]mxE. Qed.

Lemma square_sum (x y : A) :
  (x + y) * (x + y) = (x * x + y * y) + (x * y + y * x).
Proof.
by rewrite mulrDr !mulrDl [x * y + _]addrC addrACA [y * x + _]addrC.
Qed.

Lemma squares_q (x y : A) :
  ('i *: (x + y)) * ('i *: (x + y)) + (- (x - y)) * (- (x - y))
  = - (2%:R *: (x * y + y * x)).
Proof.
rewrite -scalerAl -scalerAr scalerA -expr2 sqrCi scaleN1r mulrNN !square_sum.
rewrite mulrNN mulrN mulNr -[- (x * y) - _]opprD.
set a := x * x + y * y; set b := x * y + y * x.
rewrite opprD addrACA addNr add0r -opprD.
by rewrite scaler_nat mulr2n.
Qed.

Lemma sum_q (f : V -> C) (i j : 'I_M) :
  \sum_(q <- qvecs) (if basis i == basis j + q then f q else 0)
  = if i == j then 0 else f (basis i - basis j).
Proof.
have E q : (basis i == basis j + q) = (q == basis i - basis j).
  by rewrite [_ + q]addrC -subr_eq eq_sym.
case: (altP (i =P j)) => [->|ne].
  rewrite big_seq big1 // => q hq; case: eqP => // /eqP.
  rewrite -[X in X == _]addr0 (inj_eq (addrI _)) => /eqP e.
  by rewrite -e (negbTE q0) in hq.
rewrite (bigD1_seq (basis i - basis j)) ?qfull //= E eqxx.
by rewrite big1 ?addr0 // => q nq; rewrite E (negbTE nq).
Qed.

Lemma f2N q : f2 (- q) = f2 q.
Proof. by rewrite norm2N. Qed.

Lemma vol_f2 q : 1 / (2%:R * vol) * vq q = f2 q + f2 q.
Proof.
rewrite /vq -mulr2n -[RHS]mulr_natl mul1r invfM -[4%N]/(2 * 2)%N natrM.
have E : 2%:R^-1 * 2%:R = 1 :> C by rewrite mulVf ?pnatr_eq0.
have R : forall (t i v p n : C),
    i * v * (t * t * p * n) = i * t * (t * (p * v * n)).
  by move=> t i v p n; exact: (vol_ring (comring_th C)).
by rewrite R E mul1r.
Qed.

Lemma sqrt_f2 q : sqrtC (f2 q) * sqrtC (f2 q) = f2 q.
Proof. by rewrite -expr2 sqrtCK. Qed.

Lemma foldl_sub (I : eqType) (r : seq I) (P : pred I) (f : I -> C) a :
  foldl (fun h j => if P j then h - f j else h) a r
  = a - \sum_(j <- r | P j) f j.
Proof.
elim: r a => [|j r IH] a /=; first by rewrite big_nil subr0.
by rewrite IH big_cons; case: (P j); rewrite ?opprD ?addrA.
Qed.

Lemma ueg_one T :
  mod_one_body pi vol norm2 basis T
  = T - \sum_(q <- qvecs) (rho q *m rhoH q + rhoH q *m rho q).
Proof.
apply/matrixP => i j; rewrite mxE [RHS]mxE mxE summxE.
have E : \sum_(q <- qvecs) (rho q *m rhoH q + rhoH q *m rho q) i j
  = \sum_k \sum_(q <- qvecs) (rho q i k * rho q j k)
  + \sum_k \sum_(q <- qvecs) (rho q k i * rho q k j).
  rewrite [X in _ = X + _]exchange_big [X in _ = _ + X]exchange_big /=.
  rewrite -big_split /=; apply: eq_bigr => q _.
  rewrite mxE; congr (_ + _); rewrite mxE; apply: eq_bigr => k _.
    by rewrite rhoHE.
  by rewrite rhoHE.
rewrite E; case: (altP (i =P j)) => [<-|ne]; last first.
  rewrite !big1 ?addr0 ?subr0 // => k _; rewrite big1 // => q _; rewrite !rhoE.
    case: eqP => [e1|]; last by rewrite mul0r.
    case: eqP => [e2|]; last by rewrite mulr0.
    by case/eqP: ne; apply: basis_inj; apply: (addIr q); rewrite -e1 -e2.
  case: eqP => [e1|]; last by rewrite mul0r.
  case: eqP => [e2|]; last by rewrite mulr0.
  by case/eqP: ne; apply: basis_inj; rewrite e1 e2.
rewrite foldl_sub big_enum_cond /=; congr (_ - _).
rewrite -big_split /=; rewrite [RHS](bigD1 i) //=.
have D k : \sum_(q <- qvecs) rho q i k * rho q i k
         = if i == k then 0 else f2 (basis i - basis k).
  rewrite -[RHS](sum_q (fun q => f2 q)); apply: eq_bigr => q _; rewrite rhoE.
  by case: ifP => _; rewrite ?sqrt_f2 ?mul0r.
have D' k : \sum_(q <- qvecs) rho q k i * rho q k i
         = if i == k then 0 else f2 (basis i - basis k).
  rewrite -(f2N (_ - _)) opprB [i == k]eq_sym -[RHS](sum_q (fun q => f2 q)).
  apply: eq_bigr => q _; rewrite rhoE.
  by case: ifP => _; rewrite ?sqrt_f2 ?mul0r.
rewrite D eqxx addr0 add0r; apply: eq_big => k; first by rewrite eq_sym.
by move=> ne; rewrite D D' (negbTE ne) vol_f2.
Qed.

Lemma ueg_two p r q u :
  1 / 2%:R * hijkl_ueg pi vol norm2 basis p q r u
  = \sum_(k <- qvecs) (rho k p r * rhoH k q u + rhoH k p r * rho k q u).
Proof.
rewrite big_split /=.
have D : \sum_(k <- qvecs) rho k p r * rhoH k q u
  = if (basis p - basis r == basis u - basis q) && (p != r)
    then f2 (basis r - basis p) else 0.
  transitivity (\sum_(k <- qvecs) (if basis p == basis r + k
     then (if basis u == basis q + k then f2 k else 0) else 0)).
    apply: eq_bigr => k _; rewrite rhoHE !rhoE.
    by do 2 case: eqP => _; rewrite ?sqrt_f2 ?mul0r ?mulr0.
  rewrite sum_q -[basis r - _]opprB f2N.
  case: (altP (p =P r)) => [|ne]; first by rewrite andbF.
  rewrite andbT; congr (if _ then _ else _).
  by rewrite [_ + (_ - _)]addrC -subr_eq eq_sym.
have D' : \sum_(k <- qvecs) rhoH k p r * rho k q u
  = if (basis p - basis r == basis u - basis q) && (p != r)
    then f2 (basis r - basis p) else 0.
  transitivity (\sum_(k <- qvecs) (if basis r == basis p + k
     then (if basis q == basis u + k then f2 k else 0) else 0)).
    apply: eq_bigr => k _; rewrite rhoHE !rhoE.
    by do 2 case: eqP => _; rewrite ?sqrt_f2 ?mul0r ?mulr0.
  rewrite sum_q [r == p]eq_sym.
  case: (altP (p =P r)) => [|ne]; first by rewrite andbF.
  rewrite andbT; congr (if _ then _ else _).
  rewrite [_ + (_ - _)]addrC -subr_eq.
  by rewrite -[basis q - _]opprB -[basis r - _]opprB eqr_opp eq_sym.
rewrite D D' /hijkl_ueg.
have -> : (basis r - basis p != 0) && (basis r - basis p == basis q - basis u)
  = (basis p - basis r == basis u - basis q) && (p != r).
  rewrite andbC -[basis q - _]opprB -[basis r - _]opprB eqr_opp; congr (_ && _).
  by rewrite opprB subr_eq0 (inj_eq basis_inj) eq_sym.
case: ifP => _; last by rewrite mulr0 addr0.
by rewrite -vol_f2 invfM !mul1r !mulrA.
Qed.

Lemma ueg_right T :
  let h := mod_one_body pi vol norm2 basis T in
  hamiltonian cd c (by_spin (T, T))
    (fun p r q u => hijkl_ueg pi vol norm2 basis p q r u)
  = one_body_op cd c (by_spin (h, h))
    - half C *: \sum_(q <- qvecs)
        (op cd c (iA pi vol norm2 basis lookup q) ^+ 2
         + op cd c (iB pi vol norm2 basis lookup q) ^+ 2).
Proof.
move=> h.
have B q : op cd c (iA pi vol norm2 basis lookup q) ^+ 2
         + op cd c (iB pi vol norm2 basis lookup q) ^+ 2
  = - (2%:R *: (op cd c (rho q *m rhoH q + rhoH q *m rho q)
         + (normal cd c (rho q) (rhoH q) + normal cd c (rhoH q) (rho q)))).
  rewrite /iA /iB opZ opN !opD opN !expr2 squares_q !(op_mul H).
  by rewrite addrACA.
rewrite (eq_bigr _ (fun q _ => B q)) sumrN scalerN opprK -scaler_sumr scalerA.
rewrite /half mul1r mulVf ?pnatr_eq0 // scale1r big_split /= addrA.
rewrite /hamiltonian; congr (_ + _).
  rewrite -[\sum_(q <- _) op _ _ _]op_sum -[op _ _ _]/(one_body_op cd c _).
  rewrite -one_body_add; apply: one_body_ext => s.
  have -> : by_spin (h, h) s = h by case: s.
  by rewrite /h ueg_one subrK; case: s.
rewrite big_split /=.
pose v1 p r q u := 2%:R * \sum_(k <- qvecs) rho k p r * rhoH k q u.
pose v2 p r q u := 2%:R * \sum_(k <- qvecs) rhoH k p r * rho k q u.
have T2 x : 1 / 2%:R * (2%:R * x) = x :> C.
  by rewrite mulrA mul1r mulVf ?pnatr_eq0 // mul1r.
rewrite (@normal_two C A M _ cd c _ qvecs predT rho rhoH v1) => [|*]; last first.
  exact: T2.
rewrite (@normal_two C A M _ cd c _ qvecs predT rhoH rho v2) => [|*]; last first.
  exact: T2.
apply: two_body_add => p r q u.
by rewrite /v1 /v2 -mulrDr -big_split /= -ueg_two mulrA mul1r mulfV ?pnatr_eq0 // mul1r.
Qed.

End UEG.
End Systems.

(* The Fock space satisfies the relations. *)
Section Fock.
Variable C : numClosedFieldType.
Variable n : nat.
Local Notation ann := (@annihilate C n).
Local Notation cre := (@create C n).
Local Notation par := (@parity C n).

Definition index (B : {set 'I_n}) : 'I_(#|{set 'I_n}|.-1.+1) :=
  cast_ord (dim_proof n) (enum_rank B).

Lemma indexK B : state (index B) = B.
Proof. by rewrite /state /index cast_ordK enum_rankK. Qed.
Lemma stateK a : index (state a) = a.
Proof. by rewrite /state /index enum_valK cast_ordKV. Qed.

Lemma sum_state (f : 'I_(#|{set 'I_n}|.-1.+1) -> C) :
  \sum_a f a = \sum_B f (index B).
Proof.
rewrite (reindex index) //; exists (@state n) => x _;
  [exact: indexK|exact: stateK].
Qed.

Lemma parity_del (B : {set 'I_n}) (k i : 'I_n) : k \in B ->
  par B i = (if (k < i)%N then -1 else 1) * par (B :\ k) i.
Proof.
move=> kB; rewrite /parity.
have E : [set j in B :\ k | (j < i)%N] = [set j in B | (j < i)%N] :\ k.
  by apply/setP => j; rewrite !inE andbA.
rewrite E (cardsD1 k [set j in B | (j < i)%N]) inE kB /=.
by case: ifP => _; rewrite ?exprS ?mul1r.
Qed.

Lemma parity_sq B i : par B i * par B i = 1.
Proof. by rewrite -expr2 /parity sqrr_sign. Qed.

Lemma annE i a b : ann i a b
  = if (i \in state b) && (a == index (state b :\ i))
    then par (state b) i else 0.
Proof.
rewrite mxE; congr (if _ && _ then _ else _).
by apply/eqP/eqP => [<-|->]; rewrite ?stateK ?indexK.
Qed.

Lemma ann_ann i j a b :
  (ann i *m ann j) a b
  = if [&& j \in state b, i \in state b, i != j
        & a == index (state b :\ j :\ i)]
    then par (state b :\ j) i * par (state b) j else 0.
Proof.
rewrite mxE; case jB: (j \in state b); last first.
  by rewrite big1 // => k _; rewrite [ann j k b]annE jB mulr0.
rewrite (bigD1 (index (state b :\ j))) //= [X in _ + X]big1 ?addr0.
  rewrite [ann j _ b]annE jB eqxx /= annE indexK in_setD1.
  by rewrite [_ && (i \in _)]andbC -andbA; case: ifP => _; rewrite ?mul0r.
by move=> k ne; rewrite [ann j k b]annE (negbTE ne) andbF mulr0.
Qed.

Lemma anti_aa i j : ann i *m ann j + ann j *m ann i = 0.
Proof.
apply/matrixP => a b; rewrite mxE !ann_ann [RHS]mxE.
have -> : state b :\ i :\ j = state b :\ j :\ i.
  by apply/setP => k; rewrite !inE andbCA.
rewrite [j == i]eq_sym andbCA.
case: ifP; last by rewrite addr0.
case/and4P => iB jB ne _.
rewrite (parity_del j iB) (parity_del i jB).
have : (i != j :> nat) by [].
case: (ltngtP i j) => // _ _; rewrite ?mulN1r ?mul1r ?mulrN ?mulNr.
  by rewrite [X in - X]mulrC addNr.
by rewrite mulrC subrr.
Qed.

Lemma cre_ann i j a b :
  (cre j *m ann i) a b
  = if [&& i \in state b, j \in state a & state a :\ j == state b :\ i]
    then par (state a) j * par (state b) i else 0.
Proof.
rewrite mxE; case iB: (i \in state b); last first.
  by rewrite big1 // => k _; rewrite [ann i k b]annE iB mulr0.
rewrite (bigD1 (index (state b :\ i))) //= [X in _ + X]big1 ?addr0.
  rewrite [ann i _ b]annE iB eqxx /= mxE annE (can_eq indexK) [state b :\ i == _]eq_sym.
  by case: ifP => _; rewrite ?mul0r.
by move=> k ne; rewrite [ann i k b]annE (negbTE ne) andbF mulr0.
Qed.

Lemma ann_cre i j a b :
  (ann i *m cre j) a b
  = if [&& j \notin state b, i \notin state a & j |: state b == i |: state a]
    then par (i |: state a) i * par (j |: state b) j else 0.
Proof.
have X k (c : 'I_(#|{set 'I_n}|.-1.+1)) d :
    (k \in state c) && (d == index (state c :\ k))
    = (k \notin state d) && (c == index (k |: state d)).
  apply/andP/andP => -[h /eqP ->]; rewrite indexK !inE eqxx ?h //=; split=> //.
    by rewrite setD1K // stateK.
  by rewrite setU1K // stateK.
rewrite mxE; case jB: (j \in state b) => /=.
  by rewrite big1 // => k _; rewrite [cre j k b]mxE [ann j b k]annE X jB mulr0.
rewrite (bigD1 (index (j |: state b))) //= [X in _ + X]big1 ?addr0.
  rewrite [cre j _ b]mxE !annE !X jB eqxx /= indexK (can_eq indexK).
  case: andP => [[_ /eqP ->]|]; by rewrite ?mul0r.
by move=> k ne; rewrite [cre j k b]mxE [ann j b k]annE X (negbTE ne) andbF mulr0.
Qed.

Lemma cond_flip i j (a b : {set 'I_n}) : i != j ->
  [&& i \in b, j \in a & a :\ j == b :\ i]
  = [&& j \notin b, i \notin a & j |: b == i |: a].
Proof.
move=> ne; apply/and3P/and3P => -[h1 h2 /eqP E].
  have jb : j \notin b.
    apply/negP => jb; have : j \in b :\ i by rewrite !inE eq_sym ne.
    by rewrite -E !inE eqxx.
  have ia : i \notin a.
    apply/negP => ia; have : i \in a :\ j by rewrite !inE ne.
    by rewrite E !inE eqxx.
  split=> //; rewrite -(setD1K h1) -(setD1K h2) E.
  by rewrite setUCA.
have ib : i \in b.
  have : i \in i |: a by rewrite !inE eqxx.
  by rewrite -E !inE (negbTE ne).
have ja : j \in a.
  have : j \in j |: b by rewrite !inE eqxx.
  by rewrite E !inE eq_sym (negbTE ne).
split=> //; apply/eqP/setP => k; have := congr1 (fun B : {set 'I_n} => k \in B) E; rewrite !inE.
case: (altP (k =P i)) => [ki|ki]; case: (altP (k =P j)) => [kj|kj] //=.
- by rewrite ki (negbTE h2).
- by rewrite kj (negbTE h1).
Qed.

Lemma anti_ac i j : ann i *m cre j + cre j *m ann i = (i == j)%:R%:M.
Proof.
apply/matrixP => a b; rewrite mxE ann_cre cre_ann [RHS]mxE.
case: (altP (i =P j)) => [->|ne].
  have ab : (a == b) = (state a == state b).
    by rewrite (can_eq (@stateK)).
  rewrite ab; case jB: (j \in state b) => /=.
    rewrite add0r; case: (altP (state a =P state b)) => [->|nab].
      by rewrite jB eqxx parity_sq.
    case: ifP => // /andP[ja /eqP E]; case/eqP: nab.
    by rewrite -(setD1K ja) -(setD1K jB) E.
  rewrite addr0; case: (altP (state a =P state b)) => [->|nab].
    by rewrite jB eqxx parity_sq.
  case: ifP => // /andP[ja /eqP E]; case/eqP: nab.
  by rewrite -(setU1K ja) -(setU1K (negbT jB)) E.
rewrite cond_flip //=; case: ifP; last by rewrite addr0 mul0rn.
case/and3P => jb ia /eqP E; rewrite mul0rn.
have iW : i \in i |: state a by rewrite !inE eqxx.
have jW : j \in i |: state a by rewrite -E !inE eqxx.
have Ea : state a = (i |: state a) :\ i by rewrite setU1K.
have Eb : state b = (i |: state a) :\ j by rewrite -E setU1K.
rewrite E [X in _ + par X _ * _]Ea [X in _ + _ * par X _]Eb.
rewrite (parity_del i jW) (parity_del j iW).
have : (i != j :> nat) by [].
case: (ltngtP i j) => // _ _; rewrite ?mulN1r ?mul1r ?mulrN ?mulNr.
  by rewrite [X in - X]mulrC addNr.
by rewrite [X in - X]mulrC addNr.
Qed.

Lemma anti_cc i j : cre i *m cre j + cre j *m cre i = 0.
Proof. by rewrite -!trmx_mul -linearD /= anti_aa trmx0. Qed.

End Fock.

(* Orbital p with spin s is mode 2p + s. *)
Section FockSpin.
Variable C : numClosedFieldType.
Variable M : nat.

Lemma mode_proof (p : 'I_M) (s : bool) : (p.*2 + s < M.*2)%N.
Proof.
by rewrite (leq_trans (n := p.+1.*2)) ?leq_double // doubleS; case: s;
   rewrite ?addn1 ?addn0.
Qed.
Definition mode p s : 'I_(M.*2) := Ordinal (mode_proof p s).

Lemma mode_inj p s q t : (mode p s == mode q t) = (p == q) && (s == t).
Proof.
apply/eqP/andP => [[E]|[/eqP -> /eqP ->]] //; split; apply/eqP.
  apply: val_inj; have := congr1 ssrnat.half E.
  by rewrite ![(_ + nat_of_bool _)%N]addnC !half_bit_double.
by move: E => /(congr1 odd); rewrite !oddD !odd_double; case: (s); case: (t).
Qed.

Lemma fock_car :
  car (fun p s => @create C _ (mode p s)) (fun p s => @annihilate C _ (mode p s)).
Proof.
split=> p s q t.
- exact: anti_aa.
- exact: anti_cc.
- have E := anti_ac C (mode p s) (mode q t).
  transitivity ((mode p s == mode q t)%:R%:M : 'M[C]_(#|{set 'I_(M.*2)}|.-1.+1)).
    exact: E.
  by rewrite mode_inj; case: (_ && _); rewrite // raddf0.
Qed.

End FockSpin.
