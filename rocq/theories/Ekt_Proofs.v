(* Proofs: generalised Fock matrices. *)

From Verif Require Import Base.
Set Warnings "-notation-overridden,-ambiguous-paths".
From mathcomp Require Import all_ssreflect all_algebra.
From Verif Require Import LEnergy_Proofs Reorder_Spec Reorder_Proofs Freeze_Spec.
From Verif Require Import Ekt_Model Ekt_Spec.

Set Implicit Arguments.
Unset Strict Implicit.
Unset Printing Implicit Defensive.

Import Order.TTheory GRing.Theory Num.Theory.
Local Open Scope ring_scope.

Section RingFacts.
Variables (K : Type) (z o : K) (ad mu sb : K -> K -> K) (op : K -> K).
Hypothesis Kth : ring_theory z o ad mu sb op (@eq K).
Add Ring Kring : Kth.
Local Notation "x +' y" := (ad x y) (at level 50, left associativity).
Local Notation "x *' y" := (mu x y) (at level 40, left associativity).
Local Notation "x -' y" := (ad x (op y)) (at level 50, left associativity).

Lemma rf_1p h ah bh Xa Xb aXa aXb bXa bXb ka kb Ka Kb :
  (h -' ah +' h -' bh) +' ((o +' o) *' (Xa +' Xb) -' (o +' o) *' aXb -' aXa -' bXb)
  +' ((op ka -' kb) +' Ka +' Kb)
  = ((h -' ah) +' (Xa +' Xb) -' (aXa +' aXb) +' (Ka -' ka))
    +' ((h -' bh) +' (Xb +' Xa) -' (bXb +' bXa) +' (Kb -' kb))
    +' (bXa -' aXb).
Proof. ring. Qed.

Lemma rf_1h ah bh aXa aXb bXa bXb Ka Kb Kab :
  op (ah +' bh) +' (op ((o +' o) *' aXb) -' aXa -' bXb) +' (Ka +' Kab)
  = (op ah -' (aXa +' aXb) +' Ka) +' (op bh -' (bXb +' bXa) +' Kb)
    +' (bXa -' aXb +' (Kab -' Kb)).
Proof. ring. Qed.

Lemma rf_1p_swap h ah bh Xa Xb aXa aXb bXa bXb ka kb Ka Kb :
  ((h -' ah +' h -' bh) +' ((o +' o) *' (Xa +' Xb) -' (o +' o) *' aXb -' aXa -' bXb)
   +' ((op ka -' kb) +' Ka +' Kb))
  -' ((h -' bh +' h -' ah) +' ((o +' o) *' (Xb +' Xa) -' (o +' o) *' bXa -' bXb -' aXa)
   +' ((op kb -' ka) +' Kb +' Ka))
  = (o +' o) *' (bXa -' aXb).
Proof. ring. Qed.

Lemma rf_1h_swap ah bh aXa bXb aXb bXa Kaa Kab Kba Kbb :
  (op (ah +' bh) +' (op ((o +' o) *' aXb) -' aXa -' bXb) +' (Kaa +' Kab))
  -' (op (bh +' ah) +' (op ((o +' o) *' bXa) -' bXb -' aXa) +' (Kbb +' Kba))
  = (o +' o) *' (bXa -' aXb) +' (Kaa +' Kab -' (Kba +' Kbb)).
Proof. ring. Qed.

End RingFacts.

Section Car.
Variable C : numClosedFieldType.
Variable A : algType C.
Variable M : nat.
Variables cd c : 'I_M -> bool -> A.
Hypothesis H : car cd c.

Definition com (x y : A) : A := x * y - y * x.

Lemma com_sum I (r : seq I) (P : pred I) F y :
  com (\sum_(i <- r | P i) F i) y = \sum_(i <- r | P i) com (F i) y.
Proof. by rewrite /com mulr_suml mulr_sumr -sumrB. Qed.
Lemma com_scale a x y : com (a *: x) y = a *: com x y.
Proof. by rewrite /com -scalerAl -scalerAr scalerBr. Qed.
Lemma comD x y z : com (x + y) z = com x z + com y z.
Proof. by rewrite /com mulrDl mulrDr opprD addrACA. Qed.

Local Notation dlt p s q t := (((p == q) && (s == t))%:R).

Lemma swap_ccd p s q t : c p s * cd q t = dlt p s q t - cd q t * c p s.
Proof. by rewrite -(car_cd H) addrK. Qed.
Lemma swap_cc p s q t : c p s * c q t = - (c q t * c p s).
Proof. by apply/eqP; rewrite -subr_eq0 opprK (car_cc H). Qed.
Lemma swap_dd p s q t : cd p s * cd q t = - (cd q t * cd p s).
Proof. by apply/eqP; rewrite -subr_eq0 opprK (car_dd H). Qed.
Lemma natC b (x : A) : (nat_of_bool b)%:R * x = x * (nat_of_bool b)%:R.
Proof. by case: b; rewrite ?mul1r ?mulr1 ?mul0r ?mulr0. Qed.

(* One pair. *)
Lemma com1_c p s r t q w :
  com (cd p s * c r t) (c q w) = - (dlt q w p s * c r t).
Proof.
rewrite /com mulrA swap_ccd mulrBl opprB -!mulrA [c r t * _]swap_cc mulrN.
by rewrite addKr.
Qed.
Lemma com1_d p s r t q w :
  com (cd p s * c r t) (cd q w) = dlt r t q w * cd p s.
Proof.
rewrite /com -mulrA swap_ccd mulrBr !mulrA [cd q w * _]swap_dd mulNr opprK.
by rewrite natC -!mulrA addrNK.
Qed.

(* Two pairs. *)
Lemma com2_c i s j t u t' r s' q w :
  com (cd i s * cd j t * c u t' * c r s') (c q w)
  = dlt q w j t * (cd i s * c u t' * c r s')
    - dlt q w i s * (cd j t * c u t' * c r s').
Proof.
have E1 : cd i s * cd j t * c u t' * c r s' * c q w
          = cd i s * (cd j t * c q w) * c u t' * c r s'.
  rewrite -!mulrA; congr (_ * (_ * _)).
  by rewrite [c r s' * _]swap_cc mulrN mulrA [c u t' * _]swap_cc mulNr opprK mulrA.
have E2 : cd j t * c q w = dlt q w j t - c q w * cd j t.
  by rewrite -(car_cd H) addrC addKr.
rewrite /com E1 E2 -!mulrA; set Z := _ * c r s'.
rewrite mulrBl mulrBr [c q w * (cd i s * _)]mulrA [c q w * cd i s]swap_ccd.
rewrite !mulrBl opprB.
rewrite ![cd i s * (_%:R * _)]mulrA -[cd i s * _%:R]natC -!mulrA addrA.
by rewrite addrNK.
Qed.

Lemma com2_d i s j t u t' r s' q w :
  com (cd i s * cd j t * c u t' * c r s') (cd q w)
  = dlt r s' q w * (cd i s * cd j t * c u t')
    - dlt u t' q w * (cd i s * cd j t * c r s').
Proof.
have E1 : cd q w * (cd i s * cd j t * c u t' * c r s')
          = cd i s * cd j t * (cd q w * c u t') * c r s'.
  rewrite !mulrA [cd q w * _]swap_dd !mulNr -[cd i s * _ * _]mulrA.
  by rewrite [cd q w * _]swap_dd mulrN !mulNr opprK !mulrA.
have E2 : cd q w * c u t' = dlt u t' q w - c u t' * cd q w.
  by rewrite -(car_cd H) addrC addKr.
rewrite /com E1 E2 -!mulrA swap_ccd.
rewrite mulrBl !mulrBr opprB !natC -!mulrA.
by rewrite addrA addrNK.
Qed.

Lemma natS b (x : A) : (nat_of_bool b)%:R * x = (nat_of_bool b)%:R *: x.
Proof. by case: b; rewrite ?mul1r ?scale1r ?mul0r ?scale0r. Qed.

Lemma collapse q w (F : bool -> 'I_M -> A) :
  \sum_s \sum_i (dlt q w i s : C) *: F s i = F w q.
Proof.
rewrite (bigD1 w) //= (bigD1 q) //= !eqxx scale1r !big1 ?addr0 //.
  by move=> s ne; rewrite big1 // => i _; rewrite [w == s]eq_sym (negPf ne) andbF scale0r.
by move=> i ne; rewrite [q == i]eq_sym (negPf ne) scale0r.
Qed.
Lemma collapse' q w (F : bool -> 'I_M -> A) :
  \sum_s \sum_i (dlt i s q w : C) *: F s i = F w q.
Proof.
rewrite -[RHS]collapse; apply: eq_bigr => s _; apply: eq_bigr => i _.
by rewrite [i == q]eq_sym [s == w]eq_sym.
Qed.

Lemma swap4 (V : zmodType) (f : bool -> bool -> 'I_M -> 'I_M -> 'I_M -> 'I_M -> V) :
  \sum_s \sum_t \sum_i \sum_r \sum_j \sum_u f s t i r j u
  = \sum_s \sum_t \sum_i \sum_r \sum_j \sum_u f t s j u i r.
Proof.
rewrite exchange_big /=; apply: eq_bigr => s _; apply: eq_bigr => t _.
transitivity (\sum_i \sum_j \sum_r \sum_u f t s i r j u).
  by apply: eq_bigr => i _; rewrite exchange_big.
rewrite exchange_big /=; apply: eq_bigr => j _.
transitivity (\sum_i \sum_u \sum_r f t s i r j u).
  by apply: eq_bigr => i _; rewrite exchange_big.
by rewrite exchange_big.
Qed.

Lemma half_sum (a : C) (x : A) : (1 / 2%:R * a) *: x + (1 / 2%:R * a) *: x = a *: x.
Proof.
rewrite -scalerDl -mulrDl -mulrDl -[1 + 1]/(2%:R) divff ?pnatr_eq0 //.
by rewrite mul1r.
Qed.

Variable v : 'I_M -> 'I_M -> 'I_M -> 'I_M -> C.
Hypothesis vsym : forall p r q u, v p r q u = v q u p r.

Lemma com_two_c q w :
  com (two_body_op cd c v) (c q w)
  = - (\sum_t \sum_r \sum_j \sum_u v q r j u *: (cd j t * c u t * c r w)).
Proof.
pose T s t i r j u : A := (1 / 2%:R * v i r j u) *:
  ((dlt q w i s : C) *: (cd j t * c u t * c r s)).
transitivity (- ((\sum_s \sum_t \sum_i \sum_r \sum_j \sum_u T s t i r j u)
  + (\sum_s \sum_t \sum_i \sum_r \sum_j \sum_u T s t i r j u))).
  rewrite {1}swap4 /two_body_op com_sum.
  rewrite opprD -!sumrN -big_split; apply: eq_bigr => s _ /=; rewrite com_sum.
  rewrite -!sumrN -big_split; apply: eq_bigr => t _ /=; rewrite com_sum.
  rewrite -!sumrN -big_split; apply: eq_bigr => i _ /=; rewrite com_sum.
  rewrite -!sumrN -big_split; apply: eq_bigr => r _ /=; rewrite com_sum.
  rewrite -!sumrN -big_split; apply: eq_bigr => j _ /=; rewrite com_sum.
  rewrite -!sumrN -big_split; apply: eq_bigr => u _ /=.
  rewrite com_scale com2_c scalerBr !natS /T (vsym j u i r); congr (_ - _).
  rewrite -scalerN -scalerN; congr (_ *: (_ *: _)).
  by rewrite -!mulrA [c u t * _]swap_cc mulrN.
congr (- _); rewrite -big_split /=.
transitivity (\sum_s \sum_i (dlt q w i s : C) *:
   \sum_t \sum_r \sum_j \sum_u v i r j u *: (cd j t * c u t * c r s)).
  apply: eq_bigr => s _.
  transitivity (\sum_i \sum_t \sum_r \sum_j \sum_u (T s t i r j u + T s t i r j u)).
    rewrite -big_split exchange_big /=; apply: eq_bigr => i _.
    rewrite -big_split; apply: eq_bigr => t _ /=.
    rewrite -big_split; apply: eq_bigr => r _ /=.
    rewrite -big_split; apply: eq_bigr => j _ /=.
    by rewrite -big_split.
  apply: eq_bigr => i _; rewrite scaler_sumr; apply: eq_bigr => t _.
  rewrite scaler_sumr; apply: eq_bigr => r _.
  rewrite scaler_sumr; apply: eq_bigr => j _.
  rewrite scaler_sumr; apply: eq_bigr => u _.
  by rewrite /T half_sum scalerA mulrC -scalerA.
by rewrite (collapse q w (fun s i => \sum_t \sum_r \sum_j \sum_u
  v i r j u *: (cd j t * c u t * c r s))).
Qed.

Lemma com_two_d q w :
  com (two_body_op cd c v) (cd q w)
  = \sum_t \sum_i \sum_j \sum_u v i q j u *: (cd i w * cd j t * c u t).
Proof.
pose T s t i r j u : A := (1 / 2%:R * v i r j u) *:
  ((dlt r s q w : C) *: (cd i s * cd j t * c u t)).
transitivity ((\sum_s \sum_t \sum_i \sum_r \sum_j \sum_u T s t i r j u)
  + (\sum_s \sum_t \sum_i \sum_r \sum_j \sum_u T s t i r j u)).
  rewrite {2}swap4 /two_body_op com_sum.
  rewrite -big_split; apply: eq_bigr => s _ /=; rewrite com_sum.
  rewrite -big_split; apply: eq_bigr => t _ /=; rewrite com_sum.
  rewrite -big_split; apply: eq_bigr => i _ /=; rewrite com_sum.
  rewrite -big_split; apply: eq_bigr => r _ /=; rewrite com_sum.
  rewrite -big_split; apply: eq_bigr => j _ /=; rewrite com_sum.
  rewrite -big_split; apply: eq_bigr => u _ /=.
  rewrite com_scale com2_d scalerBr !natS /T (vsym j u i r); congr (_ + _).
  rewrite -scalerN -scalerN; congr (_ *: (_ *: _)).
  by rewrite -mulNr -[- (cd i s * _)]swap_dd.
rewrite -big_split /=.
transitivity (\sum_s \sum_r (dlt r s q w : C) *:
   \sum_t \sum_i \sum_j \sum_u v i r j u *: (cd i s * cd j t * c u t)).
  apply: eq_bigr => s _.
  transitivity (\sum_t \sum_r \sum_i \sum_j \sum_u (T s t i r j u + T s t i r j u)).
    rewrite -big_split; apply: eq_bigr => t _ /=.
    rewrite [RHS]exchange_big /= -big_split; apply: eq_bigr => i _ /=.
    rewrite -big_split; apply: eq_bigr => r _ /=.
    rewrite -big_split; apply: eq_bigr => j _ /=.
    by rewrite -big_split.
  rewrite exchange_big /=; apply: eq_bigr => r _.
  rewrite scaler_sumr; apply: eq_bigr => t _.
  rewrite scaler_sumr; apply: eq_bigr => i _.
  rewrite scaler_sumr; apply: eq_bigr => j _.
  rewrite scaler_sumr; apply: eq_bigr => u _.
  by rewrite /T half_sum scalerA mulrC -scalerA.
by rewrite (collapse' q w (fun s r => \sum_t \sum_i \sum_j \sum_u
  v i r j u *: (cd i s * cd j t * c u t))).
Qed.

Lemma com_one_c h q w :
  com (op cd c h) (c q w) = - (\sum_r h q r *: c r w).
Proof.
rewrite /op /one_body_op com_sum.
transitivity (- (\sum_s \sum_p (dlt q w p s : C) *: \sum_r h p r *: c r s)).
  rewrite -sumrN; apply: eq_bigr => s _; rewrite com_sum -sumrN.
  apply: eq_bigr => p _; rewrite com_sum scaler_sumr -sumrN.
  apply: eq_bigr => r _; rewrite com_scale com1_c scalerN natS.
  by rewrite scalerA mulrC -scalerA.
by rewrite (collapse q w (fun s p => \sum_r h p r *: c r s)).
Qed.

Lemma com_one_d h q w :
  com (op cd c h) (cd q w) = \sum_p h p q *: cd p w.
Proof.
rewrite /op /one_body_op com_sum.
transitivity (\sum_s \sum_r (dlt r s q w : C) *: \sum_p h p r *: cd p s).
  apply: eq_bigr => s _; rewrite com_sum.
  transitivity (\sum_p \sum_r (dlt r s q w : C) *: (h p r *: cd p s)).
    apply: eq_bigr => p _; rewrite com_sum.
    apply: eq_bigr => r _; rewrite com_scale com1_d natS.
    by rewrite !scalerA mulrC.
  by rewrite exchange_big /=; apply: eq_bigr => r _; rewrite scaler_sumr.
by rewrite (collapse' q w (fun s r => \sum_p h p r *: cd p s)).
Qed.

(* Averages. *)
Variable E : A -> C.
Variable P : bool -> 'M[C]_M.
Hypothesis W : wick_state cd c E P.

Lemma ED x y : E (x + y) = E x + E y.
Proof. by rewrite -[x]scale1r (ws_linear W) mul1r scale1r. Qed.
Lemma E0 : E 0 = 0.
Proof. by apply: (@addrI _ (E 0)); rewrite -ED !addr0. Qed.
Lemma EZ a x : E (a *: x) = a * E x.
Proof. by rewrite -[_ *: _]addr0 (ws_linear W) E0 addr0. Qed.
Lemma EN x : E (- x) = - E x.
Proof. by rewrite -scaleN1r EZ mulN1r. Qed.
Lemma Esum I (r : seq I) (Q : pred I) F :
  E (\sum_(i <- r | Q i) F i) = \sum_(i <- r | Q i) E (F i).
Proof. by elim/big_rec2: _ => [|i x y _ <-]; rewrite ?E0 ?ED. Qed.

Lemma hole_mean h p q s :
  hole_matrix cd c E (op cd c h + two_body_op cd c v) p q s
  = - (\sum_r h q r * P s p r)
    - (\sum_t \sum_r \sum_j \sum_u v q r j u * (P s p r * P t j u
        - (if s == t then P s p u * P s j r else 0))).
Proof.
rewrite /hole_matrix -/(com _ _) comD com_one_c com_two_c mulrDr ED !mulrN !EN.
congr (- _ - _).
  rewrite mulr_sumr Esum; apply: eq_bigr => r _.
  by rewrite -scalerAr EZ (ws_pair W) /pair_mean eqxx.
rewrite mulr_sumr Esum; apply: eq_bigr => t _.
rewrite mulr_sumr Esum; apply: eq_bigr => r _.
rewrite mulr_sumr Esum; apply: eq_bigr => j _.
rewrite mulr_sumr Esum; apply: eq_bigr => u _.
rewrite -scalerAr EZ !mulrA (ws_wick W) /pair_mean !eqxx [t == s]eq_sym.
by case: eqP => [->|_]; rewrite ?mul0r // mulrA.
Qed.

Lemma particle_mean h p q s :
  particle_matrix cd c E (op cd c h + two_body_op cd c v) p q s
  = \sum_i h i q * ((p == i)%:R - P s i p)
    + \sum_t \sum_i \sum_j \sum_u v i q j u * (
        (p == i)%:R * P t j u - P s i p * P t j u
        - (if s == t then (p == j)%:R * P s i u - P s i u * P s j p else 0)).
Proof.
rewrite /particle_matrix -/(com _ _) comD com_one_d com_two_d mulrDr ED.
have Enat b : E (nat_of_bool b)%:R = (nat_of_bool b)%:R.
  by case: b; rewrite ?E0 ?(ws_one W).
congr (_ + _).
  rewrite mulr_sumr Esum; apply: eq_bigr => i _.
  rewrite -scalerAr EZ swap_ccd ED EN (ws_pair W) /pair_mean eqxx andbT.
  by rewrite Enat.
rewrite mulr_sumr Esum; apply: eq_bigr => t _.
rewrite mulr_sumr Esum; apply: eq_bigr => i _.
rewrite mulr_sumr Esum; apply: eq_bigr => j _.
rewrite mulr_sumr Esum; apply: eq_bigr => u _.
rewrite -scalerAr EZ; congr (_ * _).
have -> : c p s * (cd i s * cd j t * c u t)
  = (p == i)%:R *: (cd j t * c u t) - dlt p s j t *: (cd i s * c u t)
    - cd i s * cd j t * c u t * c p s.
  rewrite -addrA -opprD -(reorder4 H i s p j t u).
  by rewrite -!mulrA [c p s * _]mulrA swap_ccd mulrBl eqxx andbT natS -!mulrA.
rewrite !ED !EN !EZ !(ws_pair W) (ws_wick W) /pair_mean !eqxx [t == s]eq_sym.
case: (eqVneq s t) => [->|_]; rewrite ?andbT ?andbF ?mulr0 ?mul0r ?subr0 ?addr0 //.
have G (a b d e : C) : a - b - (d - e) = a - d - (b - e).
  by rewrite !opprB addrACA [RHS]addrACA [- b + - d]addrC.
exact: G.
Qed.

End Car.

(* The matrices of the code. *)
Section Code.
Variable C : numClosedFieldType.
Variables M naux : nat.
Variable h : 'M[C]_M.
Variable L : 'I_naux -> 'M[C]_M.

Lemma XcholE P : Xchol L P = \sum_n Xn L P n *: L n.
Proof. by apply/matrixP => i k; rewrite mxE summxE; apply: eq_bigr => n _; rewrite mxE. Qed.
Lemma XcholTE P : XcholT L P = (Xchol L P)^T.
Proof. by apply/matrixP => i k; rewrite !mxE. Qed.

Definition hole_of (P Q : 'M[C]_M) : 'M[C]_M :=
  - (P *m h^T) - P *m (Xchol L P + Xchol L Q)^T
  + \sum_n P *m (L n)^T *m P *m (L n)^T.
Definition part_of (P Q : 'M[C]_M) : 'M[C]_M :=
  (1%:M - P)^T *m h + (Xchol L P + Xchol L Q) - P^T *m (Xchol L P + Xchol L Q)
  + (\sum_n P^T *m L n *m P^T *m L n - \sum_n L n *m P^T *m L n).

Lemma trD (A B : 'M[C]_M) : (A + B)^T = A^T + B^T.
Proof. by rewrite linearD. Qed.

Lemma gen_1hE a b : gen_fock_1h h L a b = (hole_of a b, hole_of b a).
Proof.
have K (P : 'M[C]_M) : \matrix_(p, q) (\sum_n \sum_i (\sum_k L n i k * P p k) *
      (\sum_k L n q k * P i k))
    = \sum_n P *m (L n)^T *m P *m (L n)^T.
  apply/matrixP => p q; rewrite mxE summxE; apply: eq_bigr => n _.
  rewrite -[_ *m P *m _]mulmxA mxE; apply: eq_bigr => i _.
  rewrite !mxE; congr (_ * _); apply: eq_bigr => k _;
    by rewrite !mxE mulrC.
rewrite /gen_fock_1h !K /hole_of !trD !mulmxDr; congr (_ , _).
  by rewrite opprD.
by rewrite opprD [- (b *m _) - _]addrC.
Qed.

Lemma gen_1pE a b : gen_fock_1p h L a b = (part_of a b, part_of b a).
Proof.
have K (P : 'M[C]_M) : \matrix_(p, q)
      (\sum_n \sum_l (\sum_j L n j l * P j p) * (\sum_j L n j q * P j l)
       - \sum_n \sum_l L n p l * (\sum_j L n j q * P j l))
    = \sum_n P^T *m L n *m P^T *m L n - \sum_n L n *m P^T *m L n.
  apply/matrixP => p q; rewrite !mxE !summxE; congr (_ - _);
    apply: eq_bigr => n _.
    rewrite -[_ *m P^T *m _]mulmxA mxE; apply: eq_bigr => i _.
    rewrite !mxE; congr (_ * _); apply: eq_bigr => k _;
      by rewrite !mxE mulrC.
  rewrite -mulmxA mxE; apply: eq_bigr => i _; congr (_ * _).
  by rewrite mxE; apply: eq_bigr => k _; rewrite !mxE mulrC.
rewrite /gen_fock_1p !K /part_of !mulmxDr; congr (_ + _, _ + _);
  rewrite -[RHS]addrA; congr (_ + _); rewrite [RHS]addrC opprD //.
by rewrite [Xchol L a + _]addrC.
Qed.

Lemma eD (A B : 'M[C]_M) p q : (A + B) p q = A p q + B p q.
Proof. by rewrite mxE. Qed.
Lemma eN (A : 'M[C]_M) p q : (- A) p q = - A p q.
Proof. by rewrite mxE. Qed.
Lemma eZ k (A : 'M[C]_M) p q : (k *: A) p q = k * A p q.
Proof. by rewrite mxE. Qed.

Lemma opt_1p a b : (forall n, (L n)^T = L n) ->
  ekt_1p_fock_opt h L a b
  = part_of a b + part_of b a + (b^T *m Xchol L a - a^T *m Xchol L b).
Proof.
move=> Ls.
have XT P : XcholT L P = Xchol L P.
  apply/matrixP => i k; rewrite !mxE; apply: eq_bigr => n _.
  by rewrite -{1}(Ls n) mxE.
have KE : \sum_x (- (L x *m (a + b)^T *m (L x)^T) + a^T *m L x *m a^T *m (L x)^T
     + b^T *m L x *m b^T *m (L x)^T)
   = - (\sum_n L n *m a^T *m L n) - (\sum_n L n *m b^T *m L n)
     + \sum_n a^T *m L n *m a^T *m L n + \sum_n b^T *m L n *m b^T *m L n.
  rewrite -!sumrN -!big_split /=; apply: eq_bigr => n _.
  by rewrite Ls trD mulmxDr mulmxDl opprD.
have tB P : (1%:M - P)^T = 1%:M - P^T :> 'M[C]_M by rewrite linearB /= trmx1.
rewrite /ekt_1p_fock_opt !XT KE /part_of !tB !mulmxDl !mulNmx !mul1mx !mulmxDr.
apply/matrixP => p q; rewrite !(eD, eN, eZ).
exact: (rf_1p (comring_th C)).
Qed.

Lemma opt_1h a b : (forall n, (L n)^T = L n) ->
  ekt_1h_fock_opt h L a b
  = hole_of a b + hole_of b a + (b *m (Xchol L a)^T - a *m (Xchol L b)^T
     + (\sum_n a *m (L n)^T *m b *m (L n)^T
        - \sum_n b *m (L n)^T *m b *m (L n)^T)).
Proof.
move=> Ls.
have XT P : XcholT L P = Xchol L P.
  apply/matrixP => i k; rewrite !mxE; apply: eq_bigr => n _.
  by rewrite -{1}(Ls n) mxE.
have KE : \sum_x (a *m (L x)^T *m a *m (L x)^T^T + a *m (L x)^T *m b *m (L x)^T^T)
   = \sum_n a *m (L n)^T *m a *m (L n)^T + \sum_n a *m (L n)^T *m b *m (L n)^T.
  by rewrite -big_split /=; apply: eq_bigr => n _; rewrite !Ls.
rewrite /ekt_1h_fock_opt !XT KE /hole_of !trD !mulmxDl !mulmxDr.
apply/matrixP => p q; rewrite !(eD, eN, eZ).
exact: (rf_1h (comring_th C)).
Qed.

Lemma swap_1p a b :
  ekt_1p_fock_opt h L a b - ekt_1p_fock_opt h L b a
  = 2%:R *: (b^T *m (Xchol L a)^T - a^T *m (Xchol L b)^T).
Proof.
have KE P Q : \sum_x (- (L x *m (P + Q)^T *m (L x)^T) + P^T *m L x *m P^T *m (L x)^T
     + Q^T *m L x *m Q^T *m (L x)^T)
   = - (\sum_n L n *m P^T *m (L n)^T) - (\sum_n L n *m Q^T *m (L n)^T)
     + \sum_n P^T *m L n *m P^T *m (L n)^T + \sum_n Q^T *m L n *m Q^T *m (L n)^T.
  rewrite -!sumrN -!big_split /=; apply: eq_bigr => n _.
  by rewrite trD mulmxDr mulmxDl opprD.
rewrite /ekt_1p_fock_opt !XcholTE !KE !mulmxDl !mulNmx !mul1mx.
apply/matrixP => p q; rewrite !(eD, eN, eZ).
exact: (rf_1p_swap (comring_th C)).
Qed.

Lemma swap_1h a b :
  ekt_1h_fock_opt h L a b - ekt_1h_fock_opt h L b a
  = 2%:R *: (b *m Xchol L a - a *m Xchol L b)
    + \sum_n (a - b) *m (L n)^T *m (a + b) *m L n.
Proof.
have KE P Q : \sum_x (P *m (L x)^T *m P *m (L x)^T^T + P *m (L x)^T *m Q *m (L x)^T^T)
   = \sum_n P *m (L n)^T *m P *m L n + \sum_n P *m (L n)^T *m Q *m L n.
  by rewrite -big_split /=; apply: eq_bigr => n _; rewrite !trmxK.
have SE : \sum_n (a - b) *m (L n)^T *m (a + b) *m L n
  = \sum_n a *m (L n)^T *m a *m L n + \sum_n a *m (L n)^T *m b *m L n
    - (\sum_n b *m (L n)^T *m a *m L n + \sum_n b *m (L n)^T *m b *m L n).
  rewrite -!big_split /= -sumrB; apply: eq_bigr => n _.
  by rewrite !mulmxDr !mulmxDl !mulNmx opprD addrACA.
rewrite /ekt_1h_fock_opt !XcholTE !trmxK !KE SE !mulmxDl.
apply/matrixP => p q; rewrite !(eD, eN, eZ).
exact: (rf_1h_swap (comring_th C)).
Qed.

Lemma integrals_sym p r q u : integrals L p r q u = integrals L q u p r.
Proof. by apply: eq_bigr => n _; rewrite mulrC. Qed.

Lemma coul_sum (P : bool -> 'M[C]_M) x y a :
  \sum_t \sum_j \sum_u integrals L x y j u * (a * P t j u)
  = a * (Xchol L (P false) + Xchol L (P true)) x y.
Proof.
have X s : \sum_j \sum_u integrals L x y j u * (a * P s j u)
  = a * Xchol L (P s) x y.
  rewrite mxE mulr_sumr.
  transitivity (\sum_j \sum_u \sum_n a * (L n j u * P s j u * L n x y)).
    apply: eq_bigr => j _; apply: eq_bigr => u _.
    rewrite mulr_suml; apply: eq_bigr => n _.
    by rewrite mulrCA [L n x y * _]mulrC [_ * _ * P s j u]mulrAC.
  transitivity (\sum_n \sum_j \sum_u a * (L n j u * P s j u * L n x y)).
    rewrite [RHS]exchange_big /=; apply: eq_bigr => j _.
    by rewrite exchange_big.
  apply: eq_bigr => n _; rewrite /Xn mulr_suml mulr_sumr; apply: eq_bigr => j _.
  by rewrite mulr_suml mulr_sumr.
by rewrite big_bool /= !X -mulrDr; congr (_ * _); rewrite [RHS]mxE addrC.
Qed.

Lemma exch_hole (P : 'M[C]_M) p q :
  \sum_r \sum_j \sum_u integrals L q r j u * (P p u * P j r)
  = (\sum_n P *m (L n)^T *m P *m (L n)^T) p q.
Proof.
rewrite summxE.
transitivity (\sum_r \sum_j \sum_u \sum_n P p u * L n j u * P j r * L n q r).
  do 3 (apply: eq_bigr => ? _); rewrite mulr_suml; apply: eq_bigr => n _.
  by rewrite mulrC [L n _ _ * L n _ _]mulrC mulrACA mulrA.
transitivity (\sum_n \sum_r \sum_j \sum_u P p u * L n j u * P j r * L n q r).
  rewrite [RHS]exchange_big /=; apply: eq_bigr => r _.
  rewrite [RHS]exchange_big /=; apply: eq_bigr => j _.
  by rewrite exchange_big.
apply: eq_bigr => n _; rewrite mxE; apply: eq_bigr => r _.
rewrite [(L n)^T r q]mxE mxE mulr_suml; apply: eq_bigr => j _.
rewrite mxE !mulr_suml; apply: eq_bigr => u _.
by rewrite [(L n)^T u j]mxE.
Qed.

Lemma exch_part (P Q : 'M[C]_M) p q :
  \sum_i \sum_j \sum_u integrals L i q j u * (Q p j * P i u)
  = (\sum_n Q *m L n *m P^T *m L n) p q.
Proof.
rewrite summxE.
transitivity (\sum_i \sum_j \sum_u \sum_n Q p j * L n j u * P i u * L n i q).
  do 3 (apply: eq_bigr => ? _); rewrite mulr_suml; apply: eq_bigr => n _.
  by rewrite mulrC [L n _ _ * L n _ _]mulrC mulrACA mulrA.
transitivity (\sum_n \sum_i \sum_u \sum_j Q p j * L n j u * P i u * L n i q).
  rewrite [RHS]exchange_big /=; apply: eq_bigr => i _.
  rewrite exchange_big /= [RHS]exchange_big /=; apply: eq_bigr => u _.
  by rewrite exchange_big.
apply: eq_bigr => n _; rewrite mxE; apply: eq_bigr => i _.
rewrite mxE mulr_suml; apply: eq_bigr => u _.
rewrite [P^T u i]mxE mxE !mulr_suml; apply: eq_bigr => j _.
by [].
Qed.

End Code.

Section Main.
Variable C : numClosedFieldType.
Variable A : algType C.
Variables M naux : nat.
Variables cd c : 'I_M -> bool -> A.
Hypothesis H : car cd c.
Variable h : 'M[C]_M.
Variable L : 'I_naux -> 'M[C]_M.
Variable E : A -> C.
Variable P : bool -> 'M[C]_M.
Hypothesis W : wick_state cd c E P.

Local Notation Ham := (hamiltonian cd c (fun _ => h) (integrals L)).

Lemma sumB4 (V : zmodType) (F G : bool -> 'I_M -> 'I_M -> 'I_M -> V) :
  \sum_t \sum_r \sum_j \sum_u (F t r j u - G t r j u)
  = \sum_t \sum_r \sum_j \sum_u F t r j u
    - \sum_t \sum_r \sum_j \sum_u G t r j u.
Proof.
rewrite -sumrB; apply: eq_bigr => t _; rewrite -sumrB; apply: eq_bigr => r _.
by rewrite -sumrB; apply: eq_bigr => j _; rewrite -sumrB.
Qed.

Lemma sum_same (V : zmodType) (F : 'I_M -> 'I_M -> 'I_M -> V) s :
  \sum_(t : bool) \sum_r \sum_j \sum_u (if s == t then F r j u else 0)
  = \sum_r \sum_j \sum_u F r j u.
Proof.
have Z : \sum_(r : 'I_M) \sum_(j : 'I_M) \sum_(u : 'I_M) (0 : V) = 0.
  by do 3 (rewrite big1 // => ? _).
by rewrite big_bool /=; case: s => /=; rewrite Z ?addr0 ?add0r.
Qed.

Lemma by_spinE T (f : T -> T -> T) (Q : bool -> T) s :
  by_spin (f (Q false) (Q true), f (Q true) (Q false)) s = f (Q s) (Q (~~ s)).
Proof. by case: s. Qed.

Lemma spin_sum s : Xchol L (P s) + Xchol L (P (~~ s))
  = Xchol L (P false) + Xchol L (P true).
Proof. by case: s; rewrite //= addrC. Qed.

Local Notation X := (Xchol L (P false) + Xchol L (P true)).

Lemma two_hole p q s :
  \sum_t \sum_r \sum_j \sum_u integrals L q r j u * (P s p r * P t j u
        - (if s == t then P s p u * P s j r else 0))
  = (P s *m X^T) p q - (\sum_n P s *m (L n)^T *m P s *m (L n)^T) p q.
Proof.
rewrite -exch_hole -(sum_same _ s).
transitivity (\sum_t \sum_r \sum_j \sum_u
   (integrals L q r j u * (P s p r * P t j u)
    - (if s == t then integrals L q r j u * (P s p u * P s j r) else 0))).
  do 4 (apply: eq_bigr => ? _); rewrite mulrBr.
  by case: ifP; rewrite ?mulr0.
rewrite sumB4; congr (_ - _); rewrite mxE exchange_big /=.
by apply: eq_bigr => r _; rewrite coul_sum [X^T r q]mxE.
Qed.

Lemma gen_1h_right p q s :
  by_spin (gen_fock_1h h L (P false) (P true)) s p q
  = hole_matrix cd c E Ham p q s.
Proof.
rewrite gen_1hE by_spinE /hole_of spin_sum [RHS](hole_mean H _ W); last first.
  exact: integrals_sym.
rewrite two_hole [LHS]mxE [X in X + _]mxE opprB addrA [RHS]addrAC.
congr (_ + _ + _); last by rewrite mxE.
by rewrite mxE mxE; congr (- _); apply: eq_bigr => r _; rewrite mxE mulrC.
Qed.

Lemma two_part p q s : let Q : 'M[C]_M := 1%:M - (P s)^T in
  \sum_t \sum_i \sum_j \sum_u integrals L i q j u * (
        (p == i)%:R * P t j u - P s i p * P t j u
        - (if s == t then (p == j)%:R * P s i u - P s i u * P s j p else 0))
  = (Q *m X) p q - (\sum_n Q *m L n *m (P s)^T *m L n) p q.
Proof.
move=> Q; have QE i : Q p i = (p == i)%:R - P s i p by rewrite !mxE.
rewrite -exch_part -(sum_same _ s).
transitivity (\sum_t \sum_i \sum_j \sum_u
   (integrals L i q j u * (Q p i * P t j u)
    - (if s == t then integrals L i q j u * (Q p j * P s i u) else 0))).
  do 4 (apply: eq_bigr => ? _); rewrite !QE -mulrBl mulrBr; congr (_ - _).
  case: ifP; rewrite ?mulr0 // => _; congr (_ * _).
  by rewrite mulrBl [P s _ _ * P s _ _]mulrC.
rewrite sumB4; congr (_ - _); rewrite mxE exchange_big /=.
by apply: eq_bigr => r _; rewrite coul_sum.
Qed.

Lemma gen_1p_right p q s :
  by_spin (gen_fock_1p h L (P false) (P true)) s p q
  = particle_matrix cd c E Ham p q s.
Proof.
rewrite gen_1pE by_spinE /part_of spin_sum [RHS](particle_mean H _ W); last first.
  exact: integrals_sym.
have tB : (1%:M - P s)^T = 1%:M - (P s)^T by rewrite linearB /= trmx1.
rewrite two_part tB [LHS]mxE addrA; congr (_ + _).
  rewrite -addrA [LHS]mxE; congr (_ + _); last by rewrite mulmxBl mul1mx.
  by rewrite mxE; apply: eq_bigr => i _; rewrite !mxE mulrC.
transitivity ((- \sum_n (1%:M - (P s)^T) *m L n *m (P s)^T *m L n) p q);
  last by rewrite [LHS]mxE.
congr (fun_of_matrix _ _ _); rewrite -sumrB -sumrN; apply: eq_bigr => n _.
by rewrite !mulmxBl mul1mx opprB.
Qed.

End Main.

(* Occupied modes B: a state that obeys Wick's theorem. *)
Section Product.
Variable C : numClosedFieldType.
Variable M : nat.
Variable B : {set 'I_(M.*2)}.

Local Notation ann p s := (@annihilate C _ (mode p s)).
Local Notation cre p s := (@create C _ (mode p s)).
Local Notation F := 'M[C]_(#|{set 'I_(M.*2)}|.-1.+1).

Definition product_mean (X : F) : C := X (index B) (index B).
Definition product_density (s : bool) : 'M[C]_M :=
  \matrix_(p, q) ((p == q) && (mode p s \in B))%:R.

Lemma product_mul (X Y : F) :
  product_mean (X * Y) = \sum_k X (index B) k * Y k (index B).
Proof. by rewrite /product_mean -mulmxE mxE. Qed.

Lemma ann_empty p s (X : F) : mode p s \notin B ->
  product_mean (X * ann p s) = 0.
Proof.
move=> e; rewrite product_mul big1 // => k _.
by rewrite annE indexK (negPf e) mulr0.
Qed.

Lemma ann_full p s (X : F) : mode p s \in B ->
  product_mean (ann p s * X) = 0.
Proof.
move=> e; rewrite product_mul big1 // => k _.
rewrite annE; case: ifP; rewrite ?mul0r // => /andP[_ /eqP].
move/(congr1 (@state _)); rewrite !indexK => EB.
by move: e; rewrite EB !inE eqxx.
Qed.

Lemma product_linear a (x y : F) :
  product_mean (a *: x + y) = a * product_mean x + product_mean y.
Proof. by rewrite /product_mean !mxE. Qed.

Lemma product_pair p s q t :
  product_mean (cre p s * ann q t) = pair_mean product_density p s q t.
Proof.
rewrite /pair_mean; case: (boolP (mode q t \in B)) => hq; last first.
  rewrite ann_empty //; case: eqP => // E; rewrite mxE.
  by case: eqP => //= E'; rewrite E E' (negPf hq).
have -> : cre p s * ann q t = ((q == p) && (t == s))%:R - ann q t * cre p s.
  by rewrite (swap_ccd (fock_car C M)) opprB addrC subrK.
rewrite -[_ - _]addrC -[- _]scaleN1r product_linear ann_full // mulr0 add0r.
rewrite [t == s]eq_sym; case: (eqVneq s t) => [E|_]; last first.
  by rewrite andbF /product_mean mxE.
rewrite andbT mxE [q == p]eq_sym E; case: eqP => [->|_] /=.
  by rewrite hq /product_mean mxE eqxx.
by rewrite /product_mean mxE.
Qed.

Lemma product_wick : wick_state (fun p s => cre p s) (fun p s => ann p s)
  product_mean product_density.
Proof.
have H := fock_car C M.
split; [exact: product_linear| |exact: product_pair|].
  by rewrite /product_mean mxE eqxx.
move=> p s q t u t' r s'; case: (boolP (mode r s' \in B)) => hr; last first.
  have Z i w : pair_mean product_density i w r s' = 0.
    by rewrite -product_pair ann_empty.
  by rewrite ann_empty // !Z mul0r mulr0 subrr.
have Z i w : pair_mean product_density i w r s' = ((r == i) && (s' == w))%:R.
  rewrite /pair_mean [s' == w]eq_sym; case: eqP => [->|_]; last by rewrite andbF.
  rewrite andbT mxE [r == i]eq_sym.
  by case: eqP => [->|]; rewrite ?hr.
rewrite !Z -!product_pair.
have -> : cre p s * cre q t * ann u t' * ann r s'
  = ((r == p) && (s' == s))%:R *: (cre q t * ann u t')
    - ((r == q) && (s' == t))%:R *: (cre p s * ann u t')
    + (-1) *: (ann r s' * (cre p s * cre q t * ann u t')).
  rewrite scaleN1r -!(natS (A := matrix_algType _ _)).
  have S1 : cre p s * ann r s' = ((r == p) && (s' == s))%:R - ann r s' * cre p s.
    by rewrite (swap_ccd H) opprB addrC subrK.
  have S2 : cre q t * ann r s' = ((r == q) && (s' == t))%:R - ann r s' * cre q t.
    by rewrite (swap_ccd H) opprB addrC subrK.
  rewrite -!mulrA [ann u t' * _](swap_cc H) !mulrN [cre q t * _]mulrA S2.
  rewrite mulrBl mulrBr opprB -!mulrA [cre p s * (ann r s' * _)]mulrA S1 mulrBl.
  by rewrite [cre p s * (_%:R * _)]mulrA -natC -!mulrA addrAC.
rewrite addrC product_linear ann_full // mulr0 add0r -scaleNr addrC.
by rewrite product_linear -[_ *: _]addr0 product_linear {3}/product_mean mxE addr0
  mulNr addrC [_ * product_mean (cre p s * _)]mulrC.
Qed.

End Product.

Section Witness.
Variable C : numClosedFieldType.

Lemma open_shell M naux h (L : 'I_naux -> 'M[C]_M) (a b : 'M[C]_M) :
  (forall n, (L n)^T = L n) ->
  let Xa := \sum_n (\sum_i \sum_k L n i k * a i k) *: L n in
  let Xb := \sum_n (\sum_i \sum_k L n i k * b i k) *: L n in
  ekt_1h_fock_opt h L a b
  = (gen_fock_1h h L a b).1 + (gen_fock_1h h L a b).2
    + (b *m Xa - a *m Xb + \sum_n (a - b) *m L n *m b *m L n) /\
  ekt_1p_fock_opt h L a b
  = (gen_fock_1p h L a b).1 + (gen_fock_1p h L a b).2
    + (b^T *m Xa - a^T *m Xb).
Proof.
move=> Ls; rewrite gen_1hE gen_1pE opt_1h // opt_1p // -!XcholE /=; split=> //.
have XT P : (Xchol L P)^T = Xchol L P.
  apply/matrixP => i k; rewrite !mxE; apply: eq_bigr => n _.
  by rewrite -{1}(Ls n) mxE.
congr (_ + (_ + _)); first by rewrite !XT.
rewrite -sumrB; apply: eq_bigr => n _.
by rewrite Ls !mulmxBl.
Qed.

Lemma swap_1p_iff M naux h (L : 'I_naux -> 'M[C]_M) (a b : 'M[C]_M) :
  ekt_1p_fock_opt h L a b = ekt_1p_fock_opt h L b a
  <-> a^T *m (Xchol L b)^T = b^T *m (Xchol L a)^T.
Proof.
split=> [E|E]; apply/eqP; rewrite -subr_eq0.
  have := swap_1p h L a b; rewrite E subrr => /esym/eqP.
  by rewrite scaler_eq0 pnatr_eq0 /= => /eqP/subr0_eq ->; rewrite subrr.
by rewrite swap_1p E subrr scaler0.
Qed.

(* Two orbitals, one electron of each spin in different orbitals. *)
Lemma swap_1p_wrong (h : 'M[C]_2) :
  let L (_ : 'I_1) := 1%:M in
  ekt_1p_fock_opt h L (delta_mx 0 0) (delta_mx 1 1)
  <> ekt_1p_fock_opt h L (delta_mx 1 1) (delta_mx 0 0).
Proof.
move=> L /swap_1p_iff.
have X i : Xchol L (delta_mx i i) = 1%:M.
  rewrite XcholE big_ord1 /Xn (bigD1 i) //= (bigD1 i) //= !big1 ?addr0.
  - by rewrite !mxE !eqxx mul1r scale1r.
  - by move=> j ne; rewrite big1 // => k _; rewrite [delta_mx _ _ _ _]mxE (negPf ne) mulr0.
  - by move=> k ne; rewrite [delta_mx _ _ _ _]mxE (negPf ne) andbF mulr0.
rewrite !X trmx1 !mulmx1 !trmx_delta => /matrixP /(_ 0 0) /eqP.
by rewrite !mxE /= oner_eq0.
Qed.

(* One orbital, one electron. *)
Lemma swap_1h_wrong (h : 'M[C]_1) :
  let L (_ : 'I_1) := 1%:M in
  ekt_1h_fock_opt h L 1%:M 0 <> ekt_1h_fock_opt h L 0 1%:M.
Proof.
move=> L E; have := swap_1h h L 1%:M 0; rewrite E subrr => /matrixP /(_ 0 0) /eqP.
have X0 : Xchol L 0 = 0.
  by rewrite XcholE big_ord1 /Xn big_ord1 big_ord1 !mxE mulr0 scale0r.
rewrite X0 mul0mx mulmx0 subrr scaler0 add0r big_ord1 subr0 addr0 /L trmx1 !mulmx1.
by rewrite !mxE eq_sym oner_eq0.
Qed.

End Witness.
