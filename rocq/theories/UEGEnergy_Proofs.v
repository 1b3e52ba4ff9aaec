(* Proofs about energies and Fock matrices. *)

From Verif Require Import Base BaseFacts.
Set Warnings "-notation-overridden,-ambiguous-paths".
From mathcomp Require Import all_ssreflect all_algebra.
From Verif Require Import LEnergy_Model LEnergy_Spec LEnergy_Proofs Reorder_Model Reorder_Proofs.
From Verif Require Import UEGEnergy_Model UEGEnergy_Spec.

Set Implicit Arguments.
Unset Strict Implicit.
Unset Printing Implicit Defensive.

Import Order.TTheory GRing.Theory Num.Theory.
Local Open Scope ring_scope.

Section RingFacts.
Variable K : Type.
Variables (z o : K) (ad mu sb : K -> K -> K) (op : K -> K).
Hypothesis Kth : ring_theory z o ad mu sb op eq.
Add Ring Kring : Kth.
Local Notation "x +' y" := (ad x y) (at level 50, left associativity).
Local Notation "x *' y" := (mu x y) (at level 40, left associativity).
Local Notation "x -' y" := (sb x y) (at level 50, left associativity).

Lemma rf_quad t h a0 a1 b0 b1
  c11 c1x cx1 cxx e11 e1x ex1 exx c22 c2y cy2 cyy e22 e2y ey2 eyy
  c12 c1y cx2 cxy c21 c2x cy1 cyx J1 J2 J3 J4 K1 K2 :
  h *' (c1x +' cx1) = J1 -> h *' (c2x +' cx2) = J2 ->
  h *' (c1y +' cy1) = J3 -> h *' (c2y +' cy2) = J4 ->
  h *' (e1x +' ex1) = K1 -> h *' (e2y +' ey2) = K2 ->
  ((a0 +' t *' a1) +' (b0 +' t *' b1)) +'
  (h *' ((c11 +' t *' (c1x +' cx1) +' t *' t *' cxx)
         -' (e11 +' t *' (e1x +' ex1) +' t *' t *' exx))
   +' h *' ((c22 +' t *' (c2y +' cy2) +' t *' t *' cyy)
         -' (e22 +' t *' (e2y +' ey2) +' t *' t *' eyy))
   +' h *' (c12 +' t *' (c1y +' cx2) +' t *' t *' cxy)
   +' h *' (c21 +' t *' (c2x +' cy1) +' t *' t *' cyx))
  = ((a0 +' b0) +' (h *' (c11 -' e11) +' h *' (c22 -' e22) +' h *' c12 +' h *' c21))
    +' t *' ((a1 +' (J1 +' J2) -' K1) +' (b1 +' (J3 +' J4) -' K2))
    +' t *' t *' (h *' (cxx -' exx) +' h *' (cyy -' eyy) +' h *' cxy +' h *' cyx).
Proof. move=> <- <- <- <- <- <-; ring. Qed.

Lemma rf_bil w a x b y t :
  w *' (a +' t *' x) *' (b +' t *' y)
  = w *' a *' b +' t *' (w *' a *' y +' w *' x *' b) +' t *' t *' (w *' x *' y).
Proof. ring. Qed.

End RingFacts.

Section Derivative.
Variable C : numClosedFieldType.
Variable M : nat.
Notation mat2 := ('M[C]_M * 'M[C]_M)%type.
Implicit Types (v : 'I_M -> 'I_M -> 'I_M -> 'I_M -> C) (A B X Y : 'M[C]_M) (t : C).

Lemma coul4_along v A X B Y t :
  coul4 v (A + t *: X) (B + t *: Y)
  = coul4 v A B + t * (coul4 v A Y + coul4 v X B) + t * t * coul4 v X Y.
Proof.
rewrite /coul4 -big_split !mulr_sumr -!big_split /=; apply: eq_bigr => p _.
rewrite -big_split !mulr_sumr -!big_split /=; apply: eq_bigr => r _.
rewrite -big_split !mulr_sumr -!big_split /=; apply: eq_bigr => q _.
rewrite -big_split !mulr_sumr -!big_split /=; apply: eq_bigr => u _.
rewrite !mxE; exact: (rf_bil (comring_th C)).
Qed.

Lemma exch4_coul4 v A B : exch4 v A B = coul4 (fun p r q u => v p u q r) A B.
Proof.
rewrite /exch4 /coul4; apply: eq_bigr => p _; rewrite exchange_big /=.
rewrite [RHS]exchange_big /=; apply: eq_bigr => q _.
by rewrite exchange_big.
Qed.

Lemma exchange_direct v A : exchange v A = direct (fun p r q u => v p u q r) A.
Proof. by []. Qed.

Lemma direct_dot v A X :
  half C * (coul4 v A X + coul4 v X A) = sum_prod (direct v A) X.
Proof.
rewrite /sum_prod; under eq_bigr do under eq_bigr do rewrite mxE.
have E : coul4 v A X = \sum_i \sum_j (\sum_q \sum_u v q u i j * A q u) * X i j.
  rewrite /coul4 pair_bigA /=.
  under eq_bigr do rewrite pair_bigA /=.
  rewrite exchange_big /= [RHS]pair_bigA /=; apply: eq_bigr => -[i j] _ /=.
  rewrite pair_bigA mulr_suml /=; apply: eq_bigr => -[q u] _ /=; exact: erefl.
have F : coul4 v X A = \sum_i \sum_j (\sum_q \sum_u v i j q u * A q u) * X i j.
  rewrite /coul4; apply: eq_bigr => i _; apply: eq_bigr => j _.
  rewrite mulr_suml; apply: eq_bigr => q _; rewrite mulr_suml.
  by apply: eq_bigr => u _; rewrite mulrAC.
rewrite E F -big_split mulr_sumr; apply: eq_bigr => i _.
rewrite -big_split mulr_sumr; apply: eq_bigr => j _ /=.
rewrite -mulrDl mulrA; congr (_ * _ * _).
rewrite addrC -big_split; apply: eq_bigr => q _.
by rewrite -big_split; apply: eq_bigr => u _; rewrite mulrDl.
Qed.

Lemma direct_add v A B : direct v (A + B) = direct v A + direct v B.
Proof.
apply/matrixP => i j; rewrite !mxE -mulrDr -big_split; congr (_ * _).
apply: eq_bigr => q _; rewrite -big_split; apply: eq_bigr => u _ /=.
by rewrite !mxE mulrDr.
Qed.

Lemma sum_prodDl A B X : sum_prod (A + B) X = sum_prod A X + sum_prod B X.
Proof.
rewrite /sum_prod -big_split; apply: eq_bigr => i _ /=.
by rewrite -big_split; apply: eq_bigr => j _ /=; rewrite mxE mulrDl.
Qed.
Lemma sum_prodNl A X : sum_prod (- A) X = - sum_prod A X.
Proof.
rewrite /sum_prod -sumrN; apply: eq_bigr => i _ /=.
by rewrite -sumrN; apply: eq_bigr => j _ /=; rewrite mxE mulNr.
Qed.
Lemma sum_prod_along A B X t : sum_prod A (B + t *: X) = sum_prod A B + t * sum_prod A X.
Proof.
rewrite /sum_prod mulr_sumr -big_split; apply: eq_bigr => i _ /=.
rewrite mulr_sumr -big_split; apply: eq_bigr => j _ /=.
by rewrite !mxE mulrDr mulrCA.
Qed.

Lemma mean_field_derivative (h : mat2) v (G : mat2) :
  derivative (energy h v) G (mean_field h v G).
Proof.
move=> X; exists (wick2 v X) => t.
rewrite /energy !wick1E !wick2E /along /mean_field /= expr2 !sum_prod_along.
rewrite !exch4_coul4 !coul4_along !exchange_direct !direct_add.
rewrite !sum_prodDl !sum_prodNl -!direct_dot.
exact: (rf_quad (comring_th C)).
Qed.

Lemma derivative_unique (E : mat2 -> C) (G F F' : mat2) :
  derivative E G F -> derivative E G F' -> F = F'.
Proof.
move=> D D'.
have W (X : mat2) : wick1 F X = wick1 F' X.
  have [q Q] := D X; have [q' Q'] := D' X.
  have e1 : wick1 F X + q = wick1 F' X + q'.
    have := Q 1; rewrite Q' !mul1r expr1n !mul1r -!addrA => e.
    by apply: (addrI (E G)); rewrite e.
  have e2 : - wick1 F X + q = - wick1 F' X + q'.
    have := Q (-1); rewrite Q' sqrrN expr1n !mul1r !mulN1r -!addrA => e.
    by apply: (addrI (E G)); rewrite e.
  have H (a b : C) : a + b - (- a + b) = a *+ 2.
    by rewrite opprD opprK addrA [a + b + a]addrAC addrK mulr2n.
  have e3 : wick1 F X *+ 2 = wick1 F' X *+ 2.
    have : wick1 F X + q - (- wick1 F X + q) = wick1 F' X + q' - (- wick1 F' X + q').
      by rewrite e1 e2.
    by rewrite !H.
  exact: (pmulrnI (isT : (0 < 2)%N) e3).
have dot A i j : sum_prod A (delta_mx i j) = A i j.
  rewrite /sum_prod (bigD1 i) //= (bigD1 j) //= mxE !eqxx mulr1.
  rewrite big1 ?addr0 => [|k ne]; last by rewrite mxE (negbTE ne) andbF mulr0.
  rewrite big1 ?addr0 // => k ne; rewrite big1 // => l _.
  by rewrite mxE (negbTE ne) mulr0.
have dot0 A : sum_prod A 0 = 0.
  by rewrite /sum_prod big1 // => i _; rewrite big1 // => j _; rewrite mxE mulr0.
case: F F' {D D'} W => [F1 F2] [F1' F2'] W; congr (_, _); apply/matrixP => i j.
  by have := W (delta_mx i j, 0); rewrite !wick1E /= !dot !dot0 !addr0.
by have := W (0, delta_mx i j); rewrite !wick1E /= !dot !dot0 !add0r.
Qed.
End Derivative.

Section UEG.
Variable C : numClosedFieldType.
Variable M : nat.
Variable V : zmodType.
Variables pi vol : C.
Variable norm2 : V -> C.
Variable basis : 'I_M -> V.
Variable lookup : V -> option 'I_M.
Variable qvecs : seq V.
Hypothesis basis_inj : injective basis.
Hypothesis lookupP : forall k i, lookup k = Some i <-> basis i = k.
Hypothesis quniq : uniq qvecs.
Hypothesis qfull : forall i j, i != j -> basis i - basis j \in qvecs.
Hypothesis q0 : 0 \notin qvecs.
Variable n : nat.
Notation mat2 := ('M[C]_M * 'M[C]_M)%type.

Local Notation kp := (ikpq basis lookup n).
Local Notation pm := (ipmq basis lookup n).
Local Notation w := (fun q => 4%:R * pi / (vol * norm2 q)).
Local Notation v := (coulomb basis w).
Local Notation fv q := (fac vol * vqvec pi norm2 q).

Lemma look_sum (F : 'I_M -> C) k :
  oapp F 0 (lookup k) = \sum_j (if basis j == k then F j else 0).
Proof.
case E : (lookup k) => [j|] /=.
  have /lookupP e := E.
  rewrite (bigD1 j) //= e eqxx big1 ?addr0 // => i ne.
  by rewrite -e (inj_eq basis_inj) (negbTE ne).
rewrite big1 // => j _; case: eqP => // /lookupP; by rewrite E.
Qed.

Lemma list_sum (g : 'I_M -> V) (F : 'I_M -> 'I_M -> C) :
  \sum_(x <- pmap (fun i : 'I_M => if lookup (g i) is Some j then Some (i, j) else None)
       [seq i : 'I_M <- enum 'I_M | (i < n)%N]) F x.1 x.2
  = \sum_(i < M | (i < n)%N) \sum_j (if basis j == g i then F i j else 0).
Proof.
rewrite big_pmap big_filter big_enum_cond /=; apply: eq_bigr => i _.
by rewrite -(look_sum (F i)); case: (lookup _).
Qed.

Lemma kp_sum q (F : 'I_M -> 'I_M -> C) :
  \sum_(x <- kp q) F x.1 x.2
  = \sum_(i < M | (i < n)%N) \sum_j (if basis j == basis i + q then F i j else 0).
Proof. exact: list_sum. Qed.
Lemma pm_sum q (F : 'I_M -> 'I_M -> C) :
  \sum_(x <- pm q) F x.1 x.2
  = \sum_(i < M | (i < n)%N) \sum_j (if basis j == basis i - q then F i j else 0).
Proof. exact: list_sum. Qed.

(* The sum over momentum transfers is the interaction. *)
Lemma transfers p r q u :
  \sum_(Q <- qvecs) (if (basis r == basis p + Q) && (basis u == basis q - Q) then fv Q else 0)
  = half C * v p r q u.
Proof.
have E : \sum_(Q <- qvecs) (if basis r == basis p + Q then
    (if basis u == basis q - Q then fv Q else 0) else 0) = half C * v p r q u.
  rewrite (sum_q quniq qfull q0 (fun Q => if basis u == basis q - Q then fv Q else 0)).
  rewrite /coulomb eq_sym; case: (altP (p =P r)) => [_|ne] /=; first by rewrite mulr0.
  have -> : (basis u == basis q - (basis r - basis p))
          = (basis p + basis q == basis r + basis u).
    by rewrite opprB addrA -subr_eq opprK eq_sym [basis u + _]addrC [basis q + _]addrC.
  case: eqP => _; last by rewrite mulr0.
  rewrite /fac /vqvec /vq /half !mul1r !invfM.
  by rewrite -[LHS]mulrA -!mulrA; congr (_ * _); rewrite mulrCA; congr (_ * _); rewrite mulrCA.
by rewrite -E; apply: eq_bigr => Q _; case: eqP.
Qed.

Lemma two_lists Q (X : 'I_M -> 'I_M -> 'I_M -> 'I_M -> C) :
  (forall p r q u : 'I_M, (n <= p)%N || (n <= q)%N -> X p r q u = 0) ->
  \sum_(x <- kp Q) \sum_(y <- pm Q) X x.1 x.2 y.1 y.2
  = \sum_p \sum_r \sum_q \sum_u
      (if (basis r == basis p + Q) && (basis u == basis q - Q) then X p r q u else 0).
Proof.
move=> X0; rewrite (kp_sum Q (fun i j => \sum_(y <- pm Q) X i j y.1 y.2)) big_mkcond.
apply: eq_bigr => p _; case: ltnP => hp /=; last first.
  do 3 (rewrite big1 // => ? _); rewrite X0 ?hp //; by case: ifP.
apply: eq_bigr => r _; case: ifP => _ /=; last by do 2 (rewrite big1 // => ? _).
rewrite pm_sum big_mkcond; apply: eq_bigr => q _; case: ltnP => hq //.
by rewrite big1 // => u _; rewrite X0 ?hq ?orbT //; case: ifP.
Qed.

Lemma transfer_sum (X : 'I_M -> 'I_M -> 'I_M -> 'I_M -> C) :
  \sum_(Q <- qvecs) fv Q * (\sum_p \sum_r \sum_q \sum_u
      (if (basis r == basis p + Q) && (basis u == basis q - Q) then X p r q u else 0))
  = half C * \sum_p \sum_r \sum_q \sum_u v p r q u * X p r q u.
Proof.
under eq_bigr do rewrite mulr_sumr; rewrite exchange_big mulr_sumr; apply: eq_bigr => p _.
under eq_bigr do rewrite mulr_sumr; rewrite exchange_big mulr_sumr; apply: eq_bigr => r _.
under eq_bigr do rewrite mulr_sumr; rewrite exchange_big mulr_sumr; apply: eq_bigr => q _.
under eq_bigr do rewrite mulr_sumr; rewrite exchange_big mulr_sumr; apply: eq_bigr => u _.
rewrite mulrA -transfers mulr_suml; apply: eq_bigr => Q _ /=.
by case: ifP; rewrite ?mul0r ?mulr0.
Qed.

Lemma fac_vdot f : fac vol * vdot pi norm2 qvecs f = \sum_(Q <- qvecs) fv Q * f Q.
Proof. by rewrite /vdot mulr_sumr; apply: eq_bigr => Q _; rewrite mulrA. Qed.

Lemma direct_part (A B : 'M[C]_M) : rows_below n A -> rows_below n B ->
  \sum_(Q <- qvecs) fv Q * (Gkpq basis lookup n A Q * Gpmq basis lookup n B Q)
  = half C * coul4 v A B.
Proof.
move=> hA hB; rewrite /coul4.
transitivity (half C * \sum_p \sum_r \sum_q \sum_u v p r q u * (A p r * B q u)); last first.
  by congr (_ * _); do 4 (apply: eq_bigr => ? _); rewrite mulrA.
rewrite -transfer_sum; apply: eq_bigr => Q _; congr (_ * _).
rewrite -(@two_lists Q (fun p r q u => A p r * B q u)) /Gkpq /Gpmq ?big_distrlr //.
by move=> p r q u /orP [] h; rewrite ?(hA _ _ h) ?(hB _ _ h) ?mul0r ?mulr0.
Qed.

Lemma exchange_part (A : 'M[C]_M) : rows_below n A ->
  \sum_(Q <- qvecs) fv Q * Gprod basis lookup n A Q = half C * exch4 v A A.
Proof.
move=> hA; rewrite /exch4.
transitivity (half C * \sum_p \sum_r \sum_q \sum_u v p r q u * (A q r * A p u)); last first.
  by congr (_ * _); do 4 (apply: eq_bigr => ? _); rewrite -mulrA [A _ _ * _]mulrC.
rewrite -transfer_sum; apply: eq_bigr => Q _; congr (_ * _).
rewrite -(@two_lists Q (fun p r q u => A q r * A p u)) //.
by move=> p r q u /orP [] h; rewrite !(hA _ _ h) ?mul0r ?mulr0.
Qed.

Lemma kp_below q x : x \in kp q -> (x.1 < n)%N.
Proof.
rewrite mem_pmap => /mapP [i]; rewrite mem_filter => /andP [h _].
by case: (lookup _) => // j [->].
Qed.
Lemma pm_below q x : x \in pm q -> (x.1 < n)%N.
Proof.
rewrite mem_pmap => /mapP [i]; rewrite mem_filter => /andP [h _].
by case: (lookup _) => // j [->].
Qed.

Lemma Gkpq_cut (A : 'M[C]_M) q : Gkpq basis lookup n (cut n A) q = Gkpq basis lookup n A q.
Proof.
rewrite /Gkpq big_seq [RHS]big_seq; apply: eq_bigr => x h.
by rewrite mxE (kp_below h).
Qed.
Lemma Gpmq_cut (A : 'M[C]_M) q : Gpmq basis lookup n (cut n A) q = Gpmq basis lookup n A q.
Proof.
rewrite /Gpmq big_seq [RHS]big_seq; apply: eq_bigr => x h.
by rewrite mxE (pm_below h).
Qed.
Lemma Gprod_cut (A : 'M[C]_M) q : Gprod basis lookup n (cut n A) q = Gprod basis lookup n A q.
Proof.
rewrite /Gprod big_seq [RHS]big_seq; apply: eq_bigr => x h.
rewrite big_seq [RHS]big_seq; apply: eq_bigr => y h'.
by rewrite !mxE (kp_below h) (pm_below h').
Qed.

Lemma cut_rows (A : 'M[C]_M) : rows_below n (cut n A).
Proof. by move=> i j h; rewrite mxE ltnNge h. Qed.
Lemma cut_id (A : 'M[C]_M) : rows_below n A -> cut n A = A.
Proof. by move=> h; apply/matrixP => i j; rewrite mxE; case: ltnP => // l; rewrite h. Qed.

Lemma ueg_exact (diagH1 : bool) (H1 G : mat2) :
  (diagH1 -> diagonal H1.1 /\ diagonal H1.2) ->
  let pe := wick2 v (cut n G.1, cut n G.2) in
  local_energy_ueg pi vol norm2 basis lookup qvecs n diagH1 H1 G
  = (wick1 H1 G + pe, wick1 H1 G, pe).
Proof.
move=> dH; rewrite /local_energy_ueg wick1E wick2E /=.
set ke := (if diagH1 then _ else _).
have -> : ke = sum_prod H1.1 G.1 + sum_prod H1.2 G.2.
  rewrite {}/ke; case: diagH1 dH => // /(_ isT) [d1 d2].
  have D (A B : 'M[C]_M) : diagonal A -> \sum_i A i i * B i i = sum_prod A B.
    move=> dA; rewrite /sum_prod; apply: eq_bigr => i _.
    rewrite (bigD1 i) //= big1 ?addr0 // => j ne.
    by rewrite dA ?mul0r // eq_sym.
  by rewrite !D.
have S (A : 'M[C]_M) :
  fac vol * vdot pi norm2 qvecs (fun q => Gkpq basis lookup n A q * Gpmq basis lookup n A q
     - Gprod basis lookup n A q)
  = half C * (coul4 v (cut n A) (cut n A) - exch4 v (cut n A) (cut n A)).
  have h := @cut_rows A.
  rewrite fac_vdot mulrBr -direct_part // -exchange_part // -sumrB.
  by apply: eq_bigr => Q _; rewrite Gkpq_cut Gpmq_cut Gprod_cut mulrBr.
have T (A B : 'M[C]_M) :
  fac vol * vdot pi norm2 qvecs (fun q => Gkpq basis lookup n A q * Gpmq basis lookup n B q)
  = half C * coul4 v (cut n A) (cut n B).
  rewrite fac_vdot -direct_part; try exact: cut_rows.
  by apply: eq_bigr => Q _; rewrite Gkpq_cut Gpmq_cut.
by rewrite !S !T !addrA.
Qed.

Lemma ueg_energy (diagH1 : bool) (H1 G : mat2) :
  (diagH1 -> diagonal H1.1 /\ diagonal H1.2) ->
  rows_below n G.1 -> rows_below n G.2 ->
  local_energy_ueg pi vol norm2 basis lookup qvecs n diagH1 H1 G = energies H1 v 0 G.
Proof.
move=> dH hu hd; rewrite ueg_exact // !cut_id // /energies !addr0.
by case: G {hu hd}.
Qed.

Lemma wick2_diagonal (A B : 'M[C]_M) : diagonal A -> diagonal B ->
  wick2 v (A, B) = - (half C * (\sum_p \sum_q v p q q p * A p p * A q q)
                      + half C * (\sum_p \sum_q v p q q p * B p p * B q q)).
Proof.
move=> dA dB; rewrite wick2E /=.
have c0 (X Y : 'M[C]_M) : diagonal X -> coul4 v X Y = 0.
  move=> d; rewrite /coul4 big1 // => p _; rewrite big1 // => r _.
  rewrite big1 // => q _; rewrite big1 // => u _; rewrite /coulomb.
  by case: (altP (p =P r)) => [_|ne] /=; rewrite ?mul0r // (d _ _ ne) mulr0 mul0r.
have e0 (X : 'M[C]_M) : diagonal X ->
  exch4 v X X = \sum_p \sum_q v p q q p * X p p * X q q.
  move=> d; rewrite /exch4; apply: eq_bigr => p _; apply: eq_bigr => r _.
  rewrite (bigD1 r) //= [X in _ + X]big1 ?addr0 => [|q ne]; last first.
    by rewrite big1 // => u _; rewrite (d _ _ ne) mulr0.
  rewrite (bigD1 p) //= big1 ?addr0 // => u ne.
  by rewrite (d p u) ?mulr0 ?mul0r // eq_sym.
by rewrite !c0 // !e0 // !mulr0 !addr0 !sub0r !mulrN opprD.
Qed.

(* All plane waves are in the lists. *)
Hypothesis nM : (M <= n)%N.

Lemma kp_all q (F : 'I_M -> 'I_M -> C) :
  \sum_(x <- kp q) F x.1 x.2
  = \sum_i \sum_j (if basis j == basis i + q then F i j else 0).
Proof.
rewrite kp_sum big_mkcond; apply: eq_bigr => i _.
by rewrite (leq_trans (ltn_ord i) nM).
Qed.
Lemma pm_all q (F : 'I_M -> 'I_M -> C) :
  \sum_(x <- pm q) F x.1 x.2
  = \sum_i \sum_j (if basis j == basis i - q then F i j else 0).
Proof.
rewrite pm_sum big_mkcond; apply: eq_bigr => i _.
by rewrite (leq_trans (ltn_ord i) nM).
Qed.

Lemma pick2 (P : 'I_M -> 'I_M -> bool) a b (c : C) :
  \sum_i \sum_j (if P i j then (if (j == a) && (i == b) then c else 0) else 0)
  = if P b a then c else 0.
Proof.
rewrite (bigD1 b) //= [X in _ + X]big1 ?addr0 => [|i ne]; last first.
  by rewrite big1 // => j _; rewrite (negbTE ne) andbF; case: ifP.
rewrite (bigD1 a) //= !eqxx big1 ?addr0 // => j ne.
by rewrite (negbTE ne); case: ifP.
Qed.

Lemma pick_fst (P : 'I_M -> 'I_M -> bool) a (F : 'I_M -> C) :
  \sum_i \sum_j (if P i j then (if i == a then F j else 0) else 0)
  = \sum_j (if P a j then F j else 0).
Proof.
rewrite (bigD1 a) //= [X in _ + X]big1 ?addr0 => [|i ne]; last first.
  by rewrite big1 // => j _; rewrite (negbTE ne); case: ifP.
by apply: eq_bigr => j _; rewrite eqxx.
Qed.

Lemma minus_plus a b (Q : V) : (basis a == basis b - Q) = (basis b == basis a + Q).
Proof. by rewrite -subr_eq opprK eq_sym. Qed.

Local Notation J A := (build_J_opt pi vol norm2 basis lookup qvecs n
   (Gkpq basis lookup n A) (Gpmq basis lookup n A)).

Lemma direct_code (A : 'M[C]_M) : J A = direct v A.
Proof.
apply/matrixP => a b; rewrite !mxE.
rewrite -/(half C) mulr_sumr.
under [RHS]eq_bigr => q _.
  rewrite mulr_sumr.
  under eq_bigr => u _.
    rewrite mulrA mulrDr -!transfers mulrDl !mulr_suml -big_split /=. over.
  rewrite exchange_big /=. over.
rewrite exchange_big /=; apply: eq_bigr => Q _.
rewrite (pm_all Q (fun i j => if (j == a) && (i == b) then _ else 0)).
rewrite (kp_all Q (fun i j => if (j == a) && (i == b) then _ else 0)).
rewrite (pick2 (fun i j => basis j == basis i - Q)).
rewrite (pick2 (fun i j => basis j == basis i + Q)).
rewrite minus_plus -[basis a == _]minus_plus /Gpmq /Gkpq pm_all kp_all.
rewrite !mulr_sumr.
case: (basis b == basis a + Q); case: (basis b == basis a - Q);
  rewrite ?add0r ?addr0 -?big_split; try (rewrite big1 // => q _; rewrite big1 // => u _;
   by rewrite !andbF !mul0r addr0);
  apply: eq_bigr => q _ /=; rewrite ?mulr_sumr -?big_split;
  apply: eq_bigr => u _ /=; rewrite ?andbT ?andbF ?mul0r ?addr0 ?add0r; do ?case: ifP => _;
  by rewrite ?mul0r ?mulr0 ?add0r ?addr0.
Qed.

Lemma exchange_code (A : 'M[C]_M) :
  build_K_opt pi vol norm2 basis lookup qvecs n A = - exchange v (A^T).
Proof.
apply/matrixP => a b; rewrite !mxE.
rewrite -/(half C) mulr_sumr -sumrN.
under [RHS]eq_bigr => q _.
  rewrite mulr_sumr -sumrN.
  under eq_bigr => u _.
    rewrite mulrA mulrDr -!transfers mulrDl !mulr_suml -big_split /= -sumrN. over.
  rewrite exchange_big /=. over.
rewrite exchange_big /=; apply: eq_bigr => Q _.
have E1 : \sum_(j <- pm Q) \sum_(k <- kp Q)
    (if (j.1 == a) && (k.2 == b) then - (fv Q * A j.2 k.1) else 0)
  = \sum_q \sum_u (if (basis b == basis q + Q) && (basis u == basis a - Q)
                   then - (fv Q * A u q) else 0).
  rewrite (pm_all Q (fun i j => \sum_(k <- kp Q)
    (if (i == a) && (k.2 == b) then - (fv Q * A j k.1) else 0))).
  transitivity (\sum_i \sum_j (if basis j == basis i - Q then (if i == a then
     \sum_q (if basis b == basis q + Q then - (fv Q * A j q) else 0) else 0) else 0)).
    apply: eq_bigr => i _; apply: eq_bigr => j _; case: ifP => // _.
    rewrite (kp_all Q (fun k l => if (i == a) && (l == b) then - (fv Q * A j k) else 0)).
    case: (i == a) => /=; last by do 2 (rewrite big1 // => ? _); case: ifP.
    apply: eq_bigr => q _; rewrite (bigD1 b) //= eqxx big1 ?addr0 // => l ne.
    by rewrite (negbTE ne); case: ifP.
  rewrite (pick_fst (fun i j => basis j == basis i - Q)) exchange_big /=.
  apply: eq_bigr => u _; case: (basis u == basis a - Q).
    by apply: eq_bigr => q _; rewrite andbT.
  by rewrite big1 // => q _; rewrite andbF.
have E2 : \sum_(j <- kp Q) \sum_(p <- pm Q)
    (if (j.1 == a) && (p.2 == b) then - (fv Q * A j.2 p.1) else 0)
  = \sum_q \sum_u (if (basis u == basis a + Q) && (basis b == basis q - Q)
                   then - (fv Q * A u q) else 0).
  rewrite (kp_all Q (fun i j => \sum_(k <- pm Q)
    (if (i == a) && (k.2 == b) then - (fv Q * A j k.1) else 0))).
  transitivity (\sum_i \sum_j (if basis j == basis i + Q then (if i == a then
     \sum_q (if basis b == basis q - Q then - (fv Q * A j q) else 0) else 0) else 0)).
    apply: eq_bigr => i _; apply: eq_bigr => j _; case: ifP => // _.
    rewrite (pm_all Q (fun k l => if (i == a) && (l == b) then - (fv Q * A j k) else 0)).
    case: (i == a) => /=; last by do 2 (rewrite big1 // => ? _); case: ifP.
    apply: eq_bigr => q _; rewrite (bigD1 b) //= eqxx big1 ?addr0 // => l ne.
    by rewrite (negbTE ne); case: ifP.
  rewrite (pick_fst (fun i j => basis j == basis i + Q)) exchange_big /=.
  apply: eq_bigr => u _; case: (basis u == basis a + Q) => //.
  by rewrite big1.
rewrite E1 E2 addrC -big_split; apply: eq_bigr => q _ /=.
rewrite -big_split; apply: eq_bigr => u _ /=; rewrite opprD !mxE.
by do 2 case: ifP => _; rewrite ?mul0r ?oppr0 ?add0r ?addr0.
Qed.

Lemma fock_code (H1 G : mat2) :
  fock_ueg pi vol norm2 basis lookup qvecs n H1 G
  = (H1.1 + direct v (G.1 + G.2) - exchange v (G.1)^T,
     H1.2 + direct v (G.1 + G.2) - exchange v (G.2)^T).
Proof.
rewrite /fock_ueg !exchange_code -direct_code.
suff -> : build_J_opt pi vol norm2 basis lookup qvecs n
    (fun q => Gkpq basis lookup n G.1 q + Gkpq basis lookup n G.2 q)
    (fun q => Gpmq basis lookup n G.1 q + Gpmq basis lookup n G.2 q) = J (G.1 + G.2) by [].
have E Q : Gkpq basis lookup n (G.1 + G.2) Q
  = Gkpq basis lookup n G.1 Q + Gkpq basis lookup n G.2 Q.
  by rewrite /Gkpq -big_split; apply: eq_bigr => x _; rewrite mxE.
have F Q : Gpmq basis lookup n (G.1 + G.2) Q
  = Gpmq basis lookup n G.1 Q + Gpmq basis lookup n G.2 Q.
  by rewrite /Gpmq -big_split; apply: eq_bigr => x _; rewrite mxE.
apply/matrixP => a b; rewrite !mxE; apply: eq_bigr => Q _; congr (_ + _).
  by apply: eq_bigr => x _; rewrite F.
by apply: eq_bigr => x _; rewrite E.
Qed.

Lemma build_J_tr (gk gp : V -> C) :
  build_J pi vol norm2 basis lookup qvecs gp gk
  = (build_J_opt pi vol norm2 basis lookup qvecs n gk gp)^T.
Proof.
have L k i : (lookup k == Some i) = (basis i == k).
  by apply/eqP/eqP => /lookupP.
apply/matrixP => a b; rewrite !mxE -big_split; apply: eq_bigr => Q _ /=.
rewrite (pm_all Q (fun i j => if (j == b) && (i == a) then _ else 0)).
rewrite (kp_all Q (fun i j => if (j == b) && (i == a) then _ else 0)).
rewrite (pick2 (fun i j => basis j == basis i - Q)).
rewrite (pick2 (fun i j => basis j == basis i + Q)).
by rewrite !L addrC.
Qed.

Lemma fock_derivative (H1 G : mat2) :
  derivative (energy H1 v) G (fock_ueg pi vol norm2 basis lookup qvecs n H1 G)
  <-> exchange v (G.1)^T = exchange v G.1 /\ exchange v (G.2)^T = exchange v G.2.
Proof.
split=> [D|[e1 e2]]; last first.
  by rewrite fock_code e1 e2; exact: mean_field_derivative.
have := derivative_unique D (mean_field_derivative _ _ _).
rewrite fock_code /mean_field => -[] /addrI /oppr_inj e1 /addrI /oppr_inj e2.
by split.
Qed.
End UEG.

Section Others.
Variable C : numClosedFieldType.
Variable M : nat.
Notation mat2 := ('M[C]_M * 'M[C]_M)%type.

Lemma rows_all n (A : 'M[C]_M) : (M <= n)%N -> rows_below n A.
Proof. by move=> h i j; rewrite leqNgt (leq_trans (ltn_ord i) h). Qed.

Lemma rows_greens n m (A B : 'M[C]_(M, m)) :
  (forall (i : 'I_M) j, (n <= i)%N -> A i j = 0) ->
  rows_below n ((B *m invmx ((map_mx conjC A)^T *m B) *m (map_mx conjC A)^T)^T).
Proof.
move=> hA i j h; rewrite !mxE big1 // => k _.
by rewrite [X in _ * X]mxE [X in _ * X]mxE hA // rmorph0 mulr0.
Qed.

Lemma fock_hubbardE (T : mat2) U (P : mat2) :
  fock_hubbard T U P = mean_field T (fun p r q u : 'I_M => onsite U p r q u) P.
Proof.
have S (f : 'I_M -> 'I_M -> C) (i j : 'I_M) :
  \sum_q \sum_u (onsite U i j q u + onsite U q u i j) * f q u
  = if i == j then (U + U) * f i i else 0.
  case: (altP (i =P j)) => [<-|ne].
    rewrite (bigD1 i) //= (bigD1 i) //= /onsite !eqxx /= big1 ?addr0 => [|u nu]; last first.
      by rewrite [i == u]eq_sym (negbTE nu) /= addr0 mul0r.
    rewrite big1 ?addr0 // => q nq; rewrite big1 // => u _.
    rewrite [i == q]eq_sym (negbTE nq) /=.
    case: (q =P u) => [e|_] /=; last by rewrite addr0 mul0r.
    by rewrite -e (negbTE nq) /= addr0 mul0r.
  rewrite big1 // => q _; rewrite big1 // => u _.
  by rewrite /onsite (negbTE ne) andbF addr0 mul0r.
have SX (f : 'I_M -> 'I_M -> C) (i j : 'I_M) :
  \sum_q \sum_u (onsite U i u q j + onsite U q j i u) * f q u
  = if i == j then (U + U) * f i i else 0.
  rewrite -S; apply: eq_bigr => q _; apply: eq_bigr => u _; congr (_ * _).
  have E (a b c d : 'I_M) : onsite U a b c d = onsite U a d c b :> C.
    rewrite /onsite; case: (altP (a =P b)) => [<-|nab] /=.
      case: (altP (a =P c)) => [<-|nac] /=.
        by case: (altP (a =P d)) => [<-|] //=; rewrite eqxx.
      by case: (altP (a =P d)) => [<-|] //=; rewrite (negbTE nac).
    case: (altP (a =P d)) => [<-|] //=; case: (altP (a =P c)) => [<-|] //=.
    by rewrite (negbTE nab).
  by rewrite [onsite U i u q j]E [onsite U q j i u]E.
rewrite /fock_hubbard /mean_field; congr (_, _); rewrite -addrA; congr (_ + _).
  apply/matrixP => i j; rewrite !mxE S SX; case: eqP => _; last by rewrite !mulr0 subr0.
  by rewrite !mxE -mulrBr -mulrBr [P.1 i i + _]addrC addrK mulrA mulrDr -mulrDl half2 mul1r.
apply/matrixP => i j; rewrite !mxE S SX; case: eqP => _; last by rewrite !mulr0 subr0.
by rewrite !mxE -mulrBr -mulrBr addrK mulrA mulrDr -mulrDl half2 mul1r.
Qed.

Lemma fock_generic_sparse naux (hs : 'M[C]_(M * M, naux)) (h1 P : mat2) :
  let D := direct (fun p r q u => \sum_n hs (flat p r) n * hs (flat q u) n) (P.1 + P.2) in
  fock_generic true (Axes2 hs) h1 P = Ok (h1.1 + D, h1.2 + D).
Proof.
move=> D; rewrite /fock_generic.
set W := (\matrix_(_, _) _).
suff -> : W = - D by rewrite !opprK.
apply/matrixP => p q; rewrite !mxE -/(half C) /=.
transitivity (- (\sum_n hs (flat p q) n * \sum_k \sum_l hs (flat k l) n * (P.1 k l + P.2 k l))).
  rewrite mulr_sumr -sumrN; apply: eq_bigr => n _.
  rewrite mulrCA -mulrN; congr (_ * _); rewrite -mulrDr.
  rewrite mulrA -expr2 sqrCi mulN1r; congr (- _).
  rewrite -big_split; apply: eq_bigr => k _; rewrite -big_split; apply: eq_bigr => l _ /=.
  by rewrite mulrDr [P.1 k l * _]mulrC [P.2 k l * _]mulrC.
congr (- _).
transitivity (half C * (\sum_k \sum_l
    2%:R * (\sum_n hs (flat p q) n * hs (flat k l) n) * (P.1 + P.2) k l)); last first.
  congr (_ * _); apply: eq_bigr => k _; apply: eq_bigr => l _; congr (_ * _).
  rewrite mulr_natl mulr2n; congr (_ + _).
  by apply: eq_bigr => n _; rewrite mulrC.
rewrite mulr_sumr; under [RHS]eq_bigr => k _.
  rewrite mulr_sumr; under eq_bigr => l _.
    rewrite !mulrA [half C * _](_ : _ = 1) ?mul1r; last by rewrite mulr_natr mulr2n half2.
    rewrite mulr_suml; over.
  rewrite exchange_big; over.
rewrite exchange_big; apply: eq_bigr => n _ /=.
rewrite mulr_sumr; apply: eq_bigr => k _; rewrite mulr_sumr; apply: eq_bigr => l _.
by rewrite !mxE mulrA.
Qed.
End Others.
