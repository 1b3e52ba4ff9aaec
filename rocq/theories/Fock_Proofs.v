From Verif Require Import Base.
Set Warnings "-notation-overridden,-ambiguous-paths".
From mathcomp Require Import all_ssreflect all_algebra.
From Verif Require Import Fock_Spec.
Set Implicit Arguments. Unset Strict Implicit. Unset Printing Implicit Defensive.
Import GRing.Theory.
Local Open Scope ring_scope.

Section Fock.
  Variables (R : comRingType) (M : nat).
  Implicit Types (A B S D : {set 'I_M}) (p q r s x : 'I_M).
  Notation sgn := (@sgn R M).

  Lemma sgn2 A p : sgn A p * sgn A p = 1.
  Proof. by rewrite /Fock_Spec.sgn -exprD addnn -mul2n exprM sqrrN expr1n expr1n. Qed.

  Lemma sgnD1 A p : sgn (A :\ p) p = sgn A p.
  Proof.
    rewrite /Fock_Spec.sgn; congr (_ ^+ _); apply: eq_card => x; rewrite !inE.
    by case: (x =P p) => [->|_] //=; rewrite ltnn andbF.
  Qed.

  Lemma sgnU1 A p : sgn (p |: A) p = sgn A p.
  Proof.
    rewrite /Fock_Spec.sgn; congr (_ ^+ _); apply: eq_card => x; rewrite !inE.
    by case: (x =P p) => [->|_] //=; rewrite ltnn !andbF.
  Qed.

  (** removing an orbital before p changes the sign, after p does not *)
  Lemma sgn_rem A p q : q \in A -> sgn (A :\ q) p = if (q < p)%N then - sgn A p else sgn A p.
  Proof.
    move=> qA; rewrite /Fock_Spec.sgn; case: ltnP => h.
    - have -> : #|[set x in A | (x < p)%N]| = #|[set x in A :\ q | (x < p)%N]|.+1.
        rewrite (cardsD1 q) inE qA h /= add1n; congr _.+1; apply: eq_card => x.
        by rewrite !inE andbA.
      by rewrite exprS mulN1r opprK.
    - congr (_ ^+ _); apply: eq_card => x; rewrite !inE.
      by case: (x =P q) => [->|_] //=; rewrite ltnNge h andbF.
  Qed.

  Lemma ket_pair A S q : (q \notin S) && (q |: S == A) = (q \in A) && (S == A :\ q).
  Proof.
    apply/andP/andP => [[h /eqP <-]|[h /eqP ->]].
      by rewrite setU11 setU1K.
    by rewrite setD11 setD1K.
  Qed.

  Lemma annihilate_ket A q S : annihilate q (ket R A) S = (q \in A)%:R * sgn A q * (S == A :\ q)%:R.
  Proof.
    have -> : (q \in A)%:R * sgn A q * (S == A :\ q)%:R = if (q \in A) && (S == A :\ q) then sgn A q else 0.
      by case: (q \in A); case: (S == _); rewrite /= ?mul1r ?mul0r ?mulr1 ?mulr0.
    rewrite -ket_pair /annihilate /ket; case: (q \in S) => //=.
    by case: eqP => [<-|_]; rewrite ?mulr1 ?mulr0 ?sgnU1.
  Qed.

  Definition T1 B A p q : R := (p \in B)%:R * sgn B p * ((q \in A)%:R * sgn A q) * (B :\ p == A :\ q)%:R.

  Lemma T1E B A p q : create p (annihilate q (ket R A)) B = T1 B A p q.
  Proof.
    rewrite /create /T1 annihilate_ket; case: (p \in B); rewrite ?mul1r ?mul0r //.
    by rewrite !mulrA.
  Qed.

  Definition s2 A p q : R := (p \in A)%:R * sgn A p * ((q \in A :\ p)%:R * sgn (A :\ p) q).
  Definition T2 B A p q r s : R := s2 B p q * s2 A r s * (B :\ p :\ q == A :\ r :\ s)%:R.

  Lemma annihilate2_ket A r s S : annihilate s (annihilate r (ket R A)) S = s2 A r s * (S == A :\ r :\ s)%:R.
  Proof.
    have -> : annihilate s (annihilate r (ket R A)) S =
              ((r \in A)%:R * sgn A r) * annihilate s (ket R (A :\ r)) S.
      rewrite /(annihilate s); case: (s \in S); first by rewrite mulr0.
      by rewrite annihilate_ket /ket mulrCA.
    by rewrite annihilate_ket /s2 !mulrA.
  Qed.

  Lemma T2E B A p q r s : create p (create q (annihilate s (annihilate r (ket R A)))) B = T2 B A p q r s.
  Proof.
    rewrite /create /T2 annihilate2_ket /s2; case: (p \in B); rewrite ?mul1r ?mul0r //.
    by case: (q \in B :\ p); rewrite ?mul1r ?mul0r ?mulr0 ?mul0r // !mulrA.
  Qed.

  Lemma s2_swap A p q : s2 A q p = - s2 A p q.
  Proof.
    rewrite /s2 !inE; case: (q =P p) => [->|/eqP n].
      by rewrite eqxx /= mul0r mulr0 oppr0.
    rewrite (eq_sym p q) n /=.
    case pA: (p \in A); last by rewrite !mul0r mulr0 oppr0.
    case qA: (q \in A); last by rewrite !mul0r mulr0 oppr0.
    rewrite !mul1r !sgn_rem //.
    case: (ltngtP p q) n => [h|h|/val_inj->]; rewrite ?eqxx // => _.
      by rewrite mulrN opprK mulrC.
    by rewrite mulrN mulrC.
  Qed.

  Lemma s2_sq A p q : p \in A -> q \in A :\ p -> s2 A p q * s2 A p q = 1.
  Proof. by move=> pA qA; rewrite /s2 pA qA !mul1r mulrACA !sgn2 mulr1. Qed.

  (** the two ways of removing the same two orbitals *)
  Lemma rem2_eq A p q r s : p \in A -> q \in A :\ p -> r \in A -> s \in A :\ r ->
    (A :\ r :\ s == A :\ p :\ q) = ((r == p) && (s == q)) || ((r == q) && (s == p)).
  Proof.
    rewrite !inE => pA /andP[qp qA] rA /andP[sr sA].
    apply/eqP/orP => [/setP h|[/andP[/eqP-> /eqP->//]|/andP[/eqP-> /eqP->]]]; last first.
      by apply/setP => x; rewrite !inE andbCA.
    have := h q; have := h p; rewrite !inE !eqxx pA qA !andbT /= ?andbF.
    case: (p =P s) => [e|_] /=; case: (q =P s) => [e'|_] //=.
    - by rewrite e e' eqxx in qp.
    - by move=> _ /negbFE/eqP e'; right; rewrite e e' !eqxx.
    - by move=> /negbFE/eqP e; left; rewrite e e' !eqxx.
    - by move=> /negbFE/eqP e /negbFE/eqP e'; rewrite e e' eqxx in qp.
  Qed.

  Lemma delta2 p q (G : 'I_M -> 'I_M -> R) :
    \sum_r \sum_s (r == p)%:R * (s == q)%:R * G r s = G p q.
  Proof.
    rewrite (bigD1 p) //= [X in _ + X]big1 ?addr0; last first.
      by move=> r /negbTE n; rewrite big1 // => s _; rewrite n !mul0r.
    rewrite (bigD1 q) //= [X in _ + X]big1 ?addr0; last first.
      by move=> s /negbTE n; rewrite n mulr0 mul0r.
    by rewrite !eqxx !mul1r.
  Qed.

  Lemma pair_sum A p q (F : 'I_M -> 'I_M -> R) : p \in A -> q \in A :\ p ->
    \sum_r \sum_s s2 A r s * (A :\ p :\ q == A :\ r :\ s)%:R * F r s = s2 A p q * (F p q - F q p).
  Proof.
    move=> pA qA.
    have qp : (q == p) = false by move: qA; rewrite !inE => /andP[/negbTE].
    transitivity (\sum_r \sum_s ((r == p)%:R * (s == q)%:R * (s2 A r s * F r s) +
                                 (r == q)%:R * (s == p)%:R * (s2 A r s * F r s))).
      apply: eq_bigr => r _; apply: eq_bigr => s _.
      case rA: (r \in A); last by rewrite /s2 rA !mul0r !mulr0 addr0.
      case sA: (s \in A :\ r); last by rewrite /s2 sA !(mul0r, mulr0) addr0.
      rewrite eq_sym (rem2_eq pA qA rA sA).
      case: (r =P p) => [->|_] /=; last first.
        by case: (r == q); case: (s == p); rewrite /= ?(mul0r, mulr0, mul1r, mulr1, add0r).
      rewrite (eq_sym p q) qp /=; case: (s == q); by rewrite /= ?(mul0r, mulr0, mul1r, mulr1, addr0).
    under eq_bigr do rewrite big_split /=.
    rewrite big_split /= !delta2 (s2_swap _ p q) mulrBr mulNr; congr (_ - _).
  Qed.

  Lemma pair_none A D (F : 'I_M -> 'I_M -> R) :
    (forall r s, r \in A -> s \in A :\ r -> D != A :\ r :\ s) ->
    \sum_r \sum_s s2 A r s * (D == A :\ r :\ s)%:R * F r s = 0.
  Proof.
    move=> h; rewrite big1 // => r _; rewrite big1 // => s _.
    case rA: (r \in A); last by rewrite /s2 rA !mul0r.
    case sA: (s \in A :\ r); last by rewrite /s2 sA !(mul0r, mulr0).
    by rewrite (negbTE (h r s rA sA)) mulr0 mul0r.
  Qed.

  Section Elements.
    Variables (half : R) (h : 'I_M -> 'I_M -> R) (v : 'I_M -> 'I_M -> 'I_M -> 'I_M -> R).
    Hypothesis half2 : half + half = 1.
    Hypothesis v_sym : forall p q r s, v p q r s = v q p s r.

    Definition inner A B p q : R := \sum_r \sum_s s2 A r s * (B :\ p :\ q == A :\ r :\ s)%:R * v p q r s.

    Lemma two_bodyE A B : two_body half v (ket R A) B = half * \sum_p \sum_q s2 B p q * inner A B p q.
    Proof.
      rewrite /two_body; congr (_ * _); apply: eq_bigr => p _; apply: eq_bigr => q _.
      rewrite /inner mulr_sumr; apply: eq_bigr => r _; rewrite mulr_sumr; apply: eq_bigr => s _.
      by rewrite T2E /T2 mulrC -!mulrA.
    Qed.

    Lemma one_bodyE A B : one_body h (ket R A) B = \sum_p \sum_q T1 B A p q * h p q.
    Proof. by rewrite /one_body; apply: eq_bigr => p _; apply: eq_bigr => q _; rewrite T1E mulrC. Qed.

    Lemma half_twice (x : R) : half * (x + x) = x.
    Proof. by rewrite mulrDr -mulrDl half2 mul1r. Qed.

    (** no excitation *)
    Lemma one_body0 A : one_body h (ket R A) A = \sum_(p in A) h p p.
    Proof.
      rewrite one_bodyE [RHS]big_mkcond /=; apply: eq_bigr => p _.
      case pA: (p \in A); last by rewrite big1 // => q _; rewrite /T1 pA !mul0r.
      rewrite (bigD1 p) //= big1 ?addr0; last first.
        move=> q /negbTE n; rewrite /T1; case qA: (q \in A); last by rewrite !mul0r ?mulr0 ?mul0r.
        suff -> : (A :\ p == A :\ q) = false by rewrite mulr0 mul0r.
        by apply/eqP => /setP/(_ q); rewrite !inE eqxx n qA.
      by rewrite /T1 pA eqxx !mul1r mulr1 sgn2 mul1r.
    Qed.

    Lemma two_body0 A : two_body half v (ket R A) A =
      half * \sum_(p in A) \sum_(q in A :\ p) (v p q p q - v p q q p).
    Proof.
      rewrite two_bodyE; congr (_ * _); rewrite [RHS]big_mkcond /=; apply: eq_bigr => p _.
      case pA: (p \in A); last by rewrite big1 // => q _; rewrite /s2 pA !mul0r.
      rewrite [RHS]big_mkcond /=; apply: eq_bigr => q _.
      case qA: (q \in A :\ p); last by rewrite /s2 qA !(mul0r, mulr0).
      by rewrite /inner (pair_sum _ pA qA) mulrA s2_sq // mul1r.
    Qed.

    (** one excitation *)
    Section One.
      Variables (C : {set 'I_M}) (a b : 'I_M).
      Hypotheses (aC : a \notin C) (bC : b \notin C) (ab : a != b).
      Let A := a |: C.
      Let B := b |: C.

      Lemma one_body1 : one_body h (ket R A) B = sgn B b * sgn A a * h b a.
      Proof.
        rewrite one_bodyE (bigD1 b) //= (bigD1 a) //= !big1 ?addr0.
        - by rewrite /T1 /A /B !setU1K // !setU11 eqxx !mul1r mulr1.
        - move=> p /negbTE n; apply: big1 => q _; rewrite /T1.
          suff -> : (B :\ p == A :\ q) = false by rewrite mulr0 mul0r.
          apply/eqP => /setP/(_ b); rewrite !inE eqxx (eq_sym b p) n /= (eq_sym b a) (negbTE ab) (negbTE bC).
          by rewrite andbF.
        - move=> q /negbTE n; rewrite /T1; case: (b \in B); last by rewrite !mul0r.
          suff -> : (B :\ b == A :\ q) = false by rewrite mulr0 mul0r.
          by apply/eqP => /setP/(_ a); rewrite !inE eqxx (negbTE ab) (eq_sym a q) n (negbTE aC).
      Qed.

      Lemma inner_swap p q : inner A B q p = - inner A B p q.
      Proof.
        rewrite /inner exchange_big -sumrN /=; apply: eq_bigr => r _; rewrite -sumrN; apply: eq_bigr => s _.
        rewrite (s2_swap A r s) v_sym !mulNr; congr (- (_ * _%:R * _)).
        by rewrite !setDDl (setUC [set q]) (setUC [set s]).
      Qed.

      Lemma two_body1 : two_body half v (ket R A) B =
        sgn B b * sgn A a * \sum_(x in C) (v b x a x - v b x x a).
      Proof.
        have W q : s2 B q b * inner A B q b = s2 B b q * inner A B b q by rewrite s2_swap inner_swap mulrNN.
        have -> : sgn B b * sgn A a * (\sum_(x in C) (v b x a x - v b x x a)) = \sum_q (s2 B b q * inner A B b q).
          rewrite mulr_sumr big_mkcond /=; apply: eq_bigr => x _.
          have Bb : B :\ b = C by rewrite /B setU1K.
          have Aa : A :\ a = C by rewrite /A setU1K.
          case xC: (x \in C); last by rewrite /s2 Bb xC !(mul0r, mulr0).
          have -> : inner A B b x = s2 A a x * (v b x a x - v b x x a).
            rewrite /inner Bb -Aa; apply: (pair_sum (fun r s => v b x r s)); first by rewrite /A setU11.
            by rewrite Aa.
          rewrite mulrA; congr (_ * _); rewrite /s2 Bb Aa xC /A /B !setU11 !mul1r.
          by rewrite mulrACA sgn2 mulr1.
        rewrite two_bodyE -[RHS]half_twice; congr (_ * _).
        rewrite (bigD1 b) //=; congr (_ + _).
        have z : s2 B b b = 0 by rewrite /s2 setD11 !(mul0r, mulr0).
        rewrite [RHS](bigD1 b) //= z mul0r add0r.
        apply: eq_bigr => p pb; rewrite (bigD1 b) //= W big1 ?addr0 // => q qb.
        rewrite /inner pair_none ?mulr0 // => r s _ _.
        apply/eqP => /setP/(_ b); rewrite !inE eqxx (eq_sym b q) qb (eq_sym b p) pb /=.
        by rewrite (eq_sym b a) (negbTE ab) (negbTE bC) !andbF.
      Qed.
    End One.

    (** two excitations *)
    Section Two.
      Variables (D A B : {set 'I_M}) (a a' b b' : 'I_M).
      Hypotheses (aA : a \in A) (aA' : a' \in A :\ a) (bB : b \in B) (bB' : b' \in B :\ b).
      Hypotheses (AD : A :\ a :\ a' = D) (BD : B :\ b :\ b' = D).
      Hypotheses (na : a \notin B) (na' : a' \notin B) (nb : b \notin A) (nb' : b' \notin A).

      Lemma one_body2 : one_body h (ket R A) B = 0.
      Proof.
        rewrite one_bodyE big1 // => p _; rewrite big1 // => q _; rewrite /T1.
        suff -> : (B :\ p == A :\ q) = false by rewrite mulr0 mul0r.
        apply/eqP => /setP e; have := e b; have := e b'; rewrite !inE (negbTE nb) (negbTE nb') bB !andbF !andbT.
        move: bB'; rewrite !inE => /andP[n ->]; rewrite andbT => /negbFE/eqP e1 /negbFE/eqP e2.
        by rewrite e1 e2 eqxx in n.
      Qed.

      Lemma inter_pair p q : p \in B -> q \in B :\ p -> B :\ p :\ q \subset A -> B :\ p :\ q = D.
      Proof.
        move=> pB qB sub; have hb x : x \in B -> x \notin A -> (x == p) || (x == q).
          move=> xB xA; have := subsetP sub x; rewrite !inE xB andbT.
          by case: (x == q); case: (x == p) => //= /(_ isT); rewrite (negbTE xA).
        have h1 := hb _ bB nb.
        have [n B'] : b' != b /\ b' \in B by move: bB'; rewrite !inE => /andP[].
        have h2 := hb _ B' nb'.
        rewrite -BD; apply/eqP; rewrite rem2_eq //.
        move: h1 h2; case: (b =P p) => [e|_] /=.
          by rewrite -e (negbTE n) /= => _ /eqP->; rewrite !eqxx.
        by move=> /eqP e; rewrite -e (negbTE n) orbF => /eqP ->; rewrite !eqxx orbT.
      Qed.

      Lemma two_body2 : two_body half v (ket R A) B = s2 B b b' * s2 A a a' * (v b b' a a' - v b b' a' a).
      Proof.
        rewrite two_bodyE.
        pose F p q := s2 A a a' * (v p q a a' - v p q a' a).
        have -> : \sum_p \sum_q s2 B p q * inner A B p q =
                  \sum_p \sum_q s2 B p q * (B :\ b :\ b' == B :\ p :\ q)%:R * F p q.
          apply: eq_bigr => p _; apply: eq_bigr => q _.
          case pB: (p \in B); last by rewrite /s2 pB !mul0r.
          case qB: (q \in B :\ p); last by rewrite /s2 qB !(mul0r, mulr0).
          rewrite -mulrA; congr (_ * _); rewrite BD /F.
          case: eqP => [e|n].
            by rewrite mul1r /inner -e -AD (pair_sum _ aA aA').
          rewrite mul0r /inner pair_none // => r s rA sA; apply/eqP => e; apply: n.
          rewrite (inter_pair pB qB) // e; apply/subsetP => x; rewrite !inE => /and3P[_ _ //].
        rewrite (pair_sum F bB bB') -mulrA; rewrite -[RHS]half_twice; congr (_ * _).
        rewrite -mulrDr; congr (_ * _); rewrite /F -mulrBr -mulrDr; congr (_ * _).
        rewrite (v_sym b' b) (v_sym b' b a').
        by rewrite opprB addrC addrA addrC; congr (_ + _).
      Qed.
    End Two.

    (** more *)
    Lemma many A B : (2 < #|B :\: A|)%N -> one_body h (ket R A) B = 0 /\ two_body half v (ket R A) B = 0.
    Proof.
      move=> big.
      have sub p q : B :\: A \subset [set p; q] -> False.
        move=> /subset_leq_card; rewrite cards2 => le; move: (leq_trans big le).
        by case: (p != q).
      split.
        rewrite one_bodyE big1 // => p _; rewrite big1 // => q _; rewrite /T1.
        suff -> : (B :\ p == A :\ q) = false by rewrite mulr0 mul0r.
        apply/eqP => /setP e; apply: (sub p p); apply/subsetP => x; rewrite !inE => /andP[xA xB].
        by have := e x; rewrite !inE (negbTE xA) xB andbF andbT => /negbFE->.
      rewrite two_bodyE big1 ?mulr0 // => p _; rewrite big1 // => q _; rewrite /inner pair_none ?mulr0 // => r s _ _.
      apply/eqP => /setP e; apply: (sub p q); apply/subsetP => x; rewrite !inE => /andP[xA xB].
      have := e x; rewrite !inE (negbTE xA) xB !andbF andbT.
      by case: (x == p); case: (x == q).
    Qed.
  End Elements.
End Fock.
