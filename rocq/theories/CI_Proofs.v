From Verif Require Import Base.
Set Warnings "-notation-overridden,-ambiguous-paths".
From mathcomp Require Import all_ssreflect all_algebra zify.
From Verif Require Import CI_Model Fock_Spec Fock_Proofs.
Set Implicit Arguments. Unset Strict Implicit. Unset Printing Implicit Defensive.
Import GRing.Theory.
Local Open Scope ring_scope.

(** ** lists and sets *)
Lemma index_count (s : seq nat) x : sorted ltn s -> x \in s -> index x s = count (fun y => y < x)%N s.
Proof.
  elim: s => //= y s IH p; rewrite inE; case: (x =P y) => [->|n] /= h.
    rewrite eqxx ltnn add0n; apply/esym/eqP; rewrite -leqn0 leqNgt -has_count; apply/hasPn => z zs.
    by have /allP/(_ z zs) := order_path_min ltn_trans p; rewrite /= -leqNgt => /ltnW.
  have -> : (y == x) = false by apply/eqP => e; apply: n.
  have /allP/(_ x h) /= -> := order_path_min ltn_trans p.
  by rewrite add1n IH ?(path_sorted p).
Qed.

Section Occ.
  Variable n : nat.
  Notation M := (n + n)%N.
  Implicit Types (A B C D : {set 'I_M}) (p q x : 'I_M).

  Lemma enum_sorted A : sorted (fun p q : 'I_M => p < q)%N (enum A).
  Proof.
    rewrite /enum_mem -enumT; apply: sorted_filter; first by move=> y x z; apply: ltn_trans.
    have : sorted ltn (map val (enum 'I_M)) by rewrite val_enum_ord; apply: iota_ltn_sorted.
    by rewrite sorted_map.
  Qed.

  Lemma occ_sorted A : sorted ltn (occ A).
  Proof. by rewrite /occ sorted_map; apply: enum_sorted. Qed.

  Lemma mem_occ A p : (val p \in occ A) = (p \in A).
  Proof. by rewrite /occ mem_map ?mem_enum //; apply: val_inj. Qed.

  Lemma only_in_occ A B : only_in (occ B) (occ A) = occ (B :\: A).
  Proof.
    rewrite /only_in /occ filter_map; congr map.
    rewrite /(enum (B :\: A)) /(enum B) /enum_mem -filter_predI; apply: eq_filter => x /=.
    by rewrite !inE mem_map ?mem_enum //; apply: val_inj.
  Qed.

  Lemma index_occ A p : p \in A -> index (val p) (occ A) = #|[set x in A | (x < p)%N]|.
  Proof.
    move=> pA; rewrite index_count ?occ_sorted ?mem_occ // /occ count_map.
    rewrite cardE /(enum _) /enum_mem -size_filter -!filter_predI; congr size; apply: eq_filter => x /=.
    by rewrite !inE andbC.
  Qed.

  Lemma size_occ A : size (occ A) = #|A|.
  Proof. by rewrite size_map -cardE. Qed.

  Lemma map_orbE p : map_orb (val p) n = (orb p, nat_of_bool (spin p)).
  Proof.
    have n0 : (0 < n)%N by case: n p => // -[].
    by rewrite /map_orb /orb /spin eqn0Ngt divn_gt0 //; case: leqP.
  Qed.
End Occ.

(** ** parity *)
Lemma Zodd_nat k : Z.odd (Z.of_nat k) = odd k.
Proof. by elim: k => // k IH; rewrite Nat2Z.inj_succ Z.odd_succ -Z.negb_odd IH. Qed.

Lemma perm_odd z : Z.eqb (Z.modulo z (Zpos 2)) (Zpos 1) = Z.odd z.
Proof. by rewrite Zmod_odd; case: (Z.odd z). Qed.

Section Perm.
  Variables (R : comRingType) (n : nat).
  Notation M := (n + n)%N.
  Implicit Types (A B : {set 'I_M}) (p q x : 'I_M).

  Definition perm_sign (b : bool) (x : R) : R := if b then - x else x.

  Lemma perm_signE b (x : R) : (if b then - x else x) = (-1) ^+ b * x.
  Proof. by case: b; rewrite ?expr1 ?mulN1r ?expr0 ?mul1r. Qed.

  Lemma sgn_index A p : p \in A -> sgn R A p = (-1) ^+ odd (index (val p) (occ A)).
  Proof. by move=> pA; rewrite /sgn index_occ // signr_odd. Qed.

  Lemma perm1 A B a b : a \in A -> b \in B ->
    (-1) ^+ get_perm [:: val b] [:: val a] (occ A) (occ B) = sgn R B b * sgn R A a :> R.
  Proof.
    move=> aA bB; rewrite !sgn_index // /get_perm perm_odd /= -signr_addb.
    by rewrite !(Z.odd_add, Z.odd_sub) !Zodd_nat; case: (odd _); case: (odd _).
  Qed.

  Lemma perm2 A B a a' b b' : a \in A -> a' \in A -> b \in B -> b' \in B -> (a < a')%N -> (b < b')%N ->
    (-1) ^+ get_perm [:: val b; val b'] [:: val a; val a'] (occ A) (occ B) = s2 R B b b' * s2 R A a a' :> R.
  Proof.
    move=> aA aA' bB bB' la lb; rewrite /s2 !inE aA aA' bB bB' !sgn_rem // la lb.
    have -> : (a' != a) by apply/eqP => e; move: la; rewrite e ltnn.
    have -> : (b' != b) by apply/eqP => e; move: lb; rewrite e ltnn.
    rewrite !mul1r !mulrN mulNr opprK !sgn_index // /get_perm perm_odd /= -!signr_addb.
    rewrite !(Z.odd_add, Z.odd_sub) !Zodd_nat /=.
    by case: (odd _); case: (odd _); case: (odd _); case: (odd _).
  Qed.
End Perm.

(** ** the three rules *)
Section Rules.
  Variables (R : comRingType) (s : system R) (half : R).
  Hypothesis half2 : half + half = 1.
  Notation n := (nbasis s).
  Notation M := (n + n)%N.
  Notation v := (v_so (n:=n) (hijkl s)).
  Notation h := (h_so (n:=n) (H1 s)).
  Implicit Types (A B C D : {set 'I_M}) (p q x : 'I_M) (l : seq 'I_M).

  Lemma eqb_nat (a b : bool) : (nat_of_bool a == nat_of_bool b) = (a == b).
  Proof. by case: a; case: b. Qed.

  Definition g p q : R := v p q p q - v p q q p.

  Lemma condon0_inE p l e : condon0_in s (orb p) (spin p) (map val l) e = e + \sum_(q <- l) g p q.
  Proof.
    elim: l e => [|q l IH] e; first by rewrite big_nil addr0.
    rewrite big_cons /= map_orbE eqb_nat IH addrA; congr (_ + _).
    by rewrite /g /v_so !eqxx /= (eq_sym (spin q)) andbb; case: (spin p == spin q); rewrite ?subr0 ?addrA.
  Qed.

  Fixpoint pairs (l : seq 'I_M) : R := if l is p :: l' then \sum_(q <- l') g p q + pairs l' else 0.

  Lemma condon0_outE l e1 e2 : condon0_out s (map val l) e1 e2 = (e1 + \sum_(p <- l) h p p, e2 + pairs l).
  Proof.
    elim: l e1 e2 => [|p l IH] e1 e2; first by rewrite big_nil !addr0.
    by rewrite big_cons /= map_orbE IH condon0_inE /h_so eqxx !addrA.
  Qed.

  Hypothesis v_sym : forall i j k m, hijkl s i j k m = hijkl s j i m k.

  Lemma v_so_sym p q x y : v p q x y = v q p y x.
  Proof. by rewrite /v_so andbC v_sym. Qed.

  Lemma g_sym p q : g p q = g q p.
  Proof. by rewrite /g (v_so_sym p q p q) (v_so_sym p q q p). Qed.

  Lemma pairsE l : uniq l -> \sum_(p <- l) \sum_(q <- l | q != p) g p q = pairs l + pairs l.
  Proof.
    elim: l => [|p l IH] /=; first by rewrite big_nil addr0.
    move=> /andP[pl /IH e]; rewrite big_cons big_cons eqxx /=.
    have -> : \sum_(q <- l | q != p) g p q = \sum_(q <- l) g p q.
      rewrite big_seq_cond [RHS]big_seq; apply: eq_bigl => q; case: (boolP (q \in l)) => //= ql.
      by apply: contraNneq pl => <-.
    have -> : \sum_(j <- l) \sum_(q <- p :: l | q != j) g j q =
              \sum_(j <- l) g j p + \sum_(j <- l) \sum_(q <- l | q != j) g j q.
      rewrite -big_split /= big_seq [RHS]big_seq; apply: eq_bigr => j jl.
      by rewrite big_cons; have -> : p != j by apply: contraNneq pl => ->.
    rewrite e; have -> : \sum_(j <- l) g j p = \sum_(q <- l) g p q by apply: eq_bigr => j _; apply: g_sym.
    by rewrite addrA addrACA addrA.
  Qed.

  Lemma rule0 A : slater_condon0 s (occ A) =
    (ecore s + one_body h (ket R A) A + two_body half v (ket R A) A, ecore s + one_body h (ket R A) A,
     two_body half v (ket R A) A).
  Proof.
    rewrite /slater_condon0 /occ condon0_outE add0r one_body0 two_body0.
    have -> : half * (\sum_(p in A) \sum_(q in A :\ p) (v p q p q - v p q q p)) = pairs (enum A).
      rewrite -[RHS](half_twice half2) -pairsE ?enum_uniq //; congr (_ * _).
      rewrite -[LHS]big_enum /=; apply: eq_bigr => p _.
      by rewrite big_enum_cond; apply: eq_bigl => q; rewrite !inE andbC.
    by rewrite big_enum.
  Qed.

  (** one excitation *)
  Lemma orb_inj p q : (2 * orb p + spin p == 2 * orb q + spin q)%N = (p == q).
  Proof.
    apply/eqP/eqP => [e|->//]; apply: val_inj => /=; move: e (ltn_ord p) (ltn_ord q).
    rewrite /orb /spin; move: (nat_of_ord p) (nat_of_ord q) => i j.
    by case: (leqP n i) => ?; case: (leqP n j) => ? /=; rewrite ?addn0 => e ? ?; lia.
  Qed.

  Definition t1 a b x : R := v b x a x - v b x x a.

  Lemma condon1_loopE a b l pre e : spin a = spin b -> b \notin l ->
    condon1_loop s (orb b) (spin b) (orb a) (pre ++ map val l) (iota (size pre) (size l)) e =
    Ok (e + \sum_(x <- l) t1 a b x).
  Proof.
    move=> sp; elim: l pre e => [|x l IH] pre e; first by rewrite big_nil addr0.
    rewrite inE negb_or => /andP[bx bl]; rewrite big_cons /=.
    have -> : nth_error (pre ++ val x :: [seq val i | i <- l]) (size pre) = Some (val x) by elim: pre {IH}.
    rewrite map_orbE orb_inj eq_sym bx /= -cat_rcons.
    have -> : (size pre).+1 = size (rcons pre (val x)) by rewrite size_rcons.
    rewrite IH // addrA; congr (Ok (_ + _)); rewrite /t1 /v_so sp !eqxx /= eqb_nat (eq_sym (spin b)) andbb.
    by case: (spin x == spin b); rewrite ?subr0 ?addrA.
  Qed.

  Lemma t1_self a b : spin a = spin b -> t1 a b a = 0.
  Proof. by move=> sp; rewrite /t1 /v_so sp eqxx subrr. Qed.

  Lemma rule1 A B C a b (perm : bool) : A = a |: C -> B = b |: C -> a \notin C -> b \notin C -> a != b -> spin a = spin b ->
    #|A| = nelec s -> (-1) ^+ perm = sgn R B b * sgn R A a ->
    let e1 := one_body h (ket R A) B in
    let e2 := two_body half v (ket R A) B in
    slater_condon1 s (map_orb (val b) n) (map_orb (val a) n) (occ A) perm = Ok (e1 + e2, e1, e2).
  Proof.
    move=> -> -> aC bC ab sp sz sg /=; rewrite one_body1 // (two_body1 half2 v_so_sym) // -sg.
    rewrite /slater_condon1 !map_orbE -sz -size_occ /occ size_map.
    rewrite (@condon1_loopE a b (enum (a |: C)) [::] 0 sp) /=; last first.
      by rewrite mem_enum !inE negb_or bC eq_sym ab.
    rewrite add0r big_enum /= big_setU1 //= t1_self // add0r /h_so sp eqxx.
    by case: perm {sg}; rewrite ?expr1 ?expr0 ?mulN1r ?mul1r ?opprD.
  Qed.

  (** two excitations *)
  Lemma rule2 D A B a a' b b' (perm : bool) :
    a \in A -> a' \in A :\ a -> b \in B -> b' \in B :\ b -> A :\ a :\ a' = D -> B :\ b :\ b' = D ->
    a \notin B -> a' \notin B -> b \notin A -> b' \notin A ->
    spin a = spin b -> spin a' = spin b' ->
    (-1) ^+ perm = s2 R B b b' * s2 R A a a' ->
    slater_condon2 s (map_orb (val b) n) (map_orb (val b') n) (map_orb (val a) n) (map_orb (val a') n) perm =
    two_body half v (ket R A) B.
  Proof.
    move=> aA aA' bB bB' AD BD na na' nb nb' sp sp' sg.
    rewrite (two_body2 half2 v_so_sym aA aA' bB bB' AD BD) // -sg /slater_condon2 !map_orbE !eqb_nat /v_so sp sp' !eqxx /=.
    by rewrite (eq_sym (spin b') (spin b)) andbb; case: (spin b == spin b'); case: perm {sg};
      rewrite ?expr1 ?expr0 ?mulN1r ?mul1r ?subr0.
  Qed.

  (** ** every pair of determinants *)
  Lemma spin_mono p q : (p < q)%N -> spin p -> spin q.
  Proof. by rewrite /spin => /ltnW h1 h2; apply: leq_trans h1. Qed.

  Lemma ups_split A B : ups A = (ups (A :&: B) + ups (A :\: B))%N.
  Proof.
    rewrite /ups -(cardsID B [set x in A | ~~ spin x]); congr (_ + _)%N; apply: eq_card => x; rewrite !inE.
      by rewrite -!andbA; case: (x \in A); case: (x \in B); rewrite //= ?andbT ?andbF.
    by rewrite -!andbA; case: (x \in A); case: (x \in B).
  Qed.

  Lemma ups1 p : ups [set p] = ~~ spin p.
  Proof.
    rewrite /ups; case sp: (spin p); apply/eqP.
      by rewrite cards_eq0; apply/eqP/setP => x; rewrite !inE; case: (x =P p) => [->|]; rewrite ?sp.
    apply/cards1P; exists p; apply/setP => x; rewrite !inE; case: (x =P p) => [->|]; by rewrite ?sp.
  Qed.

  Lemma ups2 p q : p != q -> ups [set p; q] = (~~ spin p + ~~ spin q)%N.
  Proof.
    move=> pq; rewrite (ups_split _ [set p]) -(ups1 p) -(ups1 q); congr (_ + _)%N; congr ups; apply/setP => x; rewrite !inE.
      by case: (x == p); case: (x == q).
    by case: (x =P p) => [->|_] /=; rewrite ?(negbTE pq) // andbT.
  Qed.

  Lemma main A B : #|A| = nelec s -> #|B| = nelec s -> ups A = ups B ->
    let e1 := ecore s * ket R A B + one_body h (ket R A) B in
    let e2 := two_body half v (ket R A) B in
    get_hmatel s (occ A) (occ B) = Ok (e1 + e2, e1, e2).
  Proof.
    move=> cA cB uAB /=; rewrite /get_hmatel !only_in_occ size_occ.
    have cD : #|A :\: B| = #|B :\: A|.
      by apply/eqP; rewrite -(eqn_add2l #|A :&: B|) cardsID setIC cardsID cA cB.
    have uD : ups (A :\: B) = ups (B :\: A).
      by apply/eqP; rewrite -(eqn_add2l (ups (A :&: B))) -ups_split setIC -ups_split uAB.
    case k: #|B :\: A| => [|[|[|k']]].
    - have e : A = B.
        apply/eqP; rewrite eqEcard cA cB leqnn andbT -setD_eq0 -cards_eq0 cD k //.
      by rewrite -e rule0 /ket eqxx mulr1.
    - have /eqP/cards1P[b eb] := k; move: cD; rewrite k => /eqP/cards1P[a ea].
      have ba : b \in B :\: A by rewrite eb set11.
      have ab : a \in A :\: B by rewrite ea set11.
      move: (ba) (ab); rewrite !inE => /andP[bA bB] /andP[aB aA].
      rewrite /occ eb ea !enum_set1 /= -/(occ A) -/(occ B).
      have AE : A = a |: (A :&: B) by rewrite -ea setUC setID.
      have BE : B = b |: (A :&: B) by rewrite -eb setUC setIC setID.
      have sp : spin a = spin b by apply: negb_inj; move: uD; rewrite ea eb !ups1; case: (spin a); case: (spin b).
      have ne : a != b by apply: contraNneq aB => ->.
      have z : ket R A B = 0.
        by rewrite /ket; case: eqP => // e; move: bA; rewrite -e bB.
      rewrite z mulr0 add0r (rule1 AE BE) ?inE ?negb_and ?aB ?bA ?orbT //.
      by rewrite perm1.
    - move: cD; rewrite k => cD.
      have [b [b' [eb lb]]] : exists b b' : 'I_M, enum (B :\: A) = [:: b; b'] /\ (b < b')%N.
        have := enum_sorted (B :\: A); move: k; rewrite cardE; case: (enum _) => [|b [|b' []]] //= _ /andP[lb _].
        by exists b, b'.
      have [a [a' [ea la]]] : exists a a' : 'I_M, enum (A :\: B) = [:: a; a'] /\ (a < a')%N.
        have := enum_sorted (A :\: B); move: cD; rewrite cardE; case: (enum _) => [|a [|a' []]] //= _ /andP[la _].
        by exists a, a'.
      have mB x : (x \in B :\: A) = (x == b) || (x == b') by rewrite -mem_enum eb !inE.
      have mA x : (x \in A :\: B) = (x == a) || (x == a') by rewrite -mem_enum ea !inE.
      have := mB b; have := mB b'; rewrite !inE !eqxx orbT => /andP[nb' bB'] /andP[nb bB].
      have := mA a; have := mA a'; rewrite !inE !eqxx orbT => /andP[na' aA'] /andP[na aA].
      have ab : a' != a by apply: contraTneq la => ->; rewrite ltnn.
      have bb : b' != b by apply: contraTneq lb => ->; rewrite ltnn.
      have AD : A :\ a :\ a' = A :&: B.
        apply/setP => x; have := mA x; rewrite !inE; case: (x \in A); rewrite ?andbF //= ?andbT.
        by case: (x \in B); case: (x == a); case: (x == a').
      have BD : B :\ b :\ b' = A :&: B.
        apply/setP => x; have := mB x; rewrite !inE; case: (x \in B); rewrite ?andbF //= ?andbT.
        by case: (x \in A); case: (x == b); case: (x == b').
      have z : ket R A B = 0.
        by rewrite /ket; case: eqP => // e; move: nb; rewrite -e bB.
      have eA : A :\: B = [set a; a'] by apply/setP => x; rewrite mA !inE.
      have eB : B :\: A = [set b; b'] by apply/setP => x; rewrite mB !inE.
      have [sp sp'] : spin a = spin b /\ spin a' = spin b'.
        move: uD (spin_mono la) (spin_mono lb); rewrite eA eB !ups2 1?eq_sym //.
        case: (spin a); case: (spin a'); case: (spin b); case: (spin b') => //= _ h1 h2; first [by have := h1 isT | by have := h2 isT].
      rewrite /occ eb ea /= -/(occ A) -/(occ B) z mulr0 add0r.
      have aa : a' \in A :\ a by rewrite !inE ab.
      have bb2 : b' \in B :\ b by rewrite !inE bb.
      rewrite (one_body2 h bB bb2 nb nb') add0r.
      by rewrite (rule2 aA aa bB bb2 AD BD) // perm2.
    - have big : (2 < #|B :\: A|)%N by rewrite k.
      have z : ket R A B = 0.
        by rewrite /ket; case: eqP => // e; move: k; rewrite e setDv cards0.
      by have [-> ->] := many half h v big; rewrite z mulr0 !addr0.
  Qed.

  (** the one-body routine *)
  Lemma one_body_main (ints : nat -> nat -> R) A B : #|A| = #|B| -> ups A = ups B ->
    get_one_body_matel s ints (occ A) (occ B) = Ok (one_body (h_so (n:=n) ints) (ket R A) B).
  Proof.
    move=> cAB uAB; rewrite /get_one_body_matel !only_in_occ size_occ.
    have cD : #|A :\: B| = #|B :\: A|.
      by apply/eqP; rewrite -(eqn_add2l #|A :&: B|) cardsID setIC cardsID cAB.
    have uD : ups (A :\: B) = ups (B :\: A).
      by apply/eqP; rewrite -(eqn_add2l (ups (A :&: B))) -ups_split setIC -ups_split uAB.
    case k: #|B :\: A| => [|[|k']].
    - have e : A = B.
        apply/eqP; rewrite eqEcard cAB leqnn andbT -setD_eq0 -cards_eq0 cD k //.
      rewrite -e setDv /occ enum_set0 /= one_body0; congr Ok.
      rewrite big_map big_enum; apply: eq_bigr => p _; by rewrite map_orbE /h_so eqxx.
    - have /eqP/cards1P[b eb] := k; move: cD; rewrite k => /eqP/cards1P[a ea].
      have ba : b \in B :\: A by rewrite eb set11.
      have ab : a \in A :\: B by rewrite ea set11.
      move: (ba) (ab); rewrite !inE => /andP[bA bB] /andP[aB aA].
      rewrite /occ eb ea !enum_set1 /= -/(occ A) -/(occ B) !map_orbE eqb_nat.
      have AE : A = a |: (A :&: B) by rewrite -ea setUC setID.
      have BE : B = b |: (A :&: B) by rewrite -eb setUC setIC setID.
      have sp : spin a = spin b by apply: negb_inj; move: uD; rewrite ea eb !ups1; case: (spin a); case: (spin b).
      have ne : a != b by apply: contraNneq aB => ->.
      rewrite sp eqxx /= perm_signE perm1 //; congr Ok.
      have aC : a \notin A :&: B by rewrite inE negb_and aB orbT.
      have bC : b \notin A :&: B by rewrite inE negb_and bA.
      by have := one_body1 (h_so (n:=n) ints) aC bC ne; rewrite -AE -BE => ->; rewrite /h_so sp eqxx.
    - have e : one_body (h_so (n:=n) ints) (ket R A) B = 0.
        rewrite one_bodyE big1 // => p _; rewrite big1 // => q _; rewrite /T1.
        suff -> : (B :\ p == A :\ q) = false by rewrite mulr0 mul0r.
        apply/eqP => /setP e.
        have : B :\: A \subset [set p].
          apply/subsetP => x; rewrite !inE => /andP[xA xB].
          by have := e x; rewrite !inE (negbTE xA) xB andbF andbT => /negbFE.
        by move=> /subset_leq_card; rewrite cards1 k.
      by rewrite e /=; case: ifP; rewrite ?oppr0.
  Qed.
End Rules.

(** ** Hermiticity of the specification *)
Section Hermitian.
  Variables (R : comRingType) (n : nat) (half : R) (cj : {rmorphism R -> R}).
  Notation M := (n + n)%N.
  Hypothesis half2 : half + half = 1.
  Implicit Types (A B : {set 'I_M}).

  Lemma cj_half : cj half = half.
  Proof.
    have e : cj half + cj half = 1 by rewrite -rmorphD half2 rmorph1.
    by rewrite -[LHS]mulr1 -half2 mulrDr -mulrDl e mul1r.
  Qed.

  Lemma cj_sgn A p : cj (sgn R A p) = sgn R A p.
  Proof. by rewrite /sgn rmorphX rmorphN rmorph1. Qed.

  Lemma cj_bool (b : bool) : cj b%:R = b%:R.
  Proof. by case: b; rewrite ?rmorph1 ?rmorph0. Qed.

  Variables (h : 'I_M -> 'I_M -> R) (v : 'I_M -> 'I_M -> 'I_M -> 'I_M -> R).
  Hypotheses (hH : forall p q, cj (h p q) = h q p) (vH : forall p q r s, cj (v p q r s) = v r s p q).

  Lemma one_body_herm A B : cj (one_body h (ket R A) B) = one_body h (ket R B) A.
  Proof.
    rewrite !one_bodyE exchange_big rmorph_sum; apply: eq_bigr => p _.
    rewrite rmorph_sum; apply: eq_bigr => q _; rewrite rmorphM hH; congr (_ * _).
    rewrite /T1 !rmorphM !cj_bool !cj_sgn eq_sym; congr (_ * _); exact: mulrC.
  Qed.

  Lemma cj_s2 A p q : cj (s2 R A p q) = s2 R A p q.
  Proof. by rewrite /s2 !rmorphM !cj_bool !cj_sgn. Qed.

  Lemma two_body_sum A B : two_body half v (ket R A) B =
    half * \sum_(x : 'I_M * 'I_M) \sum_(y : 'I_M * 'I_M)
      v x.1 x.2 y.1 y.2 * (s2 R B x.1 x.2 * s2 R A y.1 y.2 * (B :\ x.1 :\ x.2 == A :\ y.1 :\ y.2)%:R).
  Proof.
    rewrite /two_body pair_bigA; congr (_ * _); apply: eq_bigr => x _ /=.
    by rewrite pair_bigA; apply: eq_bigr => y _ /=; rewrite T2E /T2.
  Qed.

  Lemma two_body_herm A B : cj (two_body half v (ket R A) B) = two_body half v (ket R B) A.
  Proof.
    rewrite !two_body_sum rmorphM cj_half; congr (_ * _); rewrite exchange_big rmorph_sum.
    apply: eq_bigr => x _; rewrite rmorph_sum; apply: eq_bigr => y _.
    rewrite rmorphM vH; congr (_ * _); rewrite rmorphM rmorphM !cj_s2 cj_bool eq_sym; congr (_ * _); exact: mulrC.
  Qed.
End Hermitian.

Section Matrix.
  Variables (R : comRingType) (s : system R) (half : R) (cj : {rmorphism R -> R}).
  Hypothesis half2 : half + half = 1.
  Notation n := (nbasis s).
  Notation M := (n + n)%N.
  Hypothesis v_sym : forall i j k m, hijkl s i j k m = hijkl s j i m k.
  Hypotheses (eH : cj (ecore s) = ecore s) (hH : forall i j, cj (H1 s i j) = H1 s j i)
             (vH : forall i j k m, cj (hijkl s i j k m) = hijkl s k m i j).
  Implicit Types (A B : {set 'I_M}).

  Lemma hmatel_herm A B x : #|A| = nelec s -> #|B| = nelec s -> ups A = ups B ->
    get_hmatel s (occ A) (occ B) = Ok x ->
    get_hmatel s (occ B) (occ A) = Ok (cj x.1.1, cj x.1.2, cj x.2).
  Proof.
    move=> cA cB u; rewrite (main half2 v_sym cA cB u) => -[<-] /=.
    rewrite (main half2 v_sym cB cA (esym u)) !rmorphD rmorphM eH.
    have -> : cj (ket R A B) = ket R B A by rewrite /ket cj_bool eq_sym.
    have e1 : cj (one_body (h_so (n:=n) (H1 s)) (ket R A) B) = one_body (h_so (n:=n) (H1 s)) (ket R B) A.
      apply: one_body_herm => p q; rewrite /h_so (eq_sym (spin q)).
      by case: (spin p == spin q); rewrite ?rmorph0 // hH.
    have e2 : cj (two_body half (v_so (n:=n) (hijkl s)) (ket R A) B) = two_body half (v_so (n:=n) (hijkl s)) (ket R B) A.
      apply: two_body_herm => // p q r t; rewrite /v_so (eq_sym (spin r)) (eq_sym (spin t)).
      by case: (spin p == spin r); case: (spin q == spin t); rewrite /= ?rmorph0 // vH.
    by rewrite e1 e2.
  Qed.
End Matrix.

(** ** canonical anticommutation relations of the specification *)
Section CAR.
  Variables (R : comRingType) (M : nat).
  Implicit Types (S : {set 'I_M}) (p q : 'I_M) (f : state R M).

  Lemma sgnU S p q : p \notin S -> sgn R (p |: S) q = if (p < q)%N then - sgn R S q else sgn R S q.
  Proof.
    move=> pS; have := @sgn_rem R M (p |: S) q p (setU11 _ _); rewrite setU1K // => ->.
    by case: (p < q)%N; rewrite ?opprK.
  Qed.

  Lemma car_mixed p q f S : annihilate p (create q f) S + create q (annihilate p f) S = (p == q)%:R * f S.
  Proof.
    rewrite /annihilate /create !inE (eq_sym q p); case: (p =P q) => [->|/eqP n] /=.
      case qS: (q \in S); rewrite ?eqxx /= ?add0r ?addr0 mul1r.
        by rewrite sgnD1 mulrA sgn2 mul1r setD1K.
      by rewrite sgnU1 mulrA sgn2 mul1r setU1K // qS.
    rewrite mul0r; case pS: (p \in S); case qS: (q \in S); rewrite /= ?(mulr0, addr0, add0r) //.
    rewrite sgnU ?pS // sgn_rem // !mulrA.
    have -> : (p |: S) :\ q = p |: (S :\ q).
      by apply/setP => x; rewrite !inE; case: (x =P q) => [->|] //=; rewrite eq_sym (negbTE n).
    rewrite -mulrDl (mulrC (sgn R S q)).
    case: (ltngtP p q) n => [||/val_inj->]; rewrite ?eqxx // => _ _; rewrite ?mulrN ?mulNr ?addNr ?subrr mul0r //.
  Qed.

  Lemma car_ann p q f S : annihilate p (annihilate q f) S + annihilate q (annihilate p f) S = 0.
  Proof.
    rewrite /annihilate !inE (eq_sym q p); case: (p =P q) => [->|/eqP n] /=.
      by case: (q \in S); rewrite ?mulr0 addr0.
    case pS: (p \in S); case qS: (q \in S); rewrite /= ?mulr0 ?addr0 //.
    rewrite !sgnU ?pS ?qS // setUCA !mulrA -mulrDl (mulrC (sgn R S q)).
    case: (ltngtP p q) n => [||/val_inj->]; rewrite ?eqxx // => _ _; rewrite ?mulrN ?mulNr ?addNr ?subrr mul0r //.
  Qed.
End CAR.

(** ** spin flips *)
Lemma flip_zero (R : comRingType) (s : system R) (half : R) (a b : 'I_(nbasis s + nbasis s)) :
  half + half = 1 -> (forall i j k m, hijkl s i j k m = hijkl s j i m k) -> spin a <> spin b ->
  hamiltonian half (ecore s) (h_so (n:=nbasis s) (H1 s)) (v_so (n:=nbasis s) (hijkl s)) (ket R [set a]) [set b] = 0.
Proof.
  move=> half2 v_sym sp; have ab : a != b by apply/eqP => e; apply: sp; rewrite e.
  have e x : [set x] = x |: set0 :> {set 'I_(nbasis s + nbasis s)} by rewrite setU0.
  rewrite /hamiltonian /ket (inj_eq set1_inj) (eq_sym b) (negbTE ab) mulr0 add0r (e a) (e b).
  rewrite one_body1 ?inE // (two_body1 half2) ?inE //; last by move=> p q r t; apply: v_so_sym.
  by rewrite big_set0 mulr0 addr0 /h_so; case: eqP => [/esym//|_]; rewrite mulr0.
Qed.

(** ** the determinants of simple_fci *)
Lemma combinationsP l k c : uniq l -> (c \in combinations l k) = subseq c l && (size c == k).
Proof.
  elim: l k c => [|x l IH] [|k] c //=; rewrite ?inE.
  - by case: c => [|y c]; rewrite ?andbF //= sub0seq.
  - by case: c.
  - by case: c => [|y c]; rewrite ?andbF //= sub0seq.
  move=> /andP[xl ul]; rewrite mem_cat IH //.
  case: c => [|y c] /=.
    have -> : ([::] \in [seq x :: c | c <- combinations l k]) = false by apply/negbTE/mapP => -[].
    by rewrite ?andbF.
  rewrite eqSS; case: (y =P x) => [->|n].
    rewrite mem_map; last by move=> ? ? [].
    rewrite IH // [subseq (x :: c) l && _]andbC.
    case: (boolP (subseq (x :: c) l)) => [/mem_subseq/(_ x)|_]; rewrite ?inE ?eqxx /=; last by rewrite andbF orbF.
    by move=> /(_ isT); rewrite (negbTE xl).
  have -> : (y :: c \in [seq x :: c0 | c0 <- combinations l k]) = false.
    by apply/negbTE/mapP => -[d _ [e _]].
  by [].
Qed.

Lemma combinations_uniq l k : uniq l -> uniq (combinations l k).
Proof.
  elim: l k => [|x l IH] [|k] //= /andP[xl ul]; rewrite cat_uniq IH // andbT map_inj_uniq ?IH //=; last by move=> ? ? [].
  apply/hasPn => c; rewrite combinationsP // => /andP[/mem_subseq s _]; apply/negP => /mapP[d _ e].
  by move: (s x); rewrite e inE eqxx => /(_ isT); rewrite (negbTE xl).
Qed.

Section Dets.
  Variable n : nat.
  Notation M := (n + n)%N.
  Implicit Types (A : {set 'I_M}).

  Definition join (ac : seq nat * seq nat) : seq nat := ac.1 ++ [seq (i + n)%N | i <- ac.2].

  Lemma comb_sorted k c : c \in combinations (iota 0 n) k -> sorted ltn c /\ all (fun i => i < n)%N c /\ size c = k.
  Proof.
    rewrite combinationsP ?iota_uniq // => /andP[ss /eqP sz]; split; last split => //.
      by apply: (subseq_sorted ltn_trans ss); apply: iota_ltn_sorted.
    by apply/allP => x /(mem_subseq ss); rewrite mem_iota.
  Qed.

  Lemma sorted_comb c : sorted ltn c -> all (fun i => i < n)%N c -> c \in combinations (iota 0 n) (size c).
  Proof.
    move=> so al; rewrite combinationsP ?iota_uniq // eqxx andbT.
    have -> : c = [seq i <- iota 0 n | i \in c]; last exact: filter_subseq.
    apply: (irr_sorted_eq ltn_trans ltnn) => //.
      by apply: sorted_filter; [apply: ltn_trans|apply: iota_ltn_sorted].
    move=> x; rewrite mem_filter mem_iota /= add0n; case xc: (x \in c) => //=.
    by rewrite (allP al).
  Qed.

  Lemma join_sorted a c : sorted ltn a -> sorted ltn c -> all (fun i => i < n)%N a -> sorted ltn (join (a, c)).
  Proof.
    rewrite /join /= => sa sc al.
    have sc' : sorted ltn [seq (i + n)%N | i <- c].
      by rewrite sorted_map; move: sc; apply: sub_sorted => x y /=; rewrite ltn_add2r.
    rewrite sorted_pairwise ?pairwise_cat -?sorted_pairwise ?sa ?sc' ?andbT //; try exact: ltn_trans.
    apply/allrelP => x y xa /mapP[z _ ->]; apply: leq_trans (leq_addl _ _).
    by rewrite (allP al).
  Qed.

  Lemma upsE A : ups A = count (fun i => i < n)%N (occ A).
  Proof.
    rewrite /ups /occ count_map cardE /(enum _) /enum_mem -size_filter -!filter_predI; congr size.
    by apply: eq_filter => x /=; rewrite !inE andbC /spin ltnNge.
  Qed.

  Lemma occ_join A : occ A = join ([seq i <- occ A | i < n]%N, [seq (i - n)%N | i <- occ A & ~~ (i < n)%N]).
  Proof.
    rewrite /join /= -map_comp.
    have -> : [seq ((addn^~ n) \o (subn^~ n)) i | i <- occ A & ~~ (i < n)%N] = [seq i <- occ A | ~~ (i < n)%N].
      rewrite -[RHS]map_id; apply/eq_in_map => i; rewrite mem_filter -leqNgt => /andP[h _] /=.
      by rewrite subnK.
    apply: (irr_sorted_eq ltn_trans ltnn); first exact: occ_sorted; last first.
      by move=> x; rewrite mem_cat !mem_filter; case: (x < n)%N; rewrite /= ?orbF.
    rewrite sorted_pairwise ?pairwise_cat -?sorted_pairwise ?sorted_filter ?occ_sorted ?andbT //; try exact: ltn_trans.
    apply/allrelP => x y; rewrite !mem_filter -leqNgt => /andP[h _] /andP[h' _]; exact: leq_trans h'.
  Qed.

  Lemma join_occ d : sorted ltn d -> all (fun i => i < M)%N d -> occ [set x : 'I_M | val x \in d] = d.
  Proof.
    move=> so al; apply: (irr_sorted_eq ltn_trans ltnn) => //; first exact: occ_sorted.
    move=> x; case: (ltnP x M) => h.
      by have -> : x = val (Ordinal h) by []; rewrite mem_occ inE.
    have -> : (x \in d) = false by apply/negbTE/negP => /(allP al); rewrite ltnNge h.
    by apply/negbTE/mapP => -[[y hy] _ /= e]; move: hy; rewrite -e ltnNge h.
  Qed.

  Lemma join_inj a c a' c' : all (fun i => i < n)%N a -> all (fun i => i < n)%N a' ->
    join (a, c) = join (a', c') -> (a, c) = (a', c').
  Proof.
    rewrite /join /= => ha ha' e.
    have f (b d : seq nat) : all (fun i => i < n)%N b ->
        [seq i <- b ++ [seq (i + n)%N | i <- d] | i < n]%N = b /\
        [seq i <- b ++ [seq (i + n)%N | i <- d] | ~~ (i < n)%N] = [seq (i + n)%N | i <- d].
      move=> hb; rewrite !filter_cat (all_filterP hb).
      have -> : [seq i <- [seq i0 + n | i0 <- d] | i < n]%N = [::].
        by apply/eqP; rewrite -(negbK (_ == _)) -has_filter; apply/hasPn => x /mapP[y _ ->]; rewrite -leqNgt leq_addl.
      have -> : [seq i <- b | ~~ (i < n)%N] = [::].
        by apply/eqP; rewrite -(negbK (_ == _)) -has_filter; apply/hasPn => x /(allP hb) ->.
      rewrite cats0; split => //=; apply/all_filterP/allP => x /mapP[y _ ->]; by rewrite -leqNgt leq_addl.
    have [e1 e2] := f a c ha; have [e1' e2'] := f a' c' ha'.
    rewrite -e1 -e1' e; congr (_, _); apply: (inj_map (@addIn n)).
    by rewrite -e2 -e2' e.
  Qed.

  Lemma comb_nonempty k : (k <= n)%N -> combinations (iota 0 n) k != [::].
  Proof.
    move=> le; have : iota 0 k \in combinations (iota 0 n) (size (iota 0 k)).
      apply: sorted_comb; first exact: iota_ltn_sorted.
      by apply/allP => x; rewrite mem_iota /= add0n => /leq_trans; apply.
    by rewrite size_iota; case: (combinations _ _).
  Qed.

  Lemma dets_ok nup ndown : (nup <= n)%N -> (ndown <= n)%N ->
    exists l, dets n nup ndown = Ok l /\ uniq l /\
      forall d, (d \in l) <-> exists A, [/\ d = occ A, ups A = nup & #|A| = (nup + ndown)%N].
  Proof.
    move=> hu hd; rewrite /dets.
    set pr := [seq (a, c) | a <- combinations (iota 0 n) nup, c <- combinations (iota 0 n) ndown].
    have prP ac : (ac \in pr) = (ac.1 \in combinations (iota 0 n) nup) && (ac.2 \in combinations (iota 0 n) ndown).
      apply/allpairsP/andP => [[p [h1 h2 ->]] //|[h1 h2]]; exists ac; split => //; by case: ac {h1 h2}.
    have ne : pr != [::].
      case e1: (combinations (iota 0 n) nup) (comb_nonempty hu) => [|a l] // _.
      case e2: (combinations (iota 0 n) ndown) (comb_nonempty hd) => [|c m] // _.
      have : (a, c) \in pr by rewrite prP e1 e2 !mem_head.
      by case: pr {prP}.
    have upr : uniq pr by apply: allpairs_uniq; try exact: combinations_uniq (iota_uniq _ _); move=> [? ?] [? ?] _ _ [-> ->].
    exists [seq sort leq (ac.1 ++ [seq (i + n)%N | i <- ac.2]) | ac <- pr]; split; first by case: pr ne {prP upr}.
    have sE ac : ac \in pr -> sort leq (ac.1 ++ [seq (i + n)%N | i <- ac.2]) = join ac.
      rewrite prP => /andP[/comb_sorted[s1 [a1 _]] /comb_sorted[s2 _]].
      apply: (sorted_sort leq_trans); apply: (@sub_sorted _ ltn leq (fun x y => @ltnW x y)).
      exact: (join_sorted s1 s2 a1).
    split.
      rewrite map_inj_in_uniq // => -[a c] [a' c'] h h'; rewrite !sE // => e.
      move: h h'; rewrite !prP /= => /andP[/comb_sorted[_ [al _]] _] /andP[/comb_sorted[_ [al' _]] _].
      exact: join_inj e.
    move=> d; split.
      case/mapP => -[a c] h ->; rewrite sE //; move: h; rewrite prP /= => /andP[/comb_sorted[s1 [a1 z1]] /comb_sorted[s2 [a2 z2]]].
      have jl : all (fun i => i < M)%N (join (a, c)).
        rewrite /join /= all_cat; apply/andP; split.
          by apply/allP => x /(allP a1) h; apply: leq_trans (leq_addr _ _).
        by apply/allP => x /mapP[y /(allP a2) h ->]; rewrite ltn_add2r.
      have js := join_sorted s1 s2 a1.
      exists [set x : 'I_M | val x \in join (a, c)]; rewrite upsE -size_occ join_occ //; split => //.
        rewrite /join /= count_cat -z1; have -> : count (fun i => i < n)%N [seq (i + n)%N | i <- c] = 0%N.
          by apply/eqP; rewrite -leqn0 leqNgt -has_count; apply/hasPn => x /mapP[y _ ->]; rewrite -leqNgt leq_addl.
        by rewrite addn0; apply/eqP; rewrite -all_count.
      by rewrite /join /= size_cat size_map z1 z2.
    case=> A [-> uA cA]; apply/mapP.
    pose a := [seq i <- occ A | i < n]%N; pose c := [seq (i - n)%N | i <- occ A & ~~ (i < n)%N].
    have al : all (fun i => i < n)%N a by apply/allP => x; rewrite mem_filter => /andP[].
    have cl : all (fun i => i < n)%N c.
      apply/allP => x /mapP[y]; rewrite mem_filter -leqNgt => /andP[h /mapP[z _ e]] ->.
      by rewrite ltn_subLR // e ltn_ord.
    have sa : sorted ltn a by apply: sorted_filter (occ_sorted A); exact: ltn_trans.
    have sc : sorted ltn c.
      have so : sorted ltn [seq i <- occ A | ~~ (i < n)%N] by apply: sorted_filter (occ_sorted A); exact: ltn_trans.
      rewrite /c (@homo_sorted_in _ _ (fun i => n <= i)%N (subn^~ n) ltn ltn) //.
        by move=> x y hx hy h; apply: ltn_sub2r => //; apply: leq_ltn_trans h.
      by apply/allP => x; rewrite mem_filter -leqNgt => /andP[].
    have za : size a = nup by rewrite size_filter -upsE.
    have zc : size c = ndown.
      apply/eqP; rewrite -(eqn_add2l nup) -cA -size_occ [in X in _ == X]occ_join /join /= size_cat size_map -/a -/c za //.
    have mem : (a, c) \in pr by rewrite prP /= -{1}za -zc !sorted_comb.
    exists (a, c) => //; rewrite sE //; exact: occ_join.
  Qed.
End Dets.

Lemma flip_refuted : exists (s : system rat_comRing) (A B : {set 'I_(nbasis s + nbasis s)}),
  #|A| = nelec s /\ #|B| = nelec s /\ get_hmatel s (occ A) (occ B) = Ok (1, 1, 0) /\
  hamiltonian (1 / 2%:R) (ecore s) (h_so (n:=nbasis s) (H1 s)) (v_so (n:=nbasis s) (hijkl s)) (ket _ A) B = 0.
Proof.
  pose s : system rat_comRing := System 1 1 0 (fun _ _ => 1) (fun _ _ _ _ => 0).
  exists s, [set (ord0 : 'I_(1 + 1))], [set (ord_max : 'I_(1 + 1))]; rewrite !cards1; do 2!split=> //; split.
    rewrite /occ !enum_set1 /= /get_hmatel /=.
    by rewrite /get_perm /slater_condon1 /= addr0 subrr.
  by rewrite (@flip_zero rat_comRing s (1 / 2%:R) ord0 ord_max).
Qed.
