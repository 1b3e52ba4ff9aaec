From Verif Require Import Base BaseFacts.
Set Warnings "-notation-overridden,-ambiguous-paths".
From mathcomp Require Import all_ssreflect all_algebra zify.
From Verif Require Import CI_Model Fock_Spec Fock_Proofs CI_Proofs CI_Props BoseFermi_Model BoseFermi_Spec BoseFermi_Proofs.
Set Implicit Arguments. Unset Strict Implicit. Unset Printing Implicit Defensive.
Import Order.TTheory GRing.Theory Num.Theory.
Local Open Scope ring_scope.

Section Ccr.
  Variable C : numClosedFieldType.
  Implicit Types (f : seq nat -> C) (v : seq nat).

  Lemma sqrt_sq (k : nat) : sqrtC (k%:R : C) * sqrtC k%:R = k%:R.
  Proof. by rewrite -expr2 sqrtCK. Qed.

  Lemma number_ph s f v : (s < size v)%N -> creat_ph s (annih_ph s f) v = (nth 0%N v s)%:R * f v.
  Proof.
    move=> h; rewrite /creat_ph /annih_ph; case: ltnP => h0.
      rewrite more_less // nth_less eqxx.
      have -> : ((nth 0 v s - true).+1 = nth 0 v s)%N by case: (nth 0%N v s) h0 => [|k] // _; rewrite subn1.
      by rewrite mulrA sqrt_sq.
    have -> : nth 0%N v s = 0%N by lia.
    by rewrite mul0r.
  Qed.

  Lemma ccr s t f v : (s < size v)%N -> (t < size v)%N ->
    annih_ph s (creat_ph t f) v - creat_ph t (annih_ph s f) v = (s == t)%:R * f v.
  Proof.
    move=> hs ht; case: (eqVneq s t) => [<-|ne].
      rewrite number_ph // /annih_ph /creat_ph nth_more eqxx addn1 /= less_more // mulrA sqrt_sq.
      by rewrite -mulrBl mulrSr addrAC subrr add0r.
    rewrite /annih_ph /creat_ph nth_more eq_sym (negbTE ne) addn0 mul0r.
    case: ifP => h; last by rewrite mulr0 subr0.
    rewrite nth_less (negbTE ne) subn0.
    have -> : less t (more s v) = more s (less t v).
      apply: (@eq_from_nth _ 0%N); first by rewrite size_less ?size_more ?size_less.
      move=> k _; rewrite !(nth_more, nth_less); case: (eqVneq k t) => [->|_]; last by rewrite !subn0.
      by rewrite eq_sym (negbTE ne) !addn0.
    by rewrite mulrCA subrr.
  Qed.

  Lemma sum_number n f v : size v = n -> \sum_(i < n) creat_ph i (annih_ph i f) v = (sumn v)%:R * f v.
  Proof.
    move=> sz; rewrite sumnE natr_sum mulr_suml sz; apply: eq_bigr => i _.
    by rewrite number_ph ?sz.
  Qed.
End Ccr.

Section Electrons.
  Variables (C : numClosedFieldType) (n : nat).
  Notation M := (n + n)%N.
  Implicit Types (A B S : {set 'I_M}) (f : state C M).

  Lemma one_body_scale h (a : C) f f' S : (forall T, f' T = a * f T) ->
    one_body h f' S = a * one_body h f S.
  Proof.
    move=> e; rewrite /one_body mulr_sumr; apply: eq_bigr => p _; rewrite mulr_sumr; apply: eq_bigr => q _.
    rewrite /create /annihilate; case: ifP => _; last by rewrite !mulr0.
    case: ifP => _; first by rewrite !mulr0.
    by rewrite e [a * (h p q * _)]mulrCA; congr (_ * _); rewrite !mulrA [_ * a]mulrC !mulrA.
  Qed.

  Lemma two_body_scale half v (a : C) f f' S : (forall T, f' T = a * f T) ->
    two_body half v f' S = a * two_body half v f S.
  Proof.
    move=> e; rewrite /two_body mulrCA; congr (_ * _).
    do 4 (rewrite mulr_sumr; apply: eq_bigr => ? _).
    rewrite [a * (v _ _ _ _ * _)]mulrCA; congr (_ * _); rewrite /create /annihilate.
    case: ifP => _; last by rewrite mulr0.
    case: ifP => _; last by rewrite !mulr0.
    case: ifP => _; first by rewrite !mulr0.
    case: ifP => _; first by rewrite !mulr0.
    by rewrite e [_ * (a * _)]mulrCA [_ * (a * _)]mulrCA [_ * (a * _)]mulrCA [_ * (a * _)]mulrCA.
  Qed.

  Lemma hamiltonian_scale half e0 h v (a : C) f f' S : (forall T, f' T = a * f T) ->
    hamiltonian half e0 h v f' S = a * hamiltonian half e0 h v f S.
  Proof.
    move=> e; rewrite /hamiltonian (one_body_scale _ _ e) (two_body_scale _ _ _ e) e.
    by rewrite !mulrDr [e0 * _]mulrCA.
  Qed.

  Lemma orb_inj' (p q : 'I_M) : spin p = spin q -> orb p = orb q -> p = q.
  Proof.
    move=> e1; rewrite /orb e1 => e2; apply: val_inj; move: e1 e2; rewrite /spin /=.
    case: (leqP n q) => h /= h' e; last by [].
    by rewrite -(subnK h') -(subnK h) e.
  Qed.

  Lemma site_densityE site A B :
    site_density site (ket C A) B = (A == B)%:R * \sum_(p in B) (orb p == site)%:R.
  Proof.
    rewrite /site_density /one_body.
    transitivity (\sum_p (orb p == site)%:R * ((p \in B)%:R * ket C A B)).
      apply: eq_bigr => p _; rewrite (bigD1 p) //= big1 ?addr0; last first.
        move=> q ne; rewrite /h_so; case: eqP => [e|_]; last by rewrite mul0r.
        case: eqP => [e1|_] /=; last by rewrite mul0r.
        case: eqP => [e2|_]; last by rewrite mul0r.
        by case/negP: ne; apply/eqP/orb_inj'; rewrite ?e1 ?e2.
      rewrite /h_so eqxx andbb; congr (_ * _); rewrite /create /annihilate.
      case pB: (p \in B); last by rewrite mul0r.
      by rewrite in_setD1 eqxx /= sgnD1 setD1K // mulrA sgn2 !mul1r.
    rewrite /ket eq_sym mulr_sumr [RHS]big_mkcond /=; apply: eq_bigr => p _.
    by case: ifP => _; rewrite ?mul0r ?mulr0 // mul1r mulrC.
  Qed.
End Electrons.

Section Entry.
  Variables (C : numClosedFieldType) (s : system C) (w0 g : C).
  Notation nb := (nbasis s).
  Notation M := (nb + nb)%N.
  Hypothesis (Hsym : forall i j, H1 s i j = H1 s j i).
  Hypothesis (vswap : forall i j k m, hijkl s i j k m = hijkl s j i m k).
  Hypothesis (vsym : forall i j k m, hijkl s i j k m = hijkl s k m i j).

  Section Perms.
    Variables (nmax : nat) (bl : seq (seq (seq nat))).
    Hypothesis (szb : size bl = nmax.+1).
    Hypothesis (secP : forall t, (t <= nmax)%N -> sector_of nb t (nth [::] bl t)).
    Notation ps := (flatten bl).
    Notation blk := (map size bl).

    Lemma permP i : (i < size ps)%N -> size (nth [::] ps i) = nb /\ (sumn (nth [::] ps i) <= nmax)%N.
    Proof. by move=> h; apply/(mem_perms szb secP); apply: mem_nth. Qed.

    Lemma bosonE site i j : (site < nb)%N -> (i < size ps)%N -> (j < size ps)%N ->
      boson s ps blk nmax site i j =
      if nth [::] ps j == more site (nth [::] ps i) then sqrtC ((nth 0%N (nth [::] ps i) site).+1)%:R else 0.
    Proof.
      move=> hs hi hj; have [si li] := permP hi; have [sj lj] := permP hj; rewrite /boson.
      case: eqP => [e|ne].
        case: eqP => // e'; move: lj; rewrite e' sumn_more ?si // e; lia.
      have lt : (sumn (nth [::] ps i) < nmax)%N by lia.
      rewrite (in_sector szb secP) //.
      case: eqP => [e|ne'] /=; last first.
        case: eqP => // e'; case: ne'; by rewrite e' sumn_more ?si.
      by rewrite (@diff_more nb).
    Qed.

    Lemma boson_annih site i j : (site < nb)%N -> (i < size ps)%N -> (j < size ps)%N ->
      boson s ps blk nmax site j i = sqrtC ((nth 0%N (nth [::] ps j) site).+1)%:R * (more site (nth [::] ps j) == nth [::] ps i)%:R.
    Proof. by move=> hs hi hj; rewrite bosonE // eq_sym; case: eqP; rewrite ?mulr1 ?mulr0. Qed.

    Lemma boson_creat site i j : (site < nb)%N -> (i < size ps)%N -> (j < size ps)%N ->
      boson s ps blk nmax site i j = if (0 < nth 0%N (nth [::] ps j) site)%N
        then sqrtC (nth 0%N (nth [::] ps j) site)%:R * (less site (nth [::] ps j) == nth [::] ps i)%:R else 0.
    Proof.
      move=> hs hi hj; have [si li] := permP hi; have [sj lj] := permP hj; rewrite bosonE //.
      move: (nth [::] ps i) (nth [::] ps j) si sj => v x sv sx.
      case: eqP => [->|ne].
        by rewrite nth_more eqxx addn1 /= less_more ?sv // eqxx mulr1.
      case: ifP => // h; case: eqP => [e|_]; last by rewrite mulr0.
      by case: ne; rewrite -e more_less ?sx.
    Qed.
  End Perms.

  Section Dets.
    Variables (nup ndown : nat) (ds : seq (seq nat)).
    Hypothesis (ne : nelec s = (nup + ndown)%N).
    Hypothesis dsP : forall d, (d \in ds) <-> exists A : {set 'I_M}, [/\ d = occ A, ups A = nup & #|A| = (nup + ndown)%N].
    Hypothesis dsU : uniq ds.

    Lemma occ_inj (A B : {set 'I_M}) : occ A = occ B -> A = B.
    Proof. by move=> e; apply/setP => p; rewrite -!mem_occ e. Qed.

    Lemma detP a (A : {set 'I_M}) : (a < size ds)%N -> nth [::] ds a = occ A -> ups A = nup /\ #|A| = nelec s.
    Proof.
      move=> h e; have : nth [::] ds a \in ds by apply: mem_nth.
      by rewrite dsP e => -[A' [/occ_inj -> -> ->]].
    Qed.

    Lemma helE a b (A B : {set 'I_M}) : (a < size ds)%N -> (b < size ds)%N -> nth [::] ds a = occ A -> nth [::] ds b = occ B ->
      hel s ds a b = Ok (hamiltonian 2%:R^-1 (ecore s) (h_so (n:=nb) (H1 s)) (v_so (n:=nb) (hijkl s)) (ket C A) B).
    Proof.
      move=> ha hb ea eb; have [uA cA] := detP ha ea; have [uB cB] := detP hb eb.
      have half2 : 2%:R^-1 + 2%:R^-1 = 1 :> C.
        by rewrite -mulr2n -[LHS]mulr_natl mulfV ?pnatr_eq0.
      have uAB : ups A = ups B by rewrite uA uB.
      have := @C29_elements_partial _ s _ half2 vswap A B cA cB uAB => /= e1.
      rewrite /hel; case: ifP => _; rewrite ea eb; first by rewrite e1.
      have := @C29_hermitian _ s _ [rmorphism of idfun] half2 vswap erefl Hsym (fun i j k m => vsym i j k m) A B _ cA cB uAB e1.
      by move=> ->.
    Qed.

    Lemma rhoE site a b (A B : {set 'I_M}) : (a < size ds)%N -> (b < size ds)%N -> nth [::] ds a = occ A -> nth [::] ds b = occ B ->
      rho s ds site a b = site_density (n:=nb) site (ket C A) B.
    Proof.
      move=> ha hb ea eb; rewrite /rho site_densityE.
      have -> : (a == b) = (A == B).
        rewrite -(nth_uniq [::] ha hb dsU) ea eb; apply/eqP/eqP => [/occ_inj|->] //.
      case: eqP => [e|_]; last by rewrite mul0r.
      rewrite mul1r ea -e /occ big_map big_enum /=; apply: eq_bigr => p _.
      by rewrite map_orbE /=; case: eqP.
    Qed.

    Variables (nmax : nat) (bl : seq (seq (seq nat))).
    Hypothesis (szb : size bl = nmax.+1).
    Hypothesis (secP : forall t, (t <= nmax)%N -> sector_of nb t (nth [::] bl t)).
    Notation ps := (flatten bl).
    Notation blk := (map size bl).

    Lemma htotE i j a b (A B : {set 'I_M}) : (i < size ps)%N -> (j < size ps)%N -> (a < size ds)%N -> (b < size ds)%N ->
      nth [::] ds a = occ A -> nth [::] ds b = occ B ->
      htot s w0 g ps ds blk nmax (i * size ds + a) (j * size ds + b) =
      Ok (holstein 2%:R^-1 (ecore s) (H1 s) (hijkl s) w0 g (joint_ket C (nth [::] ps i) A) (nth [::] ps j) B).
    Proof.
      move=> hi hj ha hb ea eb; have [si li] := permP szb secP hi; have [sj lj] := permP szb secP hj.
      have dvE k c : (c < size ds)%N -> ((k * size ds + c) %/ size ds = k)%N.
        by move=> h; rewrite divnMDl ?divn_small ?addn0 //; lia.
      have mdE k c : (c < size ds)%N -> ((k * size ds + c) %% size ds = c)%N.
        by move=> h; rewrite modnMDl modn_small.
      have uP := perms_uniq szb secP.
      have ijE : (nth [::] ps j == nth [::] ps i) = (i == j) by rewrite nth_uniq // eq_sym.
      have abE : (B == A) = (a == b).
        by rewrite -(nth_uniq [::] ha hb dsU) ea eb; apply/eqP/eqP => [->|/occ_inj] //.
      rewrite /htot !mdE // (helE ha hb ea eb) /kron !dvE // !mdE //; cbn [rbind]; congr Ok.
      rewrite /holstein; congr (_ + _ + _).
      - rewrite (hamiltonian_scale _ _ _ _ (a := (i == j)%:R) (f := ket C A)) //.
        by move=> T; rewrite /joint_ket /ket ijE; case: eqP; rewrite ?mul1r ?mul0r.
      - rewrite sum_number // /BoseFermi_Model.hb /eye /joint_ket ijE abE.
        case: eqP => [->|_] /=; last by rewrite !mulr0 ?mul0r.
        by rewrite mulrA.
      rewrite mulr_sumr; apply: eq_bigr => site _; congr (_ * _).
      rewrite /site_density (one_body_scale _ _ (a := boson s ps blk nmax site i j + boson s ps blk nmax site j i) (f := ket C A)).
        by rewrite (rhoE _ ha hb ea eb).
      move=> T; rewrite (boson_creat szb secP) // (boson_annih szb secP) // addrC mulrDl; congr (_ + _).
        rewrite /creat_ph /joint_ket /ket; case: ifP => _; last by rewrite mul0r.
        by case: eqP => _ /=; rewrite ?mulr0 ?mul0r ?mulr1.
      by rewrite /annih_ph /joint_ket /ket; case: eqP => _ /=; rewrite ?mulr0 ?mul0r ?mulr1.
    Qed.
  End Dets.

  Lemma bose_fermi_ok nup ndown nmax : (0 < nb)%N || (nmax == 0%N) -> (nup <= nb)%N -> (ndown <= nb)%N ->
    nelec s = (nup + ndown)%N ->
    exists ps ds H, bose_fermi s w0 g nup ndown nmax = Ok (ps, ds, H) /\
      uniq ps /\ (forall v, v \in ps <-> size v = nb /\ (sumn v <= nmax)%N) /\
      uniq ds /\ (forall d, (d \in ds) <-> exists A : {set 'I_M}, [/\ d = occ A, ups A = nup & #|A| = (nup + ndown)%N]) /\
      forall i j a b (A B : {set 'I_M}), (i < size ps)%N -> (j < size ps)%N -> (a < size ds)%N -> (b < size ds)%N ->
        nth [::] ds a = occ A -> nth [::] ds b = occ B ->
        H (i * size ds + a)%N (j * size ds + b)%N =
        Ok (holstein 2%:R^-1 (ecore s) (H1 s) (hijkl s) w0 g (joint_ket C (nth [::] ps i) A) (nth [::] ps j) B).
  Proof.
    move=> h0 hu hd hn.
    have [bl [e1 [szb secP]]] := sectors_ok h0.
    have [ds [e2 [uds dsP]]] := dets_ok hu hd.
    rewrite /bose_fermi e1; cbn [rbind]; rewrite e2; cbn [rbind].
    exists (flatten bl), ds, (htot s w0 g (flatten bl) ds (map size bl) nmax).
    split=> //; split; first exact: perms_uniq secP.
    split; first exact: mem_perms.
    split=> //; split=> // i j a b A B hi hj ha hb ea eb; exact: (htotE hn dsP uds szb secP).
  Qed.
End Entry.

Lemma combinations_none l k : (size l < k)%N -> combinations l k = [::].
Proof.
  elim: l k => [|x l IH] [|k] //= h; rewrite (IH k) // (IH k.+1) //; lia.
Qed.

Lemma dets_raises nb nup ndown : (nb < nup)%N || (nb < ndown)%N -> dets nb nup ndown = Err ValueError.
Proof.
  rewrite /dets => /orP[] h.
    by rewrite (@combinations_none _ nup) ?size_iota.
  rewrite (@combinations_none _ ndown) ?size_iota //.
  by rewrite (_ : [seq (a, c) | a <- combinations (iota 0 nb) nup, c <- [::]] = [::]) //; elim: (combinations _ _).
Qed.

Lemma bose_fermi_raises (C : numClosedFieldType) (s : system C) w0 g nup ndown nmax :
  (nbasis s == 0%N) && (0 < nmax)%N || (nbasis s < nup)%N || (nbasis s < ndown)%N ->
  bose_fermi s w0 g nup ndown nmax = Err ValueError.
Proof.
  rewrite /bose_fermi; case h0: ((0 < nbasis s)%N || (nmax == 0%N)); last first.
    move=> _; rewrite (_ : nbasis s = 0%N) ?sectors_raises //; move: h0; lia.
  have [bl [-> _]] := sectors_ok h0; cbn [rbind] => h.
  by rewrite dets_raises //; move: h h0; lia.
Qed.

Section Sign.
  Variables (C : numClosedFieldType) (n : nat).

  Lemma parity_more site v x : (site < size v)%N -> x = more site v -> (-1 : C) ^+ (sumn v + sumn x) = -1.
  Proof. by move=> h ->; rewrite sumn_more // addnS exprS -signr_odd oddD addbb expr0 mulr1. Qed.

  Lemma holstein_sign half e0 h v w g (y x : seq nat) (A B : {set 'I_(n + n)}) : size y = n -> size x = n ->
    holstein half e0 h v w g (joint_ket C y A) x B =
    (-1) ^+ (sumn y + sumn x) * holstein half e0 h v w (- g) (joint_ket C y A) x B.
  Proof.
    move=> sy sx; rewrite /holstein !sum_number // 2!mulrDr; congr (_ + _ + _).
    - have sc T : joint_ket C y A x T = (x == y)%:R * ket C A T.
        by rewrite /joint_ket /ket; case: eqP; rewrite ?mul1r ?mul0r.
      rewrite (hamiltonian_scale _ _ _ _ _ sc); case: eqP => [->|_]; last by rewrite !mul0r mulr0.
      by rewrite (addnn (sumn y)) -signr_odd odd_double expr0 mul1r.
    - rewrite /joint_ket; case: eqP => [->|_]; last by rewrite !mulr0.
      by rewrite (addnn (sumn y)) -signr_odd odd_double expr0 mul1r.
    rewrite !mulr_sumr; apply: eq_bigr => site _.
    pose c := sqrtC ((nth 0%N x site).+1)%:R * (more site x == y)%:R +
              (if (0 < nth 0%N x site)%N then sqrtC (nth 0%N x site)%:R * (less site x == y)%:R else 0) : C.
    have sc T : annih_ph site (fun z => joint_ket C y A z T) x + creat_ph site (fun z => joint_ket C y A z T) x = c * ket C A T.
      rewrite /c /annih_ph /creat_ph /joint_ket /ket mulrDl; congr (_ + _).
        by case: eqP => _ /=; rewrite ?mulr0 ?mul0r ?mulr1.
      case: ifP => _; last by rewrite mul0r.
      by case: eqP => _ /=; rewrite ?mulr0 ?mul0r ?mulr1.
    rewrite /site_density (one_body_scale _ _ sc) mulNr mulrN mulrA.
    case: (eqVneq c 0) => [->|nz]; first by rewrite ?(mul0r, mulr0, oppr0).
    have -> : (-1 : C) ^+ (sumn y + sumn x) = -1.
      case: (eqVneq (more site x) y) => [<-|n1].
        by rewrite addnC; apply: (@parity_more site); rewrite ?sx.
      case: (eqVneq (less site x) y) => [e|n2]; last first.
        by move: nz; rewrite /c (negbTE n1) (negbTE n2) !mulr0 if_same addr0 eqxx.
      case: (ltnP 0 (nth 0%N x site)) => h0; last first.
        by move: nz; rewrite /c (negbTE n1) mulr0 add0r (_ : (0 < _)%N = false) ?eqxx //; apply/negbTE; rewrite -leqNgt.
      by apply: (@parity_more site); rewrite ?sy // -e more_less ?sx.
    by rewrite mulN1r opprK.
  Qed.
End Sign.

Section Refuted.
  Variable C : numClosedFieldType.
  Definition sysC : system C :=
    System 2 1 0 (fun i j => if (i < j)%N then 'i else if (j < i)%N then - 'i else 0) (fun _ _ _ _ => 0).

  Lemma get01 : get_hmatel sysC [:: 0%N] [:: 1%N] = Ok (- 'i, - 'i, 0).
  Proof. by rewrite /get_hmatel /= /slater_condon1 /= !(addr0, subr0). Qed.

  Lemma complex_refuted : exists (s : system C) ps ds H x y,
    (forall i j, (H1 s i j)^* = H1 s j i) /\ nelec s = 1%N /\
    bose_fermi s 0 0 1 0 0 = Ok (ps, ds, H) /\ H 0%N 1%N = Ok x /\ H 1%N 0%N = Ok y /\ y != x^*.
  Proof.
    have e01 : hel sysC [:: [:: 0%N]; [:: 1%N]] 0 1 = Ok (- 'i) by rewrite -[LHS]/(rbind (get_hmatel sysC [:: 0%N] [:: 1%N]) (fun h => Ok h.1.1)) get01.
    have e10 : hel sysC [:: [:: 0%N]; [:: 1%N]] 1 0 = Ok (- 'i) by rewrite -[LHS]/(rbind (get_hmatel sysC [:: 0%N] [:: 1%N]) (fun h => Ok h.1.1)) get01.
    exists sysC, [:: [:: 0%N; 0%N]], [:: [:: 0%N]; [:: 1%N]], (htot sysC 0 0 [:: [:: 0%N; 0%N]] [:: [:: 0%N]; [:: 1%N]] [:: 1%N] 0), (- 'i), (- 'i).
    split.
      move=> i j; rewrite /sysC /=; case: (ltngtP i j) => _; rewrite ?rmorphN ?conjCi ?opprK ?rmorph0 //.
    split=> //; split=> //.
    split; first by rewrite /htot [(_ %% size _)%N]/= [in X in hel _ _ _ X]/= e01; cbn [rbind]; rewrite /kron /hb /eye /= mul0r mulr0 !addr0 mul1r big1 ?addr0 // => i _; rewrite mul0r.
    split; first by rewrite /htot [(_ %% size _)%N]/= [in X in hel _ _ _ X]/= e10; cbn [rbind]; rewrite /kron /hb /eye /= mul0r mulr0 !addr0 mul1r big1 ?addr0 // => i _; rewrite mul0r.
    rewrite rmorphN conjCi opprK eq_sym -subr_eq0 opprK -mulr2n mulrn_eq0 /= neq0Ci //.
  Qed.
End Refuted.

Lemma matrix_example (C : numClosedFieldType) :
  let s := System 2 1 (0 : C) (fun i j => if i == j then 0 else -1)
             (fun i j k l => if (i == j) && (j == k) && (k == l) then 4%:R else 0) in
  (forall i j, H1 s i j = H1 s j i) /\
  (forall i j k m, hijkl s i j k m = hijkl s j i m k) /\
  (forall i j k m, hijkl s i j k m = hijkl s k m i j) /\
  site_density (n:=2) 0 (ket C [set ord0]) [set ord0] = 1.
Proof.
  split; first by move=> i j /=; rewrite eq_sym.
  split; first by move=> i j k m /=; congr (if _ then _ else _); lia.
  split; first by move=> i j k m /=; congr (if _ then _ else _); lia.
  by rewrite site_densityE eqxx mul1r big_set1.
Qed.
