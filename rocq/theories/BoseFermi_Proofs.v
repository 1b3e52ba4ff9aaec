From Verif Require Import Base BaseFacts.
Set Warnings "-notation-overridden,-ambiguous-paths".
From mathcomp Require Import all_ssreflect all_algebra zify.
From Verif Require Import CI_Model Fock_Spec Fock_Proofs CI_Proofs BoseFermi_Model BoseFermi_Spec.
Set Implicit Arguments. Unset Strict Implicit. Unset Printing Implicit Defensive.
Import Order.TTheory GRing.Theory Num.Theory.
Local Open Scope ring_scope.

Section Balls.
  Local Open Scope nat_scope.

  Lemma collect_ok (A : eqType) (T : eqType) (f : A -> res (seq T)) (l : seq A) :
    (forall x, x \in l -> exists y, f x = Ok y) ->
    exists F : A -> seq T, (forall x, x \in l -> f x = Ok (F x)) /\ collect f l = Ok (flatten [seq F x | x <- l]).
  Proof.
    move=> h; exists (fun x => if f x is Ok y then y else [::]); split.
      by move=> x /h [y ->].
    elim: l h => [|a l IH] h //=.
    have [y ->] := h a (mem_head _ _).
    by cbn [rbind]; rewrite IH // => x xl; apply: h; rewrite inE xl orbT.
  Qed.

  Definition fits (boxes : seq nat) (balls : nat) (d : seq nat) : Prop :=
    [/\ size d = size boxes, sumn d = balls & forall k, k < size boxes -> nth 0 d k <= nth 0 boxes k].

  Lemma sumn0 d : sumn d = 0 -> d = nseq (size d) 0.
  Proof. by elim: d => //= x d IH /eqP; rewrite addn_eq0 => /andP[/eqP -> /eqP /IH <-]. Qed.

  Lemma distribute_ok boxes balls : (boxes != [::]) || (balls == 0) ->
    exists l, distribute boxes balls = Ok l /\ uniq l /\ forall d, d \in l <-> fits boxes balls d.
  Proof.
    elim: boxes balls => [|b rest IH] balls; rewrite /= ?orbF.
      move=> /eqP ->; exists [:: [::]]; split=> //; split=> // d; rewrite inE; split=> [/eqP -> //|[/size0nil ->]] //.
    move=> _; case: eqP => [->|/eqP nz].
      exists [:: nseq (size rest).+1 0]; split=> //; split=> // d; rewrite inE; split.
        move=> /eqP ->; split; rewrite ?size_nseq ?sumn_nseq ?mul0n //.
        by move=> k _; rewrite (nth_nseq 0 (size rest).+1 0 k) if_same.
      by case=> sz /sumn0 e _; rewrite e sz.
    case: rest IH => [|c rest] IH.
      exists (if balls <= b then [:: [:: balls]] else [::]); split=> //; split; first by case: ifP.
      move=> d; split.
        case: ifP => // h; rewrite inE => /eqP ->; split=> //=; first by rewrite addn0.
        by case.
      case; case: d => [|x [|]] //= _; rewrite addn0 => -> /(_ 0 isT) /= ->; exact: mem_head.
    set r := c :: rest; rewrite -/r in IH *.
    have [] := @collect_ok _ _ (fun first => rbind (distribute r (balls - first)) (fun l => Ok [seq first :: d | d <- l]))
        (rev (iota 0 (minn balls b).+1)).
      by move=> x _; have [l [-> _]] := IH (balls - x) isT; exists [seq x :: d | d <- l].
    move=> F [FE ->]; eexists; split; first by [].
    have FP x : x \in rev (iota 0 (minn balls b).+1) -> uniq (F x) /\
        forall d, d \in F x <-> exists2 e, d = x :: e & fits r (balls - x) e.
      move=> xl; have [l [e [u m]]] := IH (balls - x) isT.
      have := FE x xl; rewrite e; cbn [rbind]; case=> <-; split.
        by rewrite map_inj_uniq // => ? ? [].
      move=> d; split; first by case/mapP => e' /m h ->; exists e'.
      by case=> e' -> /m h; apply/mapP; exists e'.
    have mem x : (x \in rev (iota 0 (minn balls b).+1)) = (x <= balls) && (x <= b).
      by rewrite mem_rev mem_iota /= add0n ltnS leq_min.
    split.
      have ul : uniq (rev (iota 0 (minn balls b).+1)) by rewrite rev_uniq iota_uniq.
      move: (rev _) ul FP {mem FE} => l; elim: l => //= x l IHl /andP[xl ul] FP.
      rewrite cat_uniq (proj1 (FP x (mem_head _ _))) IHl ?andbT //; last first.
        by move=> y yl; apply: FP; rewrite inE yl orbT.
      apply/hasPn => d /flattenP[_ /mapP[y yl ->]] dy; apply/negP => dx.
      have [e de _] := (proj1 (proj2 (FP x (mem_head _ _)) d)) dx.
      have yl' : y \in x :: l by rewrite inE yl orbT.
      have [e' de' _] := (proj1 (proj2 (FP y yl') d)) dy.
      by move: xl; rewrite -(_ : y = x) ?yl //; move: de'; rewrite de; case.
    move=> d; split.
      case/flattenP=> _ /mapP[x xl ->] dx.
      have [_ /(_ d) [/(_ dx) [e -> [sz sm le]] _]] := FP x xl.
      move: xl; rewrite mem => /andP[xb xb']; split=> /=; first by rewrite sz.
        by rewrite sm subnKC.
      by case=> [|k] //= hk; apply: le.
    case: d => [|x e] [] //= [sz] sm le.
    have xb : x <= b := le 0 isT.
    have xl : x \in rev (iota 0 (minn balls b).+1) by rewrite mem xb andbT -sm leq_addr.
    apply/flattenP; exists (F x); first exact: map_f.
    apply/(proj2 (FP x xl)); exists e => //; split=> //; first by rewrite -sm addKn.
    by move=> k hk; apply: (le k.+1).
  Qed.
End Balls.

Section Sectors.
  Local Open Scope nat_scope.

  Lemma balls_ok boxes balls : all (fun b => 1 <= b) boxes -> balls <= sumn boxes ->
    exists l, balls_in_boxes balls boxes = Ok l /\ uniq l /\ forall d, d \in l <-> fits boxes balls d.
  Proof.
    move=> ha hs; rewrite /balls_in_boxes ha /= ltnNge hs /=; apply: distribute_ok.
    by case: boxes hs {ha} => //=; rewrite leqn0.
  Qed.

  Lemma balls_raises boxes balls :
    balls_in_boxes balls boxes = Err ValueError <-> ~~ (all (fun b => 1 <= b) boxes && (balls <= sumn boxes)).
  Proof.
    rewrite /balls_in_boxes; case ha: (all _ _) => //=.
    rewrite ltnNge; case: (leqP balls (sumn boxes)) => //= hs; split=> //.
    by have [l [e _]] := balls_ok ha hs; move: e; rewrite /balls_in_boxes ha /= ltnNge hs /= => ->.
  Qed.

  Definition sector_of nb t : seq (seq nat) -> Prop := fun l =>
    uniq l /\ forall d, d \in l <-> size d = nb /\ sumn d = t.

  Lemma nth_le_sumn d k : nth 0 d k <= sumn d.
  Proof.
    elim: d k => [|x d IH] [|k] //=; first exact: leq_addr.
    by apply: leq_trans (leq_addl _ _).
  Qed.

  Lemma block_ok nb t : 0 < nb -> 0 < t ->
    exists l, balls_in_boxes t (nseq nb t) = Ok l /\ sector_of nb t l.
  Proof.
    move=> hn ht.
    have [||l [e [u m]]] := @balls_ok (nseq nb t) t.
      by rewrite all_nseq ht orbT.
      by rewrite sumn_nseq; apply: leq_pmulr.
    exists l; split=> //; split=> // d; rewrite m; split; first by case; rewrite size_nseq.
    case=> sz sm; split; rewrite ?size_nseq // => k hk.
    by rewrite nth_nseq hk -sm nth_le_sumn.
  Qed.

  Lemma sectors_ok nb nmax : (0 < nb) || (nmax == 0) ->
    exists bl, sectors nb nmax = Ok bl /\ size bl = nmax.+1 /\
      forall t, t <= nmax -> sector_of nb t (nth [::] bl t).
  Proof.
    move=> h; rewrite /sectors.
    pose f nboson := rbind (balls_in_boxes nboson (nseq nb nboson)) (fun perm => Ok [:: perm]).
    have fP x : x \in iota 1 nmax -> exists y, f x = Ok [:: y] /\ sector_of nb x y.
      rewrite mem_iota => /andP[x1 x2].
      have hn : 0 < nb by case/orP: h => // /eqP z; move: x2; rewrite z; case: x x1.
      by have [l [e s]] := block_ok hn x1; exists l; rewrite /f e.
    have [] := @collect_ok _ _ f (iota 1 nmax); first by move=> x /fP [y [-> _]]; exists [:: y].
    move=> F [FE e]; rewrite -/f e; cbn [rbind]; eexists; split; first by [].
    pose G x := head [::] (F x).
    have FG x : x \in iota 1 nmax -> F x = [:: G x] /\ sector_of nb x (G x).
      move=> xl; have [y [e1 e2]] := fP x xl; move: (FE x xl); rewrite e1 => -[e3].
      by rewrite /G -e3.
    have -> : flatten [seq F x | x <- iota 1 nmax] = [seq G x | x <- iota 1 nmax].
      have : forall x, x \in iota 1 nmax -> F x = [:: G x] by move=> x /FG [].
      elim: (iota 1 nmax) => //= x l IH hF; rewrite hF ?mem_head //= IH // => y yl.
      by apply: hF; rewrite inE yl orbT.
    split; first by rewrite /= size_map size_iota.
    case=> [_|t ht] /=.
      split=> // d; rewrite inE; split=> [/eqP ->|[sz /sumn0 ->]]; last by rewrite sz.
      by rewrite size_nseq sumn_nseq mul0n.
    rewrite (nth_map 0) ?size_iota // nth_iota // add1n.
    by apply: (proj2 (FG _ _)); rewrite mem_iota add1n /= ltnS.
  Qed.

  Lemma sectors_raises nmax : 0 < nmax -> sectors 0 nmax = Err ValueError.
  Proof. by case: nmax. Qed.

  Section Flat.
    Variables (nb nmax : nat) (bl : seq (seq (seq nat))).
    Hypothesis (szb : size bl = nmax.+1).
    Hypothesis (secP : forall t, t <= nmax -> sector_of nb t (nth [::] bl t)).
    Notation ps := (flatten bl).
    Notation blk := (map size bl).

    Lemma mem_perms d : d \in ps <-> size d = nb /\ sumn d <= nmax.
    Proof.
      split.
        case/flattenP=> l /(nthP [::]) [t ht <-] dl; rewrite szb ltnS in ht.
        by have [_ /(_ d) [/(_ dl) [-> ->] _]] := secP ht.
      case=> sz le; apply/flattenP; exists (nth [::] bl (sumn d)); first by rewrite mem_nth ?szb.
      by have [_ h] := secP le; apply/h.
    Qed.

    Lemma perms_uniq : uniq ps.
    Proof.
      have : forall i j d, i < size bl -> j < size bl -> d \in nth [::] bl i -> d \in nth [::] bl j -> i = j.
        move=> i j d; rewrite szb !ltnS => hi hj di dj.
        have [_ /(_ d) [/(_ di) [_ <-] _]] := secP hi.
        by have [_ /(_ d) [/(_ dj) [_ <-] _]] := secP hj.
      have : forall i, i < size bl -> uniq (nth [::] bl i).
        by move=> i; rewrite szb ltnS => /secP [].
      elim: bl => //= l bs IH hu hd; rewrite cat_uniq (hu 0) // IH ?andbT; first last.
      - by move=> i j d hi hj di dj; have := hd i.+1 j.+1 d hi hj di dj; case.
      - by move=> i hi; apply: (hu i.+1).
      apply/hasPn => d /flattenP[m /(nthP [::]) [j hj <-]] dj; apply/negP => d0.
      by have := hd 0 j.+1 d isT hj d0 dj.
    Qed.

    (** the sector of a position *)
    Lemma in_sector t j : t <= nmax -> j < size ps ->
      (sumn (take t blk) <= j) && (j < sumn (take t blk) + nth 0 blk t) = (sumn (nth [::] ps j) == t).
    Proof.
      move=> ht hj.
      have key r : r <= nmax -> forall c, c < nth 0 blk r -> sumn (nth [::] ps (flatten_index blk r c)) = r.
        move=> hr c hc; rewrite nth_flatten /shape flatten_indexKl // flatten_indexKr //.
        rewrite (nth_map [::]) ?szb // in hc.
        by have [_ /(_ (nth [::] (nth [::] bl r) c)) [/(_ (mem_nth _ hc)) [_ ->] _]] := secP hr.
      apply/andP/eqP.
        case=> h1 h2.
        have hc : j - sumn (take t blk) < nth 0 blk t by rewrite ltn_subLR.
        by have := key t ht _ hc; rewrite /flatten_index subnKC.
      have hj' : j < sumn blk by rewrite size_flatten in hj.
      have r1 := reshape_indexP hj'; have r2 := reshape_offsetP hj'; have r3 := reshape_indexK blk j.
      rewrite size_map szb ltnS in r1.
      have := key _ r1 _ r2; rewrite r3 => -> <-.
      move: r2 r3; rewrite /flatten_index.
      move: (sumn (take _ _)) (nth 0 blk _) (reshape_offset _ _) => a b c r2 r3; split; lia.
    Qed.
  End Flat.
End Sectors.

Lemma size_more s v : (s < size v)%N -> size (more s v) = size v.
Proof. by move=> h; rewrite /more size_set_nth; apply/maxn_idPr. Qed.

Lemma size_less s v : (s < size v)%N -> size (less s v) = size v.
Proof. by move=> h; rewrite /less size_set_nth; apply/maxn_idPr. Qed.

Lemma nth_more s v k : nth 0%N (more s v) k = (nth 0%N v k + (k == s))%N.
Proof. by rewrite /more nth_set_nth /=; case: eqP => [->|_]; rewrite ?addn1 ?addn0. Qed.

Lemma nth_less s v k : nth 0%N (less s v) k = (nth 0%N v k - (k == s))%N.
Proof. by rewrite /less nth_set_nth /=; case: eqP => [->|_]; rewrite ?subn1 ?subn0. Qed.

Lemma less_more s v : (s < size v)%N -> less s (more s v) = v.
Proof.
  move=> h; apply: (@eq_from_nth _ 0%N); first by rewrite size_less ?size_more.
  by move=> k _; rewrite nth_less nth_more addnK.
Qed.

Lemma more_less s v : (s < size v)%N -> (0 < nth 0%N v s)%N -> more s (less s v) = v.
Proof.
  move=> h hp; apply: (@eq_from_nth _ 0%N); first by rewrite size_more ?size_less.
  by move=> k _; rewrite nth_more nth_less subnK //; case: eqP => // ->.
Qed.

Lemma sumnE v : sumn v = (\sum_(k < size v) nth 0%N v k)%N.
Proof. by rewrite sumnE (big_nth 0%N) big_mkord. Qed.

Lemma sumn_more s v : (s < size v)%N -> sumn (more s v) = (sumn v).+1.
Proof.
  move=> h; rewrite !sumnE size_more //.
  under eq_bigr do rewrite nth_more.
  rewrite big_split /= -addn1; congr (_ + _)%N.
  rewrite (bigD1 (Ordinal h)) //= eqxx big1 // => k /negbTE; rewrite -val_eqE /= => ->; by [].
Qed.

Lemma diff_more nb s v v' : (s < nb)%N -> size v = nb -> size v' = nb ->
  let diff k := ((nth 0%N v k)%:Z - (nth 0%N v' k)%:Z) in
  ((\sum_(k < nb) `|diff k|)%N == 1%N) && (diff s == -1) = (v' == more s v).
Proof.
  move=> hs sv sv' diff; apply/andP/eqP.
    case=> /eqP h1 /eqP h2; apply: (@eq_from_nth _ 0%N); first by rewrite size_more sv.
    move=> k; rewrite sv' => hk; rewrite nth_more; case: eqP => [->|ne].
      by move: h2; rewrite /diff; lia.
    move: h1; rewrite (bigD1 (Ordinal hs)) //= h2 /=.
    rewrite (bigD1 (Ordinal hk)) /=; last by rewrite -val_eqE /=; apply/eqP.
    move: (\sum_(i < nb | _) _)%N => X; rewrite /diff; lia.
  move=> e; split.
    rewrite (bigD1 (Ordinal hs)) //= big1 /diff ?e ?nth_more ?eqxx; first by lia.
    move=> k; rewrite -val_eqE /= => /negbTE ne; rewrite nth_more ne; lia.
  by rewrite /diff e nth_more eqxx; apply/eqP; lia.
Qed.
