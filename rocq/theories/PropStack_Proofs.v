Set Warnings "-notation-overridden,-ambiguous-paths".
From Verif Require Import Base StackSize_Model StackSize_Spec StackSize_Proofs.
From mathcomp Require Import all_ssreflect all_algebra zify.
From Verif Require Import PropStack_Model PropStack_Spec.

Set Implicit Arguments.
Unset Strict Implicit.
Unset Printing Implicit Defensive.
Import GRing.Theory.
Local Open Scope ring_scope.

Section Proofs.
Variables (F : fieldType) (n : nat).
Notation M := 'M[F]_n.
Implicit Types (A B BT BTinv : M) (l Bs : seq M) (p : pstack F n).

(** ** Ordered products *)

Lemma ordered_acc l A : foldl (fun A B => B *m A) A l = ordered l *m A.
Proof.
rewrite /ordered; elim: l A => [|B l IH] A /=; first by rewrite mul1mx.
by rewrite IH [in RHS]IH mulmx1 mulmxA.
Qed.

Lemma ordered_cat l1 l2 : ordered (l1 ++ l2) = ordered l2 *m ordered l1.
Proof. by rewrite /ordered foldl_cat ordered_acc. Qed.

Lemma ordered_rcons l B : ordered (rcons l B) = B *m ordered l.
Proof. by rewrite -cats1 ordered_cat /ordered /= mulmx1. Qed.

Lemma ordered_cons l B : ordered (B :: l) = ordered l *m B.
Proof. by rewrite -cat1s ordered_cat /ordered /= mulmx1. Qed.

Definition pw BT k : M := ordered (nseq k BT).

Lemma pw0 BT : pw BT 0 = 1%:M. Proof. by []. Qed.

Lemma pwS BT k : pw BT k.+1 = pw BT k *m BT.
Proof. by rewrite /pw /= ordered_cons. Qed.

Lemma pwSl BT k : pw BT k.+1 = BT *m pw BT k.
Proof.
elim: k => [|k IH]; first by rewrite pwS !pw0 mulmx1 mul1mx.
by rewrite pwS {1}IH -mulmxA -pwS.
Qed.

(** ** Diagonal matrices *)

Lemma diagonal1 : diagonal (1%:M : M).
Proof. by move=> i j /negbTE ne; rewrite mxE ne. Qed.

Lemma diagonal_mulE A B i j : diagonal A -> (A *m B) i j = A i i * B i j.
Proof.
move=> dA; rewrite mxE (bigD1 i) //= big1 ?addr0 // => k /negbTE ne.
by rewrite dA ?mul0r // eq_sym ne.
Qed.

Lemma diagonal_mul A B : diagonal A -> diagonal B -> diagonal (A *m B).
Proof. by move=> dA dB i j ne; rewrite diagonal_mulE // dB // mulr0. Qed.

Lemma diagonal_pw BT k : diagonal BT -> diagonal (pw BT k).
Proof.
move=> d; elim: k => [|k IH]; first exact: diagonal1.
by rewrite pwSl; apply: diagonal_mul.
Qed.

Lemma diag_mulE A B : diagonal A -> diagonal B -> diag_mul A B = A *m B.
Proof.
move=> dA dB; apply/matrixP=> i j; rewrite diagonal_mulE // !mxE.
by case: eqP => [->|/eqP ne] /=; rewrite ?mulr1n // mulr0n dB // mulr0.
Qed.

Lemma einsumE A B : diagonal A -> einsum_ii_ij A B = A *m B.
Proof. by move=> dA; apply/matrixP=> i j; rewrite diagonal_mulE // mxE. Qed.

Lemma diagonal_inv BT BTinv : diagonal BT -> BT *m BTinv = 1%:M -> diagonal BTinv.
Proof.
move=> d e i j ne.
have /matrixP /(_ i i) := e; rewrite diagonal_mulE // mxE eqxx => e1.
have /matrixP /(_ i j) := e; rewrite diagonal_mulE // mxE (negbTE ne) => /eqP.
rewrite mulf_eq0 => /orP[/eqP z|/eqP //].
by move: e1; rewrite z mul0r => /eqP; rewrite eq_sym oner_eq0.
Qed.

(** ** Arrays *)

Lemma item_mkseq f nb i : (i < nb)%N -> item (mkseq f nb : seq M) i = Ok (f i).
Proof. by move=> lt; rewrite /item size_mkseq lt nth_mkseq. Qed.

Lemma put_mkseq f g nb i (x : M) : (i < nb)%N -> x = g i ->
  (forall j, (j < nb)%N -> j != i -> f j = g j) ->
  put (mkseq f nb) i x = Ok (mkseq g nb).
Proof.
move=> lt -> fg; rewrite /put size_mkseq lt; congr Ok.
have sz : size (set_nth (0 : M) (mkseq f nb) i (g i)) = nb
  by rewrite size_set_nth size_mkseq; apply/maxn_idPr.
apply: (@eq_from_nth _ 0); rewrite sz ?size_mkseq // => j ltj.
rewrite nth_set_nth /= [in RHS]nth_mkseq //.
by case: eqP => [->//|/eqP ne]; rewrite nth_mkseq // fg.
Qed.

Lemma mkseq_const nb (x : M) : nseq nb x = mkseq (fun _ => x) nb.
Proof.
apply: (@eq_from_nth _ 0); rewrite ?size_nseq ?size_mkseq // => i lt.
by rewrite nth_nseq lt nth_mkseq.
Qed.

Lemma rfold_rcons (A B : Type) (f : B -> A -> res B) b (l : seq A) a :
  rfold f b (rcons l a) = rbind (rfold f b l) (fun b' => f b' a).
Proof.
elim: l b => [|c l IH] b /=; first by case: (f b a).
by case: (f b c).
Qed.

Lemma rfold_cat (A B : Type) (f : B -> A -> res B) b (l1 l2 : seq A) :
  rfold f b (l1 ++ l2) = rbind (rfold f b l1) (fun b' => rfold f b' l2).
Proof. by elim: l1 b => [|c l IH] b //=; case: (f b c). Qed.

(** ** Filling with the trial *)

Section Fixed.
Variables (s L : nat) (diag : bool) (BT BTinv : M).
Hypothesis s_pos : (0 < s)%N.
Hypothesis s_div : (s %| L)%N.
Let nb := (L %/ s)%N.

Lemma nbE : (nb * s)%N = L.
Proof. by rewrite divnK. Qed.

Lemma bin_lt t : (t < L)%N -> (t %/ s < nb)%N.
Proof. by move=> lt; rewrite ltn_divLR // nbE. Qed.

(** a fresh stack, and a stack after a reset, apart from the counter *)
Definition fresh (c : nat) : pstack F n :=
  PStack 0 s L nb c 0 (nseq nb 1%:M) (nseq nb 1%:M) (nseq nb 1%:M).

Lemma ps_newE : ps_new F n s L = Ok (fresh 0).
Proof.
rewrite /ps_new eqn0Ngt s_pos /= -/nb nbE ltnn /ps_reset /=.
by [].
Qed.

Hypothesis good : good_trial diag BT BTinv.

(** after i slices of the trial *)
Definition filled c i : pstack F n :=
  let f := fun b => pw BT (minn s (i - b * s)) in
  PStack 0 s L nb c 0 (mkseq f nb) (mkseq f nb) (nseq nb 1%:M).

Lemma filled0 c : filled c 0 = fresh c.
Proof. by rewrite /filled /fresh !mkseq_const; congr PStack; apply: eq_mkseq => b; rewrite sub0n minn0. Qed.

Lemma same_bin i b : b != (i %/ s)%N -> minn s (i.+1 - b * s) = minn s (i - b * s).
Proof.
have := ltn_pmod i s_pos; have := divn_eq i s.
move: (i %/ s)%N (i %% s)%N => q r e lt; rewrite neq_ltn => /orP[lb|lb].
- have le : (b * s + s <= q * s)%N by rewrite addnC -mulSn leq_mul2r lb orbT.
  move: (b * s)%N (q * s)%N e le => x y; lia.
- have le : (q * s + s <= b * s)%N by rewrite addnC -mulSn leq_mul2r lb orbT.
  move: (b * s)%N (q * s)%N e le => x y; lia.
Qed.

Lemma this_bin i : minn s (i.+1 - (i %/ s) * s) = (i %% s).+1.
Proof.
rewrite {1}(divn_eq i s) -addnS addKn; apply/minn_idPr.
by apply: ltn_pmod.
Qed.

Lemma this_bin0 i : minn s (i - (i %/ s) * s) = (i %% s)%N.
Proof.
rewrite {1}(divn_eq i s) addKn; apply/minn_idPr.
by apply: ltnW; exact: ltn_pmod.
Qed.

Lemma set_oneE c i : (i < L)%N -> set_one diag BT (filled c i) i = Ok (filled c i.+1).
Proof.
move=> lt; have lb := bin_lt lt.
rewrite /set_one /= item_mkseq //= this_bin0.
have -> : (if diag then diag_mul BT (pw BT (i %% s)) else BT *m pw BT (i %% s))
          = pw BT (i %% s).+1.
  case: good => _; case: (diag) => d; rewrite pwSl //.
  by apply: diag_mulE; [apply: d | apply: diagonal_pw; apply: d].
pose g := fun b => pw BT (minn s (i.+1 - b * s)).
have pE : forall x, x = pw BT (i %% s).+1 ->
    put (mkseq (fun b => pw BT (minn s (i - b * s))) nb) (i %/ s)%N x
    = Ok (mkseq g nb).
  move=> x ->; apply: put_mkseq => //; first by rewrite /g this_bin.
  by move=> j _ ne; rewrite /g same_bin.
by rewrite !pE.
Qed.

Lemma set_prefix c i : (i <= L)%N ->
  rfold (set_one diag BT) (fresh c) (iota 0 i) = Ok (filled c i).
Proof.
elim: i => [|i IH] le; first by rewrite /= filled0.
rewrite -addn1 iotaD add0n rfold_cat IH /=; last exact: ltnW.
by rewrite set_oneE //= addn1.
Qed.

(** ** Full-rank updates *)

Definition state c (Bs : seq M) : pstack F n :=
  PStack (size Bs) s L nb ((c + size Bs) %% s)%N (size Bs %/ s)%N
    (bins s nb (slices L BT Bs))
    (mkseq (fun b => pw BT (s - minn s (size Bs - b * s))) nb)
    (mkseq (fun b => ordered (take s (drop (b * s) Bs))) nb).

Lemma bin_room b : (b < nb)%N -> (b * s + s <= L)%N.
Proof. by move=> lt; rewrite addnC -mulSn -nbE leq_mul2r lt orbT. Qed.

Lemma drop_nseq k m (x : M) : drop k (nseq m x) = nseq (m - k) x.
Proof. by elim: k m => [|k IH] [|m] //=; rewrite IH subSS. Qed.

Lemma take_nseq' k m (x : M) : take k (nseq m x) = nseq (minn k m) x.
Proof. by elim: k m => [|k IH] [|m] //=; rewrite IH minnSS. Qed.

Lemma filled_state c : (c < s)%N -> filled c L = state c [::].
Proof.
move=> lt; rewrite /filled /state /= addn0 (modn_small lt) div0n; congr PStack.
- rewrite /bins /mkseq; apply/eq_in_map => b; rewrite mem_iota add0n => /andP[_ ltb].
  have le := bin_room ltb.
  rewrite /slices /= subn0 drop_nseq take_nseq' -/(pw BT _).
  by congr (pw _ _); move: le; move: (b * s)%N => x; lia.
- rewrite /mkseq; apply/eq_in_map => b; rewrite mem_iota add0n => /andP[_ ltb].
  have le := bin_room ltb.
  by congr (pw _ _); move: le; move: (b * s)%N => x; lia.
- by rewrite mkseq_const.
Qed.

Lemma set_allE c : (c < s)%N -> set_all diag BT (fresh c) = Ok (state c [::]).
Proof. by move=> lt; rewrite /set_all /= set_prefix // filled_state. Qed.

Lemma size_slices Bs : (size Bs <= L)%N -> size (slices L BT Bs) = L.
Proof. by move=> le; rewrite size_cat size_nseq subnKC. Qed.

Lemma slices_other Bs B b : (size Bs < L)%N -> b != (size Bs %/ s)%N ->
  take s (drop (b * s) (slices L BT (rcons Bs B)))
  = take s (drop (b * s) (slices L BT Bs)).
Proof.
move=> lt ne.
have sz1 : size (slices L BT (rcons Bs B)) = L by rewrite size_slices // size_rcons.
have sz2 : size (slices L BT Bs) = L by rewrite size_slices // ltnW.
apply: (@eq_from_nth _ 0); first by rewrite !size_take !size_drop sz1 sz2.
move=> i; rewrite size_take size_drop sz1 => lti.
have li : (i < s)%N by move: lti; case: (ltnP s); move: (b * s)%N; lia.
rewrite !nth_take // !nth_drop /slices !nth_cat size_rcons nth_rcons.
have ne2 : (b * s + i)%N != size Bs.
  apply/eqP=> e; move/eqP: ne; apply.
  by rewrite -e divnMDl // divn_small // addn0.
have lx : (b * s + i < L)%N by move: lti; case: (ltnP s); move: (b * s)%N; lia.
have -> : (b * s + i < (size Bs).+1)%N = (b * s + i < size Bs)%N.
  by rewrite ltnS leq_eqVlt (negbTE ne2).
case: ltnP => // ge; rewrite !nth_nseq.
have gt : (size Bs < b * s + i)%N by rewrite ltn_neqAle eq_sym ne2.
have -> : (b * s + i - (size Bs).+1 < L - (size Bs).+1)%N
  by move: gt lx; move: (b * s + i)%N; lia.
have -> : (b * s + i - size Bs < L - size Bs)%N
  by move: gt lx; move: (b * s + i)%N; lia.
by [].
Qed.

Lemma this_room t : (t < L)%N -> ((t %/ s) * s + s <= L)%N.
Proof. by move=> lt; apply: bin_room; apply: bin_lt. Qed.

Lemma slices_this Bs b : (b * s <= size Bs)%N ->
  (size Bs <= b * s + s)%N -> (b * s + s <= L)%N ->
  take s (drop (b * s) (slices L BT Bs))
  = drop (b * s) Bs ++ nseq (b * s + s - size Bs) BT.
Proof.
move: (b * s)%N => x h1 h2 h3.
rewrite /slices drop_cat; case: (ltnP x (size Bs)) => h4.
- rewrite take_cat size_drop; case: ltnP => h6.
  + by exfalso; lia.
  + by congr (_ ++ _); rewrite take_nseq'; congr nseq; lia.
- rewrite drop_nseq take_nseq' drop_oversize //=; congr nseq; lia.
Qed.

Lemma divE t : t = ((t %/ s) * s + t %% s)%N.
Proof. exact: divn_eq. Qed.

Lemma update_fullE c Bs B : (size Bs < L)%N ->
  ((c + size Bs) %% s = 0 -> (size Bs) %% s = 0)%N ->
  update_full diag BTinv (state c Bs) B = Ok (state c (rcons Bs B)).
Proof.
move=> lt hc; have lb := bin_lt lt; have room := this_room lt.
set t := size Bs in lt hc lb room *; set q := (t %/ s)%N in lb room *.
have tE : t = (q * s + t %% s)%N by exact: divE.
have lr : (t %% s < s)%N by exact: ltn_pmod.
have qt : (q * s <= t)%N by move: tE; move: (q * s)%N => y; lia.
have tq : (t <= q * s + s)%N by move: tE lr; move: (q * s)%N => y; lia.
have chunk : take s (drop (q * s) Bs) = drop (q * s) Bs.
  by rewrite take_oversize // size_drop -/t leq_subLR.
rewrite /update_full /= -/t -/q.
set r0 := (X in rbind X).
have -> : r0 = Ok (mkseq (fun b => ordered (take s (drop (b * s) Bs))) nb).
  rewrite /r0; case: eqP => // c0; apply: put_mkseq => //.
  rewrite chunk drop_oversize // -/t.
  by move: (hc c0) tE; move: (q * s)%N => y; lia.
rewrite /= !item_mkseq //=.
have -> : (s - minn s (t - q * s) = (s - (t %% s).+1).+1)%N by move: tE lr; move: (q * s)%N => y; lia.
set k := (s - (t %% s).+1)%N.
have -> : (if diag then diag_mul (pw BT k.+1) BTinv else pw BT k.+1 *m BTinv) = pw BT k.
  case: good => e; case: (diag) => d.
    rewrite (diag_mulE (diagonal_pw _ (d isT)) (diagonal_inv (d isT) e)).
    by rewrite pwS -mulmxA e mulmx1.
  by rewrite pwS -mulmxA e mulmx1.
rewrite chunk.
have -> : (if diag then einsum_ii_ij (pw BT k) (B *m ordered (drop (q * s) Bs))
           else pw BT k *m (B *m ordered (drop (q * s) Bs)))
        = pw BT k *m (B *m ordered (drop (q * s) Bs)).
  by case: good => _; case: (diag) => // d; rewrite einsumE //; apply: diagonal_pw; apply: d.
have drc : drop (q * s) (rcons Bs B) = rcons (drop (q * s) Bs) B by rewrite drop_rcons.
rewrite (@put_mkseq _ (fun b => pw BT (s - minn s (size (rcons Bs B) - b * s)))) //=; first last.
- by move=> j _ ne; rewrite size_rcons -/t same_bin.
- rewrite size_rcons -/t; congr (pw _ _); rewrite /k.
  by move: tE lr; move: (q * s)%N => y; lia.
rewrite (@put_mkseq _ (fun b => ordered (take s (drop (b * s) (rcons Bs B))))) //=; first last.
- move=> j _ ne; congr ordered.
  have [le|gt] := leqP (j * s) t.
  + rewrite drop_rcons // -cats1 takel_cat //.
    rewrite size_drop -/t; move: ne; rewrite neq_ltn => /orP[lj|lj].
      have := leq_mul lj (leqnn s); rewrite mulSn.
      by move: (j * s)%N (q * s)%N qt => x y; lia.
    have := leq_mul lj (leqnn s); rewrite mulSn.
    by move: (j * s)%N (q * s)%N tE lr le => x y; lia.
  + by rewrite !drop_oversize // ?size_rcons -/t // ltnW.
- rewrite drc take_oversize ?ordered_rcons // size_rcons size_drop -/t.
  by move: tE lr; move: (q * s)%N => y; lia.
rewrite /bins (@put_mkseq _ (fun b => ordered (take s (drop (b * s) (slices L BT (rcons Bs B)))))) //=; first last.
- by move=> j _ ne; rewrite slices_other.
- rewrite slices_this ?size_rcons -/t //; last first.
  + by move: tE lr; move: (q * s)%N => y; lia.
  + exact: leqW.
  rewrite drc ordered_cat ordered_rcons -/(pw BT _); congr (pw _ _ *m _).
  by rewrite /k; move: tE lr; move: (q * s)%N => y; lia.
congr Ok; rewrite /advance /state /=; congr PStack; rewrite ?size_rcons //.
by rewrite -addn1 modnDml addn1 addnS.
Qed.

Lemma updates_fullE Bs : (size Bs <= L)%N ->
  rfold (update_full diag BTinv) (state 0 [::]) Bs = Ok (state 0 Bs).
Proof.
elim/last_ind: Bs => [|Bs B IH] // le.
rewrite size_rcons in le; rewrite rfold_rcons IH /=; last exact: ltnW.
by rewrite update_fullE // add0n.
Qed.

Lemma updates_full_overrun Bs : (L < size Bs)%N ->
  rfold (update_full diag BTinv) (state 0 [::]) Bs = Err IndexError.
Proof.
move=> lt; rewrite -(cat_take_drop L Bs) rfold_cat updates_fullE; last first.
  by rewrite size_take lt.
rewrite /=; case e : (drop L Bs) => [|B l].
  by move/(congr1 size): e; rewrite size_drop /=; lia.
rewrite /= /update_full /= size_take lt add0n.
have -> : (L %% s = 0)%N by apply/eqP.
by rewrite /= /put size_mkseq -/nb ltnn.
Qed.

Lemma run_fullE Bs : (size Bs <= L)%N ->
  run_full diag BT BTinv s L Bs = Ok (state 0 Bs).
Proof. by move=> le; rewrite /run_full ps_newE /= set_allE //= updates_fullE. Qed.

Lemma run_full_overrun Bs : (L < size Bs)%N ->
  run_full diag BT BTinv s L Bs = Err IndexError.
Proof.
by move=> lt; rewrite /run_full ps_newE /= set_allE //= updates_full_overrun.
Qed.

(** ** The product over the bins *)

Lemma ordered_bins k l : ordered (bins s k l) = ordered (take (k * s) l).
Proof.
elim: k => [|k IH]; first by rewrite mul0n take0.
have -> : bins s k.+1 l = rcons (bins s k l) (ordered (take s (drop (k * s) l))).
  by rewrite /bins mkseqS.
rewrite ordered_rcons IH mulSn addnC takeD ordered_cat.
by [].
Qed.

Lemma take_bins f l : (f <= nb)%N -> take f (bins s nb l) = bins s f l.
Proof.
move=> le; rewrite /bins /mkseq -map_take; congr map.
by rewrite take_iota (minn_idPl le).
Qed.

Lemma drop_bins f l : (f <= nb)%N ->
  drop f (bins s nb l) = bins s (nb - f) (drop (f * s) l).
Proof.
move=> le; apply: (@eq_from_nth _ 0); first by rewrite size_drop !size_mkseq.
move=> i; rewrite size_drop size_mkseq => lt.
rewrite nth_drop !nth_mkseq //; last by lia.
by rewrite drop_drop mulnDl addnC.
Qed.

Lemma rot_bins f l : (f <= nb)%N -> size l = L ->
  ordered (rot f (bins s nb l)) = ordered (rot (s * f) l).
Proof.
move=> le sz; rewrite /rot ordered_cat take_bins // drop_bins // !ordered_bins.
rewrite [(s * f)%N]mulnC ordered_cat; congr (_ *m ordered _).
by rewrite take_oversize // size_drop sz -nbE mulnBl.
Qed.

Lemma mod_rot f l : (f <= size l)%N ->
  mkseq (fun i => nth 0 l ((f + i) %% size l)) (size l) = rot f l.
Proof.
move=> le; apply: (@eq_from_nth _ 0); first by rewrite size_mkseq size_rot.
move=> i; rewrite size_mkseq => lt; rewrite nth_mkseq // /rot nth_cat size_drop.
case: ltnP => h.
  by rewrite nth_drop modn_small // -ltn_subRL.
have ltf : (i - (size l - f) < f)%N.
  by move: le lt h; move: (size l) => m; lia.
rewrite nth_take //; congr nth.
have -> : (f + i = (i - (size l - f)) + size l)%N.
  by move: le lt h; move: (size l) => m; lia.
rewrite modnDr modn_small //.
exact: leq_trans ltf le.
Qed.

Lemma fold_items l k f A0 : (0 < size l)%N ->
  rfold (fun A i => rbind (item l ((f + i) %% size l)%N) (fun B => Ok (B *m A)))
        A0 (iota 1 k)
  = Ok (ordered [seq nth 0 l ((f + i) %% size l)%N | i <- iota 1 k] *m A0).
Proof.
move=> pos; elim: k 1%N A0 => [|k IH] j A0 /=; first by rewrite mul1mx.
rewrite /item ltn_pmod //= IH; congr Ok.
by rewrite [in RHS]ordered_cons mulmxA.
Qed.

Lemma path_productE p l i :
  stack_size p = s -> nbins p = nb -> stk p = bins s nb l -> size l = L ->
  (0 < L)%N -> (i <= L)%N ->
  path_product p i = Ok (ordered (cyclic s L i l)).
Proof.
move=> es en ek sz pos le; rewrite /path_product /first_bin es en ek.
have nbpos : (0 < nb)%N by rewrite divn_gt0 // dvdn_leq.
rewrite eqn0Ngt s_pos /= eqn0Ngt nbpos /=.
set f := (if _ then _ else _).
have szb : size (bins s nb l) = nb by rewrite size_mkseq.
have lf : (f <= nb)%N.
  rewrite /f; case: eqP => // /eqP ne; rewrite ltn_neqAle ne /=.
  by apply: leq_div2r.
have e := @fold_items (bins s nb l) nb.-1 f.
rewrite szb in e.
have -> : item (bins s nb l) (f %% nb) = Ok (nth 0 (bins s nb l) (f %% nb)).
  by rewrite /item szb ltn_pmod.
rewrite /= e //; congr Ok; rewrite -ordered_cons.
have -> : nth 0 (bins s nb l) (f %% nb)
            :: [seq nth 0 (bins s nb l) ((f + i0) %% nb) | i0 <- iota 1 nb.-1]
          = rot f (bins s nb l).
  rewrite -mod_rot ?szb // /mkseq.
  have -> : iota 0 nb = 0%N :: iota 1 nb.-1 by rewrite -{1}(prednK nbpos).
  by rewrite /= addn0.
rewrite rot_bins // /cyclic /f.
have [e2|ne] := altP (i =P L); first by rewrite e2 -/nb eqxx muln0 rot0.
have -> // : (i %/ s == nb)%N = false.
apply/eqP => e2; move/eqP: ne; apply; apply/eqP; rewrite eqn_leq le /= -nbE -/nb -e2.
exact: leq_trunc_div.
Qed.

(** ** The update of the constrained discrete propagator *)

Definition ustate (Bs : seq M) : pstack F n :=
  PStack (size Bs) s L nb (size Bs %% s)%N (size Bs %/ s)%N
    (mkseq (fun b => ordered (started s BT Bs b)) nb)
    (mkseq (fun _ => pw BT s) nb)
    (nseq nb 1%:M).

Lemma filled_ustate : filled 0 L = ustate [::].
Proof.
rewrite /filled /ustate /= mod0n div0n; congr PStack.
- rewrite /mkseq; apply/eq_in_map => b; rewrite mem_iota add0n => /andP[_ ltb].
  have le := bin_room ltb; rewrite /started /= -/(pw BT s).
  by congr (pw _ _); move: le; move: (b * s)%N => x; lia.
- rewrite /mkseq; apply/eq_in_map => b; rewrite mem_iota add0n => /andP[_ ltb].
  have le := bin_room ltb.
  by congr (pw _ _); move: le; move: (b * s)%N => x; lia.
Qed.

Lemma updateE Bs B : (size Bs < L)%N ->
  update (ustate Bs) B = Ok (ustate (rcons Bs B)).
Proof.
move=> lt; have lb := bin_lt lt; have room := this_room lt.
set t := size Bs in lt lb room *; set q := (t %/ s)%N in lb room *.
have tE : t = (q * s + t %% s)%N by exact: divE.
have lr : (t %% s < s)%N by exact: ltn_pmod.
have qt : (q * s <= t)%N by move: tE; move: (q * s)%N => y; lia.
have chunk : take s (drop (q * s) Bs) = drop (q * s) Bs.
  by rewrite take_oversize // size_drop -/t; move: tE lr; move: (q * s)%N => y; lia.
rewrite /update /= -/t -/q.
set s0 := (X in rbind X).
pose g := fun b => if b == q then ordered (drop (q * s) Bs)
                   else ordered (started s BT Bs b).
have -> : s0 = Ok (mkseq g nb).
  rewrite /s0; case: eqP => c0.
    apply: put_mkseq => //; rewrite /g ?eqxx.
      by rewrite drop_oversize // -/t; move: tE; rewrite c0; move: (q * s)%N => y; lia.
    by move=> j _ /negbTE ->.
  congr Ok; rewrite /mkseq; apply/eq_in_map => b _; rewrite /g; case: eqP => // ->.
  rewrite /started -/t.
  have -> : (q * s < t)%N by move: tE c0; move: (q * s)%N => y; lia.
  by rewrite chunk.
have gq : g q = ordered (drop (q * s) Bs) by rewrite /g eqxx.
rewrite /= item_mkseq //= gq.
have drc : drop (q * s) (rcons Bs B) = rcons (drop (q * s) Bs) B by rewrite drop_rcons.
rewrite (@put_mkseq _ (fun b => ordered (started s BT (rcons Bs B) b))) //=; first last.
- move=> j _ ne; rewrite /g (negbTE ne) /started size_rcons -/t.
  congr ordered; move: ne; rewrite neq_ltn => /orP[lj|lj].
  + have le : (j * s + s <= q * s)%N by rewrite addnC -mulSn leq_mul2r lj orbT.
    have -> : (j * s < t)%N by move: qt le s_pos; move: (q * s)%N (j * s)%N => y z; lia.
    have -> : (j * s < t.+1)%N by move: qt le s_pos; move: (q * s)%N (j * s)%N => y z; lia.
    have le2 : (j * s <= t)%N by move: qt le s_pos; move: (q * s)%N (j * s)%N => y z; lia.
    rewrite drop_rcons // -cats1 takel_cat // size_drop -/t.
    by move: qt le; move: (q * s)%N (j * s)%N => y z; lia.
  + have le : (q * s + s <= j * s)%N by rewrite addnC -mulSn leq_mul2r lj orbT.
    have -> : (j * s < t)%N = false.
      by apply/negbTE; move: tE lr le; move: (q * s)%N (j * s)%N => y z; lia.
    have -> // : (j * s < t.+1)%N = false.
      by apply/negbTE; move: tE lr le; move: (q * s)%N (j * s)%N => y z; lia.
- rewrite /started size_rcons -/t ltnS qt drc take_oversize ?ordered_rcons //.
  by rewrite size_rcons size_drop -/t; move: tE lr; move: (q * s)%N => y; lia.
congr Ok; rewrite /advance /ustate /=; congr PStack; rewrite ?size_rcons //.
by rewrite -addn1 modnDml addn1.
Qed.

Lemma updatesE Bs : (size Bs <= L)%N ->
  rfold (@update F n) (ustate [::]) Bs = Ok (ustate Bs).
Proof.
elim/last_ind: Bs => [|Bs B IH] // le.
rewrite size_rcons in le; rewrite rfold_rcons IH /=; last exact: ltnW.
by rewrite updateE.
Qed.

Lemma run_updateE Bs : (size Bs <= L)%N ->
  run_update diag BT s L Bs = Ok (ustate Bs).
Proof.
move=> le; rewrite /run_update ps_newE /= /set_all /= set_prefix //=.
by rewrite filled_ustate updatesE.
Qed.

Lemma run_update_overrun Bs : (L < size Bs)%N ->
  run_update diag BT s L Bs = Err IndexError.
Proof.
move=> lt; rewrite /run_update ps_newE /= /set_all /= set_prefix //=.
rewrite filled_ustate -(cat_take_drop L Bs) rfold_cat updatesE; last first.
  by rewrite size_take lt.
rewrite /=; case e : (drop L Bs) => [|B l].
  by move/(congr1 size): e; rewrite size_drop /=; lia.
rewrite /= /update /= size_take lt.
have -> : (L %% s = 0)%N by apply/eqP.
by rewrite /= /put size_mkseq -/nb ltnn.
Qed.

(** at the end of a bin both updates agree *)
Lemma started_boundary Bs : (size Bs <= L)%N -> (s %| size Bs)%N ->
  mkseq (fun b => ordered (started s BT Bs b)) nb = bins s nb (slices L BT Bs).
Proof.
move=> le /dvdnP[q e]; rewrite /bins /mkseq; apply/eq_in_map => b.
rewrite mem_iota add0n => /andP[_ ltb]; have room := bin_room ltb.
rewrite /started; congr ordered; case: ltnP => h.
- have lb : (b < q)%N by move: h; rewrite e ltn_mul2r s_pos.
  have rm : (b * s + s <= size Bs)%N by rewrite e addnC -mulSn leq_mul2r lb orbT.
  rewrite /slices drop_cat h takel_cat // size_drop.
  by move: rm; move: (b * s)%N => x; lia.
- have := leq_trans h _; rewrite /slices drop_cat ltnNge h /= drop_nseq take_nseq'.
  by move=> _; congr nseq; move: room; move: (b * s)%N h => x; lia.
Qed.

(** ** Resets *)

Lemma resetE c Bs : ps_reset (state c Bs) = fresh ((c + size Bs) %% s).
Proof. by []. Qed.

Lemma pathE Bs : (size Bs = L)%N ->
  path diag BT BTinv (fresh 0) Bs = Ok (fresh 0).
Proof.
move=> e; rewrite /path set_allE //= updates_fullE ?e //= resetE add0n e.
by have -> : (L %% s = 0)%N by apply/eqP.
Qed.

Lemma pathsE paths : (forall Bs, Bs \in paths -> size Bs = L) ->
  rfold (path diag BT BTinv) (fresh 0) paths = Ok (fresh 0).
Proof.
elim: paths => [|Bs paths IH] //= h; rewrite pathE ?h ?mem_head //=.
by apply: IH => Cs i; apply: h; rewrite in_cons i orbT.
Qed.

Lemma reset_fresh Bs : (size Bs <= L)%N ->
  ps_reset (state 0 Bs) = fresh 0 <-> (s %| size Bs)%N.
Proof.
move=> le; rewrite resetE add0n; split => [[/eqP]|/eqP -> //]; by [].
Qed.

End Fixed.

(** ** Determinants *)

Lemma det_sylvester (A B : M) : \det (1%:M + A *m B) = \det (1%:M + B *m A).
Proof.
have e1 : block_mx 1%:M (- A) B 1%:M
        = block_mx 1%:M 0 B 1%:M *m block_mx 1%:M (- A) 0 (1%:M + B *m A) :> 'M_(n + n).
  rewrite mulmx_block !mul1mx !mul0mx !mulmx1 !addr0 !mulmxN.
  by rewrite addrCA addNr addr0.
have e2 : block_mx 1%:M (- A) B 1%:M
        = block_mx (1%:M + A *m B) (- A) 0 1%:M *m block_mx 1%:M 0 B 1%:M :> 'M_(n + n).
  rewrite mulmx_block !mulmx1 !mul0mx !mul1mx !mulmx0 !add0r.
  by rewrite mulNmx addrK.
have := congr1 determinant e1; rewrite {1}e2 !det_mulmx !det_ublock !det_lblock.
by rewrite !det1 !mul1r !mulr1.
Qed.

Lemma weight_rot k l : weight (rot k l) = weight l.
Proof.
by rewrite /weight /rot ordered_cat det_sylvester -ordered_cat cat_take_drop.
Qed.

Lemma weight_cyclic s L i l : weight (cyclic s L i l) = weight l.
Proof. by rewrite /cyclic; case: eqP => // _; apply: weight_rot. Qed.

Section Walker.
Variables (s L : nat) (diag : bool) (BT BTinv : M).
Hypothesis s_pos : (0 < s)%N.
Hypothesis L_pos : (0 < L)%N.
Hypothesis s_div : (s %| L)%N.
Hypothesis good : good_trial diag BT BTinv.

Notation state := (state s L BT 0).

Lemma detGE Bs i : (size Bs <= L)%N -> (i <= L)%N ->
  detG (state Bs) i = Ok (weight (slices L BT Bs))^-1.
Proof.
move=> le li; rewrite /detG.
rewrite (@path_productE s L s_pos s_div _ (slices L BT Bs)) ?size_slices //=.
by congr (Ok _^-1); rewrite -/(weight _) weight_cyclic.
Qed.

Lemma walker_newE :
  walker_new diag BT s L = Ok (TWalker (state [::]) (weight (nseq L BT))^-1).
Proof.
rewrite /walker_new ps_newE //= (set_allE s_pos s_div good) //= detGE //=.
by rewrite /slices /= subn0.
Qed.

Lemma walker_stepE Bs B m : (size Bs < L)%N ->
  weight (slices L BT (rcons Bs B)) != 0 ->
  walker_step diag BTinv (TWalker (state Bs) m) B
  = Ok (TWalker (state (rcons Bs B)) (weight (slices L BT (rcons Bs B)))^-1,
        m * weight (slices L BT (rcons Bs B))).
Proof.
move=> lt nz; rewrite /walker_step /= (update_fullE s_pos s_div good) //=.
by rewrite detGE ?size_rcons //= invr_eq0 (negbTE nz) invrK.
Qed.

Lemma walker_pathE Bs m : (size Bs <= L)%N -> nonzero L BT Bs -> Bs != [::] ->
  walker_path diag BTinv (TWalker (state [::]) m) Bs
  = Ok (TWalker (state Bs) (weight (slices L BT Bs))^-1,
        m * weight (slices L BT Bs)).
Proof.
elim/last_ind: Bs => [|Bs B IH] // le nz _.
rewrite size_rcons in le; rewrite /walker_path rfold_rcons -/(walker_path _ _ _ _).
have nzB : weight (slices L BT (rcons Bs B)) != 0.
  by have := nz _ (leqnn _); rewrite take_size.
have nz' : nonzero L BT Bs.
  move=> k lk; have := nz k; rewrite size_rcons -cats1 takel_cat // => h.
  by apply: h; apply: leqW.
case: (altP (Bs =P [::])) => [e|ne].
  by rewrite e /= in nzB le *; rewrite (@walker_stepE [::]) //= mul1r.
rewrite IH //=; last exact: ltnW.
rewrite walker_stepE //=; congr (Ok (_, _)).
rewrite -mulrA; congr (_ * _); rewrite mulrA mulfV ?mul1r //.
by have := nz' _ (leqnn _); rewrite take_size.
Qed.

Lemma walker_resetE Bs m : size Bs = L ->
  walker_reset diag BT (TWalker (state Bs) m) = Ok (TWalker (state [::]) m).
Proof.
move=> e; rewrite /walker_reset /= resetE add0n e.
have -> : (L %% s = 0)%N by apply/eqP.
by rewrite (set_allE s_pos s_div good).
Qed.

Lemma walker_runE paths m0 rs : m0 != 0 ->
  (forall Bs, Bs \in paths -> size Bs = L /\ nonzero L BT Bs) ->
  exists m, rfold (fun wr Bs =>
           rbind (walker_path diag BTinv wr.1 Bs) (fun wr' =>
           rbind (walker_reset diag BT wr'.1) (fun w' =>
           Ok (w', rcons wr.2 wr'.2))))
        (TWalker (state [::]) m0^-1, rs) paths
  = Ok (TWalker (state [::]) m, rs ++ relative m0 paths).
Proof.
elim: paths m0 rs => [|Bs paths IH] m0 rs nz0 h /=.
  by exists m0^-1; rewrite cats0.
have [sz nz] := h Bs (mem_head _ _).
have ne : Bs != [::] by case: Bs sz {nz h} => //= e; move: L_pos; rewrite -e.
have sl : slices L BT Bs = Bs by rewrite /slices sz subnn cats0.
have nzB : weight Bs != 0 by have := nz _ (leqnn _); rewrite take_size sl.
rewrite walker_pathE ?sz //= walker_resetE //= sl.
have h' : forall Cs, Cs \in paths -> size Cs = L /\ nonzero L BT Cs.
  by move=> Cs i; apply: h; rewrite in_cons i orbT.
have [m ->] := IH (weight Bs) (rcons rs (m0^-1 * weight Bs)) nzB h'.
exists m; congr (Ok (_, _)).
by rewrite cat_rcons [m0^-1 * _]mulrC.
Qed.

End Walker.
End Proofs.

(** ** Closed statements *)

Section Closed.
Variables (F : fieldType) (n s L : nat) (diag : bool) (BT BTinv : 'M[F]_n).

Lemma stack_correct (Bs : seq 'M[F]_n) :
  (0 < s)%N -> (s %| L)%N -> good_trial diag BT BTinv -> (size Bs <= L)%N ->
  exists p, run_full diag BT BTinv s L Bs = Ok p /\
    time_slice p = size Bs /\ block p = (size Bs %/ s)%N /\ counter p = (size Bs %% s)%N /\
    stk p = bins s (L %/ s) (slices L BT Bs) /\
    (forall i, (0 < L)%N -> (i <= L)%N ->
       path_product p i = Ok (ordered (cyclic s L i (slices L BT Bs)))).
Proof.
move=> s0 d g le; exists (state s L BT 0 Bs); split; first exact: (run_fullE s0 d g).
do 4!(split=> //); move=> i L0 li; apply: path_productE => //.
exact: size_slices.
Qed.

Lemma stack_overrun (Bs : seq 'M[F]_n) :
  (0 < s)%N -> (s %| L)%N -> good_trial diag BT BTinv -> (L < size Bs)%N ->
  run_full diag BT BTinv s L Bs = Err IndexError.
Proof. by move=> s0 d g lt; apply: (run_full_overrun s0 d g). Qed.

Lemma ps_new_ok : is_ok (ps_new F n s L) <-> ((0 < s)%N /\ (s %| L)%N).
Proof.
rewrite /ps_new; case: eqP => [->|/eqP ne]; first by split=> // - [].
have s0 : (0 < s)%N by rewrite lt0n.
case: ltnP => h; split=> //.
- by move=> [_ d]; move: h; rewrite divnK // ltnn.
- move=> _; split=> //; apply/eqP.
  have e := divn_eq L s; move: h; rewrite {1}e; move: (L %/ s * s)%N (L %% s)%N => x y.
  by lia.
Qed.

Lemma update_correct (Bs : seq 'M[F]_n) :
  (0 < s)%N -> (s %| L)%N -> good_trial diag BT BTinv -> (size Bs <= L)%N ->
  exists p, run_update diag BT s L Bs = Ok p /\
    time_slice p = size Bs /\ block p = (size Bs %/ s)%N /\ counter p = (size Bs %% s)%N /\
    stk p = mkseq (fun b => ordered (started s BT Bs b)) (L %/ s).
Proof.
by move=> s0 d g le; exists (ustate s L BT Bs); split; first exact: (run_updateE s0 d g).
Qed.

Lemma update_when_read (Bs : seq 'M[F]_n) request freq :
  (0 < s)%N -> (s %| L)%N -> good_trial diag BT BTinv -> (size Bs <= L)%N ->
  (0 < request)%N -> fix_nstblz s request = Ok freq -> (size Bs %% freq = 0)%N ->
  exists p, run_update diag BT s L Bs = Ok p /\
    stk p = bins s (L %/ s) (slices L BT Bs) /\
    (forall i, (0 < L)%N -> (i <= L)%N ->
       path_product p i = Ok (ordered (cyclic s L i (slices L BT Bs)))).
Proof.
move=> s0 d g le r0 e z.
rewrite fix_nstblz_eq in e; [|exact/leP|exact/leP].
case: e => e; rewrite -e in z; have dv : (s %| size Bs)%N by apply/eqP.
have es : stk (ustate s L BT Bs) = bins s (L %/ s) (slices L BT Bs).
  by rewrite /= started_boundary.
exists (ustate s L BT Bs); split; first exact: (run_updateE s0 d g).
split=> // i L0 li; apply: path_productE => //.
exact: size_slices.
Qed.

Lemma reset_iff (Bs : seq 'M[F]_n) :
  (0 < s)%N -> (s %| L)%N -> good_trial diag BT BTinv -> (size Bs <= L)%N ->
  exists p q, run_full diag BT BTinv s L Bs = Ok p /\ ps_new F n s L = Ok q /\
    (ps_reset p = q <-> (s %| size Bs)%N).
Proof.
move=> s0 d g le; exists (state s L BT 0 Bs), (fresh F n s L 0).
split; first exact: (run_fullE s0 d g).
split; first exact: ps_newE.
exact: reset_fresh.
Qed.

Lemma paths_fresh (paths : seq (seq 'M[F]_n)) :
  (0 < s)%N -> (s %| L)%N -> good_trial diag BT BTinv ->
  (forall Bs, Bs \in paths -> size Bs = L) ->
  exists q, ps_new F n s L = Ok q /\ rfold (path diag BT BTinv) q paths = Ok q.
Proof.
move=> s0 d g h; exists (fresh F n s L 0); split; first exact: ps_newE.
exact: (pathsE s0 d g).
Qed.

Lemma ratios (paths : seq (seq 'M[F]_n)) :
  (0 < s)%N -> (0 < L)%N -> (s %| L)%N -> good_trial diag BT BTinv ->
  weight (nseq L BT) != 0 ->
  (forall Bs, Bs \in paths -> size Bs = L /\ nonzero L BT Bs) ->
  exists w w', walker_new diag BT s L = Ok w /\
    walker_run diag BT BTinv w paths = Ok (w', relative (weight (nseq L BT)) paths).
Proof.
move=> s0 L0 d g nz h; exists (TWalker (state s L BT 0 [::]) (weight (nseq L BT))^-1).
have [m e] := walker_runE s0 L0 d g [::] nz h.
exists (TWalker (state s L BT 0 [::]) m); split=> //.
exact: (walker_newE s0 L0 d g).
Qed.

End Closed.

(** ** Witnesses with 1 x 1 matrices over the rationals *)

Definition sc (x : rat) : 'M[rat]_1 := x%:M.

Lemma sc_mul x y : sc x *m sc y = sc (x * y).
Proof. by rewrite /sc -scalar_mxM. Qed.

Lemma sc1 : 1%:M = sc 1. Proof. by []. Qed.

Lemma sc_inj x y : sc x = sc y -> x = y.
Proof. by move/matrixP/(_ 0 0); rewrite !mxE eqxx !mulr1n. Qed.

Lemma sc_trial (x : rat) : x != 0 -> good_trial false (sc x) (sc x^-1).
Proof. by move=> nz; split => //; rewrite sc_mul mulfV. Qed.

Lemma ordered_sc (l : seq rat) : ordered (map sc l) = sc (\prod_(x <- l) x).
Proof.
elim: l => [|x l IH]; first by rewrite big_nil.
by rewrite map_cons ordered_cons IH sc_mul big_cons mulrC.
Qed.

Lemma weight_sc (l : seq rat) : weight (map sc l) = 1 + \prod_(x <- l) x.
Proof. by rewrite /weight ordered_sc det_mx11 !mxE eqxx !mulr1n. Qed.

Lemma update_mid_bin :
  exists p, run_update false (sc 2%:Q) 2 2 [:: sc 1] = Ok p
    /\ stk p <> bins 2 1 (slices 2 (sc 2%:Q) [:: sc 1])
    /\ path_product p 2 = Ok (sc 1)
    /\ ordered (slices 2 (sc 2%:Q) [:: sc 1]) = sc 2%:Q.
Proof.
exists (ustate 2 2 (sc 2%:Q) [:: sc 1]); split.
  by apply: (@run_updateE _ _ 2 2 false _ (sc 2%:Q^-1)) => //; exact: sc_trial.
have -> : slices 2 (sc 2%:Q) [:: sc 1] = map sc [:: 1; 2%:Q] by [].
split; last split.
- rewrite /bins /ustate /mkseq /started /= => - [].
  rewrite -[[:: sc 1]]/(map sc [:: 1]) -[[:: sc 1; _]]/(map sc [:: 1; 2%:Q]).
  by rewrite !ordered_sc => /sc_inj; rewrite !big_cons !big_nil.
- rewrite /path_product /= /item /=; congr Ok.
  by rewrite /started /= -[[:: sc 1]]/(map sc [:: 1]) ordered_sc !big_cons big_nil.
- by rewrite ordered_sc !big_cons big_nil.
Qed.

(** a path abandoned after one slice, then a full path *)
Lemma mid_path_reset :
  exists p q q',
    run_full false (sc 2%:Q) (sc 2%:Q^-1) 2 2 [:: sc 1] = Ok p
    /\ rbind (set_all false (sc 2%:Q) (ps_reset p))
         (fun p' => rfold (update_full false (sc 2%:Q^-1)) p' [:: sc 3%:Q; sc 5%:Q])
       = Ok q
    /\ run_full false (sc 2%:Q) (sc 2%:Q^-1) 2 2 [:: sc 3%:Q; sc 5%:Q] = Ok q'
    /\ stk q = [:: sc 5%:Q] /\ stk q' = [:: sc 15%:Q].
Proof.
have g := sc_trial (x := 2%:Q) isT.
have d : (2 %| 2)%N by [].
exists (state 2 2 (sc 2%:Q) 0 [:: sc 1]).
have e1 : update_full false (sc 2%:Q^-1) (state 2 2 (sc 2%:Q) 1 [::]) (sc 3%:Q)
        = Ok (state 2 2 (sc 2%:Q) 1 [:: sc 3%:Q]).
  by rewrite (@update_fullE _ _ 2 2 false _ _ _ d g 1 [::]).
have e2 : exists q, update_full false (sc 2%:Q^-1) (state 2 2 (sc 2%:Q) 1 [:: sc 3%:Q])
            (sc 5%:Q) = Ok q /\ stk q = [:: sc 5%:Q].
  eexists; split; first by rewrite /update_full /= /put /= /item /=.
  rewrite /=; congr (_ :: _).
  by rewrite /pw -[nseq _ _]/(map sc [:: 2%:Q]) ordered_sc sc1 !sc_mul big_cons big_nil.
have [q [eq1 eq2]] := e2.
exists q, (state 2 2 (sc 2%:Q) 0 [:: sc 3%:Q; sc 5%:Q]); split; last split; last split.
- by apply: (@run_fullE _ _ 2 2 false).
- rewrite resetE // (set_allE (c := 1) _ _ g) //.
  by cbn [rbind rfold]; rewrite e1; cbn [rbind rfold]; rewrite eq1.
- by apply: (@run_fullE _ _ 2 2 false).
split=> //=; rewrite /bins /mkseq /=; congr (_ :: _).
by rewrite -[[:: sc 3%:Q; _]]/(map sc [:: 3%:Q; 5%:Q]) ordered_sc !big_cons big_nil.
Qed.

Lemma second_path :
  exists w w', walker_new false (sc 1) 1 1 = Ok w
    /\ walker_run false (sc 1) (sc 1^-1) w [:: [:: sc 3%:Q]; [:: sc 1]]
       = Ok (w', [:: 2%:Q; 1 / 2%:Q])
    /\ weight [:: sc 1] / weight (nseq 1 (sc 1)) = 1.
Proof.
have g := sc_trial (x := 1) isT.
have w1 : weight [:: sc 1] = 2%:Q.
  by rewrite -[[:: sc 1]]/(map sc [:: 1]) weight_sc big_cons big_nil.
have w3 : weight [:: sc 3%:Q] = 4%:Q.
  by rewrite -[[:: sc _]]/(map sc [:: 3%:Q]) weight_sc big_cons big_nil.
rewrite (walker_newE (s := 1) (L := 1) _ _ _ g) //=.
have [|Bs|m e] := @walker_runE _ _ 1 1 false (sc 1) (sc 1^-1) isT isT isT g
   [:: [:: sc 3%:Q]; [:: sc 1]] (weight [:: sc 1]) [::].
- by rewrite w1.
- rewrite !inE => /orP[] /eqP ->; split=> // - [|[|k]] //= _;
    by rewrite /slices /= ?w1 ?w3.
exists (TWalker (state 1 1 (sc 1) 0 [::]) (weight [:: sc 1])^-1).
exists (TWalker (state 1 1 (sc 1) 0 [::]) m); split=> //; split.
  by rewrite /walker_run e /= w1 w3.
by rewrite w1.
Qed.
