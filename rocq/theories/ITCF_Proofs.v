(* Proofs about imaginary time Green's functions. *)

From Verif Require Import Base BaseFacts.
Set Warnings "-notation-overridden,-ambiguous-paths".
From mathcomp Require Import all_ssreflect all_algebra.
From mathcomp Require Import zify.
From Verif Require Import Ortho_Model Rank1_Spec Ortho_Spec Ortho_Proofs Taylor_Spec
  BackProp_Model BackProp_Spec BackProp_Proofs ITCF_Model ITCF_Spec.

Set Implicit Arguments.
Unset Strict Implicit.
Unset Printing Implicit Defensive.

Import Order.TTheory GRing.Theory Num.Theory.
Local Open Scope ring_scope.

Section Gen.
Variable C : numClosedFieldType.
Local Notation cj := (@conjC C).

(* Lesser Green's functions of two spans. *)
Lemma lesser_span n m (A A' B B' : 'M[C]_(n, m)) :
  same_span A A' -> same_span B B' -> adj A *m B \in unitmx ->
  lesser A' B' = lesser A B /\ adj A' *m B' \in unitmx.
Proof.
move=> [X uX ->] [Y uY ->]; rewrite adjM => u.
have uX' := adj_unit uX.
have u' : adj A' *m B' \in unitmx.
  by move: u; rewrite -mulmxA unitmx_mul uX' mulmxA unitmx_mul uY andbT.
split=> //; rewrite /lesser adjM.
have -> : adj X *m adj A' *m (B' *m Y) = adj X *m (adj A' *m B' *m Y).
  by rewrite !mulmxA.
rewrite invmx_mul // ?invmx_mul ?unitmx_mul ?u' //.
rewrite -!mulmxA (mulmxA (invmx (adj X))) mulVmx // mul1mx.
by rewrite (mulmxA Y) mulmxV // mul1mx.
Qed.

Lemma same_span_refl n m (A : 'M[C]_(n, m)) : same_span A A.
Proof. by exists 1%:M; rewrite ?unitmx1 ?mulmx1. Qed.

Lemma same_span_trans n m (A B D : 'M[C]_(n, m)) :
  same_span A B -> same_span B D -> same_span A D.
Proof.
move=> [X uX ->] [Y uY ->]; exists (Y *m X); last by rewrite mulmxA.
by rewrite unitmx_mul uX uY.
Qed.

Lemma same_span_sym n m (A B : 'M[C]_(n, m)) : same_span A B -> same_span B A.
Proof.
move=> [X uX ->]; exists (invmx X); first by rewrite unitmx_inv.
by rewrite -mulmxA mulmxV // mulmx1.
Qed.

Lemma same_span_mul n m (M : 'M[C]_n) (A B : 'M[C]_(n, m)) :
  same_span A B -> same_span (M *m A) (M *m B).
Proof. by move=> [X uX ->]; exists X; rewrite ?mulmxA. Qed.

Lemma lesser_idem n m (A B : 'M[C]_(n, m)) : adj A *m B \in unitmx ->
  lesser A B *m lesser A B = lesser A B.
Proof.
move=> u; rewrite /lesser -!mulmxA; congr (_ *m (_ *m _)).
by rewrite !mulmxA mulmxV // mul1mx.
Qed.

Lemma lesser_move n m (M : 'M[C]_n) (A B : 'M[C]_(n, m)) :
  lesser A (M *m B) *m M = M *m lesser (adj M *m A) B.
Proof. by rewrite /lesser adjM adjKK !mulmxA. Qed.

Lemma greater_idem n m (A B : 'M[C]_(n, m)) : adj A *m B \in unitmx ->
  greater A B *m greater A B = greater A B.
Proof.
move=> u; rewrite /greater mulmxBl mul1mx mulmxBr mulmx1 lesser_idem //.
by rewrite subrr subr0.
Qed.

Lemma greater_move n m (M : 'M[C]_n) (A B : 'M[C]_(n, m)) :
  greater A (M *m B) *m M = M *m greater (adj M *m A) B.
Proof. by rewrite /greater mulmxBl mulmxBr lesser_move mul1mx mulmx1. Qed.

(* A chain of stable increments. *)
Section Chain.
Variable (n : nat) (P B g g0 g1 : 'M[C]_n).
Hypotheses (gg : g *m g = g) (Pg : g *m P = P *m g0) (Bg : g1 *m B = B *m g)
  (g1g1 : g1 *m g1 = g1) (uB : B \in unitmx) (uP : P \in unitmx).

Lemma gr_next (G : 'M[C]_n) : g *m G = P *m g0 ->
  B *m g *m G = B *m P *m g0 /\ g1 *m (B *m g *m G) = B *m P *m g0.
Proof.
move=> h; have e : B *m g *m G = B *m P *m g0 by rewrite -!mulmxA h.
split=> //.
by rewrite !mulmxA Bg -!mulmxA (mulmxA g g) gg h.
Qed.

Lemma ls_next (L : 'M[C]_n) : L *m g = g0 *m invmx P ->
  L *m (g *m invmx B) = g0 *m invmx (B *m P)
  /\ L *m (g *m invmx B) *m g1 = g0 *m invmx (B *m P).
Proof.
move=> h; have e : L *m (g *m invmx B) = g0 *m invmx (B *m P).
  by rewrite mulmxA h invmx_mul // mulmxA.
split=> //.
have c : invmx B *m g1 = g *m invmx B.
  by apply: (can_inj (mulmxK uB)); rewrite -!mulmxA mulVmx // Bg mulmxA mulVmx // mul1mx mulmx1.
rewrite -!mulmxA c (mulmxA g g) gg.
by rewrite e.
Qed.
End Chain.

(* Products along a path. *)
Section Paths.
Variables (F : Type) (n : nat) (B : F -> 'M[C]_n).

Lemma pp_cat p q : path_product B (p ++ q) = path_product B q *m path_product B p.
Proof.
elim/last_ind: q => [|q x IH]; first by rewrite cats0 mul1mx.
by rewrite -rcons_cat !path_rcons IH mulmxA.
Qed.

Lemma pp_split k Bs :
  path_product B Bs = path_product B (drop k Bs) *m path_product B (take k Bs).
Proof. by rewrite -pp_cat cat_take_drop. Qed.

Lemma pp_unit Bs : (forall b, List.In b Bs -> B b \in unitmx) ->
  path_product B Bs \in unitmx.
Proof.
elim/last_ind: Bs => [|p x IH] h; first exact: unitmx1.
rewrite path_rcons unitmx_mul IH ?andbT; first by apply: h; rewrite -cats1; apply/List.in_or_app; right; left.
by move=> b i; apply: h; rewrite -cats1; apply/List.in_or_app; left.
Qed.

Lemma nth_take_drop (Bs : seq F) k (b : F) : List.nth_error Bs k = Some b ->
  take k.+1 Bs = rcons (take k Bs) b /\ drop k Bs = b :: drop k.+1 Bs.
Proof.
elim: k Bs => [|k IH] [|x Bs] //=; first by case=> ->; rewrite take0 drop0.
by move=> /IH [-> ->].
Qed.

Lemma nth_In (Bs : seq F) k (b : F) : List.nth_error Bs k = Some b -> List.In b Bs.
Proof. exact: List.nth_error_In. Qed.

Section Slice.
Variables (m : nat) (psi R : 'M[C]_(n, m)).

Definition lsl k Bs : 'M[C]_n :=
  lesser (adj (path_product B (drop k Bs)) *m psi) (path_product B (take k Bs) *m R).
Definition gsl k Bs : 'M[C]_n :=
  greater (adj (path_product B (drop k Bs)) *m psi) (path_product B (take k Bs) *m R).

Lemma ovl_slice k Bs :
  adj (adj (path_product B (drop k Bs)) *m psi) *m (path_product B (take k Bs) *m R)
  = ovlp_mx cj psi (path_product B Bs *m R).
Proof. by rewrite ovlpE adjM adjKK (pp_split k Bs) !mulmxA. Qed.

Lemma slice0 Bs :
  lsl 0 Bs = lesser (adj (path_product B Bs) *m psi) R.
Proof. by rewrite /lsl drop0 take0 mul1mx. Qed.
Lemma gslice0 Bs :
  gsl 0 Bs = greater (adj (path_product B Bs) *m psi) R.
Proof. by rewrite /gsl drop0 take0 mul1mx. Qed.

Lemma lsl_move k Bs b : List.nth_error Bs k = Some b ->
  lsl k.+1 Bs *m B b = B b *m lsl k Bs.
Proof.
move=> /nth_take_drop [e1 e2]; rewrite /lsl e1 e2 path_rcons -mulmxA lesser_move.
have -> : path_product B (b :: drop k.+1 Bs) = path_product B (drop k.+1 Bs) *m B b.
  by rewrite -cat1s pp_cat /path_product /= mulmx1.
by rewrite adjM !mulmxA.
Qed.

Lemma gsl_move k Bs b : List.nth_error Bs k = Some b ->
  gsl k.+1 Bs *m B b = B b *m gsl k Bs.
Proof.
move=> h; rewrite /gsl /greater mulmxBl mulmxBr mul1mx mulmx1.
by have := lsl_move h; rewrite /lsl => ->.
Qed.

Lemma lsl_prod k Bs : (k <= size Bs)%N ->
  lsl k Bs *m path_product B (take k Bs) = path_product B (take k Bs) *m lsl 0 Bs.
Proof.
elim: k => [_|k IH h]; first by rewrite take0 /= mulmx1 mul1mx.
case E: (List.nth_error Bs k) => [b|]; last first.
  by move/List.nth_error_None/ssrnat.leP: E; rewrite leqNgt h.
have [e _] := nth_take_drop E.
by rewrite e path_rcons mulmxA (lsl_move E) -[LHS]mulmxA IH ?mulmxA //; lia.
Qed.

Lemma gsl_prod k Bs : (k <= size Bs)%N ->
  gsl k Bs *m path_product B (take k Bs) = path_product B (take k Bs) *m gsl 0 Bs.
Proof.
move=> h; rewrite /gsl /greater mulmxBl mulmxBr mul1mx mulmx1.
by have := lsl_prod h; rewrite /lsl => ->.
Qed.

Variable Bs : seq F.
Hypothesis U : ovlp_mx cj psi (path_product B Bs *m R) \in unitmx.
Hypothesis I : forall b, List.In b Bs -> B b \in unitmx.

Lemma lsl_idem k : lsl k Bs *m lsl k Bs = lsl k Bs.
Proof. by apply: lesser_idem; rewrite ovl_slice. Qed.
Lemma gsl_idem k : gsl k Bs *m gsl k Bs = gsl k Bs.
Proof. by apply: greater_idem; rewrite ovl_slice. Qed.

Lemma take_unit k : path_product B (take k Bs) \in unitmx.
Proof.
apply: pp_unit => b i; apply: I.
by rewrite -(cat_take_drop k Bs); apply/List.in_or_app; left.
Qed.

Lemma gsl_next k b G : List.nth_error Bs k = Some b ->
  gsl k Bs *m G = path_product B (take k Bs) *m gsl 0 Bs ->
  B b *m gsl k Bs *m G = path_product B (take k.+1 Bs) *m gsl 0 Bs
  /\ gsl k.+1 Bs *m (B b *m gsl k Bs *m G)
     = path_product B (take k.+1 Bs) *m gsl 0 Bs.
Proof.
move=> E h; have [e _] := nth_take_drop E.
rewrite e path_rcons.
exact: gr_next (gsl_idem k) (gsl_move E) G h.
Qed.

Lemma lsl_next k b L : List.nth_error Bs k = Some b ->
  L *m lsl k Bs = lsl 0 Bs *m invmx (path_product B (take k Bs)) ->
  L *m (lsl k Bs *m invmx (B b)) = lsl 0 Bs *m invmx (path_product B (take k.+1 Bs))
  /\ L *m (lsl k Bs *m invmx (B b)) *m lsl k.+1 Bs
     = lsl 0 Bs *m invmx (path_product B (take k.+1 Bs)).
Proof.
move=> E h; have [e _] := nth_take_drop E.
rewrite e path_rcons.
exact: ls_next (lsl_idem k) (lsl_move E) (I (nth_In E)) (take_unit k) L h.
Qed.

End Slice.
End Paths.

(* Chains of increments. *)
Lemma chain_rcons T A (f : T -> A -> res T) x l a :
  chain f x (rcons l a) = rbind (chain f x l) (fun y => f y a).
Proof.
elim: l x => [|b l IH] x /=; first by case: (f x a).
by case: (f x b) => [y|e] //=.
Qed.

Lemma inv_ok n (B : 'M[C]_n) : B \in unitmx -> inv B = Ok (invmx B).
Proof. by rewrite /inv => ->. Qed.

Lemma nth_ex T (l : seq T) k : (k < size l)%N -> exists b, List.nth_error l k = Some b.
Proof.
move=> h; case E: (List.nth_error l k) => [b|]; first by exists b.
by move/List.nth_error_None/ssrnat.leP: E; rewrite leqNgt h.
Qed.

Section Two.
Variables (n nu nd : nat).
Local Notation pr := ('M[C]_n * 'M[C]_n)%type.
Variables (Bs : seq pr) (psi R : 'M[C]_(n, nu) * 'M[C]_(n, nd)).
Hypothesis I : invertible Bs.
Hypothesis U : nonorthogonal Bs psi R.

Let I1 b : List.In b Bs -> b.1 \in unitmx. Proof. by move/I => []. Qed.
Let I2 b : List.In b Bs -> b.2 \in unitmx. Proof. by move/I => []. Qed.
Let U1 := proj1 U.
Let U2 := proj2 U.

Definition fu (b : pr) := b.1.
Definition fd (b : pr) := b.2.

(* What holds of the stable Green's functions at slice k. *)
Definition inv_at k (G : pr * pr) : Prop :=
  [/\ gsl fu psi.1 R.1 k Bs *m G.1.1 = prod_u (take k Bs) *m gsl fu psi.1 R.1 0 Bs,
      gsl fd psi.2 R.2 k Bs *m G.1.2 = prod_d (take k Bs) *m gsl fd psi.2 R.2 0 Bs
    & G.2.1 *m lsl fu psi.1 R.1 k Bs
      = lsl fu psi.1 R.1 0 Bs *m invmx (prod_u (take k Bs))].

Definition right_at k (G : pr * pr) : Prop :=
  [/\ G.1.1 = (displaced k Bs psi R).1.1, G.1.2 = (displaced k Bs psi R).1.2
    & G.2.1 = (displaced k Bs psi R).2.1].

Lemma inv_start : inv_at 0 ((1%:M, 1%:M), (1%:M, 1%:M)).
Proof.
split; rewrite /= take0 /prod_u /prod_d /path_product /= ?mulmx1 ?mul1mx //.
by rewrite invmx1 mulmx1.
Qed.

Lemma displacedE k :
  displaced k Bs psi R =
  ((prod_u (take k Bs) *m gsl fu psi.1 R.1 0 Bs,
    prod_d (take k Bs) *m gsl fd psi.2 R.2 0 Bs),
   (lsl fu psi.1 R.1 0 Bs *m invmx (prod_u (take k Bs)),
    lsl fd psi.2 R.2 0 Bs *m invmx (prod_d (take k Bs)))).
Proof. by rewrite !gslice0 !slice0. Qed.

Lemma stable_next k b G : List.nth_error Bs k = Some b -> inv_at k G ->
  exists G', increment_uhf_stable G b (at_slice k Bs psi R) = Ok G'
    /\ inv_at k.+1 G' /\ right_at k.+1 G'
    /\ G'.2.2 = G'.2.1 *m (lsl fd psi.2 R.2 k Bs *m invmx b.2).
Proof.
move=> E [h1 h2 h3]; have ib := nth_In E.
have [a1 a2] := gsl_next (B := fu) U1 E h1.
have [b1 b2] := gsl_next (B := fd) U2 E h2.
have [c1 c2] := lsl_next (B := fu) U1 I1 E h3.
rewrite /increment_uhf_stable (inv_ok (I1 ib)) (inv_ok (I2 ib)) /=.
eexists; split; first by reflexivity.
split; first by split; [exact: a2|exact: b2|exact: c2].
split; last by [].
by rewrite /right_at displacedE; split; [exact: a1|exact: b1|exact: c1].
Qed.

Definition slices k := zip (take k Bs) (mkseq (fun t => at_slice t Bs psi R) k).

Lemma slices_next k b : List.nth_error Bs k = Some b ->
  slices k.+1 = rcons (slices k) (b, at_slice k Bs psi R).
Proof.
move=> E; have [e _] := nth_take_drop E; have lt : (k < size Bs)%N.
  apply/ssrnat.ltP; apply/List.nth_error_Some; by rewrite E.
rewrite /slices e /mkseq -[X in iota 0 X]addn1 iotaD map_cat cats1.
by rewrite zip_rcons // size_map size_iota size_take lt.
Qed.

Lemma stable_chain k : (k <= size Bs)%N ->
  exists G, chain (fun G p => increment_uhf_stable G p.1 p.2)
              ((1%:M, 1%:M), (1%:M, 1%:M)) (slices k) = Ok G
    /\ inv_at k G
    /\ ((0 < k)%N -> right_at k G
         /\ G.2.2 = (displaced k Bs psi R).2.1
              *m (at_slice k.-1 Bs psi R).2.2
              *m invmx (nth (1%:M, 1%:M) Bs k.-1).2).
Proof.
elim: k => [_|k IH h].
  by eexists; split; [rewrite /slices take0; reflexivity|split; [exact: inv_start|]].
have [b E] := nth_ex h.
have [G [e [hi _]]] := IH (ltnW h).
rewrite (slices_next E) chain_rcons e /=.
have [G' [-> [i' [r' d']]]] := stable_next E hi.
exists G'; split=> //; split=> // _; split=> //.
have -> : nth (1%:M, 1%:M) Bs k = b.
  elim: (Bs) k E {IH h e hi i' r' d' G G'} => [|x l IHl] [|k] //=; first by case.
  exact: IHl.
by rewrite d' mulmxA; case: r' => _ _ ->.
Qed.

Lemma unstable_chain k : (k <= size Bs)%N ->
  chain (@increment_uhf_unstable C n) (at_slice 0 Bs psi R) (take k Bs)
  = Ok (displaced k Bs psi R).
Proof.
elim: k => [_|k IH h].
  rewrite take0 displacedE take0 /= /prod_u /prod_d /path_product /= !mul1mx.
  by rewrite invmx1 !mulmx1.
have [b E] := nth_ex h; have ib := nth_In E.
have [e _] := nth_take_drop E.
rewrite e chain_rcons (IH (ltnW h)) /= /increment_uhf_unstable.
rewrite (inv_ok (I1 ib)) (inv_ok (I2 ib)) /= !displacedE e /=.
rewrite /prod_u /prod_d !path_rcons.
have tu := take_unit (B := fu) I1 k.
have td := take_unit (B := fd) I2 k.
rewrite (invmx_mul (I1 ib) tu) (invmx_mul (I2 ib) td) !gslice0 !slice0.
by rewrite !mulmxA.
Qed.

End Two.

(* Equal-time Green's functions of the model. *)
Lemma gab_lesser n m (A B : 'M[C]_(n, m)) : gab A B = lesser A B.
Proof. by rewrite gabE /lesser mulmxA. Qed.

Definition span2 n nu nd (A B : 'M[C]_(n, nu) * 'M[C]_(n, nd)) : Prop :=
  same_span A.1 B.1 /\ same_span A.2 B.2.

Lemma initial_ok n nu nd (A B A' B' : orbs C n nu nd) :
  span2 A A' -> span2 B B' ->
  adj A.1 *m B.1 \in unitmx -> adj A.2 *m B.2 \in unitmx ->
  initial_uhf A' B' = Ok (equal_time A B).
Proof.
move=> [a1 a2] [b1 b2] u1 u2.
have [e1 v1] := lesser_span a1 b1 u1.
have [e2 v2] := lesser_span a2 b2 u2.
rewrite /initial_uhf.
have -> : (map_mx cj A'.1)^T *m B'.1 \in unitmx by [].
have -> : (map_mx cj A'.2)^T *m B'.2 \in unitmx by [].
rewrite /= !gab_lesser e1 e2 /equal_time /greater.
by rewrite !subKr.
Qed.

(* The accumulated array. *)
Definition rc n (G : cell C n) : cell C n :=
  ((re_mx G.1.1, re_mx G.1.2), (re_mx G.2.1, re_mx G.2.2)).

Lemma accumulate_ok n ix w (G : cell C n) s : (ix < size s)%N ->
  accumulate ix w G s = Ok (set_nth 0 s ix (nth 0 s ix + w *: rc G)).
Proof. by rewrite /accumulate => ->. Qed.

Lemma accumulate_inv n ix w (G : cell C n) s s' : accumulate ix w G s = Ok s' ->
  (ix < size s)%N /\ s' = set_nth 0 s ix (nth 0 s ix + w *: rc G).
Proof. by rewrite /accumulate; case: ifP => // h [<-]. Qed.

Lemma size_set n (s : seq (cell C n)) ix c : (ix < size s)%N ->
  size (set_nth 0 s ix c) = size s.
Proof. by move=> h; rewrite size_set_nth; apply/maxn_idPr. Qed.

Section Loop.
Variable qr : forall n m, 'M[C]_(n, m) -> 'M[C]_(n, m) * 'M[C]_m.

(* What the loop leaves alone. *)
Lemma loop_keep n nu nd nst w Bs (Ls : seq (orbs C n nu nd)) cnt ic G Gnn R s s' :
  stable_loop qr nst w Bs Ls cnt ic G Gnn R s = Ok s' ->
  size s' = size s /\ forall j, (j <= ic)%N -> nth 0 s' j = nth 0 s j.
Proof.
elim: cnt ic G Gnn R s => [|cnt IH] ic G Gnn R s /=; first by case=> <-.
case: (List.nth_error _ _) => // B.
case: (increment_uhf_stable _ _ _) => [G'|e] //=.
case A: (accumulate _ _ _ _) => [s1|e] //=.
case: (left_at _ _) => [L|e] //=.
case: (stabilise _ _ _ _) => [R'|e] //=.
case: (initial_uhf _ _) => [Gn|e] //= /IH [sz kp].
have [lt es] := accumulate_inv A.
split; first by rewrite sz es size_set.
move=> j hj; rewrite kp; last by apply: leq_trans hj _.
by rewrite es nth_set_nth /= ltn_eqF.
Qed.

Section Path.
Hypothesis Q : qr_works qr.
Variables (n nu nd : nat).
Local Notation pr := ('M[C]_n * 'M[C]_n)%type.
Variables (Bs : seq pr) (psi R : 'M[C]_(n, nu) * 'M[C]_(n, nd)) (nst : nat).
Hypothesis n0 : (0 < nst)%N.
Hypothesis I : invertible Bs.
Hypothesis U : nonorthogonal Bs psi R.

Lemma unit_slice k :
  adj (go_back (drop k Bs) psi).1 *m (go_forward (take k Bs) R).1 \in unitmx
  /\ adj (go_back (drop k Bs) psi).2 *m (go_forward (take k Bs) R).2 \in unitmx.
Proof.
case: U => u1 u2; split.
  by rewrite /= /prod_u (ovl_slice (fun B : pr => B.1)).
by rewrite /= /prod_d (ovl_slice (fun B : pr => B.2)).
Qed.

Lemma full_left n' m (A B : 'M[C]_(n', m)) : adj A *m B \in unitmx ->
  full_rank A.
Proof.
move=> u; apply/eqP; rewrite eqn_leq rank_leq_col /= -{1}(mxrank_unit u).
apply: leq_trans (mxrankM_maxl _ _) _.
by rewrite /adj mxrank_tr mxrank_map.
Qed.

Lemma full_right n' m (A B : 'M[C]_(n', m)) : adj A *m B \in unitmx ->
  full_rank B.
Proof.
move=> u; apply/eqP; rewrite eqn_leq rank_leq_col /= -{1}(mxrank_unit u).
exact: mxrankM_maxr.
Qed.

Lemma stab_span i (A : orbs C n nu nd) : full_rank A.1 -> full_rank A.2 ->
  exists A', stabilise qr nst i A = Ok A' /\ span2 A A'.
Proof.
move=> f1 f2; rewrite stabilise_ok //; eexists; split; first by reflexivity.
have [X dX eX] := stab1_span (Q (m := nu)) nst i f1.
have [Y dY eY] := stab1_span (Q (m := nd)) nst i f2.
split; [exists X|exists Y] => //; by rewrite unitmxE unitfE gt_eqF.
Qed.

Lemma span_full n' m (A B : 'M[C]_(n', m)) : same_span A B -> full_rank B ->
  full_rank A.
Proof. by move=> [X u ->]; rewrite /full_rank mxrankMfree // row_free_unit. Qed.

(* The left-hand determinants of the loop span those of the next slice. *)
Variable Ls : seq (orbs C n nu nd).
Hypothesis HL : forall k, (k < size Bs)%N ->
  exists L, left_at Ls k = Ok L /\ span2 (go_back (drop k.+1 Bs) psi) L.

Lemma loop_ok w cnt ic G Gnn right s :
  (ic + cnt <= size Bs)%N -> (ic + cnt < size s)%N ->
  Gnn = at_slice ic Bs psi R -> span2 (go_forward (take ic Bs) R) right ->
  inv_at Bs psi R ic G ->
  exists s', stable_loop qr nst w Bs Ls cnt ic G Gnn right s = Ok s'
    /\ size s' = size s
    /\ (forall j, (j <= ic)%N -> nth 0 s' j = nth 0 s j)
    /\ forall j, (ic < j <= ic + cnt)%N -> exists2 G,
        right_at Bs psi R j G & nth 0 s' j = nth 0 s j + w *: rc G.
Proof.
elim: cnt ic G Gnn right s => [|cnt IH] ic G Gnn right s h hs -> sp hi.
  by exists s; split=> //; split=> //; split=> // j; lia.
have lt : (ic < size Bs)%N by lia.
have [B E] := nth_ex lt.
rewrite [stable_loop _ _ _ _ _ _ _ _ _ _ _]/= E.
have [G' [-> [hi' [hr _]]]] := stable_next I U E hi.
cbn [rbind]; rewrite accumulate_ok; last by lia.
cbn [rbind]; have [L [-> sL]] := HL lt.
cbn [rbind].
have [e _] := nth_take_drop E.
have [ua ub] := unit_slice ic.+1.
have sp' : span2 (go_forward (take ic.+1 Bs) R) (B.1 *m right.1, B.2 *m right.2).
  case: sp => s1 s2; split.
    by rewrite /= /prod_u e path_rcons -mulmxA; exact: same_span_mul.
  by rewrite /= /prod_d e path_rcons -mulmxA; exact: same_span_mul.
have [|//|R' [-> sR]] := stab_span ic (A := (B.1 *m right.1, B.2 *m right.2)).
- by apply: span_full (same_span_sym (proj1 sp')) (full_right ua).
- by apply: span_full (same_span_sym (proj2 sp')) (full_right ub).
cbn [rbind].
have sp2 : span2 (go_forward (take ic.+1 Bs) R) R'.
  split; first exact: same_span_trans (proj1 sp') (proj1 sR).
  exact: same_span_trans (proj2 sp') (proj2 sR).
rewrite (initial_ok sL sp2 ua ub); cbn [rbind].
set s1 := set_nth _ _ _ _.
have z1 : size s1 = size s by rewrite size_set //; lia.
have [|||||s' [-> [sz [kp hk]]]] := IH ic.+1 G' (at_slice ic.+1 Bs psi R) R' s1.
- by lia.
- by rewrite z1; lia.
- by [].
- by [].
- by [].
exists s'; split=> //; split; first by rewrite sz.
split=> [j hj|j hj].
  by rewrite kp ?nth_set_nth /= ?ltn_eqF //; lia.
case: (eqVneq j ic.+1) => [->|nj].
  by exists G' => //; rewrite kp // nth_set_nth /= eqxx.
have [|G2 r2 e2] := hk j; first by lia.
by exists G2 => //; rewrite e2 nth_set_nth /= (negbTE nj).
Qed.

End Path.

(* Back propagation. *)
Lemma take_rev_k T (l : seq T) k : (k < size l)%N ->
  take (size l - k - 1).+1 (rev l) = rev (drop k l).
Proof. by move=> h; rewrite take_rev; congr (rev (drop _ _)); lia. Qed.

Lemma sub_lt N k : (k < N)%N -> (N - k - 1 < N)%N.
Proof. lia. Qed.

Section Back.
Hypothesis Q : qr_works qr.
Variables (n nu nd : nat).
Local Notation pr := ('M[C]_n * 'M[C]_n)%type.
Variables (Bs : seq pr) (psi : 'M[C]_(n, nu) * 'M[C]_(n, nd)) (nst : nat).
Hypothesis n0 : (0 < nst)%N.

Lemma good_all (l : seq pr) : good (fun B : two C n => Ok B) (@fst _ _) (@snd _ _) l.
Proof. by move=> [a b] _. Qed.

Lemma bl_span2 (l : seq pr) :
  full_rank (go_back l psi).1 -> full_rank (go_back l psi).2 ->
  span2 (go_back l psi)
        (bl qr (@fst _ _) nst 0 (rev l) psi.1, bl qr (@snd _ _) nst 0 (rev l) psi.2).
Proof.
move=> f1 f2.
have [d1 [[h1 _ _ _] _]] := bl_back (Q (m := nu)) nst f1.
have [d2 [[h2 _ _ _] _]] := bl_back (Q (m := nd)) nst f2.
by split; [exact: h1|exact: h2].
Qed.

Lemma full_drop k : full_rank (go_back Bs psi).1 -> full_rank (go_back Bs psi).2 ->
  full_rank (go_back (drop k Bs) psi).1 /\ full_rank (go_back (drop k Bs) psi).2.
Proof.
rewrite /go_back /= /prod_u /prod_d.
rewrite (pp_split (fun B : pr => B.1) k) (pp_split (fun B : pr => B.2) k).
rewrite !adjM -!mulmxA /full_rank => f1 f2; split; apply/eqP; rewrite eqn_leq rank_leq_col /=.
  by rewrite -{1}f1 mxrankM_maxr.
by rewrite -{1}f2 mxrankM_maxr.
Qed.

Lemma back_spans : full_rank (go_back Bs psi).1 -> full_rank (go_back Bs psi).2 ->
  exists L Ls, back_propagate qr (fun B : two C n => Ok B) nst true Bs psi = Ok (L, Ls)
    /\ span2 (go_back Bs psi) L
    /\ forall k, (k < size Bs)%N ->
        exists L', left_at Ls k = Ok L' /\ span2 (go_back (drop k Bs) psi) L'.
Proof.
move=> f1 f2; rewrite /back_propagate.
have [Ls e] := back_loop_ok qr 0 psi n0 (@good_all (rev Bs)).
rewrite e; cbn [rbind]; eexists; exists Ls; split; first by reflexivity.
split; first exact: bl_span2.
move=> k lt; have [sz h] := loop_store e.
rewrite size_rev in sz h.
have [|st' e'] := h (size Bs - k - 1)%N; first exact: sub_lt.
have [st'' e''] := back_loop_ok qr 0 psi n0 (@good_all (take (size Bs - k - 1).+1 (rev Bs))).
rewrite e'' in e'; case: e' => eL _.
have et : take (size Bs - k - 1).+1 (rev Bs) = rev (drop k Bs).
  exact: take_rev_k.
rewrite et in eL.
exists (nth psi Ls (size Bs - k - 1)); split.
  rewrite /left_at sz lt.
  have [|b E] := @nth_ex _ Ls (size Bs - k - 1)%N; first by rewrite sz; exact: sub_lt.
  rewrite E; congr Ok; elim: (Ls) (size Bs - k - 1)%N E => [|x l IH] [|j] //=; first by case.
  exact: IH.
rewrite -eL; have [g1 g2] := full_drop k f1 f2.
exact: bl_span2.
Qed.

Lemma adj_1 k : adj (1%:M : 'M[C]_k) = 1%:M.
Proof. by rewrite /adj map_mx1 trmx1. Qed.

Lemma eigen_span (l : seq pr) : eigen l psi -> span2 (go_back l psi) psi.
Proof.
elim/last_ind: l => [|l x IH] h.
  by rewrite /go_back /prod_u /prod_d /path_product /= !adj_1 !mul1mx;
     split; exact: same_span_refl.
have [h1 h2] : span2 (go_back l psi) psi.
  by apply: IH => B i; apply: h; rewrite -cats1; apply/List.in_or_app; left.
have [x1 x2] : same_span (adj x.1 *m psi.1) psi.1 /\ same_span (adj x.2 *m psi.2) psi.2.
  by apply: h; rewrite -cats1; apply/List.in_or_app; right; left.
rewrite /go_back /prod_u /prod_d !path_rcons !adjM -!mulmxA; split.
  by apply: same_span_trans h1; exact: same_span_mul.
by apply: same_span_trans h2; exact: same_span_mul.
Qed.

End Back.

(* One walker. *)
Section Walker.
Hypothesis Q : qr_works qr.
Variables (n nu nd : nat).
Variables (psi : 'M[C]_(n, nu) * 'M[C]_(n, nd)) (nst ntau : nat) (restore : bool).
Hypothesis n0 : (0 < nst)%N.

Lemma sound_full (w : itcf_walker C n nu nd) : sound psi w ->
  [/\ full_rank (go_back (w_steps w) psi).1, full_rank (go_back (w_steps w) psi).2,
      adj (go_back (w_steps w) psi).1 *m (w_right w).1 \in unitmx
    & adj (go_back (w_steps w) psi).2 *m (w_right w).2 \in unitmx].
Proof.
move=> [_ _ U]; have [u1 u2] := unit_slice U 0.
rewrite drop0 take0 /= /prod_u /prod_d /path_product /= !mul1mx in u1 u2.
by split=> //; [exact: full_left u1|exact: full_left u2].
Qed.

Lemma at_slice0 (Bs : seq ('M[C]_n * 'M[C]_n)) (R : 'M[C]_(n, nu) * 'M[C]_(n, nd)) :
  at_slice 0 Bs psi R = equal_time (go_back Bs psi) R.
Proof. by rewrite /at_slice drop0 take0 /go_forward /prod_u /prod_d /path_product /= !mul1mx; case: R. Qed.

Lemma displaced0 (Bs : seq ('M[C]_n * 'M[C]_n)) (R : 'M[C]_(n, nu) * 'M[C]_(n, nd)) :
  displaced 0 Bs psi R = equal_time (go_back Bs psi) R.
Proof.
by rewrite /displaced take0 /prod_u /prod_d /path_product /= invmx1 !mul1mx !mulmx1.
Qed.

Lemma walker_first (w : itcf_walker C n nu nd) s s' : sound psi w ->
  stable_walker qr restore nst ntau psi w s = Ok s' ->
  size s' = size s
  /\ nth 0 s' 0 = nth 0 s 0 + wfac restore w *: rc (displaced 0 (w_steps w) psi (w_right w))
  /\ ((0 < ntau)%N -> exists2 G, right_at (w_steps w) psi (w_right w) 1 G
        & nth 0 s' 1 = nth 0 s 1 + wfac restore w *: rc G).
Proof.
move=> sw; have [f1 f2 u1 u2] := sound_full sw.
case: sw => es I U; rewrite /stable_walker.
have [L [Ls [-> [sp hl]]]] := back_spans Q n0 f1 f2.
cbn [rbind].
rewrite (initial_ok sp (conj (same_span_refl _) (same_span_refl _)) u1 u2).
cbn [rbind].
case A: (accumulate _ _ _ _) => [s1|e] //; cbn [rbind].
have [lt e1] := accumulate_inv A.
move=> h; have [z k] := loop_keep h.
have z1 : size s1 = size s by rewrite e1 size_set.
split; first by rewrite z.
split; first by rewrite k // e1 nth_set_nth /= displaced0.
case: (ntau) h => [//|cnt] + _.
rewrite es [stable_loop _ _ _ _ _ _ _ _ _ _ _]/=.
case Eb: (match w_steps w with [::] => None | x :: _ => Some x end) => [B|] //.
have Eb' : List.nth_error (w_steps w) 0 = Some B := Eb.
rewrite -at_slice0.
have [G' [-> [_ [hr _]]]] := stable_next I U Eb' (inv_start _ _ _).
cbn [rbind].
case A1: (accumulate _ _ _ _) => [s2|e] //; cbn [rbind].
case: (left_at _ _) => [L'|e] //; cbn [rbind].
case: (initial_uhf _ _) => [Gn|e] //; cbn [rbind] => h2.
have [z2 k2] := loop_keep h2; have [lt2 e2] := accumulate_inv A1.
by exists G' => //; rewrite k2 // e2 nth_set_nth /= e1 nth_set_nth.
Qed.

Lemma walker_eigen (w : itcf_walker C n nu nd) s : sound psi w ->
  eigen (w_steps w) psi -> (ntau <= size (w_steps w))%N -> size s = ntau.+1 ->
  exists s', stable_walker qr restore nst ntau psi w s = Ok s'
  /\ size s' = size s
  /\ forall k, (k <= ntau)%N -> exists2 G, right_at (w_steps w) psi (w_right w) k G
        & nth 0 s' k = nth 0 s k + wfac restore w *: rc G.
Proof.
move=> sw hE hn hs; have [f1 f2 u1 u2] := sound_full sw.
case: sw => es I U; rewrite /stable_walker.
have [L [Ls [-> [sp hl]]]] := back_spans Q n0 f1 f2.
cbn [rbind].
rewrite (initial_ok sp (conj (same_span_refl _) (same_span_refl _)) u1 u2).
cbn [rbind].
rewrite accumulate_ok ?hs //; cbn [rbind].
set s1 := set_nth _ _ _ _.
have z1 : size s1 = size s by rewrite size_set ?hs.
have eig k : span2 (go_back (drop k (w_steps w)) psi) psi.
  apply: eigen_span => B i; apply: hE.
  by rewrite -(cat_take_drop k (w_steps w)); apply/List.in_or_app; right.
have HL k : (k < size (w_steps w))%N -> exists L, left_at Ls k = Ok L
    /\ span2 (go_back (drop k.+1 (w_steps w)) psi) L.
  move=> lt; have [L' [e' [a1 a2]]] := hl k lt; exists L'; split=> //.
  have [b1 b2] := eig k; have [c1 c2] := eig k.+1.
  split; first exact: same_span_trans c1 (same_span_trans (same_span_sym b1) a1).
  exact: same_span_trans c2 (same_span_trans (same_span_sym b2) a2).
rewrite es.
have sp0 : span2 (go_forward (take 0 (w_steps w)) (w_right w)) (w_right w).
  by rewrite take0 /go_forward /prod_u /prod_d /path_product /= !mul1mx; split; exact: same_span_refl.
have [||s' [-> [sz [kp hk]]]] := loop_ok Q n0 I U HL (wfac restore w)
  (cnt := ntau) (ic := 0) (s := s1) _ _ (esym (at_slice0 _ _)) sp0 (inv_start _ _ _).
- by rewrite add0n.
- by rewrite add0n z1 hs.
exists s'; split; first by [].
split; first by rewrite sz z1.
case=> [_|k lk].
  exists (displaced 0 (w_steps w) psi (w_right w)); first by split.
  by rewrite kp // nth_set_nth /= displaced0.
have [|G hr e] := hk k.+1; first by rewrite add0n.
by exists G => //; rewrite e nth_set_nth.
Qed.

Lemma unstable_name (w : itcf_walker C n nu nd) s : sound psi w -> (0 < ntau)%N ->
  (0 < size s)%N -> unstable_walker qr restore nst ntau psi w s = Err NameError.
Proof.
move=> sw t0 hs; have [f1 f2 u1 u2] := sound_full sw.
rewrite /unstable_walker.
have [L [Ls [e [sp hl]]]] := back_spans Q n0 f1 f2.
move: e; rewrite /back_propagate; case: (back_loop _ _ _ _ _ _) => [[b st]|e] //.
cbn [rbind] => -[-> _].
rewrite (initial_ok sp (conj (same_span_refl _) (same_span_refl _)) u1 u2).
cbn [rbind]; rewrite accumulate_ok //; cbn [rbind].
by rewrite gtn_eqF.
Qed.

End Walker.

(* All walkers. *)
Lemma wfacE n nu nd restore (w : itcf_walker C n nu nd) :
  wfac restore w = path_weight restore w.
Proof. by rewrite /wfac /path_weight; case: restore; rewrite ?mulrA ?mulr1. Qed.

Lemma foldl_sum T (f : T -> C) l :
  foldl (fun s w => s + f w) 0 l = \sum_(w <- l) f w.
Proof.
have h a : foldl (fun s w => s + f w) a l = a + \sum_(w <- l) f w.
  elim: l a => [|x l IH] a /=; first by rewrite big_nil addr0.
  by rewrite IH big_cons addrA.
by rewrite h add0r.
Qed.

Lemma loop_all n nu nd one (ws : seq (itcf_walker C n nu nd)) s s'
    (N k : nat) (p : cell C n -> 'M[C]_n) (f : itcf_walker C n nu nd -> 'M[C]_n) :
  size s = N ->
  (forall w, List.In w ws -> forall s s', size s = N -> one w s = Ok s' ->
     size s' = N /\ p (nth 0 s' k) = p (nth 0 s k) + f w) ->
  walkers_loop one ws s = Ok s' ->
  size s' = N /\ p (nth 0 s' k) = p (nth 0 s k) + \sum_(w <- ws) f w.
Proof.
elim: ws s => [|w ws IH] s hs h /=; first by case=> <-; rewrite big_nil addr0.
case E: (one w s) => [s1|e] //= h1.
have [z e1] := h w (or_introl erefl) s s1 hs E.
have [||z2 e2] := IH s1 _ _ h1.
- by [].
- by move=> w' i; apply: h; right.
by rewrite e2 e1 big_cons addrA.
Qed.

Lemma loop_total n nu nd one (ws : seq (itcf_walker C n nu nd)) s (N : nat) :
  size s = N ->
  (forall w, List.In w ws -> forall s, size s = N ->
     exists2 s', one w s = Ok s' & size s' = N) ->
  exists2 s', walkers_loop one ws s = Ok s' & size s' = N.
Proof.
elim: ws s => [|w ws IH] s hs h /=; first by exists s.
have [s1 -> z1] := h w (or_introl erefl) s hs; cbn [rbind].
by apply: IH => // w' i; apply: h; right.
Qed.

End Loop.

(* The sum over processes. *)
Lemma nth_add n (a b : seq (cell C n)) k : size a = size b ->
  nth 0 (add_spgf a b) k = nth 0 a k + nth 0 b k.
Proof.
elim: a b k => [|x a IH] [|y b] k //=; first by rewrite nth_nil addr0.
by move=> [/IH h]; case: k => [//|k]; exact: h.
Qed.

Lemma size_add n (a b : seq (cell C n)) : size a = size b ->
  size (add_spgf a b) = size b.
Proof. by move=> h; rewrite size_map size_zip h minnn. Qed.

Lemma reduce_ok n ntau (es : seq (estim C n)) :
  (forall e, List.In e es -> size e.2 = ntau.+1) ->
  (reduce ntau es).1 = \sum_(e <- es) e.1
  /\ size (reduce ntau es).2 = ntau.+1
  /\ forall k, nth 0 (reduce ntau es).2 k = \sum_(e <- es) nth 0 e.2 k.
Proof.
rewrite /reduce => h.
have gen a : size a.2 = ntau.+1 ->
  (foldl (fun (a e : estim C n) => (a.1 + e.1, add_spgf a.2 e.2)) a es).1
    = a.1 + \sum_(e <- es) e.1
  /\ size (foldl (fun (a e : estim C n) => (a.1 + e.1, add_spgf a.2 e.2)) a es).2 = ntau.+1
  /\ forall k, nth 0 (foldl (fun (a e : estim C n) => (a.1 + e.1, add_spgf a.2 e.2)) a es).2 k
      = nth 0 a.2 k + \sum_(e <- es) nth 0 e.2 k.
  elim: es a h => [|e es IH] a h ha /=.
    by rewrite big_nil addr0; split=> //; split=> // k; rewrite big_nil addr0.
  have he : size e.2 = ntau.+1 by apply: h; left.
  have [||h1 [h2 h3]] := IH (a.1 + e.1, add_spgf a.2 e.2).
  - by move=> e' i; apply: h; right.
  - by rewrite size_add ?ha.
  rewrite h1 /= big_cons addrA; split=> //; split=> // k.
  by rewrite h3 /= nth_add ?ha // big_cons addrA.
have [|h1 [h2 h3]] := gen (zeroed C n ntau); first by rewrite size_nseq.
rewrite h1 /= add0r; split=> //; split=> // k.
have z : nth 0 (zeroed C n ntau).2 k = 0 by rewrite nth_nseq if_same.
by rewrite h3 z add0r.
Qed.

Lemma print_ok n ntau step nprop (es : seq (estim C n)) :
  (forall e, List.In e es -> size e.2 = ntau.+1) ->
  (0 < step)%N -> (0 < nprop)%N -> (step %% nprop = 0)%N ->
  exists out, print_step ntau step nprop es
    = Ok (Some out, nseq (size es) (zeroed C n ntau))
  /\ size out = ntau.+1
  /\ forall k, (k <= ntau)%N -> nth 0 out k
      = (\sum_(e <- es) e.1)^-1 *: \sum_(e <- es) nth 0 e.2 k.
Proof.
move=> h s0 p0 d; rewrite /print_step (gtn_eqF s0) (gtn_eqF p0) d eqxx.
have [r1 [r2 r3]] := reduce_ok h.
eexists; split.
  congr (Ok (_, _)); by elim: (es) => [//|e l /= ->].
rewrite size_map r2; split=> // k lk.
by rewrite (nth_map 0) ?r2 // r1 r3.
Qed.

End Gen.

(* Small matrices. *)
Section Small.
Variable C : numClosedFieldType.

Definition m2 (a b c d : C) : 'M[C]_2 :=
  \matrix_(i, j) (if i == 0 then (if j == 0 then a else b)
                  else (if j == 0 then c else d)).
Definition c2 (a b : C) : 'M[C]_(2, 1) := \matrix_(i, j) (if i == 0 then a else b).

Lemma all2 (P : 'I_2 -> Prop) : P 0 -> P 1 -> forall i, P i.
Proof.
move=> h0 h1; case=> -[|[|//]] h.
  by have <- : (0 : 'I_2) = Ordinal h by apply: val_inj.
by have <- : (1 : 'I_2) = Ordinal h by apply: val_inj.
Qed.

Lemma sum2 (f : 'I_2 -> C) : \sum_i f i = f 0 + f 1.
Proof.
rewrite big_ord_recl big_ord1; congr (_ + f _).
exact: val_inj.
Qed.

Definition simp01 := (@mulr0 C, @mul0r C, @mulr1 C, @mul1r C, @addr0 C, @add0r C,
  @subrr C, @subr0 C, @sub0r C, @oppr0 C, @addNr C).

Lemma m2M a b c d a' b' c' d' : m2 a b c d *m m2 a' b' c' d'
  = m2 (a * a' + b * c') (a * b' + b * d') (c * a' + d * c') (c * b' + d * d').
Proof. by apply/matrixP; apply: all2; apply: all2; rewrite !mxE sum2 !mxE /=. Qed.

Lemma m2c a b c d x y : m2 a b c d *m c2 x y = c2 (a * x + b * y) (c * x + d * y).
Proof. by apply/matrixP; apply: all2 => j; rewrite !mxE sum2 !mxE /=. Qed.

Lemma m2_1 : m2 1 0 0 1 = 1%:M.
Proof. by apply/matrixP; apply: all2; apply: all2; rewrite !mxE /=. Qed.

Lemma m2_sub a b c d a' b' c' d' : m2 a b c d - m2 a' b' c' d'
  = m2 (a - a') (b - b') (c - c') (d - d').
Proof. by apply/matrixP; apply: all2; apply: all2; rewrite !mxE /=. Qed.

Lemma m2_adj a b c d : adj (m2 a b c d) = m2 a^* c^* b^* d^*.
Proof. by apply/matrixP; apply: all2; apply: all2; rewrite !mxE /=. Qed.

Lemma c2_ovl a b x y : adj (c2 a b) *m c2 x y = (a^* * x + b^* * y)%:M.
Proof. by apply/matrixP => i j; rewrite !ord1 !mxE sum2 !mxE /= mulr1n. Qed.

Lemma c2_lesser a b x y : a^* * x + b^* * y = 1 ->
  lesser (c2 a b) (c2 x y) = m2 (x * a^* ) (x * b^* ) (y * a^* ) (y * b^* ).
Proof.
move=> h; rewrite /lesser c2_ovl h invmx1 mulmx1.
by apply/matrixP; apply: all2; apply: all2; rewrite !mxE big_ord1 !mxE /=.
Qed.

Lemma m2_inv x : m2 1 x 0 1 \in unitmx /\ invmx (m2 1 x 0 1) = m2 1 (- x) 0 1.
Proof.
have e : m2 1 (- x) 0 1 *m m2 1 x 0 1 = 1%:M.
  by rewrite m2M -m2_1 !mul1r !mulr1 !mulr0 !mul0r !addr0 add0r subrr.
have [_ u] := mulmx1_unit e; split=> //.
by rewrite -[RHS]mulmx1 -(mulmxV u) mulmxA e mul1mx.
Qed.

Lemma initial_c2 (a b x y : C) : a^* * x + b^* * y = 1 ->
  initial_uhf (c2 a b, c2 a b) (c2 x y, c2 x y)
  = Ok (equal_time (c2 a b, c2 a b) (c2 x y, c2 x y)).
Proof.
move=> h.
have u : adj (c2 a b) *m c2 x y \in unitmx by rewrite c2_ovl h unitmx1.
by apply: initial_ok => //; split; exact: same_span_refl.
Qed.

(* A path of two slices on which the left-hand determinant of the wrong slice
   matters. *)
Definition b0 : 'M[C]_2 := m2 1 1 0 1.
Definition bad_path : seq ('M[C]_2 * 'M[C]_2) := [:: (b0, b0); (1%:M, 1%:M)].
Definition bad_psi : 'M[C]_(2, 1) * 'M[C]_(2, 1) := (c2 1 0, c2 1 0).
Definition bad_walker : itcf_walker C 2 1 1 :=
  MkItcf 1 1 1 bad_psi bad_psi bad_path bad_path.

Lemma conj01 : (0 : C)^* = 0 /\ (1 : C)^* = 1.
Proof. by rewrite rmorph0 rmorph1. Qed.

Lemma b0_c2 x y : b0 *m c2 x y = c2 (x + y) y.
Proof. by rewrite /b0 m2c !mul1r mul0r add0r. Qed.
Lemma b0t_c2 x y : adj b0 *m c2 x y = c2 x (x + y).
Proof. by rewrite /b0 m2_adj !rmorph0 !rmorph1 m2c !mul1r mul0r addr0. Qed.

Lemma bad_sound : sound bad_psi bad_walker.
Proof.
split=> //.
  move=> B [<-|[<-|//]]; last by rewrite /= !unitmx1.
  by have [u _] := m2_inv 1.
have h : ovlp_mx (@conjC C) (c2 1 0) (1%:M *m (b0 *m 1%:M) *m c2 1 0) \in unitmx.
  rewrite mul1mx mulmx1 b0_c2 ovlpE c2_ovl rmorph0 rmorph1 mul0r !addr0 mul1r.
  exact: unitmx1.
by split.
Qed.

Variable qr : forall n m, 'M[C]_(n, m) -> 'M[C]_(n, m) * 'M[C]_m.

Lemma bad_back : back_propagate qr (fun B : two C 2 => Ok B) 5 true bad_path bad_psi
  = Ok ((c2 1 1, c2 1 1), [:: (c2 1 0, c2 1 0); (c2 1 1, c2 1 1)]).
Proof.
rewrite /back_propagate /bad_path [rev _]/=.
cbn [back_loop rbind]; rewrite /stabilise /=.
rewrite -!/(adj _) adj_1 !mul1mx -/b0 !b0t_c2.
by rewrite addr0.
Qed.

Definition bad_cell (a b x y : C) : cell C 2 :=
  equal_time (c2 a b, c2 a b) (c2 x y, c2 x y).

Lemma bad_cellE a b x y : a^* * x + b^* * y = 1 ->
  bad_cell a b x y =
  ((m2 (1 - x * a^* ) (0 - x * b^* ) (0 - y * a^* ) (1 - y * b^* ),
    m2 (1 - x * a^* ) (0 - x * b^* ) (0 - y * a^* ) (1 - y * b^* )),
   (m2 (x * a^* ) (x * b^* ) (y * a^* ) (y * b^* ),
    m2 (x * a^* ) (x * b^* ) (y * a^* ) (y * b^* ))).
Proof.
by move=> h; rewrite /bad_cell /equal_time /= /greater c2_lesser // -m2_1 m2_sub.
Qed.

Lemma bad_run : exists s,
  stable_walker qr false 5 2 bad_psi bad_walker (nseq 3 0) = Ok s
  /\ (nth 0 s 2).1.1 = re_part (m2 0 (- 1) 0 1).
Proof.
have [u ui] := m2_inv 1; have [z o] := conj01.
rewrite /stable_walker [w_steps _]/= bad_back; cbn [rbind].
rewrite [w_right _]/= initial_c2 ?o ?z ?mulr1 ?mulr0 ?addr0 //; cbn [rbind].
rewrite accumulate_ok //; cbn [rbind].
have l0 (A B : orbs C 2 1 1) : left_at [:: A; B] 0 = Ok B by [].
have l1 (A B : orbs C 2 1 1) : left_at [:: A; B] 1 = Ok A by [].
have st0 (A : orbs C 2 1 1) : stabilise qr 5 0 A = Ok A by [].
have st1 (A : orbs C 2 1 1) : stabilise qr 5 1 A = Ok A by [].
cbn [stable_loop List.nth_error w_stack bad_walker bad_path].
rewrite {1}/increment_uhf_stable; cbn [fst snd]; rewrite inv_ok //; cbn [rbind].
rewrite accumulate_ok //; cbn [rbind].
rewrite l0; cbn [rbind]; rewrite st0; cbn [rbind].
rewrite b0_c2 addr0 initial_c2 ?o ?z ?mulr1 ?mulr0 ?addr0 //; cbn [rbind].
rewrite {1}/increment_uhf_stable; cbn [fst snd]; rewrite inv_ok ?unitmx1 //; cbn [rbind].
rewrite accumulate_ok //; cbn [rbind].
rewrite l1; cbn [rbind]; rewrite st1; cbn [rbind].
rewrite !mul1mx initial_c2 ?o ?z ?mulr1 ?mulr0 ?addr0 //; cbn [rbind].
eexists; split; first by reflexivity.
rewrite -!/(bad_cell _ _ _ _) bad_cellE; last by rewrite ?o ?z ?mulr1 ?mulr0 ?addr0.
rewrite /= ?scale1r ?add0r ?mulmx1 ?o ?z.
by rewrite /b0 !m2M !simp01.
Qed.

Lemma m2_ent a b c d : (m2 a b c d) 0 1 = b.
Proof. by rewrite mxE. Qed.

Lemma bad_displaced : (displaced 2 bad_path bad_psi bad_psi).1.1 = m2 0 0 0 1.
Proof.
have [z o] := conj01.
rewrite /displaced /bad_path /= /prod_u /path_product /= !mulmx1 !mul1mx.
rewrite b0t_c2 addr0 /greater c2_lesser ?o ?z ?mulr1 ?mulr0 ?addr0 // -m2_1 m2_sub.
by rewrite /b0 m2M !simp01.
Qed.

Lemma slices_refuted : exists s,
  stable_walker qr false 5 2 bad_psi bad_walker (nseq 3 0) = Ok s
  /\ (nth 0 s 2).1.1 <> re_part (displaced 2 bad_path bad_psi bad_psi).1.1.
Proof.
have [s [e h]] := bad_run; exists s; split=> //.
rewrite h bad_displaced => /matrixP /(_ 0 1).
rewrite !mxE /= (Creal_ReP _ _) ?rpredN ?rpred1 // (Creal_ReP _ _) ?rpred0 //.
by move/eqP; rewrite oppr_eq0 oner_eq0.
Qed.
End Small.

(* One matrix for both spins. *)
Section GHF.
Variable C : numClosedFieldType.
Local Notation cj := (@conjC C).

Lemma ghf_unstable n (Bs : seq 'M[C]_n) (g l : 'M[C]_n) :
  (forall B, List.In B Bs -> B \in unitmx) ->
  chain (@increment_ghf_unstable C n) (g, l) Bs
  = Ok (path_product id Bs *m g, l *m invmx (path_product id Bs)).
Proof.
elim/last_ind: Bs => [|Bs x IH] h.
  by rewrite /path_product /= mul1mx invmx1 mulmx1.
have hl B : List.In B Bs -> B \in unitmx.
  by move=> i; apply: h; rewrite -cats1; apply/List.in_or_app; left.
have hx : x \in unitmx by apply: h; rewrite -cats1; apply/List.in_or_app; right; left.
rewrite chain_rcons IH //= /increment_ghf_unstable inv_ok //= path_rcons.
by rewrite invmx_mul ?pp_unit // !mulmxA.
Qed.

Definition ghf_slices n m (Bs : seq 'M[C]_n) (psi R : 'M[C]_(n, m)) k :=
  zip (take k Bs) (mkseq (fun t => (gsl id psi R t Bs, lsl id psi R t Bs)) k).

Lemma ghf_stable n m (Bs : seq 'M[C]_n) (psi R : 'M[C]_(n, m)) k :
  (forall B, List.In B Bs -> B \in unitmx) ->
  ovlp_mx cj psi (path_product id Bs *m R) \in unitmx ->
  (k <= size Bs)%N ->
  exists G, chain (fun G p => increment_ghf_stable G p.1 p.2) (1%:M, 1%:M)
              (ghf_slices Bs psi R k) = Ok G
    /\ gsl id psi R k Bs *m G.1 = path_product id (take k Bs) *m gsl id psi R 0 Bs
    /\ ((0 < k)%N -> G.1 = path_product id (take k Bs) *m gsl id psi R 0 Bs).
Proof.
move=> I U; elim: k => [_|k IH h].
  exists (1%:M, 1%:M); split; first by rewrite /ghf_slices take0.
  by split=> //; rewrite take0 /path_product /= mulmx1 mul1mx.
have [b E] := nth_ex h; have [e _] := nth_take_drop E; have ib := nth_In E.
have [G [hc [hi _]]] := IH (ltnW h).
have -> : ghf_slices Bs psi R k.+1
    = rcons (ghf_slices Bs psi R k) (b, (gsl id psi R k Bs, lsl id psi R k Bs)).
  rewrite /ghf_slices e /mkseq -[X in iota 0 X]addn1 iotaD map_cat cats1.
  by rewrite zip_rcons // size_map size_iota size_take h.
have [a1 a2] := gsl_next (B := id) U E hi.
rewrite chain_rcons hc /= /increment_ghf_stable inv_ok ?(I b ib) //=.
eexists; split; first by reflexivity.
by split=> [|_]; [exact: a2|exact: a1].
Qed.

(* Two steps, one of them trivial. *)
Definition g_path : seq 'M[C]_2 := [:: b0 C; 1%:M].

Lemma g_slices :
  ghf_slices g_path (c2 1 0) (c2 0 1) 2
  = [:: (b0 C, (1%:M - m2 0 0 1 1, m2 0 0 1 1));
        (1%:M, (1%:M - m2 1 0 1 0, m2 1 0 1 0))].
Proof.
have [z o] := conj01 C.
rewrite /ghf_slices /g_path /mkseq /= /gsl /lsl /= /path_product /= !mulmx1 !mul1mx adj_1 mul1mx.
rewrite b0t_c2 b0_c2 /greater !simp01.
by rewrite !c2_lesser ?o ?z ?mulr1 ?mulr0 ?addr0 ?add0r ?mulr1 ?mulr0 // !mul0r.
Qed.

Lemma ghf_lesser_refuted : exists G,
  chain (fun G p => increment_ghf_stable G p.1 p.2) (1%:M, 1%:M)
    (ghf_slices g_path (c2 1 0) (c2 0 1) 2) = Ok G
  /\ G.2 <> lsl id (c2 1 0) (c2 0 1) 0 g_path *m invmx (path_product id g_path).
Proof.
have [z o] := conj01 C; have [u ui] := m2_inv (1 : C).
rewrite g_slices /= /increment_ghf_stable inv_ok //= inv_ok ?unitmx1 //=.
eexists; split; first by reflexivity.
rewrite slice0 /= /g_path /path_product /= !mulmx1 mul1mx b0t_c2 addr0.
rewrite c2_lesser ?o ?z ?mulr1 ?mulr0 ?add0r // invmx1 mulmx1 /b0 ui !m2M !simp01.
move/matrixP/(_ 1 0); rewrite !mxE /= ?simp01.
by move/esym/eqP; rewrite oner_eq0.
Qed.

End GHF.

(* The lesser function of the second spin. *)
Section Down.
Variable C : numClosedFieldType.

Definition d_path : seq ('M[C]_1 * 'M[C]_1) := [:: (2%:R%:M, 2%:R%:M)].
Definition d_psi : 'M[C]_(1, 1) * 'M[C]_(1, 1) := (1%:M, 1%:M).

Lemma two_unit : (2%:R%:M : 'M[C]_1) \in unitmx.
Proof. by rewrite unitmxE det_scalar1 unitfE pnatr_eq0. Qed.

Lemma d_inv : invertible d_path.
Proof. by move=> B [<-|//]; rewrite /= two_unit. Qed.

Lemma d_ovl : nonorthogonal d_path d_psi d_psi.
Proof.
have h : ovlp_mx (@conjC C) (1%:M : 'M_1) (2%:R%:M *m 1%:M *m 1%:M) \in unitmx.
  by rewrite ovlpE adj_1 mul1mx !mulmx1 two_unit.
by split.
Qed.

Lemma full_lesser (X : 'M[C]_1) : X \in unitmx -> lesser X 1%:M = 1%:M.
Proof.
move=> u; rewrite /lesser mul1mx mulmx1 mulVmx //.
exact: adj_unit.
Qed.

Lemma down_refuted : exists G,
  chain (fun G p => increment_uhf_stable G p.1 p.2)
    ((1%:M, 1%:M), (1%:M, 1%:M)) (slices d_path d_psi d_psi 1) = Ok G
  /\ G.2.2 <> (displaced 1 d_path d_psi d_psi).2.2.
Proof.
have [//|G [e [_ h]]] := stable_chain d_inv d_ovl (k := 1).
exists G; split=> //; case: (h isT) => _ ->.
rewrite /displaced /at_slice /= /prod_u /prod_d /path_product /= !mulmx1.
rewrite !full_lesser ?adj_unit ?two_unit // !mul1mx.
move/(congr1 (fun X => 2%:R%:M *m X)).
rewrite mulmx1 mulmxA mulmxV ?two_unit // mul1mx.
move/(congr1 (fun X => 2%:R%:M *m X)); rewrite mulmxV ?two_unit // mulmx1.
move/matrixP/(_ 0 0); rewrite !mxE /= !mulr1n => /eqP.
by rewrite (eqr_nat C 1 2).
Qed.

End Down.

(* All walkers of a process. *)
Section Calc.
Variable C : numClosedFieldType.
Variable qr : forall n m, 'M[C]_(n, m) -> 'M[C]_(n, m) * 'M[C]_m.
Hypothesis Q : qr_works qr.
Variables (n nu nd : nat).
Variables (psi : 'M[C]_(n, nu) * 'M[C]_(n, nd)) (nst ntau : nat) (restore : bool).
Hypothesis n0 : (0 < nst)%N.
Variable ws : seq (itcf_walker C n nu nd).
Hypothesis S : forall w, List.In w ws -> sound psi w.

Let one := stable_walker qr restore nst ntau psi.
Let term k (p : cell C n -> 'M[C]_n) (w : itcf_walker C n nu nd) :=
  path_weight restore w *: re_part (p (displaced k (w_steps w) psi (w_right w))).

Lemma zero_nth k (p : cell C n -> 'M[C]_n) : p 0 = 0 ->
  p (nth 0 (nseq ntau.+1 (0 : cell C n)) k) = 0.
Proof. by move=> h; rewrite nth_nseq if_same. Qed.

Lemma first_zero s s' w : List.In w ws -> size s = ntau.+1 -> one w s = Ok s' ->
  size s' = ntau.+1 /\
  [/\ (nth 0 s' 0).1.1 = (nth 0 s 0).1.1 + term 0 (fun c => c.1.1) w,
      (nth 0 s' 0).1.2 = (nth 0 s 0).1.2 + term 0 (fun c => c.1.2) w,
      (nth 0 s' 0).2.1 = (nth 0 s 0).2.1 + term 0 (fun c => c.2.1) w
    & (nth 0 s' 0).2.2 = (nth 0 s 0).2.2 + term 0 (fun c => c.2.2) w].
Proof.
move=> i z h; have [z' [e _]] := walker_first Q n0 (S i) h.
by rewrite z' z e /term -wfacE.
Qed.

Lemma first_one s s' w : List.In w ws -> (0 < ntau)%N -> size s = ntau.+1 ->
  one w s = Ok s' ->
  size s' = ntau.+1 /\
  [/\ (nth 0 s' 1).1.1 = (nth 0 s 1).1.1 + term 1 (fun c => c.1.1) w,
      (nth 0 s' 1).1.2 = (nth 0 s 1).1.2 + term 1 (fun c => c.1.2) w
    & (nth 0 s' 1).2.1 = (nth 0 s 1).2.1 + term 1 (fun c => c.2.1) w].
Proof.
move=> i t0 z h; have [z' [_ e]] := walker_first Q n0 (S i) h.
have [G [r1 r2 r3] ->] := e t0.
by rewrite z' z /term -wfacE /= r1 r2 r3.
Qed.

Lemma calc_first e' ws' :
  calculate_spgf qr true restore nst ntau psi ws (0, nseq ntau.+1 0) = Ok (e', ws') ->
  [/\ e'.1 = \sum_(w <- ws) path_weight restore w, size e'.2 = ntau.+1,
      three_right restore ws psi 0 (nth 0 e'.2 0)
      /\ fourth_right restore ws psi 0 (nth 0 e'.2 0),
      (0 < ntau)%N -> three_right restore ws psi 1 (nth 0 e'.2 1)
    & forall i w, List.nth_error ws i = Some w ->
        exists2 w', List.nth_error ws' i = Some w' & w_right w' = w_phi w].
Proof.
rewrite /calculate_spgf.
case E: (walkers_loop _ _ _) => [s|e] //; cbn [rbind] => -[<- <-].
have z0 : size (nseq ntau.+1 (0 : cell C n)) = ntau.+1 by rewrite size_nseq.
have get k p : p 0 = 0 -> (forall w, List.In w ws -> forall s s', size s = ntau.+1 ->
     one w s = Ok s' -> size s' = ntau.+1 /\ p (nth 0 s' k) = p (nth 0 s k) + term k p w) ->
   size s = ntau.+1 /\ p (nth 0 s k) = \sum_(w <- ws) term k p w.
  move=> p0 h; have [z e] := loop_all z0 h E; split=> //.
  by rewrite e zero_nth // add0r.
have z : size s = ntau.+1.
  have [] // := get 0%N (fun c => c.1.1) erefl.
  by move=> w i a b za ho; have [? []] := first_zero i za ho.
split.
- by rewrite foldl_sum; apply: eq_bigr => w _; rewrite wfacE.
- exact: z.
- split; first split.
  + by have [] // := get 0%N (fun c => c.1.1) erefl => w i a b za ho;
       have [? []] := first_zero i za ho.
  + by have [] // := get 0%N (fun c => c.1.2) erefl => w i a b za ho;
       have [? []] := first_zero i za ho.
  + by have [] // := get 0%N (fun c => c.2.1) erefl => w i a b za ho;
       have [? []] := first_zero i za ho.
  by have [] // := get 0%N (fun c => c.2.2) erefl => w i a b za ho;
     have [? []] := first_zero i za ho.
- move=> t0; split.
  + by have [] // := get 1%N (fun c => c.1.1) erefl => w i a b za ho;
       have [? []] := first_one i t0 za ho.
  + by have [] // := get 1%N (fun c => c.1.2) erefl => w i a b za ho;
       have [? []] := first_one i t0 za ho.
  + by have [] // := get 1%N (fun c => c.2.1) erefl => w i a b za ho;
       have [? []] := first_one i t0 za ho.
- move=> i w h; exists (next_walker w); last by [].
  exact: (List.map_nth_error _ _ _ h).
Qed.

Lemma calc_eigen :
  (forall w, List.In w ws -> eigen (w_steps w) psi /\ (ntau <= size (w_steps w))%N) ->
  exists e' ws',
    calculate_spgf qr true restore nst ntau psi ws (0, nseq ntau.+1 0) = Ok (e', ws')
    /\ forall k, (k <= ntau)%N -> three_right restore ws psi k (nth 0 e'.2 k).
Proof.
move=> hE; rewrite /calculate_spgf.
have z0 : size (nseq ntau.+1 (0 : cell C n)) = ntau.+1 by rewrite size_nseq.
have [|s E z] := loop_total (one := one) (ws := ws) z0.
  move=> w i s z; have [h1 h2] := hE w i.
  have [s' [e [z' _]]] := walker_eigen Q restore n0 (S i) h1 h2 z.
  by exists s' => //; rewrite z'.
rewrite -/one E; cbn [rbind]; eexists; eexists; split; first by reflexivity.
move=> k lk.
have step w (i : List.In w ws) a b : size a = ntau.+1 -> one w a = Ok b ->
  size b = ntau.+1 /\
  [/\ (nth 0 b k).1.1 = (nth 0 a k).1.1 + term k (fun c => c.1.1) w,
      (nth 0 b k).1.2 = (nth 0 a k).1.2 + term k (fun c => c.1.2) w
    & (nth 0 b k).2.1 = (nth 0 a k).2.1 + term k (fun c => c.2.1) w].
  move=> za ho; have [h1 h2] := hE w i.
  have [s' [e [z' h]]] := walker_eigen Q restore n0 (S i) h1 h2 za.
  move: ho; rewrite /one e => -[<-]; rewrite z'; split=> //.
  by have [G [r1 r2 r3] ->] := h k lk; rewrite /term -wfacE /= r1 r2 r3.
have get p : p 0 = 0 -> (forall w, List.In w ws -> forall s s', size s = ntau.+1 ->
     one w s = Ok s' -> size s' = ntau.+1 /\ p (nth 0 s' k) = p (nth 0 s k) + term k p w) ->
   p (nth 0 s k) = \sum_(w <- ws) term k p w.
  move=> p0 h; have [_ e] := loop_all z0 h E.
  by rewrite e zero_nth // add0r.
split.
+ by apply: (get (fun c => c.1.1)) => // w i a b za ho; have [? []] := step w i a b za ho.
+ by apply: (get (fun c => c.1.2)) => // w i a b za ho; have [? []] := step w i a b za ho.
+ by apply: (get (fun c => c.2.1)) => // w i a b za ho; have [? []] := step w i a b za ho.
Qed.

Lemma calc_unstable e : (0 < ntau)%N -> (0 < size e.2)%N -> (0 < size ws)%N ->
  calculate_spgf qr false restore nst ntau psi ws e = Err NameError.
Proof.
rewrite /calculate_spgf; case: ws S => [//|w l] h t0 z _ /=.
by rewrite (unstable_name Q restore n0 (h w (or_introl erefl)) t0 z).
Qed.

End Calc.
