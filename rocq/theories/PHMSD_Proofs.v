(* Proofs about trial wavefunctions from particle-hole expansions. *)

From Verif Require Import Base.
Set Warnings "-notation-overridden,-ambiguous-paths".
From mathcomp Require Import all_ssreflect all_algebra zify.
From Verif Require Import Fock_Spec Fock_Proofs CI_Proofs
  PHMSD_Model PHMSD_Spec.

Set Implicit Arguments.
Unset Strict Implicit.
Unset Printing Implicit Defensive.

Import GRing.Theory.
Local Open Scope ring_scope.

Section Slater.
Variable C : comRingType.
Variable M : nat.

Definition unit_at (x : nat) : 'I_M -> C := fun q => (val q == x)%:R.
Definition of_list (l : seq nat) : {set 'I_M} := [set q | val q \in l].

Lemma slater_ext T (s : seq T) (f g : T -> 'I_M -> C) :
  (forall t, f t =1 g t) -> slater [seq f t | t <- s] =1 slater [seq g t | t <- s].
Proof.
move=> e; elim: s => [|t s IH] S //=; apply: eq_bigr => p _; rewrite e; congr (_ * _).
by rewrite /create IH.
Qed.

Lemma of_list_cons (p : 'I_M) l : of_list (val p :: l) = p |: of_list l.
Proof. by apply/setP => q; rewrite !inE; congr (_ || _). Qed.

Lemma card_below (l : seq nat) x : uniq l -> all (fun o => o < M)%N l ->
  #|[set y in of_list l | (y < x)%N]| = count (fun y => y < x)%N l.
Proof.
elim: l => [|y l IH] /=; first by move=> _ _; apply: eq_card0 => q; rewrite !inE.
case/andP=> ny u /andP[ly al]; rewrite -(IH u al).
have -> : of_list (y :: l) = Ordinal ly |: of_list l by exact: (of_list_cons (Ordinal ly) l).
case lt: (y < x)%N => /=.
  rewrite (_ : [set z in Ordinal ly |: of_list l | (z < x)%N]
             = Ordinal ly |: [set z in of_list l | (z < x)%N]).
    by rewrite cardsU1 !inE (negbTE ny).
  by apply/setP => z; rewrite !inE; case: eqP => [->|] //=; rewrite lt.
rewrite add0n; apply: eq_card => z; rewrite !inE.
by case: eqP => [->|] //=; rewrite lt andbF.
Qed.

Lemma slater_units l S : slater [seq unit_at x | x <- l] S
  = if uniq l && all (fun o => o < M)%N l then (-1) ^+ inversions l * (S == of_list l)%:R else 0.
Proof.
elim: l S => [|x l IH] S /=.
  have -> : of_list [::] = set0 by apply/setP => q; rewrite !inE.
  by rewrite expr0 mul1r.
case lx: (x < M)%N; last first.
  rewrite /= andbF big1 // => q _; rewrite /unit_at; case: eqP => [e|]; last by rewrite mul0r.
  by move: (ltn_ord q); rewrite e lx.
rewrite (bigD1 (Ordinal lx)) //= big1 ?addr0 => [|q ne]; last first.
  by rewrite /unit_at; case: eqP => [e|]; [case/eqP: ne; apply: val_inj | rewrite mul0r].
rewrite /unit_at /= eqxx mul1r /create IH.
case u: (uniq l); last by rewrite andbF /= mulr0 if_same.
case al: (all _ l); last by rewrite !andbF /= mulr0 if_same.
rewrite /= !andbT.
set p := Ordinal lx; set A := of_list l.
have pA : (p \in A) = (x \in l) by rewrite inE.
have -> : of_list (x :: l) = p |: A by exact: (of_list_cons p l).
rewrite -pA.
case pS: (p \in S); last first.
  case: ifP => // _; rewrite (_ : (S == _) = false) ?mulr0 //.
  by apply/negbTE/eqP => e; move: pS; rewrite e !inE eqxx.
case inA: (p \in A) => /=.
  rewrite (_ : (S :\ p == A) = false) ?mulr0 //.
  by apply/negbTE/eqP => e; move: inA; rewrite -e !inE eqxx.
rewrite (_ : (S :\ p == A) = (S == p |: A)); last first.
  apply/eqP/eqP => [<-|->]; first by rewrite setD1K.
  by rewrite setU1K // inA.
case: eqP => [->|]; last by rewrite !mulr0.
by rewrite sgnU1 /sgn card_below // exprD !mulr1.
Qed.
End Slater.

Lemma inversions_cat l m :
  inversions (l ++ m) = (inversions l + inversions m + \sum_(x <- l) count (fun y => y < x)%N m)%N.
Proof.
elim: l => [|x l IH] /=; first by rewrite big_nil addn0.
by rewrite IH count_cat big_cons; lia.
Qed.

Lemma inversions_shift n l : inversions [seq (i + n)%N | i <- l] = inversions l.
Proof.
elim: l => //= x l ->; congr (_ + _)%N; rewrite count_map; apply: eq_count => y /=.
by rewrite ltn_add2r.
Qed.

Lemma inversions_join n a c : all (fun o => o < n)%N a ->
  inversions (a ++ [seq (i + n)%N | i <- c]) = (inversions a + inversions c)%N.
Proof.
move=> al; rewrite inversions_cat inversions_shift big1_seq ?addn0 // => x /andP[_ xa].
rewrite count_map; apply/eqP; rewrite -leqn0 leqNgt -has_count; apply/hasPn => y _ /=.
by rewrite -leqNgt; move/allP: al => /(_ x xa); lia.
Qed.

Lemma inversions_sorted l : sorted ltn l -> inversions l = 0%N.
Proof.
elim: l => //= x l IH so.
rewrite IH ?(path_sorted so) // addn0; apply/eqP; rewrite -leqn0 leqNgt -has_count.
apply/hasPn => y yl; rewrite -leqNgt.
by move: (order_path_min ltn_trans so) => /allP /(_ y yl) /ltnW.
Qed.

Section Dets.
Variable C : comRingType.
Variables n nu nd : nat.

Lemma of_list_join a c : all (fun o => o < n)%N a ->
  of_list (n + n) (a ++ [seq (i + n)%N | i <- c]) = occupied n a c.
Proof.
move=> al; apply/setP => p; rewrite !inE mem_cat; case: splitP => i e /=.
  rewrite e orbC; case: mapP => // -[y _ e']; move: (ltn_ord i); rewrite e'; lia.
rewrite e (_ : (n + i)%N = (i + n)%N); last by rewrite addnC.
rewrite (mem_map (@addIn n)).
case ia: ((i + n)%N \in a) => //; move/allP: al => /(_ _ ia); lia.
Qed.

Definition filled k (occ : seq nat) : seq nat := if size occ == 1%N then nseq k (nth 0%N occ 0) else occ.

Lemma nth_enum k (occ : seq nat) : (size occ == k) || (size occ == 1%N) ->
  [seq nth 0%N occ (if size occ == 1%N then 0%N else val j) | j <- enum 'I_k] = filled k occ.
Proof.
rewrite /filled; case: (size occ =P 1%N) => [e|_].
  move=> _; rewrite (_ : [seq _ | j <- enum 'I_k] = [seq nth 0%N occ 0 | j <- iota 0 k]).
    by move: (nth _ occ _) => v; elim: k (0%N) => [|k IH] m //=; rewrite -(IH m.+1).
  by rewrite -val_enum_ord -[RHS]map_comp.
rewrite orbF => /eqP sz.
rewrite (map_comp (fun j => nth 0%N occ j) val) val_enum_ord -sz; exact: mkseq_nth.
Qed.

Lemma nth_lt k (occ : seq nat) (j : 'I_k) : (size occ == k) || (size occ == 1%N) ->
  all (fun o => o < n)%N occ -> (nth 0%N occ (if size occ == 1%N then 0%N else val j) < n)%N.
Proof.
move=> sz /all_nthP al; apply: al; case: (size occ =P 1%N) sz => [->|_] //.
by rewrite orbF => /eqP ->; case: j.
Qed.

Lemma slater_dets (a c : seq nat) U D : all (fun o => o < n)%N a ->
  assign C n nu a = Ok U -> assign C n nd c = Ok D ->
  slater (spin_orbitals U D)
  =1 slater [seq @unit_at C (n + n) x | x <- filled nu a ++ [seq (i + n)%N | i <- filled nd c]].
Proof.
move=> al; rewrite /assign; case: ifP => // e1 [<-]; case: ifP => // e2 [<-].
have f1 : (size a == nu) || (size a == 1%N) by move/negbT: e1; rewrite negb_and !negbK.
have f2 : (size c == nd) || (size c == 1%N) by move/negbT: e2; rewrite negb_and !negbK.
rewrite -(nth_enum f1) -(nth_enum f2) -map_comp /spin_orbitals.
set f := fun t : 'I_nu + 'I_nd => match t with
  | inl j => nth 0%N a (if size a == 1%N then 0%N else val j)
  | inr j => (nth 0%N c (if size c == 1%N then 0%N else val j) + n)%N end.
set L := [seq inl j | j <- enum 'I_nu] ++ [seq inr j | j <- enum 'I_nd].
set U' := \matrix_(i, j) _; set D' := \matrix_(i, j) _.
set g := fun t : 'I_nu + 'I_nd => fun p : 'I_(n + n) => match t with
  | inl j => if split p is inl i then U' i j else 0
  | inr j => if split p is inr i then D' i j else 0 end.
have -> : [seq (fun p : 'I_(n + n) => if split p is inl i then U' i j else 0) | j <- enum 'I_nu]
   ++ [seq (fun p : 'I_(n + n) => if split p is inr i then D' i j else 0) | j <- enum 'I_nd]
   = [seq g t | t <- L] by rewrite map_cat -!map_comp.
rewrite (_ : [seq @unit_at C (n + n) x | x <- _] = [seq @unit_at C (n + n) (f t) | t <- L]); last first.
  by rewrite /L !map_cat -!map_comp.
apply: slater_ext => -[j|j] p; rewrite /g /f /unit_at; case: splitP => i e; rewrite ?mxE /= ?e //=.
  by case: eqP => // e'; move: (nth_lt j f1 al); rewrite -e'; lia.
- case: eqP => // e'; move: (ltn_ord i); rewrite e'; lia.
- by rewrite addnC eqn_add2r.
Qed.

Definition dmx k (occ : seq nat) : 'M[C]_(n, k) :=
  \matrix_(i, j) (val i == nth 0%N occ (if size occ == 1%N then 0%N else j))%:R.

Lemma assignE k occ : assign C n k occ
  = if (size occ == k) || (size occ == 1%N) then Ok (dmx k occ) else Err ValueError.
Proof. by rewrite /assign -negb_or if_neg. Qed.

Lemma filled_id k (l : seq nat) : size l = k -> filled k l = l.
Proof. by rewrite /filled; case: eqP => // e <-; case: l e => // x [|]. Qed.

Lemma filled_all k (l : seq nat) (P : pred nat) : all P l -> all P (filled k l).
Proof.
rewrite /filled; case: eqP => // e; case: l e => // x [|] //= _; rewrite andbT => px.
by rewrite all_nseq px orbT.
Qed.

Lemma slater_det (d : seq nat * seq nat) S : allowed n nu nd d ->
  slater (spin_orbitals (dmx nu d.1) (dmx nd d.2)) S
  = if uniq (filled nu d.1) && uniq (filled nd d.2)
    then (-1) ^+ (inversions (filled nu d.1) + inversions (filled nd d.2))
         * ket C (occupied n (filled nu d.1) (filled nd d.2)) S
    else 0.
Proof.
case: d => a c /and4P[/= la lc sa sc].
rewrite (@slater_dets a c) ?assignE ?sa ?sc // slater_units inversions_join ?filled_all //.
rewrite of_list_join ?filled_all // all_cat all_map.
have -> : all (fun o => o < n + n)%N (filled nu a).
  by apply: sub_all (filled_all nu la) => x /=; lia.
have -> : all (preim (fun i => i + n)%N (fun o => o < n + n)%N) (filled nd c).
  by apply: sub_all (filled_all nd lc) => x /=; lia.
rewrite cat_uniq (map_inj_uniq (@addIn n)) andbT.
have -> : ~~ has (mem (filled nu a)) [seq (i + n)%N | i <- filled nd c].
  apply/hasPn => x /mapP[y _ ->] /=; apply/negP => ia.
  by move/allP: (filled_all nu la) => /(_ _ ia); lia.
by rewrite !andbT /=.
Qed.

Lemma validW d : valid n nu nd d -> allowed n nu nd d.
Proof. by case/and5P=> _ _ l1 l2 /andP[s1 s2]; rewrite /allowed l1 l2 s1 s2. Qed.

Lemma slater_valid (d : seq nat * seq nat) S : valid n nu nd d ->
  slater (spin_orbitals (dmx nu d.1) (dmx nd d.2)) S
  = (-1) ^+ (inversions d.1 + inversions d.2) * ket C (occupied n d.1 d.2) S.
Proof.
move=> v; rewrite slater_det ?validW //; case/and5P: v => u1 u2 _ _ /andP[/eqP s1 /eqP s2].
by rewrite !filled_id // u1 u2.
Qed.

Lemma filled_doubled k l : (size l == k) || (size l == 1%N) ->
  uniq (filled k l) = uniq l && ~~ ((size l == 1%N) && (1 < k)%N).
Proof.
rewrite /filled; case: (size l =P 1%N) => [e|_]; last by rewrite andbT.
by case: l e => // x [|] //= _ _; case: k => [|[|k]] //=; rewrite inE eqxx.
Qed.

Lemma slater_doubled (d : seq nat * seq nat) S : allowed n nu nd d -> doubled nu nd d ->
  slater (spin_orbitals (dmx nu d.1) (dmx nd d.2)) S = 0.
Proof.
move=> al du; rewrite slater_det //; case/and4P: al => _ _ s1 s2.
rewrite !filled_doubled //; move: du; rewrite /doubled.
move: (uniq d.1) (uniq d.2) ((size d.1 == 1%N) && _) ((size d.2 == 1%N) && _).
by do 4 case.
Qed.

Definition dets_of (ds : seq (seq nat * seq nat)) : seq (pair_t C n nu nd) :=
  [seq (dmx nu d.1, dmx nd d.2) | d <- ds].

Lemma fill_ok ds k : all (allowed n nu nd) ds ->
  fill_dets C n nu nd false (k + size ds) k ds = Ok (dets_of ds).
Proof.
elim: ds k => [|[a c] ds IH] k /=; first by rewrite addn0 subnn.
case/andP=> /and4P[/= la lc sa sc] al.
rewrite /fetch la lc /= !assignE sa sc /= (_ : (k + (size ds).+1 <= k)%N = false); last by apply/negbTE; lia.
by rewrite addnS -addSn IH.
Qed.

Lemma fill_bad ds N k : (k + size ds <= N)%N -> ~~ all (allowed n nu nd) ds ->
  fill_dets C n nu nd false N k ds = Err IndexError \/
  fill_dets C n nu nd false N k ds = Err ValueError.
Proof.
elim: ds k => [|[a c] ds IH] k //= le; rewrite negb_and.
rewrite leqNgt (_ : (k < N)%N); last by move: le; lia.
rewrite /fetch; case la: (all (fun o => o < n)%N a) => /=; last by left.
rewrite !assignE; case sa: ((size a == nu) || (size a == 1%N)) => /=; last by right.
case lc: (all (fun o => o < n)%N c) => /=; last by left.
rewrite assignE; case sc: ((size c == nd) || (size c == 1%N)) => /=; last by right.
rewrite /allowed /= la lc sa sc /= => nal.
by case: (IH k.+1 _ nal) => [|->|->]; rewrite ?addSnnS //; [left | right].
Qed.

Lemma fill_more ds N k : all (allowed n nu nd) ds -> (N < k + size ds)%N -> (k <= N)%N ->
  fill_dets C n nu nd false N k ds = Err IndexError.
Proof.
elim: ds k => [|[a c] ds IH] k /=; first by rewrite addn0 => _; lia.
case/andP=> /and4P[/= la lc sa sc] al lt le.
rewrite /fetch la lc /= !assignE sa sc /=; case: leqP => // kN.
by rewrite IH // addSnnS.
Qed.

Lemma sort_join d : valid n nu nd d ->
  sort leq (d.1 ++ [seq (i + n)%N | i <- d.2]) = occ (occupied n d.1 d.2).
Proof.
case/and5P=> u1 u2 l1 l2 _; set j := _ ++ _.
have uj : uniq j.
  rewrite cat_uniq u1 (map_inj_uniq (@addIn n)) u2 andbT; apply/hasPn => x /mapP[y _ ->] /=.
  by apply/negP => ia; move/allP: l1 => /(_ _ ia); lia.
have so : sorted ltn (sort leq j).
  by rewrite ltn_sorted_uniq_leq sort_uniq uj sort_sorted //; apply: leq_total.
rewrite -(@join_occ n (sort leq j)) //.
  congr occ; rewrite -(of_list_join d.2 l1); apply/setP => x; rewrite !inE.
  by rewrite (perm_mem (permEl (perm_sort leq j))).
rewrite (eq_all_r (perm_mem (permEl (perm_sort leq j)))) all_cat all_map; apply/andP; split.
  by apply: sub_all l1 => x /=; lia.
by apply: sub_all l2 => x /=; lia.
Qed.

Lemma zip_unzip (ds : seq (seq nat * seq nat)) : zip (unzip1 ds) (unzip2 ds) = ds.
Proof. exact: zip_unzip. Qed.

Lemma phmsd_ok ds : all (allowed n nu nd) ds ->
  from_phmsd C n nu nd false (size ds) (unzip1 ds) (unzip2 ds)
  = Ok ([seq sort leq (d.1 ++ [seq (i + n)%N | i <- d.2]) | d <- ds], dets_of ds).
Proof. by move=> al; rewrite /from_phmsd zip_unzip (fill_ok 0 al). Qed.

Lemma phmsd_valid ds : all (valid n nu nd) ds ->
  from_phmsd C n nu nd false (size ds) (unzip1 ds) (unzip2 ds)
  = Ok ([seq occ (occupied n d.1 d.2) | d <- ds], dets_of ds).
Proof.
move=> v; rewrite phmsd_ok; last by apply: sub_all v => d; apply: validW.
by congr (Ok (_, _)); apply/eq_in_map => d /(allP v); apply: sort_join.
Qed.
End Dets.
