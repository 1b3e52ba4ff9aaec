(* Proofs about the plane waves on a grid and the convolutions for momentum transfers. *)

From Verif Require Import Base BaseFacts.
Set Warnings "-notation-overridden,-ambiguous-paths".
From mathcomp Require Import all_ssreflect all_algebra zify.
From Verif Require Import Kspace_Spec Kspace_Proofs PWFFT_Model PWFFT_Proofs.

Set Implicit Arguments.
Unset Strict Implicit.
Unset Printing Implicit Defensive.

Import Order.TTheory GRing.Theory Num.Theory.
Local Open Scope ring_scope.

(* the wave vector at a flat index *)
Definition kvec (nm i : nat) : vec :=
  let n := (2 * nm + 1)%N in
  ((i %/ n %/ n)%N%:Z - nm%:Z, (i %/ n %% n)%N%:Z - nm%:Z, (i %% n)%N%:Z - nm%:Z).

Lemma nth_all (A B T : Type) (a0 : A) (b0 : B) (x0 : T) (f : A -> B -> T) s r d k l :
  size r = d -> (k < size s)%N -> (l < d)%N ->
  nth x0 [seq f n m | n <- s, m <- r] (k * d + l) = f (nth a0 s k) (nth b0 r l).
Proof.
move=> <-.
elim: s k => [|a s IH] [|k] //= ks lr.
- by rewrite nth_cat size_map mul0n add0n lr (nth_map b0).
- rewrite nth_cat size_map ltnNge (_ : (size r <= _)%N) /=; last by rewrite mulSn -addnA leq_addr.
  by rewrite mulSn -addnA addKn IH.
Qed.

Lemma size_range n : size (fill_up_range n) = n.
Proof. by rewrite size_map size_iota. Qed.
Lemma nth_range nm i : (i < 2 * nm + 1)%N -> nth 0 (fill_up_range (2 * nm + 1)) i = i%:Z - nm%:Z.
Proof.
move=> h; rewrite (nth_map 0%N) ?size_iota // nth_iota // add0n.
by rewrite (_ : (_ %/ 2)%N = nm) //; lia.
Qed.

Lemma size_product3 g : size (product3 g) = (size g ^ 3)%N.
Proof. by rewrite /product3 !size_allpairs !expnS expn0 muln1 mulnA. Qed.

Lemma nth_product3 nm i : (i < (2 * nm + 1) ^ 3)%N ->
  nth 0 (product3 (fill_up_range (2 * nm + 1))) i = kvec nm i.
Proof.
set n := (2 * nm + 1)%N => h.
have hx := coord_x h; have hy := coord_y h; have hz := coord_z h.
rewrite /product3 -{1}(entry_id n i) /entry.
rewrite (@nth_all _ _ _ (0, 0) 0 _ _ _ _ n) ?size_range //; last first.
  by rewrite size_allpairs size_range; nia.
rewrite (@nth_all _ _ _ 0 0 _ _ _ _ n) ?size_range //=.
by rewrite !nth_range.
Qed.

Lemma kvec_inj nm i j : (i < (2 * nm + 1) ^ 3)%N -> (j < (2 * nm + 1) ^ 3)%N ->
  kvec nm i = kvec nm j -> i = j.
Proof.
move=> hi hj [ex ey ez].
rewrite -(entry_id (2 * nm + 1) i) -(entry_id (2 * nm + 1) j).
move: ex ey ez => /addIr ex /addIr ey /addIr ez.
by case: ex => ->; case: ey => ->; case: ez => ->.
Qed.

Lemma kvec_entry nm x y z : (x < 2 * nm + 1)%N -> (y < 2 * nm + 1)%N -> (z < 2 * nm + 1)%N ->
  kvec nm (entry (2 * nm + 1) x y z) = (x%:Z - nm%:Z, y%:Z - nm%:Z, z%:Z - nm%:Z).
Proof. by move=> hx hy hz; rewrite /kvec entry_x // entry_y // entry_z. Qed.

(* every vector of the box is on the grid *)
Lemma kvec_onto nm (k : vec) : (`|k.1.1| <= nm)%N -> (`|k.1.2| <= nm)%N -> (`|k.2| <= nm)%N ->
  exists2 i, (i < (2 * nm + 1) ^ 3)%N & kvec nm i = k.
Proof.
case: k => [[x y] z] /= hx hy hz.
exists (entry (2 * nm + 1) (absz (x + nm%:Z)) (absz (y + nm%:Z)) (absz (z + nm%:Z))).
  by apply: entry_lt; lia.
by rewrite kvec_entry; try lia; congr (_, _, _); lia.
Qed.

Lemma kvec_box nm i : (i < (2 * nm + 1) ^ 3)%N ->
  [/\ (`|(kvec nm i).1.1| <= nm)%N, (`|(kvec nm i).1.2| <= nm)%N & (`|(kvec nm i).2| <= nm)%N].
Proof.
move=> h; have hx := coord_x h; have hy := coord_y h; have hz := coord_z h.
rewrite /kvec /=; clear h.
move: (_ %/ _)%N (_ %% _)%N (_ %% _)%N hx hy hz => x y z hx hy hz.
by split; lia.
Qed.

(* reversing the grid changes the sign *)
Lemma kvec_rev nm i : (i < (2 * nm + 1) ^ 3)%N ->
  kvec nm ((2 * nm + 1) ^ 3 - 1 - i) = - kvec nm i.
Proof.
set n := (2 * nm + 1)%N => h.
have hx := coord_x h; have hy := coord_y h; have hz := coord_z h.
have -> : (n ^ 3 - 1 - i)%N
        = entry n (n - 1 - i %/ n %/ n) (n - 1 - i %/ n %% n) (n - 1 - i %% n).
  rewrite -{1}(entry_id n i) /entry !expnS expn0 muln1.
  clear h; move: (i %/ n %/ n)%N (i %/ n %% n)%N (i %% n)%N hx hy hz => x y z hx hy hz.
  have e1 : (x * n + y + ((n - 1 - x) * n + (n - 1 - y)) + 1 = n * n)%N.
    have E := mulnDl x (n - 1 - x)%N n.
    have E2 := mulnDl (n - 1)%N 1%N n.
    rewrite (_ : (x + (n - 1 - x) = n - 1)%N) in E; last by lia.
    rewrite (_ : (n - 1 + 1 = n)%N) ?mul1n in E2; last by lia.
    move: ((n - 1) * n)%N (x * n)%N ((n - 1 - x) * n)%N (n * n)%N E E2 => u v v' nn E E2.
    lia.
  move: (x * n + y)%N ((n - 1 - x) * n + (n - 1 - y))%N e1 => a b e1.
  have := mulnDl (a + b)%N 1%N n; rewrite e1 mulnDl mul1n mulnA; lia.
rewrite kvec_entry -/n.
2, 3, 4 : by move: hx hy hz; clear; move: (i %/ n %/ n)%N (i %/ n %% n)%N (i %% n)%N => x y z; lia.
rewrite /kvec -/n; clear h.
move: (i %/ n %/ n)%N (i %/ n %% n)%N (i %% n)%N hx hy hz => x y z hx hy hz.
by congr (_, _, _) => /=; rewrite /n in hx hy hz *; lia.
Qed.

Lemma adds_kvec nm i j r : let n := (2 * nm + 1)%N in
  (i < n ^ 3)%N -> (j < n ^ 3)%N -> (r < (n + n - 1) ^ 3)%N ->
  adds n i j r = (kvec nm i + kvec nm j == kvec (nm * 2) r).
Proof.
move=> n hi hj hr; have m : (n + n - 1 = 2 * (nm * 2) + 1)%N by rewrite /n; lia.
rewrite /adds m /kvec -/n.
move: (i %/ n %/ n)%N (i %/ n %% n)%N (i %% n)%N (j %/ n %/ n)%N (j %/ n %% n)%N (j %% n)%N
  (r %/ _ %/ _)%N (r %/ _ %% _)%N (r %% _)%N => x y z x' y' z' X Y Z; clear.
apply/idP/eqP => [/andP [/andP [/eqP e1 /eqP e2] /eqP e3]|[e1 e2 e3]].
  by congr (_, _, _) => /=; lia.
by apply/andP; split; [apply/andP; split|]; apply/eqP; lia.
Qed.

(* ------------------------------------------------------------ indices *)

Lemma rev_filter (N : nat) (P : pred nat) :
  (forall i, (i < N)%N -> P (N - 1 - i)%N = P i) ->
  [seq (N - 1 - i)%N | i <- rev [seq i <- iota 0 N | P i]] = [seq i <- iota 0 N | P i].
Proof.
move=> h.
have e : [seq i <- iota 0 N | P i] = [seq i <- iota 0 N | P (N - 1 - i)%N].
  by apply: eq_in_filter => i; rewrite mem_iota => /andP [_ hi]; rewrite h.
have m : [seq (N - 1 - i)%N | i <- iota 0 N] = rev (iota 0 N).
  apply: (@eq_from_nth _ 0%N); rewrite ?size_rev ?size_map // => i hi.
  rewrite size_iota in hi; rewrite (nth_map 0%N) ?size_iota // nth_rev ?size_iota //.
  by rewrite !nth_iota ?add0n //; lia.
rewrite map_rev e -(filter_map (fun i => (N - 1 - i)%N) P) m -filter_rev revK.
by rewrite -e.
Qed.

Section Lists.
Variable C : numClosedFieldType.

Lemma foldl_set (T : Type) (x0 : T) (idx : seq nat) (vals a : seq T) n : size vals = size idx -> uniq idx ->
  all (fun i => (i < n)%N) idx -> size a = n ->
  let c := foldl (fun a iv => set_nth x0 a iv.1 iv.2) a (zip idx vals) in
  size c = n /\ forall i, nth x0 c i = if i \in idx then nth x0 vals (index i idx) else nth x0 a i.
Proof.
elim: idx vals a => [|i0 idx IH] [|v0 vals] a //= [sv] /andP [ni un] /andP [hi0 hall] sa.
have sz : size (set_nth x0 a i0 v0) = n by rewrite size_set_nth sa; apply/maxn_idPr.
have [s e] := IH vals (set_nth x0 a i0 v0) sv un hall sz.
  split=> // i; rewrite e inE; case: (altP (i =P i0)) => [->|ne] /=.
    by rewrite (negbTE ni) eqxx nth_set_nth /= eqxx.
  rewrite [i0 == i]eq_sym (negbTE ne) /=; case: ifP => // _.
  by rewrite nth_set_nth /= (negbTE ne).
Qed.

Lemma scatterE n (idx : seq nat) (vals : seq C) : size vals = size idx -> uniq idx ->
  all (fun i => (i < n)%N) idx ->
  exists c, [/\ scatter n idx vals = Ok c, size c = n &
    forall F : nat -> C, \sum_(i < n) nth 0 c i * F i
       = \sum_(a < size idx) nth 0 vals a * F (nth 0%N idx a)].
Proof.
move=> sv un hall; rewrite /scatter sv eqxx /= hall.
have sa : size (nseq n 0 : seq C) = n by rewrite size_nseq.
have [s e] := foldl_set 0 sv un hall sa.
eexists; split; [by []|by []|] => F.
have z i : nth 0 (nseq n 0 : seq C) i = 0 by rewrite nth_nseq; case: ifP.
rewrite (eq_bigr (fun i : 'I_n => \sum_(a < size idx)
   (if nth 0%N idx a == i then nth 0 vals a * F i else 0))); last first.
  move=> i _; rewrite e z; case: ifP => hi.
    have hx : (index (i : nat) idx < size idx)%N by rewrite index_mem.
    rewrite (bigD1 (Ordinal hx)) //= nth_index // eqxx big1 ?addr0 // => a ne.
    case: eqP => // ea; case/eqP: ne; apply: val_inj => /=.
    by rewrite -ea index_uniq.
  rewrite mul0r big1 // => a _; case: eqP => // ea.
  by rewrite -ea mem_nth in hi.
rewrite exchange_big; apply: eq_bigr => a _.
have ha : (nth 0%N idx a < n)%N by apply: (allP hall); apply: mem_nth.
rewrite (bigD1 (Ordinal ha)) //= eqxx big1 ?addr0 // => i ne.
by case: eqP => // ea; case/eqP: ne; apply: val_inj.
Qed.
End Lists.
