(* Proofs about the construction of the plane wave system. *)

From Verif Require Import Base BaseFacts.
Set Warnings "-notation-overridden,-ambiguous-paths".
From mathcomp Require Import all_ssreflect all_algebra zify.
From Verif Require Import PWFFT_Model PWFFT_Proofs PWGrid_Proofs.

Set Implicit Arguments.
Unset Strict Implicit.
Unset Printing Implicit Defensive.

Import Order.TTheory GRing.Theory Num.Theory.
Local Open Scope ring_scope.

(* ------------------------------------------------------------ the box *)

Lemma ceil_sqrtP (x : rat) : 0 <= x -> x <= (ceil_sqrt x ^ 2)%N%:R.
Proof.
move=> x0; rewrite /ceil_sqrt; set p := (fun _ => _); set s := iota _ _.
have H : has p s.
  apply/hasP; exists `|numq x|%N; first by rewrite mem_iota /=; lia.
  rewrite /p.
  have e : (`|numq x|%N%:R : rat) = (numq x)%:~R by rewrite natr_absz ger0_norm ?numq_ge0.
  have x1 : x <= `|numq x|%N%:R.
    rewrite e -{1}(divq_num_den x) ler_pdivr_mulr ?ltr0z ?denq_gt0 //.
    by rewrite ler_pemulr ?ler0z ?numq_ge0 // -[1]/(1%:~R) ler_int; have := denq_gt0 x; lia.
  apply: (le_trans x1); rewrite ler_nat expnS expn1.
  by case: `|numq x|%N => // y; rewrite leq_pmull.
have := nth_find 0%N H; rewrite nth_iota ?add0n //.
by have := H; rewrite has_find size_iota.
Qed.

Lemma dot2N (k : vec) : dot2 (- k) = dot2 k.
Proof. by case: k => [[x y] z]; rewrite /dot2 /= !mulrNN. Qed.

Definition inside (ecut : rat) (k : vec) : bool := 2%:R^-1 * (dot2 k)%:~R <= ecut.

Lemma inside2 ecut k : inside ecut k = ((dot2 k)%:~R <= 2%:R * ecut).
Proof. by rewrite /inside ler_pdivr_mull. Qed.

Lemma in_box ecut nm (k : vec) : 2%:R * ecut <= (nm ^ 2)%N%:R -> inside ecut k ->
  [/\ (`|k.1.1| <= nm)%N, (`|k.1.2| <= nm)%N & (`|k.2| <= nm)%N].
Proof.
rewrite inside2 => h1 h2; have := le_trans h2 h1.
rewrite pmulrn ler_int /dot2; case: k {h1 h2} => [[x y] z] /=.
rewrite expnS expn1 PoszM => h; split.
- by have : x * x <= nm%:Z * nm%:Z by [nia|]; nia.
- by have : y * y <= nm%:Z * nm%:Z by [nia|]; nia.
- by have : z * z <= nm%:Z * nm%:Z by [nia|]; nia.
Qed.

(* differences of plane waves are momentum transfers *)
Lemma inside_sub ecut k k' : inside ecut k -> inside ecut k' -> inside (4%:R * ecut) (k - k').
Proof.
rewrite !inside2 => h h'.
have : ((dot2 (k - k'))%:~R : rat) <= 2%:R * (dot2 k)%:~R + 2%:R * (dot2 k')%:~R.
  have -> : 2%:R * (dot2 k)%:~R + 2%:R * (dot2 k')%:~R = (dot2 k + dot2 k + (dot2 k' + dot2 k'))%:~R :> rat.
    by move: (dot2 k) (dot2 k') => a b; rewrite !mulr_natl !mulr2n !intrD.
  rewrite ler_int; case: k k' {h h'} => [[x y] z] [[x' y'] z']; rewrite /dot2 /=.
  have S (a b : int) : (a - b) * (a - b) <= a * a + a * a + (b * b + b * b).
    by have := sqr_ge0 (a + b); rewrite expr2; nia.
  by have := S x x'; have := S y y'; have := S z z'; lia.
move=> h2; apply: (le_trans h2).
have -> : 2%:R * (4%:R * ecut) = 2%:R * (2%:R * ecut) + 2%:R * (2%:R * ecut) :> rat.
  by rewrite -mulrDr -mulrDl -natrD.
by apply: ler_add; rewrite ler_pmul2l.
Qed.

(* ------------------------------------------------------------ sp_energies *)
Section System.
Variable C : numClosedFieldType.
Variables (kfac : C) (kt : C * C * C).

Lemma sp_energiesE ecut nmo sp kv nm gm :
  sp_energies kfac kt ecut nmo = Ok (sp, kv, nm, gm) ->
  [/\ gm = [seq i <- iota 0 ((2 * nm + 1) ^ 3) | inside ecut (kvec nm i)],
      kv = [seq kvec nm i | i <- gm],
      nm = (if nmo is Some x then x else ceil_sqrt (2%:R * ecut)) &
      sp = [seq kfac ^+ 2 * (2%:R^-1 * ((k.1.1%:~R + kt.1.1) ^+ 2
                  + (k.1.2%:~R + kt.1.2) ^+ 2 + (k.2%:~R + kt.2) ^+ 2)) | k <- kv]].
Proof.
rewrite /sp_energies; case: ifP => // _; set m := (if nmo is Some x then x else _).
case: ifP => // _ [<- <- <- <-].
set g := [seq i <- _ | _].
have gE : g = [seq i <- iota 0 ((2 * m + 1) ^ 3) | inside ecut (kvec m i)].
  rewrite /g size_product3 size_range; apply: eq_in_filter => i.
  by rewrite mem_iota add0n => /andP [_ hi]; rewrite nth_product3.
have kE : [seq nth 0 (product3 (fill_up_range (2 * m + 1))) i | i <- g] = [seq kvec m i | i <- g].
  apply/eq_in_map => i; rewrite gE mem_filter mem_iota add0n => /andP [_ /andP [_ hi]].
  exact: nth_product3.
by split=> //; rewrite kE.
Qed.

Lemma gm_sym ecut nm i : (i < (2 * nm + 1) ^ 3)%N ->
  inside ecut (kvec nm ((2 * nm + 1) ^ 3 - 1 - i)) = inside ecut (kvec nm i).
Proof. by move=> h; rewrite kvec_rev // /inside dot2N. Qed.

Lemma mem_plane ecut nm k : 2%:R * ecut <= (nm ^ 2)%N%:R ->
  (k \in [seq kvec nm i | i <- [seq i <- iota 0 ((2 * nm + 1) ^ 3) | inside ecut (kvec nm i)]])
  = inside ecut k.
Proof.
move=> h; apply/mapP/idP => [[i]|hk].
  by rewrite mem_filter => /andP [hi _] ->.
have [h1 h2 h3] := in_box h hk.
have [i hi e] := kvec_onto h1 h2 h3; exists i => //.
by rewrite mem_filter e hk mem_iota.
Qed.

Lemma uniq_plane ecut nm :
  uniq [seq kvec nm i | i <- [seq i <- iota 0 ((2 * nm + 1) ^ 3) | inside ecut (kvec nm i)]].
Proof.
rewrite map_inj_in_uniq ?filter_uniq ?iota_uniq // => i j.
rewrite !mem_filter !mem_iota => /andP [_ /andP [_ hi]] /andP [_ /andP [_ hj]].
exact: kvec_inj.
Qed.

(* a single plane wave exactly below 1/2 *)
Lemma half_box ecut nm : 0 <= ecut -> 2%:R * ecut <= (nm ^ 2)%N%:R ->
  (size [seq i <- iota 0 ((2 * nm + 1) ^ 3) | inside ecut (kvec nm i)] == 1%N) = (ecut < 2%:R^-1).
Proof.
move=> e0 h; set g := [seq i <- _ | _].
have sg : size g = size [seq kvec nm i | i <- g] by rewrite size_map.
have u := uniq_plane ecut nm; rewrite -/g in u.
have m0 : (0 : vec) \in [seq kvec nm i | i <- g] by rewrite mem_plane // /inside mulr0.
case: ltP => he; last first.
  have m1 : (1, 0, 0) \in [seq kvec nm i | i <- g] by rewrite mem_plane // /inside mulr1.
  apply/negbTE/eqP; rewrite sg; move: m0 m1 {u sg}.
  by case: [seq kvec nm i | i <- g] => [|a [|b l]] //; rewrite !inE => /eqP <-.
apply/eqP; rewrite sg; rewrite (_ : [seq kvec nm i | i <- g] = [:: 0]) //.
have al : all (pred1 (0 : vec)) [seq kvec nm i | i <- g].
  apply/allP => k; rewrite mem_plane // inside2 => hk /=.
  have : (dot2 k)%:~R < 1 :> rat.
    by apply: le_lt_trans hk _; rewrite -ltr_pdivl_mull // mulr1.
  rewrite -[1]/(1%:~R) ltr_int /dot2; case: k hk => [[x y] z] /= _ hk.
  have [-> -> ->] : [/\ x = 0, y = 0 & z = 0] by split; nia.
  by [].
move: u m0 al; case: [seq kvec nm i | i <- g] => [|a [|b l]] //=.
  by move=> _; rewrite inE => /eqP <-.
by rewrite inE => /andP [/norP [/eqP ne _] _] _ /andP [/eqP ea /andP [/eqP eb _]]; case: ne; rewrite ea eb.
Qed.
End System.
