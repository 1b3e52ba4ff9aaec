(* Proofs about the valid part of a convolution by Fourier transforms. *)

From Verif Require Import Base BaseFacts.
Set Warnings "-notation-overridden,-ambiguous-paths".
From mathcomp Require Import all_ssreflect all_algebra zify.
From Verif Require Import Kspace_Spec Kspace_Proofs PWFFT_Model PWFFT_Proofs PWGrid_Proofs PWProp_Model.

Set Implicit Arguments.
Unset Strict Implicit.
Unset Printing Implicit Defensive.

Import Order.TTheory GRing.Theory Num.Theory.
Local Open Scope ring_scope.

Section Conv.
Variable C : numClosedFieldType.
Variable w : nat -> C.
Hypothesis wP : roots w.
Notation cube L := ('I_L * 'I_L * 'I_L)%type.

Lemma ortho2 n1 n2 L (x y r : nat) : (n1 + n2 - 1 <= L)%N -> (x < n1)%N -> (y < n2)%N ->
  (r < n1 + n2 - 1)%N ->
  \sum_(p < L) (w L ^+ (p * x))^-1 * (w L ^+ (p * y))^-1 * w L ^+ (r * p)
  = if (x + y == r)%N then L%:R else 0.
Proof.
move=> hL hx hy hr; rewrite eq_sym -(@ortho C w wP L r (x + y)); try lia.
by apply: eq_bigr => p _; rewrite -invfM -exprD -mulnDr [(r * p)%N]mulnC mulrC.
Qed.

Lemma phase_ortho2 n1 n2 L (x y r : cube L) : (n1 + n2 - 1 <= L)%N ->
  (x.1.1 < n1)%N -> (x.1.2 < n1)%N -> (x.2 < n1)%N ->
  (y.1.1 < n2)%N -> (y.1.2 < n2)%N -> (y.2 < n2)%N ->
  (r.1.1 < n1 + n2 - 1)%N -> (r.1.2 < n1 + n2 - 1)%N -> (r.2 < n1 + n2 - 1)%N ->
  \sum_(p : cube L) (phase w x p)^-1 * (phase w y p)^-1 * phase w p r
  = if ((x.1.1 + y.1.1 == r.1.1) && (x.1.2 + y.1.2 == r.1.2) && (x.2 + y.2 == r.2))%N
    then (L ^ 3)%N%:R else 0.
Proof.
move=> hL x1 x2 x3 y1 y2 y3 r1 r2 r3.
pose f (a b c : 'I_L) (p : 'I_L) := (w L ^+ (p * a))^-1 * (w L ^+ (p * b))^-1 * w L ^+ (c * p).
rewrite (eq_bigr (fun p : cube L => f x.1.1 y.1.1 r.1.1 p.1.1 * f x.1.2 y.1.2 r.1.2 p.1.2
                                    * f x.2 y.2 r.2 p.2)); last first.
  move=> p _; rewrite /phase /f !invfM.
  set a := (w L ^+ _)^-1; set b := (w L ^+ _)^-1; set c := (w L ^+ _)^-1.
  set d := (w L ^+ _)^-1; set e := (w L ^+ _)^-1; set g := (w L ^+ _)^-1.
  set h := w L ^+ _; set i := w L ^+ _; set k := w L ^+ _.
  rewrite [a * c * e * _]mulrACA [a * c * (b * d)]mulrACA.
  by rewrite [_ * (h * i * k)]mulrACA [a * b * _ * (h * i)]mulrACA.
rewrite sum3 /f !(@ortho2 n1 n2) //.
case: eqP => _; case: eqP => _; case: eqP => _ /=; rewrite ?(mul0r, mulr0) //.
by rewrite !expnS expn0 muln1 !natrM mulrA.
Qed.

Lemma convolution2 n1 n2 L (f g : seq C) (r : cube L) : (0 < n1)%N -> (0 < n2)%N ->
  (n1 + n2 - 1 <= L)%N ->
  (r.1.1 < n1 + n2 - 1)%N -> (r.1.2 < n1 + n2 - 1)%N -> (r.2 < n1 + n2 - 1)%N ->
  ifftn w (fun p => fftn w (@padded C n1 L f) p * fftn w (@padded C n2 L g) p) r
  = \sum_(x : cube L) \sum_(y : cube L)
     (if ((x.1.1 + y.1.1 == r.1.1) && (x.1.2 + y.1.2 == r.1.2) && (x.2 + y.2 == r.2))%N
      then padded n1 f x * padded n2 g y else 0).
Proof.
move=> m0 n0 hL r1 r2 r3.
have N0 : (L ^ 3)%N%:R != 0 :> C by rewrite pnatr_eq0 -lt0n expn_gt0; lia.
rewrite /ifftn; set N := (L ^ 3)%N%:R in N0 *.
rewrite (eq_bigr (fun p => \sum_(x : cube L) \sum_(y : cube L)
   (padded n1 f x * padded n2 g y) * ((phase w x p)^-1 * (phase w y p)^-1 * phase w p r))); last first.
  move=> p _; rewrite /fftn big_distrlr /= mulr_suml; apply: eq_bigr => x _.
  rewrite mulr_suml; apply: eq_bigr => y _.
  by rewrite [padded n1 f x * _ * _]mulrACA !mulrA.
rewrite exchange_big mulr_sumr; apply: eq_bigr => x _.
rewrite exchange_big mulr_sumr; apply: eq_bigr => y _.
rewrite -mulr_sumr.
case X : ((x.1.1 < n1)%N && (x.1.2 < n1)%N && (x.2 < n1)%N); last first.
  by rewrite [padded n1 f x]/padded X !mul0r mulr0; case: ifP.
case Y : ((y.1.1 < n2)%N && (y.1.2 < n2)%N && (y.2 < n2)%N); last first.
  by rewrite [padded n2 g y]/padded Y !mulr0 !mul0r mulr0; case: ifP.
move/andP: X => [/andP [x1 x2] x3]; move/andP: Y => [/andP [y1 y2] y3].
rewrite (@phase_ortho2 n1 n2) //; case: ifP => _; last by rewrite !mulr0.
by rewrite mulrC mulfK.
Qed.

(* i and j add up to the entry r of the valid part *)
Definition vadds n1 n2 v i j r : bool :=
  ((i %/ n1 %/ n1 + j %/ n2 %/ n2 == (n2 - 1) + r %/ v %/ v)
   && (i %/ n1 %% n1 + j %/ n2 %% n2 == (n2 - 1) + r %/ v %% v)
   && (i %% n1 + j %% n2 == (n2 - 1) + r %% v))%N.

Lemma validE nfl n1 n2 (f g : seq C) : (0 < n2 <= n1)%N -> (n1 + n2 - 1 <= nfl (n1 + n2 - 1))%N ->
  size f = (n1 ^ 3)%N -> size g = (n2 ^ 3)%N ->
  let v := (n1 - n2 + 1)%N in
  exists c, [/\ fftconvolve_valid w nfl f n1 g n2 = Ok c, size c = (v ^ 3)%N &
    forall r, (r < v ^ 3)%N ->
      nth 0 c r = \sum_(i < n1 ^ 3) \sum_(j < n2 ^ 3) (vadds n1 n2 v i j r)%:R * (nth 0 f i * nth 0 g j)].
Proof.
move=> /andP [n0 le] hL sf sg v; rewrite /fftconvolve_valid sf sg !eqxx /=.
rewrite ifN; last by lia.
rewrite ltnNge le /=.
set L := nfl _ in hL *; eexists; split; first by [].
  by rewrite /window size_map size_iota.
move=> r hr; rewrite /window (nth_map 0%N) ?size_iota //.
rewrite nth_iota // add0n -/v.
have -> : ((n1 + n2 - 1 - v) %/ 2 = n2 - 1)%N by rewrite /v; lia.
have hx := coord_x hr; have hy := coord_y hr; have hz := coord_z hr.
rewrite /vadds /at3.
move: (r %/ v %/ v)%N (r %/ v %% v)%N (r %% v)%N hx hy hz => rx ry rz hx hy hz.
have bx t : (t < v -> n2 - 1 + t < n1 + n2 - 1)%N by rewrite /v; lia.
have := bx _ hx; have := bx _ hy; have := bx _ hz.
move: (n2 - 1 + rx)%N (n2 - 1 + ry)%N (n2 - 1 + rz)%N => X Y Z hZ hY hX {hx hy hz bx hr}.
case: insubP => [x _ ex|]; last by rewrite (leq_trans hX hL).
case: insubP => [y _ ey|]; last by rewrite (leq_trans hY hL).
case: insubP => [z _ ez|]; last by rewrite (leq_trans hZ hL).
rewrite convolution2 //= ?ex ?ey ?ez //; last by lia.
have n1L : (n1 <= L)%N by lia.
have n2L : (n2 <= L)%N by lia.
rewrite (eq_bigr (fun x : cube L => padded n1 f x * (fun a b c : nat =>
   \sum_(j < n2 ^ 3) nth 0 g j * ((a + j %/ n2 %/ n2 == X)
      && (b + j %/ n2 %% n2 == Y) && (c + j %% n2 == Z))%N%:R) x.1.1 x.1.2 x.2)); last first.
  move=> x' _.
  rewrite -(padded_sum g (fun a b c : nat => ((x'.1.1 + a == X) && (x'.1.2 + b == Y) && (x'.2 + c == Z))%N%:R) n2L).
  rewrite mulr_sumr; apply: eq_bigr => y' _.
  by case: ifP => _; rewrite ?mulr1 ?mulr0.
rewrite (padded_sum f (fun a b c : nat => \sum_(j < n2 ^ 3) nth 0 g j * ((a + j %/ n2 %/ n2 == X)
      && (b + j %/ n2 %% n2 == Y) && (c + j %% n2 == Z))%N%:R) n1L).
apply: eq_bigr => i _; rewrite mulr_sumr; apply: eq_bigr => j _.
by rewrite mulrA mulrC.
Qed.

Lemma vadds_kvec nm i j r : let n2 := (2 * nm + 1)%N in let n1 := (2 * (nm * 2) + 1)%N in
  vadds n1 n2 n2 i j r = (kvec (nm * 2) i + kvec nm j == kvec nm r).
Proof.
move=> n2 n1; rewrite /vadds /kvec -/n1 -/n2.
have -> : (n2 - 1 = nm * 2)%N by rewrite /n2; lia.
move: (i %/ n1 %/ n1)%N (i %/ n1 %% n1)%N (i %% n1)%N (j %/ n2 %/ n2)%N (j %/ n2 %% n2)%N (j %% n2)%N
  (r %/ _ %/ _)%N (r %/ _ %% _)%N (r %% _)%N => x y z x' y' z' X Y Z; clear.
apply/idP/eqP => [/andP [/andP [/eqP e1 /eqP e2] /eqP e3]|[e1 e2 e3]].
  by congr (_, _, _) => /=; lia.
by apply/andP; split; [apply/andP; split|]; apply/eqP; lia.
Qed.
End Conv.
