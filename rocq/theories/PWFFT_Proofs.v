(* Proofs about convolutions by Fourier transforms and the plane waves on a grid. *)

From Verif Require Import Base BaseFacts.
Set Warnings "-notation-overridden,-ambiguous-paths".
From mathcomp Require Import all_ssreflect all_algebra zify.
From Verif Require Import Kspace_Spec Kspace_Proofs PWFFT_Model.

Set Implicit Arguments.
Unset Strict Implicit.
Unset Printing Implicit Defensive.

Import Order.TTheory GRing.Theory Num.Theory.
Local Open Scope ring_scope.

(* ------------------------------------------------------------ grids *)

Lemma entry_lt n x y z : (x < n)%N -> (y < n)%N -> (z < n)%N -> (entry n x y z < n ^ 3)%N.
Proof.
move=> hx hy hz; rewrite /entry !expnS expn0 muln1.
have h1 : (x * n + y < n * n)%N by nia.
nia.
Qed.

Lemma entry_z n x y z : (z < n)%N -> (entry n x y z %% n)%N = z.
Proof. by move=> hz; rewrite /entry modnMDl modn_small. Qed.
Lemma entry_y n x y z : (y < n)%N -> (z < n)%N -> (entry n x y z %/ n %% n)%N = y.
Proof.
move=> hy hz; have n0 : (0 < n)%N by lia.
by rewrite /entry divnMDl // divn_small // addn0 modnMDl modn_small.
Qed.
Lemma entry_x n x y z : (y < n)%N -> (z < n)%N -> (entry n x y z %/ n %/ n)%N = x.
Proof.
move=> hy hz; have n0 : (0 < n)%N by lia.
by rewrite /entry divnMDl // [(z %/ n)%N]divn_small // addn0 divnMDl // divn_small // addn0.
Qed.

Lemma entry_id n i : entry n (i %/ n %/ n) (i %/ n %% n) (i %% n) = i.
Proof. by rewrite /entry -!divn_eq. Qed.

Lemma coord_x n i : (i < n ^ 3)%N -> (i %/ n %/ n < n)%N.
Proof.
move=> h; have n0 : (0 < n)%N by case: n h.
by rewrite !ltn_divLR // -!mulnA [(n * (n * n))%N](_ : _ = (n ^ 3)%N) // !expnS expn0 muln1.
Qed.
Lemma coord_y n i : (i < n ^ 3)%N -> (i %/ n %% n < n)%N.
Proof. by move=> h; rewrite ltn_mod; case: n h. Qed.
Lemma coord_z n i : (i < n ^ 3)%N -> (i %% n < n)%N.
Proof. by move=> h; rewrite ltn_mod; case: n h. Qed.

Section Conv.
Variable C : numClosedFieldType.
Variable w : nat -> C.
Hypothesis wP : roots w.
Notation cube L := ('I_L * 'I_L * 'I_L)%type.

Lemma sum3 L (a b c : 'I_L -> C) :
  \sum_(x : cube L) a x.1.1 * b x.1.2 * c x.2 = (\sum_x a x) * (\sum_y b y) * (\sum_z c z).
Proof.
rewrite -(pair_bigA _ (fun xy z => a xy.1 * b xy.2 * c z)) /=.
rewrite (eq_bigr (fun xy : 'I_L * 'I_L => a xy.1 * b xy.2 * \sum_z c z)); last first.
  by move=> xy _; rewrite mulr_sumr.
rewrite -mulr_suml; congr (_ * _).
rewrite -(pair_bigA _ (fun x y => a x * b y)) /= mulr_suml.
by apply: eq_bigr => x _; rewrite mulr_sumr.
Qed.

Lemma ortho1 n L (x y r : nat) : (n + n - 1 <= L)%N -> (x < n)%N -> (y < n)%N ->
  (r < n + n - 1)%N ->
  \sum_(p < L) w L ^+ (p * x) * w L ^+ (p * y) * (w L ^+ (r * p))^-1
  = if (x + y == r)%N then L%:R else 0.
Proof.
move=> hL hx hy hr; rewrite -(@ortho C w wP L (x + y) r); try lia.
by apply: eq_bigr => p _; rewrite -exprD -mulnDr [(r * p)%N]mulnC.
Qed.

Lemma phase_ortho n L (x y r : cube L) : (n + n - 1 <= L)%N ->
  (x.1.1 < n)%N -> (x.1.2 < n)%N -> (x.2 < n)%N ->
  (y.1.1 < n)%N -> (y.1.2 < n)%N -> (y.2 < n)%N ->
  (r.1.1 < n + n - 1)%N -> (r.1.2 < n + n - 1)%N -> (r.2 < n + n - 1)%N ->
  \sum_(p : cube L) phase w x p * phase w y p * (phase w p r)^-1
  = if ((x.1.1 + y.1.1 == r.1.1) && (x.1.2 + y.1.2 == r.1.2) && (x.2 + y.2 == r.2))%N
    then (L ^ 3)%N%:R else 0.
Proof.
move=> hL x1 x2 x3 y1 y2 y3 r1 r2 r3.
pose f (a b c : 'I_L) (p : 'I_L) := w L ^+ (p * a) * w L ^+ (p * b) * (w L ^+ (c * p))^-1.
rewrite (eq_bigr (fun p : cube L => f x.1.1 y.1.1 r.1.1 p.1.1 * f x.1.2 y.1.2 r.1.2 p.1.2
                                    * f x.2 y.2 r.2 p.2)); last first.
  move=> p _; rewrite /phase /f !invfM.
  set a := w L ^+ _; set b := w L ^+ _; set c := w L ^+ _.
  set d := w L ^+ _; set e := w L ^+ _; set g := w L ^+ _.
  set h := (_ ^-1); set i := (_ ^-1); set k := (_ ^-1).
  rewrite [a * b * c * _]mulrACA [a * b * (d * e)]mulrACA.
  by rewrite [_ * (h * i * k)]mulrACA [a * d * _ * (h * i)]mulrACA.
rewrite sum3 /f !(@ortho1 n) //.
case: eqP => _; case: eqP => _; case: eqP => _ /=; rewrite ?(mul0r, mulr0) //.
by rewrite !expnS expn0 muln1 !natrM mulrA.
Qed.

Lemma sum_pairs L (F : 'I_L -> 'I_L -> 'I_L -> C) :
  \sum_(x : cube L) F x.1.1 x.1.2 x.2 = \sum_x \sum_y \sum_z F x y z.
Proof.
rewrite -(pair_bigA _ (fun xy z => F xy.1 xy.2 z)) /=.
by rewrite -(pair_bigA _ (fun x y => \sum_z F x y z)).
Qed.

Lemma sum_below n L (F : nat -> C) : (n <= L)%N ->
  \sum_(x < L) (if (x < n)%N then F x else 0) = \sum_(x < n) F x.
Proof. by move=> h; rewrite (big_ord_widen _ F h) [RHS]big_mkcond. Qed.

Lemma sum_grid n (F : nat -> C) :
  \sum_(i < n ^ 3) F i = \sum_(x < n) \sum_(y < n) \sum_(z < n) F (entry n x y z).
Proof.
rewrite (_ : (n ^ 3)%N = ((n * n) * n)%N); last by rewrite !expnS expn0 muln1 mulnA.
rewrite (sum_mul F) (sum_mul (fun xy => \sum_(z < n) F (xy * n + z)%N)).
by [].
Qed.

Lemma padded_sum n L (f : seq C) (G : nat -> nat -> nat -> C) : (n <= L)%N ->
  \sum_(x : cube L) padded n f x * G x.1.1 x.1.2 x.2
  = \sum_(i < n ^ 3) nth 0 f i * G (i %/ n %/ n)%N (i %/ n %% n)%N (i %% n)%N.
Proof.
move=> h.
rewrite (sum_grid n (fun i => nth 0 f i * G (i %/ n %/ n)%N (i %/ n %% n)%N (i %% n)%N)).
pose F (a b c : 'I_L) : C := if (a < n)%N then if (b < n)%N then if (c < n)%N then
     nth 0 f (entry n a b c) * G a b c else 0 else 0 else 0.
rewrite (eq_bigr (fun x : cube L => F x.1.1 x.1.2 x.2)); last first.
  move=> x _; rewrite /padded /F.
  by case: (x.1.1 < n)%N => /=; case: (x.1.2 < n)%N => /=; case: (x.2 < n)%N; rewrite ?mul0r.
rewrite (sum_pairs F) /F.
rewrite -(sum_below (fun x => \sum_(y < n) \sum_(z < n) nth 0 f (entry n x y z) *
  G (entry n x y z %/ n %/ n)%N (entry n x y z %/ n %% n)%N (entry n x y z %% n)%N) h).
apply: eq_bigr => x _; case: ltnP => hx; last by do 2 (rewrite big1 // => ? _).
rewrite -(sum_below (fun y => \sum_(z < n) nth 0 f (entry n x y z) *
  G (entry n x y z %/ n %/ n)%N (entry n x y z %/ n %% n)%N (entry n x y z %% n)%N) h).
apply: eq_bigr => y _; case: ltnP => hy; last by rewrite big1.
rewrite -(sum_below (fun z => nth 0 f (entry n x y z) *
  G (entry n x y z %/ n %/ n)%N (entry n x y z %/ n %% n)%N (entry n x y z %% n)%N) h).
by apply: eq_bigr => z _; case: ltnP => hz //; rewrite entry_x ?entry_y ?entry_z.
Qed.

(* the convolution theorem *)
Lemma convolution n L (f g : seq C) (r : cube L) : (0 < n)%N -> (n + n - 1 <= L)%N ->
  (r.1.1 < n + n - 1)%N -> (r.1.2 < n + n - 1)%N -> (r.2 < n + n - 1)%N ->
  fftn w (fun p => ifftn w (@padded C n L f) p * ifftn w (@padded C n L g) p) r
    * (L ^ 3)%N%:R
  = \sum_(x : cube L) \sum_(y : cube L)
     (if ((x.1.1 + y.1.1 == r.1.1) && (x.1.2 + y.1.2 == r.1.2) && (x.2 + y.2 == r.2))%N
      then padded n f x * padded n g y else 0).
Proof.
move=> n0 hL r1 r2 r3.
have N0 : (L ^ 3)%N%:R != 0 :> C by rewrite pnatr_eq0 -lt0n expn_gt0; lia.
set N := (L ^ 3)%N%:R in N0 *.
rewrite /fftn mulr_suml.
rewrite (eq_bigr (fun p => N^-1 * \sum_(x : cube L) \sum_(y : cube L)
   (padded n f x * padded n g y) * (phase w x p * phase w y p * (phase w p r)^-1))); last first.
  move=> p _; rewrite /ifftn -/N.
  have E (F G P : C) : N^-1 * F * (N^-1 * G) * P * N = N^-1 * (F * G * P).
    by rewrite [N^-1 * F * _]mulrACA [LHS]mulrC !mulrA divff // mul1r.
  rewrite E; congr (_ * _).
  rewrite big_distrlr /= mulr_suml; apply: eq_bigr => x _.
  rewrite mulr_suml; apply: eq_bigr => y _.
  by rewrite [padded n f x * _ * _]mulrACA !mulrA.
rewrite -mulr_sumr exchange_big mulr_sumr; apply: eq_bigr => x _.
rewrite exchange_big mulr_sumr; apply: eq_bigr => y _.
rewrite -mulr_sumr.
case X : ((x.1.1 < n)%N && (x.1.2 < n)%N && (x.2 < n)%N); last first.
  by rewrite [padded n f x]/padded X !mul0r mulr0; case: ifP.
case Y : ((y.1.1 < n)%N && (y.1.2 < n)%N && (y.2 < n)%N); last first.
  by rewrite [padded n g y]/padded Y !mulr0 !mul0r mulr0; case: ifP.
move/andP: X => [/andP [x1 x2] x3]; move/andP: Y => [/andP [y1 y2] y3].
rewrite (@phase_ortho n) //; case: ifP => _; last by rewrite !mulr0.
by rewrite mulrC -mulrA divff ?mulr1.
Qed.
(* i and j add up to r, where r is on the grid for sums *)
Definition adds n i j r : bool :=
  let m := (n + n - 1)%N in
  ((i %/ n %/ n + j %/ n %/ n == r %/ m %/ m) && (i %/ n %% n + j %/ n %% n == r %/ m %% m)
   && (i %% n + j %% n == r %% m))%N.

Lemma convolveE nfl n (f g : seq C) : (0 < n)%N -> (n + n - 1 <= nfl (n + n - 1))%N ->
  size f = (n ^ 3)%N -> size g = (n ^ 3)%N ->
  exists c, [/\ convolve w nfl f g n = Ok c, size c = ((n + n - 1) ^ 3)%N &
    forall r, (r < (n + n - 1) ^ 3)%N ->
      nth 0 c r = \sum_(i < n ^ 3) \sum_(j < n ^ 3) (adds n i j r)%:R * (nth 0 f i * nth 0 g j)].
Proof.
move=> n0 hL sf sg; rewrite /convolve sf sg eqxx /=; set m := (n + n - 1)%N in hL *.
set L := nfl m in hL *; eexists; split; first by [].
  by rewrite !size_map size_iota.
move=> r hr; rewrite (nth_map 0) ?size_map ?size_iota // (nth_map 0%N) ?size_iota //.
rewrite nth_iota // add0n.
have hx := coord_x hr; have hy := coord_y hr; have hz := coord_z hr.
rewrite /at3.
case: insubP => [x _ ex|]; last by rewrite (leq_trans hx hL).
case: insubP => [y _ ey|]; last by rewrite (leq_trans hy hL).
case: insubP => [z _ ez|]; last by rewrite (leq_trans hz hL).
rewrite convolution //= ?ex ?ey ?ez //.
have nL : (n <= L)%N by lia.
rewrite (eq_bigr (fun x : cube L => padded n f x * (fun a b c : nat =>
   \sum_(j < n ^ 3) nth 0 g j * ((a + j %/ n %/ n == r %/ m %/ m)
      && (b + j %/ n %% n == r %/ m %% m) && (c + j %% n == r %% m))%N%:R)
      x.1.1 x.1.2 x.2)); last first.
  move=> u _; rewrite -(padded_sum g (fun a b c : nat => ((u.1.1 + a == r %/ m %/ m)
      && (u.1.2 + b == r %/ m %% m) && (u.2 + c == r %% m))%N%:R) nL) mulr_sumr.
  by apply: eq_bigr => v _; case: ifP; rewrite ?mulr1 ?mulr0.
rewrite (padded_sum f (fun a b c : nat =>
   \sum_(j < n ^ 3) nth 0 g j * ((a + j %/ n %/ n == r %/ m %/ m)
      && (b + j %/ n %% n == r %/ m %% m) && (c + j %% n == r %% m))%N%:R) nL).
apply: eq_bigr => i _; rewrite mulr_sumr; apply: eq_bigr => j _.
by rewrite mulrA mulrC.
Qed.
End Conv.
