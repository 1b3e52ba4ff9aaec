From Verif Require Import Base BaseFacts Lattice_Model Lattice_Spec Lattice_Proofs.
Set Warnings "-notation-overridden,-ambiguous-paths".
From mathcomp Require Import all_ssreflect all_algebra zify.
From Verif Require Import LEnergy_Proofs Kspace_Model Kspace_Spec.

Set Implicit Arguments.
Unset Strict Implicit.
Unset Printing Implicit Defensive.

Import Order.TTheory GRing.Theory Num.Theory.
Local Open Scope ring_scope.

Section RingFacts.
Variables (K : Type) (z o : K) (ad mu sb : K -> K -> K) (op : K -> K).
Hypothesis Kth : ring_theory z o ad mu sb op (@eq K).
Add Ring Kring : Kth.
Local Notation "a +' b" := (ad a b) (at level 50, left associativity).
Local Notation "a *' b" := (mu a b) (at level 40, left associativity).
Local Notation "-' a" := (op a) (at level 35).
Lemma rf_inv (p x x' y y' n : K) :
  p *' (x' *' y') *' (x *' y) *' n = p *' n *' ((x *' x') *' (y *' y')).
Proof. ring. Qed.
Lemma rf_fun (f x y n u v : K) : f *' (x *' y *' n) *' u *' v = f *' (v *' (x *' y) *' n) *' u.
Proof. ring. Qed.
Lemma rf_hop (mt y x a b f g : K) :
  mt *' (y *' f +' x *' g) *' (a *' b) = mt *' (y *' b *' (f *' a) +' x *' a *' (g *' b)).
Proof. ring. Qed.
Lemma rf_dir (n a ia ax b : K) :
  b *' (n *' (ax *' ia) +' n *' (a *' ax)) = n *' (a +' ia) *' (ax *' b).
Proof. ring. Qed.
Lemma rf_dir2 (n a ia ax b : K) :
  b *' (n *' (ax *' ia) +' n *' (a *' ax)) = n *' (a +' ia) *' (b *' ax).
Proof. ring. Qed.
Lemma rf_open (f g h u v : K) :
  (f +' g) *' h *' u +' (f +' -' g) *' h *' v = (f *' (u +' v) +' g *' (u +' -' v)) *' h.
Proof. ring. Qed.
Lemma rf_open1 (f g h u v : K) :
  (f +' -' g) *' h *' u +' (f +' g) *' h *' v = (f *' (u +' v) +' -' (g *' (u +' -' v))) *' h.
Proof. ring. Qed.
End RingFacts.

Section Kspace.
Variable C : numClosedFieldType.
Variable w : nat -> C.
Hypothesis wP : roots w.

Lemma w_neq0 n : (0 < n)%N -> w n != 0.
Proof.
move=> n0; apply/eqP => e; have := prim_expr_order (wP n0).
by rewrite e expr0n gtn_eqF // => /eqP; rewrite eq_sym oner_eq0.
Qed.

(* orthogonality of the characters *)
Lemma ortho n a b : (a < n)%N -> (b < n)%N ->
  \sum_(k < n) w n ^+ (k * a) * w n ^- (k * b) = if a == b then n%:R else 0.
Proof.
move=> an bn; have n0 : (0 < n)%N by lia.
pose z := w n ^+ a * w n ^- b.
have E (k : 'I_n) : w n ^+ (k * a) * w n ^- (k * b) = z ^+ k.
  by rewrite /z exprMn exprVn -!exprM [(a * k)%N]mulnC [(b * k)%N]mulnC.
rewrite (eq_bigr _ (fun k _ => E k)).
have wn : w n ^+ n = 1 by exact: prim_expr_order (wP n0).
have zn : z ^+ n = 1.
  by rewrite /z exprMn exprVn -!exprM [(a * n)%N]mulnC [(b * n)%N]mulnC !exprM wn !expr1n invr1 mulr1.
case: eqP => [ab|ab].
- rewrite (eq_bigr (fun _ => 1)) ?sumr_const ?card_ord //= => k _.
  by rewrite /z ab divff ?expr1n // expf_neq0 // w_neq0.
have z1 : z != 1.
  apply/eqP => e; have e2 : w n ^+ a = w n ^+ b.
    by rewrite -[RHS]mul1r -e /z mulfVK // expf_neq0 // w_neq0.
  have /eqP := e2; rewrite (eq_prim_root_expr (wP n0)) !modn_small // => /eqP; exact: ab.
apply: (mulfI (_ : z - 1 != 0)); first by rewrite subr_eq0.
by rewrite -subrX1 zn subrr mulr0.
Qed.

Lemma sum_mul (f : nat -> C) m n :
  \sum_(i < m * n) f i = \sum_(a < m) \sum_(b < n) f (a * n + b)%N.
Proof.
elim: m => [|m IH]; first by rewrite !big_ord0.
rewrite big_ord_recr /= -IH -(big_mkord xpredT f) mulSnr.
rewrite (big_cat_nat _ (n := m * n)) //=; last exact: leq_addr.
rewrite big_mkord; congr (_ + _).
rewrite -{1}[(m * n)%N]add0n big_addn addKn big_mkord.
by apply: eq_bigr => b _; rewrite addnC.
Qed.

Lemma sum_sites (f : nat -> C) m n :
  \sum_(i < m * n) f i = \sum_(x < m) \sum_(y < n) f (place m (x : nat, y : nat)).
Proof.
rewrite mulnC sum_mul exchange_big; apply: eq_bigr => x _; apply: eq_bigr => y _.
by rewrite /place /= addnC mulnC.
Qed.

Section Lattice.
Variables nx ny : nat.
Hypothesis nx0 : (0 < nx)%N.
Hypothesis ny0 : (0 < ny)%N.
Notation N := (nx * ny)%N.

(* Plane waves in the layout of fft_wavefunction. *)
Definition wave (k l i : nat) : C := w nx ^+ (k * (i %/ ny)) * w ny ^+ (l * (i %% ny)).

Lemma wave_ab k l a b : (b < ny)%N -> wave k l (a * ny + b) = w nx ^+ (k * a) * w ny ^+ (l * b).
Proof. by move=> bn; rewrite /wave divnMDl // modnMDl divn_small // modn_small // addn0. Qed.

Definition coef (psi : nat -> C) (k l : nat) : C :=
  fft2 w nx ny (fun a b => psi (a * ny + b)%N) k l / N%:R.

Lemma N_neq0 : N%:R != 0 :> C.
Proof. by rewrite pnatr_eq0; lia. Qed.

Lemma coef_wave k l k' l' : (k < nx)%N -> (l < ny)%N -> (k' < nx)%N -> (l' < ny)%N ->
  coef (wave k l) k' l' = ((k == k') && (l == l'))%:R.
Proof.
move=> kn ln kn' ln'.
rewrite /coef /fft2.
have E : \sum_(a < nx) \sum_(b < ny) wave k l (a * ny + b) * (w nx ^- (k' * a) * w ny ^- (l' * b))
  = (\sum_(a < nx) w nx ^+ (a * k) * w nx ^- (a * k'))
    * (\sum_(b < ny) w ny ^+ (b * l) * w ny ^- (b * l')).
  rewrite big_distrl; apply: eq_bigr => a _; rewrite big_distrr; apply: eq_bigr => b _ /=.
  rewrite wave_ab // ![(a * _)%N]mulnC ![(b * _)%N]mulnC; exact: mulrACA.
rewrite E !ortho //; case: eqP => _; case: eqP => _ /=; rewrite ?mul0r ?mulr0 ?mul0r //.
by rewrite -natrM divff // N_neq0.
Qed.

(* Fourier inversion *)
Lemma inversion psi i : (i < N)%N ->
  psi i = \sum_(k < nx) \sum_(l < ny) coef psi k l * wave k l i.
Proof.
move=> iN.
have bn : (i %% ny < ny)%N by rewrite ltn_mod.
have an : (i %/ ny < nx)%N by rewrite ltn_divLR.
rewrite {1}(divn_eq i ny); set a := (i %/ ny)%N; set b := (i %% ny)%N.
have E (k : 'I_nx) (l : 'I_ny) : coef psi k l * wave k l i
  = \sum_(a' < nx) \sum_(b' < ny) (psi (a' * ny + b')%N / N%:R)
     * ((w nx ^+ (k * a) * w nx ^- (k * a')) * (w ny ^+ (l * b) * w ny ^- (l * b'))).
  rewrite /coef /fft2 mulrAC 2!big_distrl /=; apply: eq_bigr => a' _.
  rewrite 2!big_distrl /=; apply: eq_bigr => b' _.
  by rewrite /wave -/a -/b; exact: (rf_inv (comring_th C)).
under eq_bigr do under eq_bigr do rewrite E.
under eq_bigr do rewrite exchange_big; rewrite exchange_big /=.
under eq_bigr do under eq_bigr do rewrite exchange_big; under eq_bigr do rewrite exchange_big /=.
have F (a' : 'I_nx) (b' : 'I_ny) :
  \sum_(k < nx) \sum_(l < ny) psi (a' * ny + b')%N / N%:R
     * ((w nx ^+ (k * a) * w nx ^- (k * a')) * (w ny ^+ (l * b) * w ny ^- (l * b')))
  = psi (a' * ny + b')%N * ((a == a') && (b == b'))%:R.
  under eq_bigr do rewrite -big_distrr /= -big_distrr /=.
  rewrite -big_distrr /= -big_distrl /= !ortho //; case: eqP => _; case: eqP => _ /=;
    rewrite ?mul0r ?mulr0 ?mul0r //.
  by rewrite mulr1 -natrM mulfVK // N_neq0.
under eq_bigr do under eq_bigr do rewrite F.
rewrite (bigD1 (Ordinal an)) //= (bigD1 (Ordinal bn)) //= !eqxx mulr1.
rewrite big1 ?addr0 => [|b' H]; last first.
  by case: (b =P b') H => [e|_]; rewrite ?mulr0 // -val_eqE /= -/b e eqxx.
rewrite big1 ?addr0 // => a' H; apply: big1 => b' _.
by case: (a =P a') H => [e|_]; rewrite ?mulr0 // -val_eqE /= -/a e eqxx.
Qed.

(* One column of the momentum space step. *)
Lemma step_wave (f : nat -> C) psi i :
  ifft_wavefunction w nx ny (fun j => f j * fft_wavefunction w nx ny psi j) i
  = \sum_(k < nx) \sum_(l < ny) f (k * ny + l)%N * coef psi k l * wave k l i.
Proof.
rewrite /ifft_wavefunction /ifft2 big_distrl; apply: eq_bigr => k _ /=.
rewrite big_distrl; apply: eq_bigr => l _ /=.
rewrite /fft_wavefunction divnMDl // modnMDl divn_small // modn_small // addn0.
by rewrite /coef /wave -!mulrA; congr (_ * (_ * _)); rewrite mulrC -mulrA mulrC -mulrA.
Qed.

Lemma times_sum n A (c : 'I_nx -> 'I_ny -> C) (u : nat -> nat -> nat -> C) i :
  times n A (fun j => \sum_k \sum_l c k l * u k l j) i
  = \sum_k \sum_l c k l * times n A (u k l) i.
Proof.
rewrite /times.
under [LHS]eq_bigr do rewrite big_distrr /=; rewrite exchange_big; apply: eq_bigr => k _ /=.
under [LHS]eq_bigr do rewrite big_distrr /=; rewrite exchange_big; apply: eq_bigr => l _ /=.
by rewrite big_distrr; apply: eq_bigr => j _ /=; rewrite mulrCA.
Qed.

Lemma times_ext n A (u v : nat -> C) i : (forall j, (j < n)%N -> u j = v j) ->
  times n A u i = times n A v i.
Proof. by move=> E; apply: eq_bigr => j _; rewrite E. Qed.

Lemma coef_times psi k l : coef psi k l
  = times N (fun _ j => w nx ^- (k * (j %/ ny)) * w ny ^- (l * (j %% ny)) / N%:R) psi 0.
Proof.
rewrite /times (sum_mul (fun j => w nx ^- (k * (j %/ ny)) * w ny ^- (l * (j %% ny)) / N%:R * psi j) nx ny).
rewrite /coef /fft2 big_distrl /=; apply: eq_bigr => a _; rewrite big_distrl /=; apply: eq_bigr => b _.
by rewrite divnMDl // modnMDl divn_small // modn_small // addn0 [RHS]mulrC [RHS]mulrA.
Qed.

(* If the plane waves are eigenvectors, the step is a function of the matrix. *)
Lemma step_function expo T B (d : nat -> nat -> C) psi i :
  (forall k l, (k < nx)%N -> (l < ny)%N -> eigen N T (wave k l) (d k l)) ->
  function_of N expo T B -> (i < N)%N ->
  times N B psi i
  = \sum_(k < nx) \sum_(l < ny) expo (d k l) * coef psi k l * wave k l i.
Proof.
move=> E F iN.
rewrite (@times_ext N B psi (fun j => \sum_(k < nx) \sum_(l < ny) coef psi k l * wave k l j) i (@inversion psi)).
rewrite (times_sum _ _ (fun k l => coef psi k l) wave).
apply: eq_bigr => k _; apply: eq_bigr => l _.
by rewrite (F _ _ (E k l _ _)) // mulrCA mulrA.
Qed.

(* Such functions exist. *)
Lemma function_exists expo T (d : nat -> nat -> C) :
  (forall k l, (k < nx)%N -> (l < ny)%N -> eigen N T (wave k l) (d k l)) ->
  exists B, function_of N expo T B.
Proof.
move=> E.
pose B i j := \sum_(k < nx) \sum_(l < ny)
  expo (d k l) * (w nx ^- (k * (j %/ ny)) * w ny ^- (l * (j %% ny)) / N%:R) * wave k l i.
exists B => v e Ev i iN.
have Bv : times N B v i = \sum_(k < nx) \sum_(l < ny) expo (d k l) * coef v k l * wave k l i.
  rewrite /times /B; under eq_bigr do rewrite big_distrl /=; rewrite exchange_big.
  apply: eq_bigr => k _ /=; under eq_bigr do rewrite big_distrl /=; rewrite exchange_big.
  apply: eq_bigr => l _ /=; rewrite (sum_mul (fun j => expo (d k l) *
    (w nx ^- (k * (j %/ ny)) * w ny ^- (l * (j %% ny)) / N%:R) * wave k l i * v j) nx ny).
  rewrite /coef /fft2 big_distrl big_distrr big_distrl /=.
  apply: eq_bigr => a _; rewrite big_distrl big_distrr big_distrl /=; apply: eq_bigr => b _.
  rewrite divnMDl // modnMDl divn_small // modn_small // addn0; exact: (rf_fun (comring_th C)).
rewrite Bv [in RHS](inversion v iN) big_distrr; apply: eq_bigr => k _ /=.
rewrite big_distrr; apply: eq_bigr => l _ /=; rewrite mulrA; congr (_ * _).
have : coef v k l * d k l = coef v k l * e.
  have Tv j : (j < N)%N -> times N T v j
     = \sum_(k' < nx) \sum_(l' < ny) (coef v k' l' * d k' l') * wave k' l' j.
    move=> jN; rewrite (@times_ext N T v (fun j => \sum_(k < nx) \sum_(l < ny) coef v k l * wave k l j) j (@inversion v)).
    rewrite (times_sum _ _ (fun k l => coef v k l) wave).
    apply: eq_bigr => k' _; apply: eq_bigr => l' _; by rewrite E // mulrA.
  have cT : coef (times N T v) k l = coef v k l * d k l.
    have -> : coef (times N T v) k l
       = coef (fun j => \sum_(k' < nx) \sum_(l' < ny) (coef v k' l' * d k' l') * wave k' l' j) k l.
      rewrite /coef /fft2; congr (_ / _); apply: eq_bigr => a _; apply: eq_bigr => b _.
      rewrite Tv //; have := ltn_ord a; have := ltn_ord b; nia.
    transitivity (\sum_(k' < nx) \sum_(l' < ny) (coef v k' l' * d k' l') * coef (wave k' l') k l).
      rewrite coef_times (times_sum _ _ (fun k l => coef v k l * d k l) wave).
      by apply: eq_bigr => k' _; apply: eq_bigr => l' _; rewrite -coef_times.
    rewrite (bigD1 k) //= (bigD1 l) //= coef_wave // !eqxx mulr1.
    rewrite big1 ?addr0 => [|l' H]; last first.
      by rewrite coef_wave // andbC (negbTE (H : (l' : nat) != l)) mulr0.
    rewrite big1 ?addr0 // => k' H; apply: big1 => l' _.
    by rewrite coef_wave // (negbTE (H : (k' : nat) != k)) mulr0.
  rewrite -cT; transitivity (coef (fun j => e * v j) k l).
    rewrite /coef /fft2; congr (_ / _); apply: eq_bigr => a _; apply: eq_bigr => b _.
    by rewrite Ev //; have := ltn_ord a; have := ltn_ord b; nia.
  by rewrite !coef_times /times big_distrl; apply: eq_bigr => j _ /=; rewrite mulrCA mulrC.
case: (coef v k l =P 0) => [->|/eqP c0]; first by rewrite !mulr0.
by move/(mulfI c0) => ->; rewrite mulrC.
Qed.
End Lattice.

(* The hopping matrix on plane waves. *)
Definition fwd (n a b : nat) : C :=
  (b == a + 1)%N%:R + ((1 < n)%N && (a == n - 1)%N && (b == 0)%N)%:R.

Lemma fwd_out n alpha a : alpha ^+ n = 1 -> (a < n)%N ->
  \sum_(b < n) fwd n a b * alpha ^+ b = (1 < n)%N%:R * alpha ^+ (a + 1).
Proof.
move=> an1 an; rewrite /fwd; under eq_bigr do rewrite mulrDl; rewrite big_split /=.
case: (ltnP 1 n) => n1; last first.
  rewrite mul0r !big1 ?addr0 //= => b _; first by rewrite mul0r.
  by rewrite (_ : (b == (a + 1)%N :> nat) = false) ?mul0r //; have := ltn_ord b; lia.
rewrite mul1r /=; case: (a =P n - 1)%N => [e|e].
- rewrite big1 ?add0r => [|b _]; last first.
    by rewrite (_ : (b == (a + 1)%N :> nat) = false) ?mul0r //; have := ltn_ord b; lia.
  have n0 : (0 < n)%N by lia.
  rewrite (bigD1 (Ordinal n0)) //= mul1r expr0 big1 ?addr0 => [|b H].
    by rewrite (_ : a + 1 = n)%N ?an1 //; lia.
  by rewrite (_ : (b == 0%N :> nat) = false) ?mul0r //; apply: negbTE.
- rewrite [X in _ + X]big1 ?addr0 => [|b _]; last by rewrite mul0r.
  have an2 : (a + 1 < n)%N by lia.
  rewrite (bigD1 (Ordinal an2)) //= eqxx mul1r big1 ?addr0 // => b H.
  by rewrite (_ : (b == (a + 1)%N :> nat) = false) ?mul0r //; apply: negbTE.
Qed.

Lemma fwd_in n alpha b : alpha ^+ n = 1 -> alpha != 0 -> (b < n)%N ->
  \sum_(a < n) fwd n a b * alpha ^+ a = (1 < n)%N%:R * (alpha ^+ b / alpha).
Proof.
move=> an1 a0 bn; rewrite /fwd; under eq_bigr do rewrite mulrDl; rewrite big_split /=.
case: (ltnP 1 n) => n1; last first.
  rewrite mul0r !big1 ?addr0 //= => a _; first by rewrite mul0r.
  by rewrite (_ : (b == (a + 1)%N :> nat) = false) ?mul0r //; have := ltn_ord a; lia.
rewrite mul1r /=; case: (b =P 0)%N => [e|e].
- rewrite big1 ?add0r => [|a _]; last by rewrite e (_ : (0 == a + 1)%N = false) ?mul0r //; lia.
  have n2 : (n - 1 < n)%N by lia.
  rewrite (bigD1 (Ordinal n2)) //= eqxx mul1r big1 ?addr0 => [|a H].
    apply: (mulIf a0); rewrite mulfVK // -exprSr e expr0.
    by rewrite (_ : (n - 1).+1 = n)%N ?an1 //; lia.
  by rewrite (_ : (a == (n - 1)%N :> nat) = false) ?mul0r //; apply: negbTE.
- rewrite [X in _ + X]big1 ?addr0 => [|a _]; last by rewrite andbF mul0r.
  have bn2 : (b - 1 < n)%N by lia.
  rewrite (bigD1 (Ordinal bn2)) //= (_ : (b == b - 1 + 1)%N) ?mul1r; last by lia.
  rewrite big1 ?addr0 => [|a H].
    apply: (mulIf a0); rewrite mulfVK // -exprSr.
    by congr (_ ^+ _); lia.
  rewrite (_ : (b == (a + 1)%N :> nat) = false) ?mul0r //.
  by move: H; rewrite -val_eqE /= => H; lia.
Qed.

Lemma forward_sum n f a b :
  List.fold_right +%R 0 (List.app (forward C 1 n true 1 a b) f)
  = fwd n a b + List.fold_right +%R 0 f.
Proof.
rewrite /forward /fwd.
have -> : (Nat.eqb b (a + 1)) = (b == a + 1)%N by lia.
have -> : (true && (Nat.ltb 1 n) && (Nat.eqb a (n - 1)) && (Nat.eqb b 0))%bool
  = ((1 < n)%N && (a == n - 1)%N && (b == 0)%N) by lia.
by case: (b == _); case: (_ && _); rewrite /= ?addr0 ?add0r ?addrA.
Qed.
Lemma forward_conj n a b : List.map conjC (forward C 1 n true 1 a b) = forward C 1 n true 1 a b.
Proof.
by rewrite /forward; case: (Nat.eqb b _); case: (andb _ _); rewrite /= ?conjC1.
Qed.

Lemma bonds_sum nx ny p q f :
  List.fold_right +%R 0 (List.app (bonds C 1 nx ny true true 1 1 p q) f)
  = (p.2 == q.2)%:R * fwd nx p.1 q.1 + (p.1 == q.1)%:R * fwd ny p.2 q.2
    + List.fold_right +%R 0 f.
Proof.
rewrite /bonds -List.app_assoc.
have -> : Nat.eqb p.2 q.2 = (p.2 == q.2) by lia.
have -> : Nat.eqb p.1 q.1 = (p.1 == q.1) by lia.
by case: (p.2 == q.2); case: (p.1 == q.1); rewrite ?forward_sum /= ?forward_sum ?mul1r ?mul0r ?add0r ?addr0 ?addrA.
Qed.
Lemma bonds_conj nx ny p q : List.map conjC (bonds C 1 nx ny true true 1 1 p q)
  = bonds C 1 nx ny true true 1 1 p q.
Proof.
by rewrite /bonds List.map_app; case: (Nat.eqb p.2 _); case: (Nat.eqb p.1 _);
  rewrite /= ?forward_conj.
Qed.

Lemma amplitudeE t nx ny p q :
  amplitude C 0 1 +%R *%R -%R conjC t nx ny true true 1 1 p q
  = - t * ((p.2 == q.2)%:R * (fwd nx q.1 p.1 + fwd nx p.1 q.1)
           + (p.1 == q.1)%:R * (fwd ny q.2 p.2 + fwd ny p.2 q.2)).
Proof.
rewrite /amplitude bonds_conj bonds_sum.
rewrite -[bonds _ _ _ _ _ _ _ _ p q]List.app_nil_r bonds_sum /= addr0.
rewrite [q.2 == _]eq_sym [q.1 == _]eq_sym; congr (_ * _); rewrite !mulrDr.
by rewrite addrACA.
Qed.

Variables (Th : Type) (expi : Th -> C).
Notation hop t nx ny ks bx bb :=
  (kinetic C Th 0 +%R *%R -%R conjC expi 1 t nx ny ks bx bb).

Lemma hop_periodic t nx ny T : t^* = t -> hop t nx ny None true true = Ok T ->
  forall p q, site nx ny p -> site nx ny q ->
  T (place nx p) (place nx q) = amplitude C 0 1 +%R *%R -%R conjC t nx ny true true 1 1 p q.
Proof.
move=> tR E.
have [T' [E' [_ [H _]]]] := kinetic_sites C Th 0 1 +%R *%R (fun x y => x - y) -%R conjC expi
  (comring_th C) (rmorphD _) (rmorphM _) (rmorphN _) (@conjCK C) (conjC1 C) t nx ny None true true tR I.
by move: H; have -> : T = T' by congruence.
Qed.

Section Hop.
Variable t : C.
Hypothesis tR : t^* = t.
Variables nx ny : nat.
Hypothesis nx0 : (0 < nx)%N.
Hypothesis ny0 : (0 < ny)%N.
Notation N := (nx * ny)%N.
Variable T : nat -> nat -> C.
Hypothesis TP : forall p q, site nx ny p -> site nx ny q ->
  T (place nx p) (place nx q) = amplitude C 0 1 +%R *%R -%R conjC t nx ny true true 1 1 p q.

Lemma siteP x y : (x < nx)%N -> (y < ny)%N -> site nx ny (x, y).
Proof. by move=> xn yn; split; apply/ssrnat.ltP. Qed.

Lemma sites i : (i < N)%N ->
  exists x y, [/\ (x < nx)%N, (y < ny)%N & i = place nx (x, y)].
Proof.
move=> iN; exists (i %% nx)%N, (i %/ nx)%N; split.
- by rewrite ltn_mod.
- by rewrite ltn_divLR // mulnC.
- by have := divn_eq i nx; rewrite /place /=; lia.
Qed.

Lemma eigen_site alpha beta v : alpha ^+ nx = 1 -> beta ^+ ny = 1 ->
  alpha != 0 -> beta != 0 ->
  (forall x y, (x < nx)%N -> (y < ny)%N -> v (place nx (x, y)) = alpha ^+ x * beta ^+ y) ->
  eigen N T v (- t * ((1 < nx)%N%:R * (alpha + alpha^-1) + (1 < ny)%N%:R * (beta + beta^-1))).
Proof.
move=> a1 b1 a0 b0 vP i /sites[x [y [xn yn ->]]].
rewrite /times (sum_sites (fun j => T (place nx (x, y)) j * v j)) /=.
have E (x' : 'I_nx) (y' : 'I_ny) :
  T (place nx (x, y)) (place nx (x' : nat, y' : nat)) * v (place nx (x' : nat, y' : nat))
  = - t * ((y == y')%:R * beta ^+ y' * ((fwd nx x' x + fwd nx x x') * alpha ^+ x')
           + (x == x')%:R * alpha ^+ x' * ((fwd ny y' y + fwd ny y y') * beta ^+ y')).
  rewrite TP ?amplitudeE ?vP //=; try exact: siteP.
  exact: (rf_hop (comring_th C)).
rewrite (eq_bigr _ (fun x' _ => eq_bigr _ (fun y' _ => E x' y'))) {E}.
under eq_bigr do rewrite -big_distrr big_split /=.
rewrite -big_distrr /= -mulrA; congr (_ * _); rewrite big_split /=.
have sel n (z : nat) (f : nat -> C) (gamma : C) : (z < n)%N ->
  \sum_(z' < n) (z == z')%:R * gamma ^+ z' * f z' = gamma ^+ z * f z.
  move=> zn; rewrite (bigD1 (Ordinal zn)) //= eqxx mul1r big1 ?addr0 // => z' H.
  rewrite (_ : (z == z') = false) ?mul0r //; apply/negbTE; move: H; rewrite -val_eqE /= eq_sym //.
have S1 : \sum_(x' < nx) \sum_(y' < ny)
     (y == y')%:R * beta ^+ y' * ((fwd nx x' x + fwd nx x x') * alpha ^+ x')
  = (1 < nx)%N%:R * (alpha + alpha^-1) * (alpha ^+ x * beta ^+ y).
  transitivity (\sum_(x' < nx) beta ^+ y * ((fwd nx x' x + fwd nx x x') * alpha ^+ x')).
    by apply: eq_bigr => x' _; rewrite (sel _ _ (fun _ => (fwd nx x' x + fwd nx x x') * alpha ^+ x')).
  rewrite -big_distrr /=; under eq_bigr do rewrite mulrDl; rewrite big_split /=.
  rewrite fwd_out // fwd_in // addn1 exprS; exact: (rf_dir (comring_th C)).
have S2 : \sum_(x' < nx) \sum_(y' < ny)
     (x == x')%:R * alpha ^+ x' * ((fwd ny y' y + fwd ny y y') * beta ^+ y')
  = (1 < ny)%N%:R * (beta + beta^-1) * (alpha ^+ x * beta ^+ y).
  under eq_bigr do rewrite -big_distrr /=.
  rewrite (sel _ _ (fun _ => \sum_(y' < ny) (fwd ny y' y + fwd ny y y') * beta ^+ y')) //.
  under eq_bigr do rewrite mulrDl; rewrite big_split /=.
  rewrite fwd_out // fwd_in // addn1 exprS; exact: (rf_dir2 (comring_th C)).
by rewrite S1 S2 vP // mulrDl.
Qed.
End Hop.

Lemma w_unit n k : (0 < n)%N -> (w n ^+ k) ^+ n = 1.
Proof. by move=> n0; rewrite -exprM mulnC exprM (prim_expr_order (wP n0)) expr1n. Qed.

Lemma w1 : w 1 = 1.
Proof. by have := prim_expr_order (wP (ltn0Sn 0)); rewrite expr1. Qed.

Lemma two_cos n k : w n ^+ k + (w n ^+ k)^-1 = 2%:R * ccos w n k.
Proof. by rewrite /ccos mulrC mulfVK // pnatr_eq0. Qed.

Lemma nth_pairs (A : Type) (x0 : A) (f : nat -> nat -> A) s r k l :
  (k < size s)%N -> (l < size r)%N ->
  nth x0 [seq f n m | n <- s, m <- r] (k * size r + l) = f (nth 0%N s k) (nth 0%N r l).
Proof.
elim: s k => [|a s IH] [|k] //= ks lr.
- by rewrite nth_cat size_map mul0n add0n lr (nth_map 0%N).
- rewrite nth_cat size_map ltnNge (_ : (size r <= _)%N) /=; last by rewrite mulSn -addnA leq_addr.
  by rewrite mulSn -addnA addKn IH.
Qed.

Lemma eks_nth t nx ny k l : (k < nx)%N -> (l < ny)%N ->
  nth 0 (eks w t nx ny) (k * ny + l) = ek w t nx ny k l.
Proof.
move=> kn ln; rewrite /eks; case: eqP => [e|_].
- have -> : l = 0%N by lia.
  by rewrite e muln1 addn0 (nth_map 0%N) ?size_iota // nth_iota.
- have := @nth_pairs C 0 (ek w t nx ny) (iota 0 nx) (iota 0 ny) k l.
  by rewrite !size_iota !nth_iota // !add0n => ->.
Qed.

Lemma shapes_ok nx ny f nup ndown : shapes nx ny (@Factors C f) nup ndown = Ok tt.
Proof.
have B n : broadcast (shape nx ny (Factors f)) [:: n; nx * ny]%N = Ok [:: n; nx * ny]%N.
  by rewrite /broadcast /= eqxx.
have R n : reshape_to [:: nx * ny; n]%N [:: nx; ny; n] = Ok tt.
  by rewrite /reshape_to /= !muln1 mulnA eqxx.
have A n : assign [:: nx * ny; n]%N [:: nx * ny; n]%N = Ok tt.
  by rewrite /assign /= /broadcast /= eqxx /= eqxx /= eqxx.
by rewrite /shapes !R !B /= !R /= !A.
Qed.

Lemma kspace_factors nx ny phi nup ndown f :
  kinetic_kspace w nx ny false phi nup ndown (Factors f)
  = Ok (fun i c => ifft_wavefunction w nx ny
          (fun i => f i * fft_wavefunction w nx ny (fun j => phi j c) i) i).
Proof. by rewrite /kinetic_kspace shapes_ok. Qed.

Definition regular (nx ny : nat) : Prop := (1 < nx)%N /\ (ny = 1%N \/ ny = nx).

Lemma wave_eigen t nx ny T k l : t^* = t -> regular nx ny ->
  hop t nx ny None true true = Ok T -> (k < nx)%N -> (l < ny)%N ->
  eigen (nx * ny) T (wave nx ny k l) (ek w t nx ny k l).
Proof.
move=> tR [nx1 ny1] E kn ln; have nx0 : (0 < nx)%N by lia.
have ny0 : (0 < ny)%N by lia.
have TP := hop_periodic tR E.
have N2 (a : C) : - t * (2%:R * a) = - 2%:R * t * a by rewrite mulrCA mulrA mulrN !mulNr.
case: ny1 => e; subst ny.
- have -> : ek w t nx 1 k l = - t * ((1 < nx)%N%:R * (w nx ^+ k + (w nx ^+ k)^-1)
                                  + (1 < 1)%N%:R * (1 + 1^-1)).
    by rewrite /ek eqxx nx1 mul1r mul0r addr0 two_cos N2.
  apply: (eigen_site nx0 (ltn0Sn 0) TP); rewrite ?expr1 ?oner_neq0 ?w_unit ?expf_neq0 ?w_neq0 //.
  move=> x y xn yn; rewrite expr1n mulr1 /wave w1 expr1n mulr1 divn1 -exprM.
  by congr (_ ^+ (_ * _)); rewrite /place /=; lia.
- have -> : ek w t nx nx k l = - t * ((1 < nx)%N%:R * (w nx ^+ l + (w nx ^+ l)^-1)
                                  + (1 < nx)%N%:R * (w nx ^+ k + (w nx ^+ k)^-1)).
    rewrite /ek nx1 !mul1r !two_cos -mulrDr N2; case: eqP => [?|_]; first by lia.
    by rewrite addrC.
  apply: (eigen_site nx0 nx0 TP); rewrite ?w_unit ?expf_neq0 ?w_neq0 //.
  move=> x y xn yn; rewrite /wave.
  have -> : place nx (x, y) = (y * nx + x)%N by rewrite /place /=; lia.
  by rewrite divnMDl // modnMDl divn_small // modn_small // addn0 -!exprM mulrC.
Qed.

Lemma kspace_right t nx ny T B expo phi nup ndown : t^* = t -> regular nx ny ->
  hop t nx ny None true true = Ok T -> function_of (nx * ny) expo T B ->
  exists phi', kinetic_kspace w nx ny false phi nup ndown (Factors (btk w nx ny t expo)) = Ok phi' /\
    forall i c, (i < nx * ny)%N -> phi' i c = times (nx * ny) B (fun j => phi j c) i.
Proof.
move=> tR R E F; rewrite kspace_factors; eexists; split; first by [].
have [nx1 ny1] := R; have nx0 : (0 < nx)%N by lia.
have ny0 : (0 < ny)%N by lia.
move=> i c iN; rewrite (step_wave nx ny0).
rewrite (step_function nx0 ny0 (fun j => phi j c) (fun k l => wave_eigen tR R E) F iN).
by apply: eq_bigr => k _; apply: eq_bigr => l _; rewrite /btk eks_nth.
Qed.

Lemma kspace_real t nx ny T B expo phi nup ndown : t^* = t -> regular nx ny ->
  hop t nx ny None true true = Ok T -> function_of (nx * ny) expo T B ->
  (forall i j, (i < nx * ny)%N -> (j < nx * ny)%N -> B i j \is Num.real) ->
  (forall i c, phi i c \is Num.real) ->
  exists phi', kinetic_kspace w nx ny true phi nup ndown (Factors (btk w nx ny t expo)) = Ok phi' /\
    forall i c, (i < nx * ny)%N -> phi' i c = times (nx * ny) B (fun j => phi j c) i.
Proof.
move=> tR R E F BR pR.
have [phi' [K H]] := kspace_right phi nup ndown tR R E F.
exists (fun i c => 'Re (phi' i c)); split.
  by move: K; rewrite /kinetic_kspace shapes_ok /= => -[<-].
move=> i c iN; rewrite -H //; apply/Creal_ReP; rewrite H //.
rewrite /times; apply: rpred_sum => j _; by apply: rpredM; [apply: BR|apply: pR].
Qed.

Lemma column t ny T B expo phi nup ndown : t^* = t -> (0 < ny)%N ->
  (forall x y, expo (x + y) = expo x * expo y) ->
  hop t 1 ny None true true = Ok T -> function_of (1 * ny) expo T B ->
  exists phi', kinetic_kspace w 1 ny false phi nup ndown (Factors (btk w 1 ny t expo)) = Ok phi' /\
    forall i c, (i < 1 * ny)%N ->
      phi' i c = expo (- 2%:R * t) * times (1 * ny) B (fun j => phi j c) i.
Proof.
move=> tR ny0 X E F; rewrite kspace_factors; eexists; split; first by [].
have TP := hop_periodic tR E.
pose d (k l : nat) := - t * ((1 < ny)%N%:R * (w ny ^+ l + (w ny ^+ l)^-1)).
have W k l : (k < 1)%N -> (l < ny)%N -> eigen (1 * ny) T (wave 1 ny k l) (d k l).
  move=> kn ln; rewrite /d.
  have -> : (1 < ny)%N%:R * (w ny ^+ l + (w ny ^+ l)^-1)
    = (1 < 1)%N%:R * (1 + 1^-1) + (1 < ny)%N%:R * (w ny ^+ l + (w ny ^+ l)^-1) by rewrite mul0r add0r.
  apply: (eigen_site (ltn0Sn 0) ny0 TP); rewrite ?expr1n ?oner_neq0 ?w_unit ?expf_neq0 ?w_neq0 //.
  move=> x y xn yn; rewrite /wave w1 !expr1n !mul1r -exprM; congr (_ ^+ (_ * _)).
  by rewrite (_ : place 1 (x, y) = y) ?modn_small // /place /=; lia.
move=> i c iN; rewrite (step_wave 1 ny0).
rewrite (step_function (ltn0Sn 0) ny0 (fun j => phi j c) W F iN) big_distrr.
apply: eq_bigr => k _ /=; rewrite big_distrr; apply: eq_bigr => l _ /=.
rewrite /btk eks_nth // !mulrA; congr (_ * _ * _); rewrite -X; congr (expo _ * _ / _).
rewrite /d /ek two_cos.
have c1 : ccos w 1 k = 1.
  by rewrite /ccos w1 expr1n invr1 -mulr2n -(mulr_natr 1 2) mul1r divff // pnatr_eq0.
rewrite c1; case: (ny =P 1%N) => [n1|n1].
  by rewrite (_ : (1 < ny)%N = false) ?mul0r ?mulr0 ?addr0 ?mulr1 //; lia.
rewrite (_ : (1 < ny)%N) ?mul1r; last by lia.
by rewrite mulrDr mulr1 [- t * _]mulrCA [2%:R * (- t * _)]mulrA mulrN !mulNr.
Qed.

(* Functions of the periodic hopping matrix exist on every lattice. *)
Lemma hop_function t nx ny T expo : t^* = t -> (0 < nx)%N -> (0 < ny)%N ->
  hop t nx ny None true true = Ok T -> exists B, function_of (nx * ny) expo T B.
Proof.
move=> tR nx0 ny0 E; have TP := hop_periodic tR E.
pose d (k l : nat) := - t * ((1 < nx)%N%:R * (w nx ^+ l + (w nx ^+ l)^-1)
                       + (1 < ny)%N%:R * (w ny ^+ k + (w ny ^+ k)^-1)).
rewrite mulnC; apply: (function_exists ny0 nx0 expo (d := d)) => k l kn ln.
rewrite mulnC; apply: (eigen_site nx0 ny0 TP); rewrite ?w_unit ?expf_neq0 ?w_neq0 //.
move=> x y xn yn; rewrite /wave.
have -> : place nx (x, y) = (y * nx + x)%N by rewrite /place /=; lia.
by rewrite divnMDl // modnMDl divn_small // modn_small // addn0 -!exprM mulrC.
Qed.

(* The shapes of bt2. *)
Lemma matrices_raise nx ny real phi nup ndown B : (0 < nx)%N -> (0 < ny)%N ->
  kinetic_kspace w nx ny real phi nup ndown (Matrices B) = Err ValueError.
Proof.
move=> nx0 ny0; rewrite /kinetic_kspace.
suff -> : shapes nx ny (Matrices B) nup ndown = Err ValueError by [].
have R n : reshape_to [:: nx * ny; n]%N [:: nx; ny; n] = Ok tt.
  by rewrite /reshape_to /= !muln1 mulnA eqxx.
rewrite /shapes !R /=.
set N := (nx * ny)%N; have N0 : (0 < N)%N by rewrite /N; lia.
have S n : (exists s, broadcast [:: 2; N; N]%N [:: n; N] = Ok [:: 2; s; N]%N /\
             (s = n /\ N = n \/ s = n /\ N = 1%N \/ s = N /\ n = 1%N))
         \/ broadcast [:: 2; N; N]%N [:: n; N] = Err ValueError.
  rewrite /broadcast /= eqxx /=.
  case: (N =P n) => [e|e] /=; first by left; exists N; split=> //; left; split.
  case: (N =P 1%N) => [e1|e1] /=; first by left; exists n; split=> //; right; left.
  case: (n =P 1%N) => [e2|e2] /=; last by right.
  by left; exists N; split=> //; right; right.
case: (S nup) => [[s [-> H]]|->]; last by [].
rewrite /=; case: (S ndown) => [[s' [-> H']]|->]; last by [].
rewrite /= /reshape_to /rev /=.
case: eqP => [e|//] /=; case: eqP => [e'|//] /=.
rewrite /assign /= /broadcast /=.
have n0 : nup = 0%N by move: e; rewrite -/N !muln1 mulnA -/N; nia.
have s0 : s = 0%N by lia.
have N1 : N = 1%N by lia.
by rewrite n0 s0 N1.
Qed.

(* The plane waves of transform_matrix. *)
Lemma transform_eigen t nx ny T k l : t^* = t -> (1 < nx)%N -> (0 < ny)%N ->
  hop t nx ny None true true = Ok T -> (k < nx)%N -> (l < ny)%N ->
  eigen (nx * ny) T (transform_matrix w nx ny (k * ny + l)) (ek w t nx ny k l).
Proof.
move=> tR nx1 ny0 E kn ln; have nx0 : (0 < nx)%N by lia.
have TP := hop_periodic tR E.
have N2 (a : C) : - t * (2%:R * a) = - 2%:R * t * a by rewrite mulrCA mulrA mulrN !mulNr.
have -> : ek w t nx ny k l = - t * ((1 < nx)%N%:R * (w nx ^+ k + (w nx ^+ k)^-1)
                                  + (1 < ny)%N%:R * (w ny ^+ l + (w ny ^+ l)^-1)).
  rewrite /ek nx1 mul1r !two_cos; case: eqP => [e|e].
    by rewrite (_ : (1 < ny)%N = false) ?mul0r ?addr0 ?N2 //; lia.
  by rewrite (_ : (1 < ny)%N) ?mul1r -?mulrDr ?N2 //; lia.
apply: (eigen_site nx0 ny0 TP); rewrite ?w_unit ?expf_neq0 ?w_neq0 //.
move=> x y xn yn; rewrite /transform_matrix kp_order.
have iN : (k * ny + l < nx * ny)%coq_nat by apply/ssrnat.ltP; nia.
set g := fun _ => _.
rewrite (List.nth_indep _ _ (g 0%N)); last by rewrite List.map_length List.seq_length.
rewrite List.map_nth List.seq_nth // /g {g} decode_xy xy_place; last by apply/ssrnat.ltP.
have -> : fft_site nx ny (0 + (k * ny + l))%coq_nat = (k, l).
  rewrite /fft_site; congr pair.
  - by symmetry; apply: (Nat.div_unique _ _ _ l); lia.
  - by symmetry; apply: (Nat.mod_unique _ _ k); lia.
case: (Nat.eqb_spec ny 1) => e /=; last by rewrite -!exprM.
have -> : y = 0%N by lia.
by rewrite mulr1 -exprM.
Qed.

Lemma coef_ext nx ny u v k l : (0 < ny)%N -> (forall i, (i < nx * ny)%N -> u i = v i) ->
  coef nx ny u k l = coef nx ny v k l.
Proof. by move=> ny0 E; rewrite !coef_times //; apply: eq_bigr => j _; rewrite E. Qed.

(* Fourier coefficients of the step *)
Lemma coef_step nx ny f psi k l : (0 < nx)%N -> (0 < ny)%N -> (k < nx)%N -> (l < ny)%N ->
  coef nx ny (ifft_wavefunction w nx ny (fun j => f j * fft_wavefunction w nx ny psi j)) k l
  = f (k * ny + l)%N * coef nx ny psi k l.
Proof.
move=> nx0 ny0 kn ln.
rewrite (coef_ext _ _ ny0 (fun i _ => step_wave nx ny0 f psi i)).
rewrite coef_times // (times_sum _ _ (fun k l => f (k * ny + l)%N * coef nx ny psi k l) (wave nx ny)).
transitivity (\sum_(k' < nx) \sum_(l' < ny)
   f (k' * ny + l')%N * coef nx ny psi k' l' * (((k' : nat) == k) && ((l' : nat) == l))%:R).
  apply: eq_bigr => k' _; apply: eq_bigr => l' _.
  by rewrite -coef_times // coef_wave.
rewrite (bigD1 (Ordinal kn)) //= (bigD1 (Ordinal ln)) //= !eqxx mulr1.
rewrite big1 ?addr0 => [|l' H]; last first.
  by rewrite (negbTE (H : (l' : nat) != l)) mulr0.
rewrite big1 ?addr0 // => k' H; apply: big1 => l' _.
by rewrite (negbTE (H : (k' : nat) != k)) mulr0.
Qed.

Lemma w2 : w 2 = -1.
Proof.
have P := wP (ltn0Sn 1); have := prim_expr_order P; move/eqP; rewrite sqrf_eq1 => /orP[/eqP e|/eqP //].
have := eq_prim_root_expr P 1 0; rewrite e expr1n expr0 eqxx //.
Qed.

Lemma w3 : w 3 ^+ 2 + w 3 + 1 = 0.
Proof.
have P := wP (ltn0Sn 2); have E := prim_expr_order P.
have n1 : w 3 - 1 != 0.
  rewrite subr_eq0; apply/eqP => e.
  by have := eq_prim_root_expr P 1 0; rewrite e expr1n expr0 eqxx.
apply: (mulfI n1); rewrite mulr0.
have := subrX1 (w 3) 3; rewrite E subrr !big_ord_recr big_ord0 /= add0r expr0 expr1 => ->.
by congr (_ * _); rewrite [RHS]addrC [1 + _]addrC addrA.
Qed.

Lemma rectangle t expo : t^* = t -> expo (3%:R * t) != expo 0 ->
  exists T B phi phi', [/\ hop t 2 3 None true true = Ok T, function_of 6 expo T B,
    kinetic_kspace w 2 3 false phi 1 0 (Factors (btk w 2 3 t expo)) = Ok phi'
    & exists i, (i < 6)%N /\ phi' i 0%N != times 6 B (fun j => phi j 0%N) i].
Proof.
move=> tR X.
have [T [E _]] := kinetic_sites C Th 0 1 +%R *%R (fun x y => x - y) -%R conjC expi
  (comring_th C) (rmorphD _) (rmorphM _) (rmorphN _) (@conjCK C) (conjC1 C) t 2 3 None true true tR I.
have [B F] := hop_function expo tR (ltn0Sn 1) (ltn0Sn 2) E.
pose v (i : nat) : C := (-1) ^+ i.
exists T, B, (fun i _ => v i); rewrite kspace_factors; eexists; split; [exact: E|exact: F|by []|].
pose r := ifft_wavefunction w 2 3 (fun i => btk w 2 3 t expo i * fft_wavefunction w 2 3 v i).
have Ev : eigen 6 T v 0.
  have -> : 0 = - t * ((1 < 2)%N%:R * (-1 + (-1)^-1) + (1 < 3)%N%:R * (1 + 1^-1)) :> C.
    by rewrite /= !mul1r invrN invr1 addrACA addNr addr0 mulr0.
  apply: (eigen_site (ltn0Sn 1) (ltn0Sn 2) (hop_periodic tR E)).
  - by rewrite sqrrN expr1n.
  - by rewrite expr1n.
  - by rewrite oppr_eq0 oner_neq0.
  - exact: oner_neq0.
  move=> x y xn yn; rewrite expr1n mulr1 /v (_ : place 2 (x, y) = (x + 2 * y)%N) //.
  by rewrite exprD exprM sqrrN !expr1n mulr1.
have [/existsP[i Hi]|N] := boolP [exists i : 'I_6, r i != times 6 B v i]; first by exists i.
have R i : (i < 6)%N -> r i = expo 0 * v i.
  move=> iN; move: N; rewrite negb_exists => /forallP/(_ (Ordinal iN)); rewrite negbK => /eqP ->.
  exact: (F _ _ Ev).
exfalso; move/eqP: X; apply.
have z0 : w 3 != 0 by exact: w_neq0.
have z2 : w 3 * w 3 != 0 by exact: mulf_neq0.
have c0 : coef 2 3 v 1 1 != 0.
  rewrite /coef /fft2 !big_ord_recl !big_ord0 /= /bump /= /v w2 !mul1n !mul0n ?muln1.
  rewrite ?addn0 ?add0n -?[(1+1)%N]/2 -?[(3+1)%N]/4 -?[(3+2)%N]/5 !expr0 !expr1 !exprS !expr0.
  rewrite !invr1 ?mulr1 ?mul1r ?addr0 ?mulN1r ?mulrN ?mulNr ?opprK ?invrN ?invr1.
  rewrite ?mulr1 ?mulNr ?mulrN ?mul1r ?opprK.
  have -> : 1 + (- (w 3)^-1 + (w 3 * w 3)^-1) = - 2%:R / w 3.
    have A : (w 3)^-1 * (w 3 * w 3) = w 3 by rewrite mulrA mulVf // mul1r.
    apply: (mulIf z2); rewrite !mulrDl mul1r [- (w 3)^-1 * _]mulNr A [(w 3 * w 3)^-1 * _]mulVf //.
    rewrite -[RHS]mulrA A mulNr.
    have /eqP := w3; rewrite expr2 addrAC addr_eq0 => /eqP e.
    by rewrite addrCA e -opprD -mulr2n -mulr_natl.
  rewrite mulf_neq0 ?invr_eq0 ?pnatr_eq0 // -mulr2n -mulr_natl.
  by rewrite !mulf_neq0 ?oppr_eq0 ?pnatr_eq0 ?invr_eq0 // w_neq0.
have e3 : ek w t 2 3 1 1 = 3%:R * t.
  rewrite /ek /= /ccos w2 !expr1 invrN invr1.
  have -> : (w 3)^-1 = - (1 + w 3).
    apply: (mulIf z0); rewrite mulVf // mulNr mulrDl mul1r -expr2.
    have /eqP := w3; rewrite addr_eq0 => /eqP e.
    by rewrite [w 3 + _]addrC e opprK.
  have h : (2%:R : C) != 0 by rewrite pnatr_eq0.
  rewrite opprD [w 3 + _]addrCA addrN addr0 -mulrDl.
  have -> : -1 - 1 + -1 = - 3%:R :> C by rewrite -!opprD -(natrD C 1 1) -(natrD C 2 1).
  by rewrite [- 3%:R / _]mulNr mulrN !mulNr opprK [2%:R * t]mulrC -mulrA [2%:R * _]mulrCA divff // mulr1 mulrC.
apply: (mulIf c0).
have := coef_step (btk w 2 3 t expo) v (ltn0Sn 1) (ltn0Sn 2) (ltnSn 1) (ltnW (ltnSn 2)).
rewrite -/r /btk eks_nth // e3 => <-.
rewrite (coef_ext (nx := 2) 1 1 (ltn0Sn 2) R).
by rewrite !coef_times // /times big_distrr; apply: eq_bigr => j _ /=; rewrite mulrCA.
Qed.

(* Two sites with one open bond. *)
Lemma open_chain t expo : t^* = t -> expo (- t) != expo (- 2%:R * t) ->
  exists T B phi phi', [/\ hop t 2 1 None false true = Ok T, function_of 2 expo T B,
    kinetic_kspace w 2 1 false phi 1 0 (Factors (btk w 2 1 t expo)) = Ok phi'
    & exists i, (i < 2)%N /\ phi' i 0%N != times 2 B (fun j => phi j 0%N) i].
Proof.
move=> tR X.
have [T [E [_ [H _]]]] := kinetic_sites C Th 0 1 +%R *%R (fun x y => x - y) -%R conjC expi
  (comring_th C) (rmorphD _) (rmorphM _) (rmorphN _) (@conjCK C) (conjC1 C) t 2 1 None false true tR I.
have S0 : site 2 1 (0%N, 0%N) by split; apply/ssrnat.ltP.
have S1 : site 2 1 (1%N, 0%N) by split; apply/ssrnat.ltP.
have T00 : T 0%N 0%N = 0 by have := H _ _ S0 S0; rewrite /amplitude /= mulr0.
have T11 : T 1%N 1%N = 0 by have := H _ _ S1 S1; rewrite /amplitude /= mulr0.
have T01 : T 0%N 1%N = - t by have := H _ _ S0 S1; rewrite /amplitude /= conjC1 addr0 mulr1.
have T10 : T 1%N 0%N = - t by have := H _ _ S1 S0; rewrite /amplitude /= addr0 mulr1.
pose B (i j : nat) : C := if i == j then (expo (- t) + expo t) / 2%:R else (expo (- t) - expo t) / 2%:R.
have h : (2%:R : C) != 0 by rewrite pnatr_eq0.
have two (A : nat -> nat -> C) v i : times 2 A v i = A i 0%N * v 0%N + A i 1%N * v 1%N.
  by rewrite /times !big_ord_recl big_ord0 addr0.
have F : function_of 2 expo T B.
  move=> v e Ev.
  have := Ev 0%N isT; rewrite two T00 T01 mul0r add0r => e0.
  have := Ev 1%N isT; rewrite two T11 T10 mul0r addr0 => e1.
  have P : expo (- t) * (v 0%N + v 1%N) = expo e * (v 0%N + v 1%N).
    have [-> | n0] := eqVneq (v 0%N + v 1%N) 0; first by rewrite !mulr0.
    congr (expo _ * _); apply: (mulIf n0); rewrite !mulrDr -e0 -e1 addrC; by [].
  have Q : expo t * (v 0%N - v 1%N) = expo e * (v 0%N - v 1%N).
    have [-> | n0] := eqVneq (v 0%N - v 1%N) 0; first by rewrite !mulr0.
    congr (expo _ * _); apply: (mulIf n0); rewrite [e * _]mulrBr -e0 -e1 mulrBr !mulNr opprK addrC; by [].
  have sum0 : v 0%N = ((v 0%N + v 1%N) + (v 0%N - v 1%N)) / 2%:R.
    by rewrite addrACA addrN addr0 -mulr2n -[_ *+ 2]mulr_natr mulfK.
  have sum1 : v 1%N = ((v 0%N + v 1%N) - (v 0%N - v 1%N)) / 2%:R.
    by rewrite opprB addrC addrA subrK -mulr2n -[_ *+ 2]mulr_natr mulfK.
  have Z0 : times 2 B v 0 = (expo (- t) * (v 0%N + v 1%N) + expo t * (v 0%N - v 1%N)) / 2%:R.
    by rewrite two /B /=; exact: (rf_open (comring_th C)).
  have Z1 : times 2 B v 1 = (expo (- t) * (v 0%N + v 1%N) - expo t * (v 0%N - v 1%N)) / 2%:R.
    by rewrite two /B /=; exact: (rf_open1 (comring_th C)).
  case=> [|[|//]] _.
  - by rewrite Z0 P Q -mulrDr -mulrA -sum0.
  - by rewrite Z1 P Q -mulrBr -mulrA -sum1.
exists T, B, (fun _ _ => 1); rewrite kspace_factors; eexists; split; [exact: E|exact: F|by []|].
exists 0%N; split => //.
have -> : times 2 B (fun _ => 1) 0 = expo (- t).
  by rewrite two /B /= !mulr1 -mulrDl addrACA addrN addr0 -mulr2n -[_ *+ 2]mulr_natr mulfK.
rewrite step_wave // !big_ord_recl !big_ord0 /= /bump /=.
have -> : coef 2 1 (fun _ => 1) 0 0 = 1.
  rewrite /coef /fft2 !big_ord_recl !big_ord0 /= !mul0n !expr0 invr1 !mulr1 !addr0.
  by rewrite muln1 -(natrD C 1 1) divff.
have -> : coef 2 1 (fun _ => 1) (1 + 0) 0 = 0.
  rewrite /coef /fft2 !big_ord_recl !big_ord0 /= /bump /= !mul0n ?muln0 ?expr0 ?addn0 ?muln1.
  rewrite ?invr1 w2 ?expr1 ?expr0 ?invrN ?invr1 ?mulr1 ?mul1r ?addr0.
  by rewrite addrN mul0r.
rewrite mulr0 mul0r !addr0 mulr1 /btk /eks /= /ek /= /ccos expr0 invr1 -(natrD C 1 1) divff // mulr1.
by rewrite /wave ?muln0 ?mul0n ?mul0r ?expr0 ?mulr1 eq_sym.
Qed.
End Kspace.
