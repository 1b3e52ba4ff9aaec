(* Proofs about the propagator of plane waves in terms of the specification. *)

From Verif Require Import Base BaseFacts.
Set Warnings "-notation-overridden,-ambiguous-paths".
From mathcomp Require Import all_ssreflect all_algebra zify.
From Verif Require Import Taylor_Spec Reorder_Spec Reorder_Model Reorder_Proofs.
From Verif Require Import LEnergy_Spec UEGEnergy_Spec Kspace_Spec PWFFT_Spec PWProp_Spec.
From Verif Require Import PWFFT_Model PWFFT_Proofs PWGrid_Proofs PWEnergy_Proofs PWSystem_Proofs PWLookup_Proofs.
From Verif Require Import PWFFT_Last PWProp_Model PWConv_Proofs PWProp_Proofs.

Set Implicit Arguments.
Unset Strict Implicit.
Unset Printing Implicit Defensive.

Import Order.TTheory GRing.Theory Num.Theory.
Local Open Scope ring_scope.

Section Last.
Variable C : numClosedFieldType.
Variable w : nat -> C.
Hypothesis wP : roots w.
Variable nfl : nat -> nat.
Hypothesis nflP : forall n, (n <= nfl n)%N.

Lemma valid_spec n1 n2 (f g : seq C) : (0 < n2 <= n1)%N -> size f = (n1 ^ 3)%N -> size g = (n2 ^ 3)%N ->
  exists c, fftconvolve_valid w nfl f n1 g n2 = Ok c /\ valid_convolution_of n1 n2 f g c.
Proof.
move=> le sf sg; have [c [E s h]] := validE wP le (nflP _) sf sg.
exists c; split=> //; split=> // r hr; rewrite h //.
apply: eq_bigr => i _; apply: eq_bigr => j _.
rewrite /vadds /coords /= !xpair_eqE ![(_ + (n2 - 1))%N]addnC.
by case: (_ && _); rewrite ?mul1r ?mul0r.
Qed.

Lemma valid_swap n1 n2 (f g : seq C) : (n1 < n2)%N ->
  fftconvolve_valid w nfl f n1 g n2 = fftconvolve_valid w nfl g n2 f n1.
Proof.
move=> h; rewrite /fftconvolve_valid [(size g == _) && _]andbC [(n2 == 0%N) || _]orbC.
case: ifP => // _; case: ifP => // _; rewrite [(n2 + n1)%N]addnC h.
by rewrite [(n2 < n1)%N]ltnNge ltnW.
Qed.

Lemma valid_raises n1 n2 (f g : seq C) : size f <> (n1 ^ 3)%N \/ size g <> (n2 ^ 3)%N ->
  fftconvolve_valid w nfl f n1 g n2 = Err ValueError.
Proof.
move=> h; rewrite /fftconvolve_valid ifN //; apply/negP => /andP [/eqP a /eqP b].
by case: h.
Qed.

Variables (pi kfac : C) (kt : C * C * C) (vol sqrt_dt : C).

Lemma system_qnmax ecut sys : pw_system pi kfac kt ecut = Ok sys -> qnmax sys = (nmax sys * 2)%N.
Proof.
rewrite /pw_system.
case E : (sp_energies kfac kt ecut None) => [[[[sp kv] nm] gm]|] //; cbn [rbind].
case: ifP => // _.
case F : (sp_energies kfac kt (4%:R * ecut) (Some (nm * 2)%N)) => [[[[sp' q] qn] qm]|] //; cbn [rbind].
by move=> [<-] /=; have [_ _ -> _] := sp_energiesE F.
Qed.

Hypothesis vol0 : 0 < vol.
Hypothesis kfacP : (10%:R ^+ 10)^-1 <= kfac ^+ 2.

Lemma capped_le (x : C) : `|capped x| <= 1.
Proof.
rewrite /capped; case E : (1 < `|x|); last first.
  by have /orP [//|] := ger_leVge (normr_ge0 x) ler01; rewrite le_eqVlt E orbF => /eqP ->.
rewrite normf_div normr_id divff //.
by apply: contraTneq E => ->; rewrite ltr10.
Qed.

Lemma nth_sub (a b : seq C) N i : size a = N -> size b = N -> (i < N)%N ->
  nth 0 [seq p.1 - p.2 | p <- zip a b] i = nth 0 a i - nth 0 b i.
Proof. by move=> sa sb hi; rewrite (nth_map (0, 0)) ?size_zip ?sa ?sb ?minnn // nth_zip ?sa ?sb. Qed.

Lemma dotlE (a b : seq C) N : size a = N -> size b = N ->
  dotl a b = \sum_(i < N) nth 0 a i * nth 0 b i.
Proof.
move=> sa sb; rewrite /dotl (big_nth (0, 0)) big_mkord size_zip sa sb minnn.
by apply: eq_bigr => i _; rewrite nth_zip ?sa ?sb.
Qed.

Section System.
Variables (ecut : rat) (sys : system C).
Hypothesis sysP : pw_system pi kfac kt ecut = Ok sys.
Local Notation M := (size (basis sys)).
Local Notation nq := (size (qvecs sys)).
Local Notation k := (fun a : 'I_M => nth 0 (basis sys) a : wave).
Local Notation qv b := (nth 0 (qvecs sys) b : wave).

Lemma sy i : (i < (2 * nmax sys + 1) ^ 3)%N ->
    inside ecut (kvec (nmax sys) ((2 * nmax sys + 1) ^ 3 - 1 - i)) = inside ecut (kvec (nmax sys) i).
Proof. by move=> hi; rewrite gm_sym. Qed.

Lemma shift_fieldsE (xi xbar : seq C) : size xi = (2 * nq)%N -> size xbar = (2 * nq)%N ->
  exists cfb xs, [/\ shift_fields sys sqrt_dt xi xbar = (0, cfb, xs), size xs = (2 * nq)%N,
    forall b, (b < 2 * nq)%N -> nth 0 xs b = nth 0 xi b - capped (nth 0 xbar b) &
    cfb = 2%:R^-1 * (\sum_(b < 2 * nq) nth 0 xi b ^+ 2 - \sum_(b < 2 * nq) nth 0 xs b ^+ 2)].
Proof.
move=> sx sb; rewrite /shift_fields; set xc := rescale xbar.
have sc : size xc = (2 * nq)%N by rewrite size_map.
have nc b : (b < 2 * nq)%N -> nth 0 xc b = capped (nth 0 xbar b).
  by move=> hb; rewrite (nth_map 0) ?sb.
set xs := [seq _ | _ <- zip xi xc].
have ss : size xs = (2 * nq)%N by rewrite size_map size_zip sx sc minnn.
have sz : size (nseq (2 * nq) 0 : seq C) = (2 * nq)%N by rewrite size_nseq.
exists (dotl xi xc - 2%:R^-1 * dotl xc xc), xs; split=> //.
- rewrite (dotlE ss sz) big1 ?mulr0 // => i _.
  by rewrite nth_nseq ltn_ord mulr0.
- by move=> b hb; rewrite (nth_sub sx sc) // nc.
rewrite (dotlE sx sc) (dotlE sc sc) -sumrB !mulr_sumr -sumrB; apply: eq_bigr => b _.
rewrite (nth_sub sx sc) //; move: (nth 0 xi b) (nth 0 xc b) => x y.
rewrite sqrrB -addrA opprD addrA subrr add0r opprD opprK mulrBr -[x * y *+ 2]mulr_natl.
by rewrite -expr2 [2%:R^-1 * (2%:R * _)]mulrA mulVf ?pnatr_eq0 // mul1r.
Qed.

Lemma step_spec (ragged force_bias : bool) exp_nmax nup ndown (xi : seq C)
    (Ga : 'M[C]_(nup, M)) (Gb : 'M[C]_(ndown, M)) (A : 'M[C]_(M, nup)) (B : 'M[C]_(M, ndown))
    (phi : 'M[C]_(M, nup + ndown)) :
  size xi = (2 * nq)%N -> force_bias = false \/ nup = ndown \/ ragged ->
  let G := map_mx conjC A *m Ga + map_mx conjC B *m Gb in
  exists cfb xs new,
  [/\ apply_two_body_propagator w nfl vol sqrt_dt ragged force_bias exp_nmax xi Ga Gb (row_mx A B) phi
       = Ok (0, cfb, xs, new),
      size xs = (2 * nq)%N,
      forall b, (b < nq)%N ->
        nth 0 xs b = nth 0 xi b - (if force_bias then
          capped (- sqrt_dt * expectation (vplus pi vol kfac k (qv b)) G) else 0) /\
        nth 0 xs (nq + b) = nth 0 xi (nq + b) - (if force_bias then
          capped (- sqrt_dt * expectation (vminus pi vol kfac k (qv b)) G) else 0),
      cfb = 2%:R^-1 * (\sum_(b < 2 * nq) nth 0 xi b ^+ 2 - \sum_(b < 2 * nq) nth 0 xs b ^+ 2) &
      forall i, exists c, [/\ new i = Ok c, size c = M & forall a : 'I_M, nth 0 c a
        = (taylor exp_nmax (field_operator pi vol kfac k sqrt_dt (qvecs sys) xs) *m phi) a i]].
Proof.
move=> sx hr G; rewrite /apply_two_body_propagator.
have [h r] := system_inv sysP; have qn := system_qnmax sysP.
have H : exists xbar, [/\ (if force_bias then construct_force_bias w nfl vol sqrt_dt ragged Ga Gb (row_mx A B)
         else Ok (nseq (2 * nq) 0)) = Ok xbar, size xbar = (2 * nq)%N &
    forall b, (b < nq)%N ->
      capped (nth 0 xbar b) = (if force_bias then
          capped (- sqrt_dt * expectation (vplus pi vol kfac k (qv b)) G) else 0) /\
      capped (nth 0 xbar (nq + b)) = (if force_bias then
          capped (- sqrt_dt * expectation (vminus pi vol kfac k (qv b)) G) else 0)].
  case: force_bias hr => hr.
    have hr' : nup = ndown \/ ragged by case: hr.
    have [c [E s H]] := force_biasE wP nflP sy (r_gmap r) (r_basis r) (r_qmap r) (r_qvecs r) qn
      sqrt_dt vol0 kfacP (r_vq r) Ga Gb A B hr'.
    by exists c; split=> // b hb; have [-> ->] := H b hb.
  exists (nseq (2 * nq) 0); split; [by []|by rewrite size_nseq|].
  have c0 : capped 0 = 0 :> C by rewrite /capped normr0 ltr10.
  by move=> b hb; rewrite !nth_nseq; do 2 case: ifP => _; rewrite c0.
have [xbar [-> sb hb]] := H; cbn [rbind].
have [cfb [xs [-> ss hx hc]]] := shift_fieldsE sx sb.
exists cfb, xs, (apply_exp w nfl vol sqrt_dt exp_nmax xs phi); split=> // [b hb'|i].
  have [e1 e2] := hb b hb'; rewrite -e1 -e2.
  by split; apply: hx; move: hb'; move: nq => N; lia.
exact: (apply_expE wP nflP sy (r_gmap r) (r_basis r) (r_qmap r) (r_qvecs r) qn
         sqrt_dt vol0 kfacP (r_vq r) exp_nmax phi i ss).
Qed.

Lemma open_shell (exp_nmax : nat) nup ndown (xi : seq C)
    (Ga : 'M[C]_(nup, M)) (Gb : 'M[C]_(ndown, M)) (psi phi : 'M[C]_(M, nup + ndown)) : nup <> ndown ->
  apply_two_body_propagator w nfl vol sqrt_dt false true exp_nmax xi Ga Gb psi phi = Err ValueError.
Proof. by move=> /eqP ne; rewrite /apply_two_body_propagator /construct_force_bias ne. Qed.

(* ------------------------------------------------------------ the Hamiltonian *)
Local Notation norm2 := (fun Q : wave => kfac ^+ 2 * (len2 Q)%:~R).

Definition find_wave (x : wave) : option 'I_M := [pick a | k a == x].

Lemma k_inj : injective k.
Proof.
have [h r] := system_inv sysP; have u := r_uniq r.
by move=> a b /eqP; rewrite nth_uniq // => /eqP /val_inj.
Qed.

Lemma find_waveP x i : find_wave x = Some i <-> k i = x.
Proof.
rewrite /find_wave; case: pickP => [a /eqP ea|no]; last first.
  by split=> // e; have := no i; rewrite /= e eqxx.
by split=> [[<-] //|e]; rewrite (k_inj (etrans ea (esym e))).
Qed.

Lemma len2N (Q : wave) : len2 (- Q) = len2 Q.
Proof. by rewrite /len2 /= !sqrrN. Qed.

Lemma mod_one_bodyE T : PWProp_Model.mod_one_body vol pi kfac T = Reorder_Model.mod_one_body pi vol norm2 k T.
Proof.
apply/matrixP => i j; rewrite !mxE; case: eqP => // _.
rewrite !foldl_sub; congr (_ - _); apply: eq_bigr => a ne; congr (_ * _).
have [h r] := system_inv sysP.
rewrite (vq_right nflP sy pi kfacP) /Reorder_Model.vq dot2_len2 ifN //.
by rewrite subr_eq0; apply: contra ne => /eqP /k_inj ->.
Qed.

Lemma strength_at Q : Q != 0 ->
  strength pi vol kfac Q = sqrtC (pi / vol / (kfac ^+ 2 * (len2 Q)%:~R)).
Proof.
move=> Q0; rewrite /strength (negbTE Q0); congr (sqrtC _).
by move: (kfac ^+ 2 * _) => X; rewrite invfM mulrA.
Qed.
Lemma rhoE Q : Q != 0 -> rho_q pi vol norm2 k find_wave Q = strength pi vol kfac Q *: density C k Q.
Proof.
move=> Q0; apply/matrixP => a b; rewrite !mxE strength_at //.
case: eqP => [/find_waveP <-|ne]; first by rewrite eqxx mulr1.
case: eqP => e; last by rewrite mulr0.
by case: ne; apply/find_waveP.
Qed.
Lemma rhoHE Q : Q != 0 -> rho_qH pi vol norm2 k find_wave Q = strength pi vol kfac Q *: density C k (- Q).
Proof.
move=> Q0; apply/matrixP => a b; rewrite !mxE strength_at //.
case: eqP => [/find_waveP ->|ne]; first by rewrite addrK eqxx mulr1.
case: eqP => e; last by rewrite mulr0.
by case: ne; apply/find_waveP; rewrite e subrK.
Qed.

Lemma hamiltonian_spec (A : algType C) (cd c : 'I_M -> bool -> A) (T : 'M[C]_M) : car cd c ->
  let h := PWProp_Model.mod_one_body vol pi kfac T in
  hamiltonian cd c (by_spin (T, T)) (coulomb k (bare pi vol norm2))
  = one_body_op cd c (by_spin (h, h))
    - (1 / 2%:R) *: \sum_(Q <- qvecs sys)
        (op cd c (vplus pi vol kfac k Q) ^+ 2 + op cd c (vminus pi vol kfac k Q) ^+ 2).
Proof.
move=> hc h; have [he r] := system_inv sysP.
pose qs := [seq Q <- qvecs sys | Q != 0].
have uq : uniq qs by rewrite filter_uniq // (r_quniq r).
have q0 : 0 \notin qs by rewrite mem_filter eqxx.
have full i j : i != j -> k i - k j \in qs.
  move=> ne; rewrite mem_filter (transfers_spec sysP) ?mem_nth // andbT subr_eq0.
  by apply: contra ne => /eqP /k_inj ->.
have nN (Q : wave) : norm2 (- Q) = norm2 Q by rewrite len2N.
have := ueg_right hc pi vol (norm2 := norm2) k_inj find_waveP uq full nN q0 T.
rewrite -mod_one_bodyE -/h /half => E.
rewrite -[X in _ - _ *: X](_ : \sum_(Q <- qs) (op cd c (iA pi vol norm2 k find_wave Q) ^+ 2
         + op cd c (iB pi vol norm2 k find_wave Q) ^+ 2) = _); last first.
  rewrite big_filter big_mkcond; apply: eq_bigr => Q _; case: eqP => [->|/eqP Q0].
    have o0 : op cd c 0 = 0.
      by rewrite /op /one_body_op !big1 // => s _; rewrite big1 // => p _; rewrite big1 // => u _; rewrite mxE scale0r.
    by rewrite /vplus /vminus /strength eqxx mul0r !oppr0 !scale0r !o0 (_ : 0 ^+ 2 = 0 :> A) ?addr0 // expr0n.
  rewrite /iA /iB rhoE // rhoHE // -scalerDr -scalerBr scalerA -scaleNr.
  by rewrite /vplus /vminus mulrC.
rewrite -E /hamiltonian; congr (_ + _); rewrite /two_body_op.
apply: eq_bigr => s _; apply: eq_bigr => t _; apply: eq_bigr => p _; apply: eq_bigr => x _.
apply: eq_bigr => q _; apply: eq_bigr => u _; congr ((_ * _) *: _).
rewrite /hijkl_ueg /coulomb /bare /Reorder_Model.vq.
have -> : (k x - k p != 0) = (p != x) by rewrite subr_eq0 (inj_eq k_inj) eq_sym.
have -> : (k x - k p == k q - k u) = (k p + k q == k x + k u).
  by rewrite subr_eq addrAC eq_sym subr_eq [k q + _]addrC.
case: ifP => // _; move: (kfac ^+ 2 * _) => X.
by rewrite mul1r invfM mulrCA.
Qed.
End System.
End Last.
