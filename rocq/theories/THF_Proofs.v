(* Proofs for C66. *)

From Verif Require Import Base BaseFacts.
Set Warnings "-notation-overridden,-ambiguous-paths".
From mathcomp Require Import all_ssreflect all_algebra zify.
From Verif Require Import LEnergy_Proofs TGreen_Spec THF_Model THF_Spec.

Set Implicit Arguments.
Unset Strict Implicit.
Unset Printing Implicit Defensive.

Import Order.TTheory GRing.Theory Num.Theory.
Local Open Scope ring_scope.

(* The triangle inequality. *)
Section Norm.
Variable C : numClosedFieldType.
Variable T : finType.
Implicit Types f g : T -> C.

Definition sq f : C := \sum_i `|f i| ^+ 2.
Definition len f : C := sqrtC (sq f).

Lemma sq_ge0 f : 0 <= sq f.
Proof. by apply: sumr_ge0 => i _; rewrite exprn_ge0. Qed.

Lemma len_ge0 f : 0 <= len f.
Proof. by rewrite sqrtC_ge0 sq_ge0. Qed.

Lemma lenK f : len f ^+ 2 = sq f.
Proof. exact: sqrtCK. Qed.

Lemma cauchy f g : (\sum_i `|f i| * `|g i|) <= len f * len g.
Proof.
set S0 := \sum_i _.
have S0p : 0 <= S0 by apply: sumr_ge0 => i _; rewrite mulr_ge0.
rewrite -(@ler_pexpn2r _ 2) ?nnegrE ?mulr_ge0 ?len_ge0 // exprMn !lenK.
have [z|nz] := eqVneq (sq f) 0.
  have f0 i : `|f i| = 0.
    have /psumr_eq0P := z => /(_ (fun i _ => exprn_ge0 2 (normr_ge0 (f i)))) /(_ i isT) /eqP.
    by rewrite expf_eq0 /= => /eqP.
  by rewrite z mul0r /S0 big1 ?expr0n // => i _; rewrite f0 mul0r.
have fp : 0 < sq f by rewrite lt_def nz sq_ge0.
have H : 0 <= \sum_i (sq f * `|g i| - S0 * `|f i|) ^+ 2.
  apply: sumr_ge0 => i _; apply: real_exprn_even_ge0 => //.
  by rewrite rpredB // rpredM ?normr_real // ger0_real ?sq_ge0.
have E : \sum_i (sq f * `|g i| - S0 * `|f i|) ^+ 2 = sq f * (sq f * sq g - S0 ^+ 2).
  rewrite (eq_bigr (fun i => sq f ^+ 2 * `|g i| ^+ 2 - (sq f * S0 *+ 2) * (`|f i| * `|g i|)
             + S0 ^+ 2 * `|f i| ^+ 2)); last first.
    move=> i _; rewrite sqrrB !exprMn; congr (_ - _ + _).
    by rewrite !mulrnAl; congr (_ *+ 2); rewrite mulrACA [`|g i| * _]mulrC.
  rewrite big_split /= -big_distrr /= sumrB -!big_distrr /= -/(sq f) -/(sq g) -/S0.
  rewrite mulrBr expr2 -mulrA -addrA; congr (_ + _).
  rewrite mulr2n mulrDl opprD -mulrA -expr2 [S0 ^+ 2 * _]mulrC.
  by rewrite -addrA addNr addr0.
by move: H; rewrite E pmulr_rge0 // subr_ge0.
Qed.

Lemma len_add f g : len (fun i => f i + g i) <= len f + len g.
Proof.
rewrite -(@ler_pexpn2r _ 2) ?nnegrE ?addr_ge0 ?len_ge0 // sqrrD !lenK.
apply: (@le_trans _ _ (\sum_i (`|f i| + `|g i|) ^+ 2)).
  by apply: ler_sum => i _; rewrite ler_pexpn2r ?nnegrE ?addr_ge0 // ler_norm_add.
rewrite (eq_bigr (fun i => `|f i| ^+ 2 + (`|f i| * `|g i|) *+ 2 + `|g i| ^+ 2));
  last by move=> i _; rewrite sqrrD.
rewrite !big_split /= ler_add2r ler_add2l mulr2n.
by rewrite ler_add ?cauchy.
Qed.

Lemma len_scale a f : len (fun i => a * f i) = `|a| * len f.
Proof.
rewrite /len /sq (eq_bigr (fun i => `|a| ^+ 2 * `|f i| ^+ 2)); last by move=> i _; rewrite normrM exprMn.
by rewrite -big_distrr /= sqrtCM ?nnegrE ?exprn_ge0 // ?sumr_ge0 // ?sqrCK // => i _; rewrite exprn_ge0.
Qed.

Lemma len_ext f g : f =1 g -> len f = len g.
Proof. by move=> E; rewrite /len /sq; under eq_bigr do rewrite E. Qed.

Lemma len0 : len (fun _ => 0) = 0.
Proof. by rewrite /len /sq big1 ?sqrtC0 // => i _; rewrite normr0 expr0n. Qed.

Lemma len_eq0 f : len f = 0 -> forall i, f i = 0.
Proof.
move/eqP; rewrite sqrtC_eq0 => /eqP /psumr_eq0P z i.
by have /eqP := z (fun i _ => exprn_ge0 2 (normr_ge0 (f i))) i isT; rewrite expf_eq0 normr_eq0 => /eqP.
Qed.
End Norm.

Section THF.
Variable C : numClosedFieldType.
Variable n : nat.
Notation M := 'M[C]_n.
Notation mat2 := (M * M)%type.
Implicit Types P Q R : mat2.

Definition diff P Q (p : 'I_n * 'I_n * bool) : C :=
  if p.2 then P.1 p.1.1 p.1.2 - Q.1 p.1.1 p.1.2 else P.2 p.1.1 p.1.2 - Q.2 p.1.1 p.1.2.

Lemma distanceE P Q : distance P Q = len (diff P Q).
Proof.
rewrite /distance /len /sq; congr sqrtC.
rewrite (eq_bigr (fun p => `|diff P Q (p.1, p.2)| ^+ 2)); last by case.
rewrite -(pair_bigA _ (fun q b => `|diff P Q (q, b)| ^+ 2)) /=.
rewrite (eq_bigr (fun q : 'I_n * 'I_n => `|P.1 q.1 q.2 - Q.1 q.1 q.2| ^+ 2
          + `|P.2 q.1 q.2 - Q.2 q.1 q.2| ^+ 2)); last by move=> q _; rewrite big_bool.
by rewrite -(pair_bigA _ (fun i j => `|P.1 i j - Q.1 i j| ^+ 2 + `|P.2 i j - Q.2 i j| ^+ 2)).
Qed.

Lemma distance_ge0 P Q : 0 <= distance P Q.
Proof. by rewrite distanceE len_ge0. Qed.

Lemma distancexx P : distance P P = 0.
Proof.
by rewrite distanceE -[RHS](len0 C [finType of 'I_n * 'I_n * bool]); apply: len_ext => -[[i j] []];
  rewrite /diff /= subrr.
Qed.

Lemma distance_eq0 P Q : distance P Q = 0 -> P = Q.
Proof.
rewrite distanceE => /len_eq0 z.
rewrite [P]surjective_pairing [Q]surjective_pairing; congr (_, _); apply/matrixP => i j; apply/eqP.
- by rewrite -subr_eq0; apply/eqP; exact: (z (i, j, true)).
- by rewrite -subr_eq0; apply/eqP; exact: (z (i, j, false)).
Qed.

Lemma distance_tri P Q R : distance P R <= distance P Q + distance Q R.
Proof.
rewrite !distanceE; apply: le_trans (len_add _ _).
rewrite le_eqVlt; apply/orP; left; apply/eqP; apply: len_ext => -[[i j] []]; rewrite /diff /=;
  by rewrite addrA subrK.
Qed.

Lemma norm2E P Q : norm2 (P.1 - Q.1, P.2 - Q.2) = distance P Q.
Proof.
rewrite /norm2 /distance; congr sqrtC; apply: eq_bigr => i _; apply: eq_bigr => j _ /=.
by rewrite !mxE.
Qed.

Section Mix.
Variable a : C.
Variable F : mat2 -> mat2.

Lemma mix_step x : distance (mix a F x) x = `|1 - a| * distance (F x) x.
Proof.
rewrite !distanceE -len_scale; apply: len_ext => -[[i j] []]; rewrite /diff /mix /= !mxE;
  rewrite mulrBr -addrA; congr (_ + _); by rewrite mulrBl mul1r opprB.
Qed.

Lemma mix_fixed x : F x = x -> mix a F x = x.
Proof. by move=> E; rewrite /mix E -!scalerDl subrK !scale1r -surjective_pairing. Qed.

Hypothesis a0 : 0 <= a.
Hypothesis a1 : a < 1.
Variables (L : C) (s : mat2).
Hypothesis L0 : 0 <= L.
Hypothesis L1 : L < 1.
Hypothesis fixed : F s = s.
Hypothesis contract : forall x, distance (F x) s <= L * distance x s.

Let q := a + (1 - a) * L.

Lemma b0 : 0 < 1 - a. Proof. by rewrite subr_gt0. Qed.
Lemma q0 : 0 <= q.
Proof. by rewrite addr_ge0 // mulr_ge0 // ltW // b0. Qed.

Lemma mix_contract x : distance (mix a F x) s <= q * distance x s.
Proof.
have E : distance (mix a F x) s <= (1 - a) * distance (F x) s + a * distance x s.
  have -> : (1 - a) * distance (F x) s = `|1 - a| * distance (F x) s by rewrite ger0_norm // ltW // b0.
  have -> : a * distance x s = `|a| * distance x s by rewrite ger0_norm.
  rewrite !distanceE -!len_scale; apply: le_trans (len_add _ _).
  rewrite le_eqVlt; apply/orP; left; apply/eqP; apply: len_ext => -[[i j] []]; rewrite /diff /mix /= !mxE;
    by rewrite !mulrBr addrACA -opprD -mulrDl subrK mul1r.
apply: le_trans E _; rewrite /q [X in _ <= X]mulrDl [X in _ <= X]addrC ler_add2r -mulrA ler_pmul2l ?b0 //.
Qed.

Lemma mixed_contract k x : distance (mixed a F k x) s <= q ^+ k * distance x s.
Proof.
elim: k => [|k IH]; first by rewrite expr0 mul1r.
rewrite /mixed iterS; apply: le_trans (mix_contract _) _.
by rewrite exprS -mulrA ler_wpmul2l ?q0.
Qed.

Lemma mixed_change k x :
  distance (mixed a F k.+1 x) (mixed a F k x) <= (1 + q) * q ^+ k * distance x s.
Proof.
apply: le_trans (distance_tri _ s _) _.
rewrite mulrDl mul1r mulrDl addrC; apply: ler_add.
- have -> : distance s (mixed a F k x) = distance (mixed a F k x) s.
    rewrite !distanceE /len /sq; congr sqrtC; apply: eq_bigr => -[[i j] []] _;
      by rewrite /diff /= distrC.
  exact: mixed_contract.
- by rewrite -exprS; exact: mixed_contract.
Qed.

(* How far a point with a small change is from the fixed point. *)
Lemma mix_error deps x : distance (mix a F x) x < deps ->
  distance x s <= deps / ((1 - a) * (1 - L)).
Proof.
rewrite mix_step gtr0_norm ?b0 // => H.
have l0 : 0 < 1 - L by rewrite subr_gt0.
rewrite ler_pdivl_mulr ?mulr_gt0 ?b0 //; apply: le_trans (ltW H).
rewrite mulrCA ler_pmul2l ?b0 // mulrBr mulr1 ler_subl_addr.
have T := distance_tri x (F x) s.
have -> : distance (F x) x = distance x (F x).
  rewrite !distanceE /len /sq; congr sqrtC; apply: eq_bigr => -[[i j] []] _;
    by rewrite /diff /= distrC.
by apply: le_trans T _; rewrite ler_add2l mulrC contract.
Qed.
End Mix.

Section Code.
Variable expm : M -> M.
Variable expo : C -> C.
Hypothesis expP : exponential expm expo.
Variable fock : mat2 -> mat2.
Variable rdm1 : M -> nat -> M.
Variable green1 : M -> M.
Variable find : mat2 -> C -> res (option C).
Variable o : thf_opts C.
Notation dens := (density expm rdm1 (odtau o) (obins o)).
Notation F mu := (fun Q => dens (fock Q) mu).
Notation a := (oalpha o).
Notation deps := (odeps o).

Lemma scf_loopS it mu H x :
  scf_loop expm fock rdm1 o it.+1 mu H x
  = if distance (mix a (F mu) x) x < deps then Ok (fock x)
    else if overbose o && ~~ entropy_ok (fock x) then Err AssertionError
    else scf_loop expm fock rdm1 o it mu (fock x) (mix a (F mu) x).
Proof. by rewrite -norm2E. Qed.

Lemma scf_loop_result mu it H x : overbose o = false ->
  exists k, [/\ (k < it.+1)%N,
    scf_loop expm fock rdm1 o it.+1 mu H x = Ok (fock (mixed a (F mu) k x)),
    forall j, (j < k)%N -> ~~ (distance (mixed a (F mu) j.+1 x) (mixed a (F mu) j x) < deps)
    & distance (mixed a (F mu) k.+1 x) (mixed a (F mu) k x) < deps \/ k = it].
Proof.
move=> V; elim: it H x => [|it IH] H x; rewrite scf_loopS V andFb.
  by exists 0%N; split=> //; [case: ifP|right].
case: ifP => [h|/negbT h]; first by exists 0%N; split=> //; left.
have [k [kt E J D]] := IH (fock x) (mix a (F mu) x).
exists k.+1; split=> //.
- by rewrite E /mixed -iterSr.
- by case=> [|j] jk //; have := J j jk; rewrite /mixed -!iterSr.
- by case: D => [D|->]; [left; move: D; rewrite /mixed -!iterSr|right].
Qed.

Lemma scf_right mu P : overbose o = false -> (0 < oscf o)%N ->
  exists H, scf expm fock rdm1 o mu P = Ok H /\ scf_result a deps (oscf o) fock (F mu) P H.
Proof.
move=> V s0; rewrite /scf.
have [k [kt E J D]] := scf_loop_result mu (oscf o).-1 (fock P) (F mu P) V.
rewrite prednK // in kt E.
by exists (fock (mixed a (F mu) k (F mu P))); split; [exact: E|exists k; split].
Qed.

Lemma scf_verbose mu P : overbose o = true -> (0 < oscf o)%N ->
  ~~ (distance (mixed a (F mu) 1 (F mu P)) (F mu P) < deps) ->
  ~~ (distance ((fock (F mu P)).1, 0) ((fock (F mu P)).2, 0) < (10%:R ^+ 12)^-1) ->
  scf expm fock rdm1 o mu P = Err AssertionError.
Proof.
move=> V s0 /negbTE h; rewrite -norm2E /= subr0 => e.
by rewrite /scf -(prednK s0) scf_loopS h V /= /entropy_ok e.
Qed.

Lemma rho_slice (H : mat2) mu tau :
  compute_rho expo (both (fun A => expm (- tau *: A)) H) mu tau 1 = slice expm tau H mu.
Proof.
have E A : \matrix_(j, k) (expm (- tau *: A) j k * expo (1 * tau * mu)) = expm (- tau *: (A - mu%:M)) :> M.
  have -> : - tau *: (A - mu%:M) = - tau *: A + (tau * mu)%:M.
    by rewrite scalerBr scale_scalar_mx mulNr raddfN opprK.
  by rewrite expP; apply/matrixP => i j; rewrite !mxE mul1r mulrC.
by rewrite /compute_rho /slice /both /= !E.
Qed.

(* The states after each macro iteration. *)
Lemma macro_result it mu0 nav mu P last r : overbose o = false -> (0 < oscf o)%N ->
  macro expm expo fock rdm1 find o it mu0 nav mu P last = Ok r ->
  (it = 0%N /\ last = Some r) \/
  exists k (mus : nat -> C) (Ps Hs : nat -> mat2),
  [/\ (k < it)%N /\ (mus 0%N = mu /\ Ps 0%N = P), r = (Ps k.+1, Hs k, mus k.+1),
    forall j, (j <= k)%N -> [/\ scf_result a deps (oscf o) fock (F (mus j)) (Ps j) (Hs j),
      Ps j.+1 = dens (Hs j) (mus j)
      & if ofind o then find (both (fun A => expm (- odtau o *: A)) (Hs j)) nav = Ok (Some (mus j.+1))
        else mus j.+1 = mu0],
    forall j, (j < k)%N -> ~~ (`|mus j.+1 - mus j| < deps)
    & `|mus k.+1 - mus k| < deps \/ k = it.-1].
Proof.
move=> V s0; elim: it mu P last => [|it IH] mu P last.
  by rewrite /=; case: last => // r' [<-]; left.
rewrite [macro _ _ _ _ _ _ it.+1 _ _ _ _ _]/=.
have [H [-> S1]] := scf_right mu P V s0; cbn [rbind].
set rho := both _ H.
have -> : one_rdm_stable2 rdm1 o (compute_rho expo rho mu (odtau o) 1) = dens H mu.
  by rewrite /rho rho_slice.
case E : (if ofind o then find rho nav else Ok (Some mu0)) => [[m|]|e] //=.
have E' : if ofind o then find rho nav = Ok (Some m) else m = mu0.
  by move: E; case: (ofind o) => // -[].
case: ifP => [h [<-]|/negbT h].
  right; exists 0%N, (fun j => if j == 0%N then mu else m), (fun j => if j == 0%N then P else dens H mu),
    (fun=> H); split=> //; [|by left].
  by case=> //= _; split.
move/IH => [[it0 [Er]]|[k [mus [Ps [Hs [[ki [m0 P0]] Er J D L]]]]]].
  right; exists 0%N, (fun j => if j == 0%N then mu else m), (fun j => if j == 0%N then P else dens H mu),
    (fun=> H); split=> //; [by case=> //= _; split|by right; rewrite it0].
right; exists k.+1, (fun j => if j is j'.+1 then mus j' else mu),
  (fun j => if j is j'.+1 then Ps j' else P), (fun j => if j is j'.+1 then Hs j' else H).
split=> //.
- by case=> [_|j jk]; [rewrite m0 P0; split|exact: J].
- by case=> [_|j jk]; [rewrite m0|exact: D].
- by case: L => [L|->]; [left|right; rewrite prednK //; lia].
Qed.

Lemma macro_ok it mu0 nav mu P last : overbose o = false -> (0 < oscf o)%N ->
  (forall rho, exists m, find rho nav = Ok (Some m)) -> (0 < it)%N \/ last <> None ->
  exists r, macro expm expo fock rdm1 find o it mu0 nav mu P last = Ok r.
Proof.
move=> V s0 fd; elim: it mu P last => [|it IH] mu P last.
  by case=> //; case: last => [r|] // _; exists r.
move=> _; rewrite [macro _ _ _ _ _ _ it.+1 _ _ _ _ _]/=.
have [H [-> _]] := scf_right mu P V s0; cbn [rbind].
have [m Em] : exists m, (if ofind o then find (both (fun A => expm (- odtau o *: A)) H) nav else Ok (Some mu0))
    = Ok (Some m).
  by case: (ofind o); [exact: fd|exists mu0].
rewrite Em; cbn [rbind]; case: ifP => _; first by eexists.
by apply: IH; right.
Qed.

Lemma scf_fixed mu P : 0 < deps -> (0 < oscf o)%N -> F mu P = P ->
  scf expm fock rdm1 o mu P = Ok (fock P).
Proof.
move=> d0 s0 E; rewrite -[LHS]/(scf_loop expm fock rdm1 o (oscf o) mu (fock P) (F mu P)) -(prednK s0).
by rewrite scf_loopS E mix_fixed // distancexx d0.
Qed.

Lemma thf_fixed mu0 nav P : 0 < deps -> (0 < oscf o)%N -> (0 < omacro o)%N -> F mu0 P = P ->
  (ofind o = true -> find (both (fun A => expm (- odtau o *: A)) (fock P)) nav = Ok (Some mu0)) ->
  thermal_hartree_fock expm expo fock rdm1 find o mu0 nav P = Ok (P, fock P, mu0).
Proof.
move=> d0 s0 m0 E fd; rewrite /thermal_hartree_fock -(prednK m0) /= scf_fixed //; cbn [rbind].
have -> : (if ofind o then find (both (fun A => expm (- odtau o *: A)) (fock P)) nav else Ok (Some mu0))
    = Ok (Some mu0) by case: (ofind o) fd => // ->.
cbn [rbind]; rewrite subrr normr0 d0 rho_slice.
by rewrite (_ : one_rdm_stable2 _ _ _ = P) //; exact: E.
Qed.

Lemma scf_alpha1 mu P : a = 1 -> 0 < deps -> (0 < oscf o)%N ->
  scf expm fock rdm1 o mu P = Ok (fock (F mu P)).
Proof.
move=> a1 d0 s0; rewrite /scf -(prednK s0) scf_loopS.
by rewrite mix_step a1 subrr normr0 mul0r d0.
Qed.
Lemma rho_sign (H : mat2) mu tau s :
  compute_rho expo (both (fun A => expm (- tau *: A)) H) mu tau s = slice expm tau H (s * mu).
Proof.
by rewrite -rho_slice /compute_rho /both /=; congr pair; apply/matrixP => i j;
   rewrite !mxE mul1r mulrCA mulrA.
Qed.

Lemma one_body_right H1 target mu0 t :
  one_body expm expo rdm1 green1 find o H1 target mu0 = Ok t ->
  exists mu, let s := if oalt o then -1 else 1 in
  [/\ match mu0 with
      | Some m => mu = m
      | None => find (expm (- odtau o *: H1.1), expm (- odtau o *: H1.2)) target = Ok (Some mu)
      end,
      tmu t = mu /\ tnav t = 'Re (electrons (tP t)), tP t = dens H1 (s * mu),
      tdmat t = slice expm (odt o) H1 (s * mu)
    & tG t = (green1 (tdmat t).1, green1 (tdmat t).2)].
Proof.
rewrite /one_body; set s := if _ then _ else _.
case: mu0 => [m|]; last (case E : find => [[m|]|] //); cbn [rbind];
  by rewrite !rho_sign => -[<-]; exists m.
Qed.

Lemma trial_right H1 target mu0 t :
  mean_field expm expo fock rdm1 green1 find o H1 target mu0 = Ok t ->
  exists t0 H, [/\ one_body expm expo rdm1 green1 find o H1 target mu0 = Ok t0,
    thermal_hartree_fock expm expo fock rdm1 find o (tmu t0) (tnav t0) (tP t0)
      = Ok (tP t, H, tmu t), tdmat t = slice expm (odt o) H (tmu t)
    & tG t = (green1 (tdmat t).1, green1 (tdmat t).2) /\ tnav t = 'Re (electrons (tP t))].
Proof.
rewrite /mean_field; case: one_body => [t0|//]; cbn [rbind].
case E : thermal_hartree_fock => [[[P H] mu]|//]; cbn [rbind] => -[<-].
by exists t0, H.
Qed.
End Code.
End THF.

(* One site without interactions. *)
Section Site.
Variable C : numClosedFieldType.
Variable expo : C -> C.
Hypothesis expoD : forall x y, expo (x + y) = expo x * expo y.
Variable c : C.
Hypothesis Ep : 0 < expo c.
Hypothesis E1 : expo c != 1.
Notation M := 'M[C]_1.
Notation E := (expo c).

Definition expm1 (A : M) : M := (expo (A 0 0))%:M.
Definition rdm_exact (A : M) (L : nat) : M := thermal_rdm (mxpow A L).
Definition green_exact (A : M) : M := invmx (1%:M + A).
Definition zero2 : M * M := (0, 0).

Lemma expm1P : exponential expm1 expo.
Proof. by move=> A x; rewrite /expm1 !mxE /= mulr1n expoD mulrC -scale_scalar_mx. Qed.

Lemma expo0 : expo 0 = 1.
Proof.
have nz : expo c != 0 by rewrite gt_eqF.
by apply: (mulIf nz); rewrite -expoD add0r mul1r.
Qed.

Lemma expoN : expo (- c) = E^-1.
Proof.
have nz : expo c != 0 by rewrite gt_eqF.
by apply: (mulIf nz); rewrite -expoD addNr expo0 mulVf.
Qed.

Lemma scD (x y : C) : (x + y)%:M = x%:M + y%:M :> M. Proof. exact: raddfD. Qed.
Lemma scB (x y : C) : (x - y)%:M = x%:M - y%:M :> M. Proof. exact: raddfB. Qed.

Lemma rdm_scalar (x : C) : 0 < x -> thermal_rdm (x%:M : M) = (x / (1 + x))%:M.
Proof.
by move=> x0; rewrite /thermal_rdm -scD invmx_scalar -scalar_mxM tr_scalar_mx.
Qed.

Lemma rdm_exact1 (x : C) : 0 < x -> rdm_exact x%:M 1 = (x / (1 + x))%:M.
Proof. by move=> x0; rewrite /rdm_exact /= mulmx1 rdm_scalar. Qed.

Lemma rho_scalar (x y : C) : \matrix_(j, k) ((x%:M : M) j k * y) = (x * y)%:M :> M.
Proof. by apply/matrixP => i j; rewrite !mxE !ord1 /= !mulr1n. Qed.

Lemma one_plus (x : C) : 0 < x -> 1 + x != 0.
Proof. by move=> x0; rewrite gt_eqF // addr_gt0 ?ltr01. Qed.

Lemma E_half : E / (1 + E) != (1 + 1)^-1.
Proof.
apply/eqP => /(congr1 (fun x => x * (1 + E) * (1 + 1))).
rewrite mulfVK ?one_plus // [X in _ = X]mulrAC mulVf ?one_plus ?ltr01 // mul1r mulrDr mulr1 => /eqP.
by rewrite (inj_eq (addIr _)) (negbTE E1).
Qed.

Lemma E_other : E / (1 + E) != E^-1 / (1 + E^-1).
Proof.
have nz : E != 0 by rewrite gt_eqF.
have -> : E^-1 / (1 + E^-1) = (1 + E)^-1.
  by rewrite -invfM mulrDr mulr1 mulfV // addrC.
apply/eqP => /(congr1 (fun x => x * (1 + E))).
by rewrite mulfVK ?one_plus // mulVf ?one_plus // => /eqP; rewrite (negbTE E1).
Qed.

Lemma E_square : E / (1 + E) != E * E / (1 + E * E).
Proof.
have nz : E != 0 by rewrite gt_eqF.
have EE : 0 < E * E by rewrite mulr_gt0.
apply/eqP => /(congr1 (fun x => x * (1 + E) * (1 + E * E))).
rewrite mulfVK ?one_plus // [X in _ = X]mulrAC mulfVK ?one_plus // -mulrA => /(mulfI nz).
by rewrite mulrDr mulr1 => /eqP; rewrite (inj_eq (addIr _)) eq_sym (negbTE E1).
Qed.

Definition opts alt bins : thf_opts C :=
  MkOpts alt 1 1 bins 0 1 1 1 true false.
Definition target : C := E / (1 + E) + E / (1 + E).

Lemma double (x y : C) : (x + x == y + y) = (x == y).
Proof. by rewrite -!mulr2n eqr_pmuln2r. Qed.

Lemma free_slice (x : C) : - 1 *: (0 - x%:M) = x%:M :> M.
Proof. by rewrite sub0r scaleN1r opprK. Qed.

Lemma late_mu : exists P H mu,
  [/\ thermal_hartree_fock expm1 expo (fun=> zero2) rdm_exact (fun _ _ => Ok (Some c)) (opts false 1) 0 target zero2
      = Ok (P, H, mu),
    electrons (density expm1 rdm_exact 1 1 H mu) = target & electrons P != target].
Proof.
rewrite /thermal_hartree_fock [omacro _]/=.
have [H [E0 [k [_ Hf _ _]]]] := scf_right expm1 (fun=> zero2) rdm_exact 0 zero2 (o := opts false 1) erefl isT.
rewrite /= E0; cbn [rbind]; rewrite (rho_slice expm1P).
have Hz : H = zero2 by rewrite Hf.
exists (density expm1 rdm_exact 1 1 H 0), H, c; split; first by case: ifP.
- rewrite /electrons /density Hz /= free_slice /expm1 mxE /= mulr1n rdm_exact1 // !mxtrace_scalar.
  by rewrite !mulr1n.
- rewrite /electrons /density Hz /= free_slice /expm1 mxE /= mul0rn expo0 rdm_exact1 ?ltr01 //.
  by rewrite mxtrace_scalar mulr1n mul1r double eq_sym E_half.
Qed.

Lemma alt_sign : exists t1 t2,
  [/\ one_body expm1 expo rdm_exact green_exact (fun _ _ => Ok (Some c)) (opts true 1) zero2
        (E^-1 / (1 + E^-1) + E^-1 / (1 + E^-1)) None = Ok t1,
    mean_field expm1 expo (fun=> zero2) rdm_exact green_exact (fun _ _ => Ok (Some c)) (opts true 1) zero2
        (E^-1 / (1 + E^-1) + E^-1 / (1 + E^-1)) None = Ok t2,
    electrons (tP t1) = E^-1 / (1 + E^-1) + E^-1 / (1 + E^-1)
    & electrons (tP t2) = E / (1 + E) + E / (1 + E)].
Proof.
pose fd (_ : M * M) (_ : C) := Ok (Some c); pose tg := E^-1 / (1 + E^-1) + E^-1 / (1 + E^-1).
have O : exists t1, one_body expm1 expo rdm_exact green_exact fd (opts true 1) zero2 tg None = Ok t1 /\
    electrons (tP t1) = tg /\ tmu t1 = c.
  eexists; split; first by rewrite /one_body /fd; cbn [rbind]; reflexivity.
  split=> //.
  rewrite /electrons /= /one_rdm_stable2 /both /=.
  have -> : expm1 (-1 *: (0 : M)) = 1%:M by rewrite scaler0 /expm1 mxE expo0.
  rewrite rho_scalar mul1r mulr1 mulN1r expoN /= rdm_exact1 ?invr_gt0 // !mxtrace_scalar.
  by rewrite !mulr1n.
have [t1 [O1 [O2 O3]]] := O.
exists t1; rewrite /mean_field O1; cbn [rbind]; rewrite O3.
rewrite /thermal_hartree_fock [omacro _]/= /=.
have [H [E0 [k [_ Hf _ _]]]] := scf_right expm1 (fun=> zero2) rdm_exact c (tP t1) (o := opts true 1) erefl isT.
rewrite E0; cbn [rbind]; rewrite (rho_slice expm1P) subrr normr0 ltr01; cbn [rbind].
eexists; split=> //.
have Hz : H = zero2 by rewrite Hf.
rewrite /electrons /= /one_rdm_stable2 /slice /both Hz /= free_slice /expm1 mxE /= mulr1n rdm_exact1 //.
by rewrite mxtrace_scalar mulr1n.
Qed.

Lemma late_green : exists t,
  one_body expm1 expo rdm_exact green_exact (fun _ _ => Ok None) (opts false 2) zero2 0 (Some c) = Ok t /\
  1%:M - (tG t).1^T != (tP t).1.
Proof.
eexists; split; first by rewrite /one_body; cbn [rbind]; reflexivity.
rewrite /= /rdm_exact /green_exact /=.
have -> : expm1 (-1 *: (0 : M)) = 1%:M by rewrite scaler0 /expm1 mxE expo0.
rewrite rho_scalar !mul1r mulmx1 -scalar_mxM rdm_scalar ?mulr_gt0 //.
rewrite -scD invmx_scalar tr_scalar_mx -scB.
have -> : 1 - (1 + E)^-1 = E / (1 + E).
  by rewrite -{1}(divff (one_plus Ep)) mulrDl mul1r addrAC subrr add0r.
apply/eqP => /matrixP/(_ 0 0); rewrite !mxE /= !mulr1n => /eqP.
by rewrite (negbTE E_square).
Qed.
End Site.
