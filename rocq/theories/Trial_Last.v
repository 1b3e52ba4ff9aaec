(* Last proofs for C70: orbitals read from files, the total spin and the checkerboard. *)

From Verif Require Import Base.
Set Warnings "-notation-overridden,-ambiguous-paths".
From mathcomp Require Import all_ssreflect all_fingroup all_algebra zify.
From Verif Require Import Ortho_Spec Ortho_Model Ortho_Proofs TGreen_Model TGreen_Proofs
  LowRank_Spec PivotQR_Proofs Spectral_Proofs Trial_Spec Trial_Model Trial_Proofs Trial_More.

Set Implicit Arguments.
Unset Strict Implicit.
Unset Printing Implicit Defensive.

Import Order.TTheory GRing.Theory Num.Theory.
Local Open Scope ring_scope.

Section Ghf.
Variable C : numClosedFieldType.
Variable M : nat.

Lemma enum_split m n :
  enum 'I_(m + n) = [seq lshift n j | j <- enum 'I_m] ++ [seq rshift m j | j <- enum 'I_n].
Proof.
apply: (inj_map val_inj); rewrite val_enum_ord map_cat iotaD add0n; congr (_ ++ _).
  by rewrite -val_enum_ord; elim: (enum 'I_m) => //= j l ->.
by rewrite -[X in iota X]addn0 iotaDl -val_enum_ord; elim: (enum 'I_n) => //= j l ->.
Qed.

Variables nup ndn : nat.
Variable A : 'M[C]_(M, nup).
Variable B : 'M[C]_(M, ndn).
Variable tol : C.
Hypothesis hM : (0 < M)%N.
Hypothesis htol : 0 <= tol.
Notation tmp := (block_mx A 0 0 B).
Notation is_up := (fun j => [forall i : 'I_M, tol < `|tmp (lshift M i) j|]).

Lemma up_l j : is_up (lshift ndn j) = [forall i : 'I_M, tol < `|A i j|].
Proof. by apply: eq_forallb => i; rewrite block_mxEul. Qed.

Lemma up_r j : is_up (rshift nup j) = false.
Proof.
apply/negP => /forallP /(_ (Ordinal hM)); rewrite block_mxEur mxE normr0 => h.
by move: (lt_le_trans h htol); rewrite ltxx.
Qed.

Lemma ups_split : [seq j <- enum 'I_(nup + ndn) | is_up j]
  = [seq lshift ndn j | j <- enum 'I_nup & [forall i : 'I_M, tol < `|A i j|]].
Proof.
rewrite enum_split filter_cat (@filter_map _ _ (@lshift nup ndn)) (@filter_map _ _ (@rshift nup ndn)).
rewrite [X in _ ++ X](_ : _ = [::]) ?cats0; first by congr map; apply: eq_filter => j /=; exact: up_l.
by rewrite (eq_filter (a2 := pred0)) ?filter_pred0 // => j /=; exact: up_r.
Qed.

Lemma downs_split : [seq j <- enum 'I_(nup + ndn) | ~~ is_up j]
  = [seq lshift ndn j | j <- enum 'I_nup & ~~ [forall i : 'I_M, tol < `|A i j|]]
    ++ [seq rshift nup j | j <- enum 'I_ndn].
Proof.
rewrite enum_split filter_cat (@filter_map _ _ (@lshift nup ndn)) (@filter_map _ _ (@rshift nup ndn)); congr (_ ++ _).
  by congr map; apply: eq_filter => j /=; rewrite -up_l.
congr map; rewrite (eq_filter (a2 := predT)) ?filter_predT // => j /=.
by have := up_r j; rewrite /= => ->.
Qed.

Lemma assign_cols k (X : 'M[C]_(M, k)) (cols : seq 'cV[C]_M) :
  cols = [seq col j X | j <- enum 'I_k] -> assign k cols = Ok X.
Proof.
move=> ->; rewrite /assign size_map size_enum_ord eqxx; congr Ok.
apply/matrixP => i j; rewrite mxE (nth_map j) ?size_enum_ord // mxE; congr (X i _).
by apply/val_inj; rewrite /= nth_enum_ord.
Qed.

Lemma ghf_ok : orthonormal A -> orthonormal B -> (forall i j, tol < `|A i j|) ->
  free_electron_ghf tol tmp
  = Ok (MkSD A B ((A *m adj A)^T, (B *m adj B)^T)).
Proof.
move=> hA hB hall; rewrite /free_electron_ghf ups_split downs_split.
have t j : [forall i : 'I_M, tol < `|A i j|] by apply/forallP.
rewrite (eq_filter (a2 := predT)) ?filter_predT //.
rewrite [in X in rbind _ X](eq_filter (a2 := pred0)) ?filter_pred0; last by move=> j; rewrite t.
rewrite (assign_cols (X := A)); last by elim: (enum _) => //= j l ->; rewrite col_mxKu colKl.
cbn [rbind]; rewrite (assign_cols (X := B)); last by elim: (enum _) => //= j l ->; rewrite col_mxKd colKr.
by cbn [rbind]; apply: finish_ok.
Qed.

Lemma ghf_node i0 j0 : ~~ (tol < `|A i0 j0|) -> is_ok (free_electron_ghf tol tmp) = false.
Proof.
move=> hn; rewrite /free_electron_ghf ups_split downs_split.
set P := fun j : 'I_nup => [forall i : 'I_M, tol < `|A i j|].
have hj : ~~ P j0 by apply/negP => /forallP /(_ i0); apply/negP.
have cc : (count P (enum 'I_nup) + count (predC P) (enum 'I_nup))%N = nup.
  by rewrite count_predC size_enum_ord.
have c0 : (0 < count (predC P) (enum 'I_nup))%N.
  by rewrite -has_count; apply/hasP; exists j0; rewrite ?mem_enum.
case E1 : (assign nup _) => [up|//]; cbn [rbind].
case E2 : (assign ndn _) => [dn|//]; cbn [rbind].
have a1 := assign_size E1; have a2 := assign_size E2.
rewrite 2!size_map size_filter in a1.
rewrite size_map size_cat 2!size_map size_filter size_enum_ord in a2.
have n1 : (1 < nup)%N by case: a1 a2; lia.
rewrite /finish (assign_single E1) //.
by rewrite 2!size_map size_filter; apply/eqP; lia.
Qed.
End Ghf.

Section HF.
Variable C : numClosedFieldType.
Variable M : nat.
Notation mat := 'M[C]_M.

Lemma gab_mod_selfE k (X : 'M[C]_(M, k)) : orthonormal X -> gab_mod_self X = Ok (X *m adj X)^T.
Proof.
rewrite /orthonormal /gab_mod_self => h.
have -> : X^T *m map_mx (@conjC C) X = 1%:M.
  by rewrite -[LHS]trmxK trmx_mul trmxK -/(adj X) h trmx1.
by rewrite unitmx1 /gab_mod /= -/(adj X) trmx_mul; congr Ok; rewrite /adj trmxK
  (_ : X^T *m _ = 1%:M) ?invmx1 ?mul1mx //; rewrite -[LHS]trmxK trmx_mul trmxK -/(adj X) h trmx1.
Qed.

Definition firsts k (hk : (k <= M)%N) (A : mat) : 'M[C]_(M, k) := pick (widen_ord hk) A.

Lemma widen_inj k (hk : (k <= M)%N) : injective (widen_ord hk).
Proof. by move=> i j /(congr1 val) /= /val_inj. Qed.

Lemma firsts_orth k (hk : (k <= M)%N) A : orthonormal A -> orthonormal (firsts hk A).
Proof. by apply: pick_orth; exact: widen_inj. Qed.

Lemma iota_all k : (k <= M)%N -> all (fun j => (j < M)%N) (iota 0 k).
Proof. by move=> hk; apply/allP => j; rewrite mem_iota => /andP [_ h]; apply: leq_trans h _. Qed.

Lemma fancy_firsts k (hk : (k <= M)%N) (A : mat) :
  rbind (fancy A (iota 0 k)) (assign k) = Ok (firsts hk A).
Proof.
rewrite (fancyE A (f := widen_ord hk)) ?size_iota ?iota_all // => j.
by rewrite nth_iota.
Qed.

Variables nup ndn : nat.
Hypothesis hu : (nup <= M)%N.
Hypothesis hd : (ndn <= M)%N.

Lemma rhf_step (A : mat) T (g : 'M[C]_(M, nup) -> 'M[C]_(M, ndn) -> res T) B :
  rbind (fancy A (iota 0 nup)) (fun cu => rbind (assign nup cu) (fun up =>
    rbind (fancy B (iota 0 ndn)) (fun cd => rbind (assign ndn cd) (fun dn => g up dn))))
  = g (firsts hu A) (firsts hd B).
Proof.
have := fancy_firsts hu A; case: (fancy A _) => [cu|//]; cbn [rbind] => ->; cbn [rbind].
by have := fancy_firsts hd B; case: (fancy B _) => [cd|//]; cbn [rbind] => ->.
Qed.

Definition hf_end (p : 'M[C]_(M, nup) * 'M[C]_(M, ndn)) : res (sd C M nup ndn) :=
  rbind (gab_mod_self p.1) (fun gu =>
  rbind (if (0 < ndn)%N then gab_mod_self p.2 else Ok 0) (fun gd =>
  Ok (MkSD p.1 p.2 (gu, gd)))).

Lemma hf_end_ok up dn : orthonormal up -> orthonormal dn ->
  hf_end (up, dn) = Ok (MkSD up dn ((up *m adj up)^T, (dn *m adj dn)^T)).
Proof.
move=> h1 h2; rewrite /hf_end /= gab_mod_selfE //; cbn [rbind].
case: (posnP ndn) => [h0|_]; last by rewrite gab_mod_selfE.
cbn [rbind]; congr (Ok (MkSD _ _ (_, _))).
by rewrite (_ : dn *m adj dn = 0) ?trmx0 //; apply/matrixP => i j; rewrite !mxE big1 // => k _; have := ltn_ord k; rewrite [X in (_ < X)%N]h0.
Qed.

Lemma hf_none (orbs : orbitals C M) :
  let A := match orbs with RHF A => A | UHF A _ => A end in
  let B := match orbs with RHF A => A | UHF _ B => B end in
  orthonormal A -> orthonormal B ->
  hartree_fock nup ndn orbs None =
  Ok (MkSD (firsts hu A) (firsts hd B) ((firsts hu A *m adj (firsts hu A))^T,
                                         (firsts hd B *m adj (firsts hd B))^T)).
Proof.
by case: orbs => [A|A B] /= h1 h2; rewrite /hartree_fock (@rhf_step _ _ (fun up dn => Ok (up, dn))); cbn [rbind]; apply: hf_end_ok; exact: firsts_orth.
Qed.

Lemma uhf_excite (A B : mat) i a : is_ok (hartree_fock nup ndn (UHF A B) (Some (i, a))) = false.
Proof. rewrite /hartree_fock (@rhf_step A _ (fun _ _ => if (a < M)%N then Err (if (i < nup + ndn)%N then ValueError else IndexError) else Err IndexError)); by case: ifP. Qed.

Lemma fancy1 (A : mat) (a : 'I_M) : fancy A [:: (a : nat)] = Ok [:: col a A].
Proof.
rewrite /fancy /= ltn_ord /=; congr (Ok [:: _]).
rewrite (nth_map a) ?size_enum_ord //; congr col; apply/val_inj; by rewrite /= nth_enum_ord.
Qed.

(* one occupied orbital replaced *)
Definition swap k (hk : (k <= M)%N) (i : 'I_k) (a : 'I_M) (j : 'I_k) : 'I_M :=
  if j == i then a else widen_ord hk j.
Definition excited k (hk : (k <= M)%N) (A : mat) (i : 'I_k) (a : 'I_M) : 'M[C]_(M, k) :=
  pick (swap hk i a) A.

Lemma swap_inj k (hk : (k <= M)%N) (i : 'I_k) (a : 'I_M) : (k <= a)%N || (a == i :> nat) ->
  injective (swap hk i a).
Proof.
move=> h j j'; rewrite /swap; case: (j =P i) => [->|n1]; case: (j' =P i) => [->|n2] // /(congr1 val) /= E.
- case/orP: h => [h|/eqP h]; first by move: (ltn_ord j'); rewrite -E ltnNge h.
  by apply/val_inj; rewrite /= -E.
- case/orP: h => [h|/eqP h]; first by move: (ltn_ord j); rewrite E ltnNge h.
  by apply/val_inj; rewrite /= E.
- exact: val_inj.
Qed.

Lemma excited_sing k (hk : (k <= M)%N) (A : mat) (i : 'I_k) (a : 'I_M) : (a < k)%N -> a != i :> nat ->
  gab_mod_self (excited hk A i a) = Err ValueError.
Proof.
move=> h hn; have [] // := @singular C M k (excited hk A i a) (Ordinal h) i.
  move=> r; rewrite !mxE /swap eqxx; case: eqP => // _; congr (A r _).
  exact/val_inj.
Qed.

Lemma excite_up (A : mat) (i : 'I_nup) (a : 'I_M) :
  hartree_fock nup ndn (RHF A) (Some (i : nat, a : nat)) = hf_end (excited hu A i a, firsts hd A).
Proof.
rewrite /hartree_fock (@rhf_step A _ (fun up dn => rbind (fancy A [:: a : nat]) (fun c => set_col up dn _ (nth 0 c 0)))) fancy1; cbn [rbind]; rewrite /set_col ltn_ord; cbn [rbind].
rewrite -/(hf_end _); congr (hf_end (_, _)).
by apply/matrixP => r j; rewrite !mxE /swap -val_eqE; case: ifP => //= _; rewrite !mxE.
Qed.

Lemma excite_dn (A : mat) (i : 'I_ndn) (a : 'I_M) :
  hartree_fock nup ndn (RHF A) (Some (nup + i, a : nat)%N) = hf_end (firsts hu A, excited hd A i a).
Proof.
rewrite /hartree_fock (@rhf_step A _ (fun up dn => rbind (fancy A [:: a : nat]) (fun c => set_col up dn _ (nth 0 c 0)))) fancy1; cbn [rbind].
rewrite /set_col ltnNge leq_addr /= ltn_add2l ltn_ord; cbn [rbind].
rewrite -/(hf_end _); congr (hf_end (_, _)).
by apply/matrixP => r j; rewrite !mxE /swap eqn_add2l -val_eqE; case: ifP => //= _; rewrite !mxE.
Qed.

Lemma excite_up_ok (A : mat) (i : 'I_nup) (a : 'I_M) : orthonormal A -> (nup <= a)%N || (a == i :> nat) ->
  exists t, [/\ hartree_fock nup ndn (RHF A) (Some (i : nat, a : nat)) = Ok t,
    s_up t = excited hu A i a, s_dn t = firsts hd A & orthonormal (s_up t)].
Proof.
move=> hA h; have o : orthonormal (excited hu A i a) by apply: pick_orth hA; exact: swap_inj.
by rewrite excite_up hf_end_ok //; [eexists; split | exact: firsts_orth].
Qed.

Lemma excite_up_bad (A : mat) (i : 'I_nup) (a : 'I_M) : (a < nup)%N -> a != i :> nat ->
  hartree_fock nup ndn (RHF A) (Some (i : nat, a : nat)) = Err ValueError.
Proof. by move=> h1 h2; rewrite excite_up /hf_end /= excited_sing. Qed.

Lemma excite_dn_ok (A : mat) (i : 'I_ndn) (a : 'I_M) : orthonormal A -> (ndn <= a)%N || (a == i :> nat) ->
  exists t, [/\ hartree_fock nup ndn (RHF A) (Some (nup + i, a : nat)%N) = Ok t,
    s_up t = firsts hu A, s_dn t = excited hd A i a & orthonormal (s_dn t)].
Proof.
move=> hA h; have o : orthonormal (excited hd A i a) by apply: pick_orth hA; exact: swap_inj.
by rewrite excite_dn hf_end_ok //; [eexists; split | exact: firsts_orth].
Qed.
End HF.

Section Spin.
Variable C : numClosedFieldType.
Variables M nup ndn : nat.

Lemma trace_ovlp (up : 'M[C]_(M, nup)) (dn : 'M[C]_(M, ndn)) :
  \tr ((up *m adj up) *m (dn *m adj dn)) = \sum_i \sum_j `|(adj up *m dn) i j| ^+ 2.
Proof.
rewrite -!mulmxA mxtrace_mulC -!mulmxA.
rewrite /mxtrace; apply: eq_bigr => i _; rewrite mulmxA mxE; apply: eq_bigr => j _.
rewrite normCK; congr (_ * _).
rewrite !mxE rmorph_sum; apply: eq_bigr => k _ /=; by rewrite !mxE rmorphM conjCK mulrC.
Qed.

Lemma spin_head (p q : nat) : `|p%:R - q%:R| / 2%:R * (`|p%:R - q%:R| / 2%:R + 1) + (minn p q)%:R
  = ((p%:R - q%:R) / 2%:R) ^+ 2 + (p%:R + q%:R) / 2%:R :> C.
Proof.
have two : 2%:R != 0 :> C by rewrite pnatr_eq0.
wlog h : p q / (q <= p)%N.
  move=> W; case/orP: (leq_total q p) => [|h]; first exact: W.
  rewrite distrC minnC (W _ _ h) [X in _ + X / _]addrC; congr (_ + _).
  by rewrite !expr_div_n -[in RHS]opprB sqrrN.
rewrite (minn_idPr h) -natrB // normr_nat natrB //.
rewrite mulrDr mulr1 -expr2 -addrA; congr (_ + _).
apply: (mulIf two); rewrite [LHS]mulrDl !divfK //.
by rewrite mulr_natr mulr2n addrA subrK.
Qed.

Lemma spin_right (up : 'M[C]_(M, nup)) (dn : 'M[C]_(M, ndn)) :
  (forall i j, up i j \is Num.real) -> spin_square up dn = total_spin up dn.
Proof.
move=> hr; rewrite /spin_square /total_spin spin_head; congr (_ - _).
rewrite trace_ovlp; apply: eq_bigr => i _; apply: eq_bigr => j _; rewrite normrM -expr2.
congr (`| _ | ^+ 2); rewrite !mxE; apply: eq_bigr => k _.
by rewrite !mxE (CrealP (hr _ _)).
Qed.
End Spin.

Section SpinBad.
Variable C : numClosedFieldType.
Definition spiral : 'M[C]_(2, 1) := \matrix_(i, j) ((if i == 0 then 1 else 'i) / sqrtC 2%:R).

Lemma s2 : sqrtC 2%:R * sqrtC 2%:R = 2%:R :> C. Proof. by rewrite -expr2 sqrtCK. Qed.
Lemma s2n0 : sqrtC 2%:R != 0 :> C. Proof. by rewrite sqrtC_eq0 pnatr_eq0. Qed.
Lemma s2c : (sqrtC 2%:R)^* = sqrtC 2%:R :> C.
Proof. by apply/CrealP; rewrite ger0_real // sqrtC_ge0 ler0n. Qed.

Lemma spiral_orth : orthonormal spiral.
Proof.
apply/matrixP => i j; rewrite !ord1 !mxE !big_ord_recl big_ord0 addr0 !mxE /=.
rewrite !mul1r !rmorphM !fmorphV s2c conjCi mulrACA -expr2 -[X in X + _]mulr1.
have -> : - 'i * 'i = 1 :> C by rewrite mulNr -expr2 sqrCi opprK.
by rewrite mul1r mulr1 -mulr2n -mulr_natr exprVn sqrtCK mulVf ?pnatr_eq0.
Qed.

Lemma spiral_wrong : spin_square spiral spiral = 1 /\ total_spin spiral spiral = 0.
Proof.
rewrite /spin_square /total_spin subrr normr0 !mul0r expr0n /= !add0r; split.
  rewrite !big_ord_recl !big_ord0 !addr0 [X in `|X * _|](_ : _ = 0) ?mul0r ?normr0 ?subr0 //.
  rewrite !mxE !big_ord_recl big_ord0 addr0 !mxE /= mul1r mulrACA.
  by rewrite -['i * 'i]expr2 sqrCi mulN1r subrr.
have -> : (1 + 1) / 2%:R = 1 :> C by rewrite -[1 + 1]mulr2n divff ?pnatr_eq0.
have o := spiral_orth; rewrite /orthonormal in o.
by rewrite -mulmxA mxtrace_mulC -!mulmxA o mulmx1 o mxtrace1 subrr.
Qed.
End SpinBad.

Section Board.
Variable C : numClosedFieldType.
Notation ev := (even_site 4).
Notation od := (predC (even_site 4)).

Lemma ev_code i : ((i %% 4) %% 2 == (i %/ 4) %% 2)%N = ev i.
Proof. rewrite /even_site; lia. Qed.

Lemma count_iota (P : pred nat) s k : count P (iota s k.+1) = (P s + count P (iota s.+1 k))%N.
Proof. by []. Qed.

Lemma writes_ok nup ndn k : forall s na nb,
  (na + count ev (iota s k) <= nup)%N -> (nb + count od (iota s k) <= ndn)%N ->
  exists2 w, checkerboard_writes nup ndn (iota s k) na nb = Ok w &
    forall i, (i < k)%N -> nth (0%N, true) w i =
      if ev (s + i) then ((na + count ev (iota s i))%N, true)
      else ((nup + (nb + count od (iota s i)))%N, false).
Proof.
elim: k => [|k IH] s na nb hu hd; first by exists [::].
rewrite /= ev_code.
rewrite [iota _ _]/= [count _ _]/= in hu; rewrite [iota _ _]/= [count _ _]/= in hd.
case E : (ev s); rewrite E /= in hu hd.
  have [||w Ew hw] := IH s.+1 na.+1 nb; [lia | lia |].
  have -> : (na < nup + ndn)%N by lia.
  rewrite Ew; cbn [rbind]; eexists; first reflexivity.
  case=> [|i] hi /=; first by rewrite addn0 E addn0.
  rewrite hw // addSnnS; case: ifP => _; rewrite E /=; congr (_, _); lia.
have [||w Ew hw] := IH s.+1 na nb.+1; [lia | lia |].
have -> : (nup + nb < nup + ndn)%N by lia.
rewrite Ew; cbn [rbind]; eexists; first reflexivity.
case=> [|i] hi /=; first by rewrite addn0 E addn0.
rewrite hw // addSnnS; case: ifP => _; rewrite E /=; congr (_, _); lia.
Qed.

Lemma writes_err nup ndn k : forall s na nb,
  (nb <= ndn)%N -> (ndn < nb + count od (iota s k))%N ->
  checkerboard_writes nup ndn (iota s k) na nb = Err IndexError.
Proof.
elim: k => [|k IH] s na nb hb hd; first by move: hd => /=; lia.
rewrite /= ev_code; rewrite [iota _ _]/= [count _ _]/= in hd.
case E : (ev s); rewrite E /= in hd.
  by case: ifP => // _; rewrite IH //; lia.
by case: ifP => // h; rewrite IH //; lia.
Qed.

Lemma rank_exists (P : pred nat) n j : (j < count P (iota 0 n))%N ->
  exists i, [/\ (i < n)%N, P i & count P (iota 0 i) = j].
Proof.
elim: n => [|n IH] //; rewrite -[n.+1]addn1 iotaD count_cat /= addn0 add0n => h.
case: (ltnP j (count P (iota 0 n))) => h'.
  by have [i [h1 h2 h3]] := IH h'; exists i; split=> //; lia.
case E : (P n) h => h; last lia.
by exists n; split=> //; lia.
Qed.

Lemma rank_lt (P : pred nat) i j : (i < j)%N -> P i -> (count P (iota 0 i) < count P (iota 0 j))%N.
Proof.
move=> h hP; have -> : j = (i + (j - i))%N by lia.
rewrite iotaD count_cat; have -> : (j - i = (j - i).-1.+1)%N by lia.
by rewrite /= hP; lia.
Qed.

Lemma rank_inj (P : pred nat) i j : P i -> P j -> count P (iota 0 i) = count P (iota 0 j) -> i = j.
Proof.
move=> hi hj E; case: (ltngtP i j) => // h.
  by have := rank_lt h hi; rewrite E ltnn.
by have := rank_lt h hj; rewrite E ltnn.
Qed.

Lemma rank_bound (P : pred nat) i n : (i < n)%N -> P i -> (count P (iota 0 i) < count P (iota 0 n))%N.
Proof. exact: rank_lt. Qed.

(* one column for each site of a kind *)
Lemma ranked_orth M (P : pred nat) (c : C) k (X : 'M[C]_(M, k)) : c * c^* = 1 ->
  k = count P (iota 0 M) ->
  (forall i j, X i j = if P i && (count P (iota 0 i) == j) then c else 0) ->
  orthonormal X /\ forall i, sites X 0 i = (P i)%:R.
Proof.
move=> hc hk hX; split.
  apply/matrixP => j j'; rewrite !mxE.
  have [|i0 [h1 h2 h3]] := @rank_exists P M j; first by rewrite -hk.
  rewrite (bigD1 (Ordinal h1)) //= big1 => [|i hi].
    rewrite !mxE !hX /= h2 h3 eqxx /= addr0 -val_eqE.
    by case: eqP => _; rewrite ?mulr0 // mulrC hc.
  rewrite !mxE [X i j]hX; case: ifP => [/andP [p1 /eqP p2]|_]; last by rewrite conjC0 mul0r.
  case/eqP: hi; apply/val_inj => /=; apply: (rank_inj p1 h2); by rewrite p2.
move=> i; rewrite mxE; case E : (P i); last first.
  by rewrite big1 // => j _; rewrite hX E normr0 expr0n.
have h : (count P (iota 0 i) < k)%N by rewrite hk; apply: rank_bound.
rewrite (bigD1 (Ordinal h)) //= big1 => [|j hj].
  by rewrite hX E eqxx /= addr0 normCK.
rewrite hX E /=; case: eqP => [e|_]; last by rewrite normr0 expr0n.
by case/eqP: hj; apply/val_inj.
Qed.

Lemma board_ok M nup ndn : nup = count ev (iota 0 M) -> ndn = count od (iota 0 M) ->
  exists up dn, [/\ @checkerboard C M nup ndn = Ok (up, dn), orthonormal up, orthonormal dn,
    forall i, sites up 0 i = (ev i)%:R & forall i, sites dn 0 i = (~~ ev i)%:R].
Proof.
move=> hu hd; rewrite /checkerboard.
have [||w -> hw] := @writes_ok nup ndn M 0 0 0; [by rewrite hu | by rewrite hd |]; cbn [rbind].
set X := \matrix_(i, j) _; set Y := \matrix_(i, j) _.
have [|||o1 s1] := @ranked_orth M ev 1 nup X; rewrite ?conjC1 ?mulr1 //.
  move=> i j; rewrite mxE hw // add0n; case E : (ev i) => //=.
  case: eqP => // e; have := ltn_ord j; lia.
have [|||o2 s2] := @ranked_orth M od (-1) ndn Y; rewrite ?rmorphN1 ?mulrNN ?mulr1 //.
  move=> i j; rewrite mxE hw // add0n /=; case E : (ev i) => /=; last by rewrite eqn_add2l.
  have := rank_bound (ltn_ord i) E; rewrite -hu => h.
  by case: eqP => // e; lia.
by exists X, Y; split.
Qed.

Lemma board_err M nup ndn : (ndn < count od (iota 0 M))%N -> @checkerboard C M nup ndn = Err IndexError.
Proof. by move=> h; rewrite /checkerboard writes_err. Qed.

Lemma adjacent_parity nx i j : (0 < nx)%N -> adjacent nx i j -> even_site nx i = ~~ even_site nx j.
Proof.
rewrite /adjacent /even_site => _ /orP [] /andP [/eqP -> /eqP <-];
  by rewrite ?addnS ?addSn /= ?negbK.
Qed.

(* a lattice of two columns *)
Lemma board_two : exists up dn, [/\ @checkerboard C 4 2 2 = Ok (up, dn), adjacent 2 0 2,
  sites up 0 0 = 1 & sites up 0 (inord 2) = 1].
Proof.
have [up [dn [E _ _ h _]]] := @board_ok 4 2 2 erefl erefl.
exists up, dn; split=> //; first by rewrite h.
by rewrite h inordK.
Qed.
End Board.

(* In the words of the theorems. *)
Section Final.
Variable C : numClosedFieldType.
Variable M : nat.
Notation mat := 'M[C]_M.
Variable eigh : mat -> 'rV[C]_M * mat.
Variable argsort : 'rV[C]_M -> 'S_M.
Hypothesis eigh_ok : eigh_right eigh.
Hypothesis argsort_ok : argsort_right argsort.
Notation low := (low eigh argsort).

Lemma free_right nup ndn (T : mat * mat) : (nup <= M)%N -> (ndn <= M)%N ->
  hermitian T.1 -> hermitian T.2 ->
  exists t, [/\ free_electron eigh argsort nup ndn T None = Ok t,
    ground_orbitals T.1 (s_up t), ground_orbitals T.2 (s_dn t),
    s_G t = ((s_up t *m adj (s_up t))^T, (s_dn t *m adj (s_dn t))^T)
    & forall (up : 'M[C]_(M, nup)) (dn : 'M[C]_(M, ndn)), orthonormal up -> orthonormal dn ->
      hubbard_energy T 0 (s_up t) (s_dn t) <= hubbard_energy T 0 up dn].
Proof.
move=> hu hd h1 h2; rewrite free_ok //; eexists; split; first reflexivity.
- exact: low_ground.
- exact: low_ground.
- by [].
- by move=> up dn; apply: sum_min; exact: low_ground.
Qed.

Lemma ghf_iff nup ndn (A : 'M[C]_(M, nup)) (B : 'M[C]_(M, ndn)) (tol : C) :
  (0 < M)%N -> 0 <= tol -> orthonormal A -> orthonormal B ->
  (forall i j, tol < `|A i j|) <->
  free_electron_ghf tol (block_mx A 0 0 B) = Ok (MkSD A B ((A *m adj A)^T, (B *m adj B)^T)).
Proof.
move=> hM ht hA hB; split=> [h|h i j]; first exact: ghf_ok.
case E : (tol < `|A i j|) => //.
by have := @ghf_node C M nup ndn A B tol hM ht i j (negbT E); rewrite h.
Qed.

Lemma ghf_zero nup ndn (A : 'M[C]_(M, nup)) (B : 'M[C]_(M, ndn)) (tol : C) i j :
  (0 < M)%N -> 0 <= tol -> A i j = 0 ->
  is_ok (free_electron_ghf tol (block_mx A 0 0 B)) = false.
Proof.
move=> hM ht h; apply: (@ghf_node C M nup ndn A B tol hM ht i j).
by rewrite h normr0; apply/negP => h'; move: (lt_le_trans h' ht); rewrite ltxx.
Qed.

Lemma hf_uhf nup ndn (hu : (nup <= M)%N) (hd : (ndn <= M)%N) (A B : mat) :
  orthonormal A -> orthonormal B ->
  exists t, [/\ hartree_fock nup ndn (UHF A B) None = Ok t,
    orthonormal (s_up t) /\ orthonormal (s_dn t),
    forall i j, s_up t i j = A i (widen_ord hu j),
    forall i j, s_dn t i j = B i (widen_ord hd j)
    & s_G t = ((s_up t *m adj (s_up t))^T, (s_dn t *m adj (s_dn t))^T)].
Proof.
move=> hA hB; rewrite (hf_none hu hd (orbs := UHF A B)) //; eexists; split; first reflexivity.
- by split; exact: firsts_orth.
- by move=> i j; rewrite mxE.
- by move=> i j; rewrite mxE.
- by [].
Qed.

Lemma hf_rhf nup ndn (A : mat) : (nup <= M)%N -> (ndn <= M)%N -> orthonormal A ->
  hartree_fock nup ndn (RHF A) None = hartree_fock nup ndn (UHF A A) None.
Proof.
by move=> hu hd h; rewrite (hf_none hu hd (orbs := UHF A A)) // (hf_none hu hd (orbs := RHF A)).
Qed.

Lemma excitedE k (hk : (k <= M)%N) (A : mat) (i : 'I_k) (a : 'I_M) :
  (forall r, excited hk A i a r i = A r a) /\
  (forall r j, j != i -> excited hk A i a r j = A r (widen_ord hk j)).
Proof.
split=> [r|r j h]; first by rewrite mxE /swap eqxx.
by rewrite mxE /swap (negPf h).
Qed.

Lemma excite_right nup ndn (hu : (nup <= M)%N) (hd : (ndn <= M)%N) (A : mat) (i : 'I_nup) (a : 'I_M) :
  orthonormal A ->
  ((nup <= a)%N || (a == i :> nat) ->
   exists t, [/\ hartree_fock nup ndn (RHF A) (Some (i : nat, a : nat)) = Ok t, orthonormal (s_up t),
     forall r, s_up t r i = A r a,
     forall r j, j != i -> s_up t r j = A r (widen_ord hu j)
     & forall r j, s_dn t r j = A r (widen_ord hd j)]) /\
  ((a < nup)%N && (a != i :> nat) ->
   hartree_fock nup ndn (RHF A) (Some (i : nat, a : nat)) = Err ValueError).
Proof.
move=> hA; split=> [h|/andP [h1 h2]]; last exact: excite_up_bad.
have [t [E e1 e2 o]] := excite_up_ok hu hd hA h.
have [x1 x2] := excitedE hu A i a.
exists t; split=> //; rewrite ?e1 ?e2 //.
by move=> r j; rewrite mxE.
Qed.

Lemma excite_down_right nup ndn (hu : (nup <= M)%N) (hd : (ndn <= M)%N) (A : mat) (i : 'I_ndn) (a : 'I_M) :
  orthonormal A -> (ndn <= a)%N || (a == i :> nat) ->
  exists t, [/\ hartree_fock nup ndn (RHF A) (Some (nup + i, a : nat)%N) = Ok t, orthonormal (s_dn t),
    forall r, s_dn t r i = A r a,
    forall r j, j != i -> s_dn t r j = A r (widen_ord hd j)
    & forall r j, s_up t r j = A r (widen_ord hu j)].
Proof.
move=> hA h; have [t [E e1 e2 o]] := excite_dn_ok hu hd hA h.
have [x1 x2] := excitedE hd A i a.
exists t; split=> //; rewrite ?e1 ?e2 //.
by move=> r j; rewrite mxE.
Qed.

Lemma uhf_right : exists low : forall k, mat -> 'M[C]_(M, k),
  (forall k H, (k <= M)%N -> hermitian H -> ground_orbitals H (low k H)) /\
  forall (o : uhf_opts C) nup ndn (T : mat * mat),
  (nup <= M)%N -> (ndn <= M)%N -> hermitian T.1 -> hermitian T.2 ->
  u_ueff o \is Num.real -> u_alpha o \is Num.real ->
  forall (U : C) (starts : seq (mat * mat)),
  (forall R, R \in starts -> (forall i j, R.1 i j \is Num.real) /\ (forall i j, R.2 i j \is Num.real)) ->
  let conv := uhf_converges low nup ndn T (u_ueff o) (u_alpha o) (u_deps o) (u_nconv o) in
  let inp := uhf_input low nup ndn T (u_ueff o) (u_alpha o) in
  let up := uhf_up low nup T (u_ueff o) in
  let dn := uhf_dn low ndn T (u_ueff o) in
  let outs R k := outputs (uhf_out low nup ndn T (u_ueff o)) (u_alpha o) (uhf_start low nup ndn R) k in
  ((forall R k, R \in starts -> ~ conv R k) ->
   find_uhf_wfn eigh argsort o nup ndn T U starts = (U, Err (if u_verbose o then ValueError else NameError))) /\
  ((exists R k, R \in starts /\ conv R k) ->
   exists f nav R k,
   [/\ find_uhf_wfn eigh argsort o nup ndn T U starts = (U, Ok (f, f_e f, nav)),
       R \in starts /\ conv R k,
       f_up f = up (inp R k) /\ f_dn f = dn (inp R k),
       f_e f = hubbard_energy T (u_ueff o) (f_up f) (f_dn f)
     & (forall R' k', R' \in starts -> conv R' k' ->
          f_e f <= hubbard_energy T (u_ueff o) (up (inp R' k')) (dn (inp R' k')) + u_deps o) /\
       let h := outs R k in
       dist (sites (f_up f)) (inp R k).1 < sqrtC (u_deps o) + `|u_alpha o| * dist h.1.1 h.2.1 /\
       dist (sites (f_dn f)) (inp R k).2 < sqrtC (u_deps o) + `|u_alpha o| * dist h.1.2 h.2.2]).
Proof.
exists low; split; first by move=> k H; exact: low_ground.
move=> o nup ndn T hu hd h1 h2 hU ha U starts hr conv inp up dn outs; split.
  by move=> h; apply: (find_none eigh_ok argsort_ok hu hd h1 h2 hU ha).
move=> h.
have [f [nav [E [[R [k [m1 m2 m3 m4 m5]]] [hb _]]]]] :=
  find_some eigh_ok argsort_ok hu hd h1 h2 hU ha U hr h.
exists f, nav, R, k; split=> //.
- by rewrite m5 m3 m4.
- split; first exact: hb.
  by case: m2 => _ hs _; have := residual hs; rewrite m3 m4.
Qed.

Lemma fixed_right (lo : forall k, mat -> 'M[C]_(M, k)) nup ndn (T : mat * mat) (U : C)
    (n : 'rV[C]_M * 'rV[C]_M) :
  (forall k H, (k <= M)%N -> hermitian H -> ground_orbitals H (lo k H)) ->
  (nup <= M)%N -> (ndn <= M)%N -> hermitian T.1 -> hermitian T.2 -> U \is Num.real ->
  uhf_out lo nup ndn T U n = n ->
  self_consistent T U (uhf_up lo nup T U n) (uhf_dn lo ndn T U n).
Proof.
move=> hg hu hd h1 h2 hU hn.
have e1 : sites (uhf_up lo nup T U n) = n.1 by rewrite -[in RHS]hn.
have e2 : sites (uhf_dn lo ndn T U n) = n.2 by rewrite -[in RHS]hn.
split.
  by rewrite e2; apply: hg => //; apply: mean_herm => //; rewrite -e2; exact: sites_real.
by rewrite e1; apply: hg => //; apply: mean_herm => //; rewrite -e1; exact: sites_real.
Qed.
End Final.

Lemma false_conv_ex (C : numClosedFieldType) (eigh : 'M[C]_2 -> 'rV[C]_2 * 'M[C]_2)
    (argsort : 'rV[C]_2 -> 'S_2) : eigh_right eigh -> argsort_right argsort ->
  exists o T U R f nav,
  [/\ hermitian T.1, hermitian T.2, 0 < u_deps o,
      find_uhf_wfn eigh argsort o 1 1 T U [:: R] = (U, Ok (f, f_e f, nav))
    & ~ self_consistent T (u_ueff o) (f_up f) (f_dn f)].
Proof.
move=> h1 h2; have [f [nav [E hn]]] := false_conv h1 h2.
by exists (wopts C), (wT C), 2%:R, (wR1 C), f, nav; split=> //; [exact: wherm | exact: wherm | exact: deps_pos].
Qed.

Lemma false_nav_ex (C : numClosedFieldType) (eigh : 'M[C]_2 -> 'rV[C]_2 * 'M[C]_2)
    (argsort : 'rV[C]_2 -> 'S_2) : eigh_right eigh -> argsort_right argsort ->
  exists o T U starts f nav,
  [/\ find_uhf_wfn eigh argsort o 1 1 T U starts = (U, Ok (f, f_e f, Some nav)),
      self_consistent T (u_ueff o) (f_up f) (f_dn f)
    & nav <> (sites (f_up f), sites (f_dn f))].
Proof.
move=> h1 h2; have [f [nav [E [hs hn]]]] := false_nav h1 h2.
by exists (wopts C), (wT C), 2%:R, [:: wR2 C; wR1 C], f, nav.
Qed.

Lemma board_right (C : numClosedFieldType) M nup ndn :
  nup = count (even_site 4) (iota 0 M) -> ndn = count (predC (even_site 4)) (iota 0 M) ->
  exists up dn, [/\ @checkerboard C M nup ndn = Ok (up, dn), orthonormal up, orthonormal dn,
    forall i, sites up 0 i + sites dn 0 i = 1
    & forall i j : 'I_M, adjacent 4 i j -> sites up 0 i = sites dn 0 j /\ sites dn 0 i = sites up 0 j].
Proof.
move=> hu hd; have [up [dn [E o1 o2 s1 s2]]] := @board_ok C M nup ndn hu hd.
exists up, dn; split=> //.
  by move=> i; rewrite s1 s2; case: (even_site 4 i); rewrite ?addr0 ?add0r.
move=> i j h; rewrite !s1 !s2 (adjacent_parity _ h) //.
by rewrite negbK.
Qed.
