(* Further proofs for C70: the false convergence, free electrons, orbitals read or given. *)

From Verif Require Import Base.
Set Warnings "-notation-overridden,-ambiguous-paths".
From mathcomp Require Import all_ssreflect all_fingroup all_algebra zify.
From Verif Require Import Ortho_Spec Ortho_Model Ortho_Proofs TGreen_Model TGreen_Proofs
  LowRank_Spec PivotQR_Proofs Spectral_Proofs Trial_Spec Trial_Model Trial_Proofs.

Set Implicit Arguments.
Unset Strict Implicit.
Unset Printing Implicit Defensive.

Import Order.TTheory GRing.Theory Num.Theory.
Local Open Scope ring_scope.

Section Witness2.
Variable C : numClosedFieldType.
Variable eigh : 'M[C]_2 -> 'rV[C]_2 * 'M[C]_2.
Variable argsort : 'rV[C]_2 -> 'S_2.
Hypothesis eigh_ok : eigh_right eigh.
Hypothesis argsort_ok : argsort_right argsort.
Notation low := (low eigh argsort).
Notation wT := (wT C).
Notation wopts := (wopts C).
Notation wR1 := (wR1 C).
Notation wR2 := (wR2 C).

Lemma wreal R : R \in [:: wR2; wR1] -> real_start R.
Proof.
rewrite !inE => /orP [] /eqP ->; split=> i j; rewrite !mxE rpredMn //;
  by case: ifP; rewrite ?rpred0 ?rpred1.
Qed.

Lemma wherm : hermitian wT.1. Proof. by apply: diag2_herm; rewrite ?rpred0 ?rpred1. Qed.
Lemma wU : u_ueff wopts \is Num.real. Proof. exact: rpred_nat. Qed.
Lemma wa : u_alpha wopts \is Num.real. Proof. by rewrite rpredV rpred_nat. Qed.

Lemma row2_neq : row2 1 0 <> row2 0 1 :> 'rV[C]_2.
Proof. by move/rowP/(_ 0); rewrite !mxE => /eqP; rewrite oner_eq0. Qed.

(* converged, but not self-consistent *)
Lemma false_conv : exists f nav,
  find_uhf_wfn eigh argsort wopts 1 1 wT 2%:R [:: wR1] = (2%:R, Ok (f, f_e f, nav)) /\
  ~ self_consistent wT (u_ueff wopts) (f_up f) (f_dn f).
Proof.
have hr R : R \in [:: wR1] -> real_start R.
  by rewrite inE => h; apply: wreal; rewrite !inE h orbT.
have hc := wconv1 eigh_ok argsort_ok.
have [|f [nav [-> [[R [k [hR hk hu hd he]]] _]]]] :=
  find_some eigh_ok argsort_ok (o := wopts) (nup := 1) (ndn := 1) (T := wT) isT isT wherm wherm wU wa 2%:R hr.
  by exists wR1, 1%N; rewrite inE eqxx.
exists f, nav; split=> //; move: hR hk hu hd; rewrite inE => /eqP -> hk.
have -> : k = 1%N := conv_uniq hk hc.
move=> hu hd [hg _].
have hF := wFhalf eigh_ok argsort_ok.
have su : sites (f_up f) = row2 1 0.
  by rewrite hu winp1_1 //; case: hF.
have sd : sites (f_dn f) = row2 1 0.
  by rewrite hd winp1_1 //; case: hF.
move: hg; rewrite sd wmean mulr1 mulr0 addr0 => /ground2 [_]; rewrite row2_0 row2_1 su.
by move/(_ (ltr1n _ 2)) => /row2_neq.
Qed.

(* the densities returned belong to another determinant *)
Lemma false_nav : exists f nav,
  find_uhf_wfn eigh argsort wopts 1 1 wT 2%:R [:: wR2; wR1] = (2%:R, Ok (f, f_e f, Some nav)) /\
  self_consistent wT (u_ueff wopts) (f_up f) (f_dn f) /\
  nav <> (sites (f_up f), sites (f_dn f)).
Proof.
have hc1 := wconv1 eigh_ok argsort_ok.
have hc2 := wconv2 eigh_ok argsort_ok.
have [|f [nav [-> [[R [k [hR hk hu hd he]]] [hb hn]]]]] :=
  find_some eigh_ok argsort_ok (o := wopts) (nup := 1) (ndn := 1) (T := wT) isT isT wherm wherm wU wa 2%:R wreal.
  by exists wR2, 1%N; rewrite inE eqxx.
rewrite (hn [:: wR2] wR1 1%N erefl hc1); eexists; eexists; split; first reflexivity.
have [e20 e21] := wE2 eigh_ok argsort_ok.
have [e10 e11] := wE1 eigh_ok argsort_ok.
have hF := wF10 eigh_ok argsort_ok.
have hF1 := wFhalf eigh_ok argsort_ok.
have RE : R = wR2.
  move: hR; rewrite !inE => /orP [/eqP //|/eqP h]; move: hk he; rewrite h => hk.
  have -> : k = 1%N := conv_uniq hk hc1.
  rewrite e11 => he; have := hb wR2 1%N; rewrite inE eqxx => /(_ isT hc2); rewrite he e21.
  have h4 : 4%:R^-1 < 1 :> C by rewrite invf_lt1 ?ltr0n // (ltr_nat _ 1).
  rewrite (natrD _ 1 1) ler_add2l => h5.
  by have := lt_le_trans h4 h5; rewrite ltxx.
move: hk hu hd he; rewrite RE => hk.
have -> : k = 1%N := conv_uniq hk hc2.
move=> hu hd he.
have hi := winp2_1 eigh_ok argsort_ok.
have su : sites (f_up f) = row2 0 1 by rewrite hu hi; case: hF.
have sd : sites (f_dn f) = row2 1 0 by rewrite hd hi; case: hF.
split.
- split; rewrite ?su ?sd.
  + rewrite hu hi; apply: low_ground => //; apply: mean_herm => //; first exact: wherm.
      exact: wU.
    by rewrite -sd; exact: sites_real.
  + rewrite hd hi; apply: low_ground => //; apply: mean_herm => //; first exact: wherm.
      exact: wU.
    by rewrite -su; exact: sites_real.
by rewrite winp1_1 // hF1 su => -[] /row2_neq.
Qed.
End Witness2.

(* Routines that are right exist. *)
Section Exists.
Variable C : numClosedFieldType.
Variable M : nat.

Definition eighb (H : 'M[C]_M) (r : 'rV[C]_M * 'M[C]_M) : bool :=
  [&& [forall i, r.1 0 i \is Num.real], adj r.2 *m r.2 == 1%:M & H *m r.2 == r.2 *m diag_mx r.1].

Lemma eighb_exists (H : 'M[C]_M) : adj H == H -> exists r, eighb H r.
Proof.
move=> /eqP /spectral [U hU [d dr hd]]; exists (d, U); apply/and3P; split=> /=.
- exact/forallP.
- exact/eqP.
- exact/eqP.
Qed.

Definition eigh0 (H : 'M[C]_M) : 'rV[C]_M * 'M[C]_M :=
  match @idP (adj H == H) with ReflectT h => xchoose (eighb_exists h) | ReflectF _ => (0, 0) end.

Lemma eigh0_right : eigh_right eigh0.
Proof.
move=> H hH; rewrite /eigh0; case: {-}_ / idP => [h|]; last by case; exact/eqP.
by case/and3P: (xchooseP (eighb_exists h)) => /forallP h1 /eqP h2 /eqP h3.
Qed.

Definition argsort0 (e : 'rV[C]_M) : 'S_M :=
  if [pick s : 'S_M | [forall i : 'I_M, forall j : 'I_M, (i <= j)%N ==> (e 0 (s i) <= e 0 (s j))]]
    is Some s then s else 1%g.

Lemma argsort0_right : argsort_right argsort0.
Proof.
move=> e er i j hij; rewrite /argsort0; case: pickP => [s /forallP /(_ i) /forallP /(_ j)|h].
  by rewrite hij.
have [s hs] := sort_perm er.
have := h s; case: forallP => // -[] i'; apply/forallP => j'; apply/implyP => h'; exact: hs.
Qed.
End Exists.

Section Orbitals.
Variable C : numClosedFieldType.
Variable M : nat.
Notation mat := 'M[C]_M.
Variable eigh : mat -> 'rV[C]_M * mat.
Variable argsort : 'rV[C]_M -> 'S_M.

Lemma finish_ok nup ndn (up : 'M[C]_(M, nup)) (dn : 'M[C]_(M, ndn)) :
  orthonormal up -> orthonormal dn ->
  finish up dn = Ok (MkSD up dn ((up *m adj up)^T, (dn *m adj dn)^T)).
Proof. by move=> h1 h2; rewrite /finish !gab_selfE. Qed.

(* equal columns have no inverse overlap *)
Lemma singular k (X : 'M[C]_(M, k)) (a b : 'I_k) : a != b -> (forall i, X i a = X i b) ->
  gab_self X = Err ValueError /\ gab_mod_self X = Err ValueError.
Proof.
move=> hab hX.
pose w : 'cV[C]_k := delta_mx a 0 - delta_mx b 0.
have w0 : w != 0.
  apply/eqP => /matrixP /(_ a 0); rewrite !mxE !eqxx (negPf hab) subr0 => /eqP.
  by rewrite oner_eq0.
have Xw : X *m w = 0.
  by apply/matrixP => i j; rewrite [j]ord1 mulmxBr -!colE !mxE hX subrr.
have cw : map_mx (@conjC C) X *m w = 0.
  by apply/matrixP => i j; rewrite [j]ord1 mulmxBr -!colE !mxE hX subrr.
have no (A : 'M[C]_k) : A *m w = 0 -> (A \in unitmx) = false.
  move=> h; apply/negP => hA; case/eqP: w0.
  by rewrite -[w]mul1mx -(mulVmx hA) -mulmxA h mulmx0.
rewrite /gab_self /gab_mod_self !no //; first by rewrite -mulmxA cw mulmx0.
by rewrite -mulmxA Xw mulmx0.
Qed.

Lemma fancyE p k (A : 'M[C]_(M, p)) (r : seq nat) (f : 'I_k -> 'I_p) : size r = k ->
  (forall j, f j = nth 0%N r j :> nat) -> all (fun j => (j < p)%N) r ->
  rbind (fancy A r) (assign k) = Ok (\matrix_(i, j) A i (f j)).
Proof.
move=> hk hf hr; rewrite /fancy hr; cbn [rbind]; rewrite /assign size_map hk eqxx; congr Ok.
apply/matrixP => i j; rewrite !mxE (nth_map 0%N) ?hk // -hf.
rewrite (nth_map (f j)) ?size_enum_ord // mxE; congr (A i _).
by apply/val_inj; rewrite /= nth_enum_ord.
Qed.

Lemma all_fun p k (r : seq nat) : size r = k -> all (fun j => (j < p)%N) r ->
  exists f : 'I_k -> 'I_p, forall j, f j = nth 0%N r j :> nat.
Proof.
move=> hk /all_nthP h.
have hj (j : 'I_k) : (nth 0%N r j < p)%N by apply: h; rewrite hk.
by exists (fun j => Ordinal (hj j)).
Qed.

Lemma fun_inj p k (r : seq nat) (f : 'I_k -> 'I_p) : size r = k ->
  (forall j, f j = nth 0%N r j :> nat) -> uniq r -> injective f.
Proof.
move=> hk hf hu i j /(congr1 val) /=; rewrite !hf => /eqP.
by rewrite nth_uniq ?hk // => /eqP /val_inj.
Qed.

Section Free.
Hypothesis eigh_ok : eigh_right eigh.
Hypothesis argsort_ok : argsort_right argsort.
Notation low := (low eigh argsort).

Lemma free_ok nup ndn (T : mat * mat) : (nup <= M)%N -> (ndn <= M)%N ->
  hermitian T.1 -> hermitian T.2 ->
  free_electron eigh argsort nup ndn T None =
  Ok (MkSD (low nup T.1) (low ndn T.2)
       ((low nup T.1 *m adj (low nup T.1))^T, (low ndn T.2 *m adj (low ndn T.2))^T)).
Proof.
move=> hu hd h1 h2; rewrite /free_electron.
have := low_assign eigh argsort T.1 hu; have := low_assign eigh argsort T.2 hd.
have o1 : orthonormal (low nup T.1) by apply: low_orth.
have o2 : orthonormal (low ndn T.2) by apply: low_orth.
case: (diagonalise_sorted _ _ T.2) => ed vd /= hd'.
case: (diagonalise_sorted _ _ T.1) => eu vu /= ->; rewrite hd'; cbn [rbind].
exact: finish_ok.
Qed.

Lemma sum_min (T : mat * mat) nup ndn (up : 'M[C]_(M, nup)) (dn : 'M[C]_(M, ndn)) :
  ground_orbitals T.1 up -> ground_orbitals T.2 dn ->
  forall (up' : 'M[C]_(M, nup)) (dn' : 'M[C]_(M, ndn)), orthonormal up' -> orthonormal dn' ->
  hubbard_energy T 0 up dn <= hubbard_energy T 0 up' dn'.
Proof.
case=> _ _ h1 [_ _ h2] up' dn' o1 o2; rewrite /hubbard_energy !mul0r !addr0.
by apply: ler_add; [exact: h1 | exact: h2].
Qed.

Lemma reference_ok n (T : mat * mat) (r : seq nat) : hermitian T.1 -> hermitian T.2 ->
  uniq r -> all (fun j => (j < M)%N) r -> size r = n ->
  exists t, [/\ free_electron eigh argsort n n T (Some r) = Ok t,
    orthonormal (s_up t), orthonormal (s_dn t),
    exists e : 'rV[C]_n, T.1 *m s_up t = s_up t *m diag_mx e
    & exists e : 'rV[C]_n, T.2 *m s_dn t = s_dn t *m diag_mx e].
Proof.
move=> h1 h2 hu hr hs; have [f hf] := all_fun hs hr; have fi := fun_inj hs hf hu.
have [_ _ o1 E1] := sorted_ok eigh_ok argsort_ok h1.
have [_ _ o2 E2] := sorted_ok eigh_ok argsort_ok h2.
rewrite /free_electron.
case: (diagonalise_sorted _ _ T.1) o1 E1 => eu vu /= o1 E1.
case: (diagonalise_sorted _ _ T.2) o2 E2 => ed vd /= o2 E2.
have := fancyE vu hs hf hr; case: (fancy vu r) => [cu|//]; cbn [rbind] => ->; cbn [rbind].
have := fancyE vd hs hf hr; case: (fancy vd r) => [cd|//]; cbn [rbind] => ->; cbn [rbind].
have p1 := pick_orth fi o1; have p2 := pick_orth fi o2.
rewrite -/(pick f vu) -/(pick f vd) finish_ok //; eexists; split; first reflexivity.
- exact: p1.
- exact: p2.
- by exists (\row_j eu 0 (f j)); exact: pick_eigen.
- by exists (\row_j ed 0 (f j)); exact: pick_eigen.
Qed.
End Free.

Lemma assign_single k (cols : seq 'cV[C]_M) X : assign k cols = Ok X -> size cols != k ->
  (1 < k)%N -> gab_self X = Err ValueError.
Proof.
rewrite /assign; case: eqP => // _; case: cols => [|c [|]] //= [<-] _ hk.
have [] // := @singular k (\matrix_(i, _) c i 0) (Ordinal (ltnW hk)) (Ordinal hk).
by move=> i; rewrite !mxE.
Qed.

Lemma assign_size k (cols : seq 'cV[C]_M) X : assign k cols = Ok X -> size cols = k \/ size cols = 1%N.
Proof. by rewrite /assign; case: eqP => [-> _|_]; [left | case: cols => [|c [|]] // _; right]. Qed.

Lemma fancy_size p (A : 'M[C]_(M, p)) r c : fancy A r = Ok c -> size c = size r.
Proof. by rewrite /fancy; case: ifP => // _ [<-]; rewrite size_map. Qed.

Lemma reference_open nup ndn (T : mat * mat) (r : seq nat) : nup != ndn -> (1 < maxn nup ndn)%N ->
  is_ok (free_electron eigh argsort nup ndn T (Some r)) = false.
Proof.
move=> hne hmax; rewrite /free_electron.
case: (diagonalise_sorted _ _ T.1) => eu vu; case: (diagonalise_sorted _ _ T.2) => ed vd.
case E1 : (fancy vu r) => [cu|//]; cbn [rbind]; case E2 : (assign nup cu) => [up|//]; cbn [rbind].
case E3 : (fancy vd r) => [cd|//]; cbn [rbind]; case E4 : (assign ndn cd) => [dn|//]; cbn [rbind].
have s1 := fancy_size E1; have s3 := fancy_size E3.
have a2 := assign_size E2; have a4 := assign_size E4.
rewrite s1 in a2; rewrite s3 in a4.
have z1 : size r = 1%N by case: a2 => //; case: a4 => // h4 h2; case/eqP: hne; rewrite -h4 -h2.
rewrite /finish; case: (ltnP 1 nup) => h.
  by rewrite (assign_single E2) // s1 z1 neq_ltn h.
case: (gab_self up) => [gu|//]; cbn [rbind].
have h' : (1 < ndn)%N by move: hmax; rewrite leq_max ltnNge h.
by rewrite (assign_single E4) // s3 z1 neq_ltn h'.
Qed.
End Orbitals.
