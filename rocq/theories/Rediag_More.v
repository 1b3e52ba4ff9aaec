(* Lemmas for C75: the two branches of recompute_ci_coeffs. *)

From Verif Require Import Base.
Set Warnings "-notation-overridden,-ambiguous-paths".
From mathcomp Require Import all_ssreflect all_fingroup all_algebra.
From Verif Require Import Rank1_Spec Ortho_Spec Ortho_Model Ortho_Proofs MultiDet_Spec MultiDet_Model
  MultiDet_Proofs BackProp_Proofs PivotQR_Proofs TGreen_Proofs Fock_Spec Fock_Proofs CI_Model CI_Proofs
  Rediag_Model Rediag_Spec Rediag_Proofs.

Set Implicit Arguments.
Unset Strict Implicit.
Unset Printing Implicit Defensive.

Import Order.TTheory GRing.Theory Num.Theory.
Local Open Scope ring_scope.

Section Ortho75.
Variable C : numClosedFieldType.
Variables (m : nat) (s : system C).
Local Notation N := m.+1.
Local Notation n := (nbasis s).
Let half : C := 2%:R^-1.
Let op : state C (n + n) -> state C (n + n) :=
  hamiltonian half (ecore s) (h_so (n:=n) (H1 s)) (v_so (n:=n) (hijkl s)).
Hypothesis v_sym : forall i j k l, hijkl s i j k l = hijkl s j i l k.
Variables (nup : nat) (A : 'I_N -> {set 'I_(n + n)}).
Hypothesis hA : same_electrons (nelec s) nup A.
Let Hf (i j : 'I_N) : C := op (ket C (A j)) (A i).

Lemma half2 : half + half = 1.
Proof. by rewrite -mulr2n -[half *+ 2]mulr_natl mulfV // pnatr_eq0. Qed.

Lemma hmatelE i j : exists y z, get_hmatel s (occ (A i)) (occ (A j)) = Ok (Hf j i, y, z).
Proof.
have [_ h] := hA; have [ci ui] := h i; have [cj' uj] := h j.
rewrite (main half2 v_sym ci cj') ?ui ?uj //.
by eexists; eexists; rewrite /Hf /op /hamiltonian.
Qed.

Lemma delta_matrix : \matrix_(i, j) (@delta C N) i j = 1%:M :> 'M[C]_N.
Proof. by apply/matrixP => i j; rewrite !mxE. Qed.

Section Herm.
Hypothesis eR : ecore s \is Num.real.
Hypothesis hH : forall i j, (H1 s i j)^* = H1 s j i.
Hypothesis vH : forall i j k l, (hijkl s i j k l)^* = hijkl s k l i j.

Lemma Hf_herm i j : (Hf i j)^* = Hf j i.
Proof.
have [_ h] := hA; have [ci ui] := h i; have [cj' uj] := h j.
have [y [z e]] := hmatelE i j.
have [y' [z' e']] := hmatelE j i.
have eH : (@conjC C) (ecore s) = ecore s := CrealP eR.
have := @hmatel_herm C s half [rmorphism of (@conjC C)] half2 v_sym eH hH vH (A j) (A i) _ cj' ci _ e'.
by rewrite ui uj e => /(_ erefl) [].
Qed.

Variable eigh : 'M[C]_N -> res ('rV[C]_N * 'M[C]_N).
Hypothesis heigh : eigh_ok eigh.

Lemma ortho_lowest : exists2 c : 'cV[C]_N,
  recompute_ortho eigh s (fun i => occ (A i)) = Ok c &
  lowest (fun i j => Hf j i) (@delta C N) (fun i => c i 0).
Proof.
rewrite /recompute_ortho.
set h := fun i j => get_hmatel s (occ (A i)) (occ (A j)).
rewrite first_err_map; last first.
  by move=> [i j] _ /=; have [y [z e]] := hmatelE i j; eexists; exact: e.
set H := \matrix_(i, j) _.
have [w [v [e hw hv hd]]] := heigh H.
exists (col 0 v); first by rewrite e.
have HE : from_upper H = \matrix_(i, j) Hf j i.
  have hE i j : (value (0, 0, 0) (h i j)).1.1 = Hf j i.
    by rewrite /h; have [y [z ->]] := hmatelE i j.
  apply/matrixP => i j; rewrite !mxE !leqnn !hE; case: ltngtP => [lt|gt|/val_inj ->] //.
  - by rewrite Hf_herm.
  - by apply/Creal_ReP/CrealP; rewrite Hf_herm.
apply: (@lowest_eig _ _ _ _ v w) => //; rewrite delta_matrix ?mulmx1 ?mul1mx -?HE //.
Qed.
End Herm.

Lemma energy_sesq x : energy op (combination A x) = sesq Hf x x / (\sum_i `|x i| ^+ 2).
Proof. by rewrite /energy inner_op inner_norm //; case: hA. Qed.

Lemma sq_sesq (x : 'I_N -> C) : sesq (@delta C N) x x = \sum_i `|x i| ^+ 2.
Proof. by rewrite sesq_delta; apply: eq_bigr => i _; rewrite normCK mulrC. Qed.

Lemma sq_pos (x : 'I_N -> C) : (exists i, x i != 0) -> 0 < \sum_i `|x i| ^+ 2.
Proof.
move=> [i xi]; rewrite (bigD1 i) //= ltr_paddr ?exprn_gt0 ?normr_gt0 //.
by apply: sumr_ge0 => j _; rewrite exprn_ge0.
Qed.

Lemma ground_lowest c : lowest Hf (@delta C N) c -> ground op A c.
Proof.
move=> [h1 h2]; have [inj _] := hA; rewrite sq_sesq in h1.
split=> [|x hx]; first by rewrite inner_norm.
by rewrite !energy_sesq -!sq_sesq; apply: h2; rewrite sq_sesq sq_pos.
Qed.

Lemma sesq_conj_tr (F : 'I_N -> 'I_N -> C) x :
  sesq F (fun i => (x i)^*) (fun i => (x i)^*) = sesq (fun i j => F j i) x x.
Proof.
rewrite /sesq exchange_big /=; apply: eq_bigr => i _; apply: eq_bigr => j _.
by rewrite conjCK [x j * _]mulrC.
Qed.

Lemma delta_tr x : sesq (@delta C N) (fun i => (x i)^*) (fun i => (x i)^*) = sesq (@delta C N) x x.
Proof. by rewrite !sq_sesq; apply: eq_bigr => i _; rewrite norm_conjC. Qed.

Lemma lowest_conj (F : 'I_N -> 'I_N -> C) c :
  lowest (fun i j => F j i) (@delta C N) c -> lowest F (@delta C N) (fun i => (c i)^*).
Proof.
move=> [h1 h2]; split=> [|x hx]; first by rewrite delta_tr.
have := h2 (fun i => (x i)^*); rewrite delta_tr => /(_ hx).
rewrite /expectation -(sesq_conj_tr F c) -(sesq_conj_tr F (fun i => (x i)^*)) !delta_tr.
suff -> : sesq F (fun i => (x i)^*^*) (fun i => (x i)^*^*) = sesq F x x by [].
by apply: eq_bigr => i _; apply: eq_bigr => j _; rewrite !conjCK.
Qed.

Lemma Hf_sym : (forall i j, H1 s i j = H1 s j i) -> (forall i j k l, hijkl s i j k l = hijkl s k l i j) ->
  forall i j, Hf i j = Hf j i.
Proof.
move=> hs vs i j.
have [_ h] := hA; have [ci ui] := h i; have [cj' uj] := h j.
have [y [z e]] := hmatelE i j.
have [y' [z' e']] := hmatelE j i.
have := @hmatel_herm C s half [rmorphism of idfun] half2 v_sym erefl hs vs (A j) (A i) _ cj' ci _ e'.
by rewrite ui uj e => /(_ erefl) [].
Qed.

Lemma Hf_anti : ecore s = 0 -> (forall i j k l, hijkl s i j k l = 0) ->
  (forall i j, H1 s j i = - H1 s i j) -> forall i j, Hf j i = - Hf i j.
Proof.
move=> e0 v0 hs i j; rewrite /Hf /op /hamiltonian e0 !mul0r !add0r.
have T0 f S : two_body half (v_so (n:=n) (hijkl s)) f S = 0 :> C.
  rewrite /two_body big1 ?mulr0 // => p _; rewrite big1 // => q _; rewrite big1 // => r _.
  rewrite big1 // => t _; rewrite /v_so; case: ifP; rewrite ?v0 mul0r //.
rewrite !T0 !addr0 !one_bodyE exchange_big /= -sumrN; apply: eq_bigr => p _.
rewrite -sumrN; apply: eq_bigr => q _.
have -> : h_so (n:=n) (H1 s) q p = - h_so (n:=n) (H1 s) p q.
  by rewrite /h_so eq_sym; case: ifP; rewrite ?oppr0 // hs.
rewrite mulrN; congr (- (_ * _)).
by rewrite /T1 eq_sym; congr (_ * _); exact: mulrC.
Qed.

Lemma highest_anti c : (forall i j, Hf j i = - Hf i j) ->
  lowest (fun i j => Hf j i) (@delta C N) c -> highest op A c.
Proof.
move=> ha [h1 h2]; have [inj _] := hA.
split=> [|x hx]; first by rewrite inner_norm // -sq_sesq.
rewrite !energy_sesq -!sq_sesq -ler_opp2 -!mulNr.
have E y : - sesq Hf y y = sesq (fun i j => Hf j i) y y.
  rewrite /sesq -sumrN; apply: eq_bigr => i _; rewrite -sumrN; apply: eq_bigr => j _.
  by rewrite ha mulrN opprK.
by rewrite !E; apply: h2; rewrite sq_sesq sq_pos.
Qed.
End Ortho75.

Section Main.
Variable C : numClosedFieldType.
Implicit Type s : system C.

Definition op_of s : state C (nbasis s + nbasis s) -> state C (nbasis s + nbasis s) :=
  hamiltonian (2%:R^-1) (ecore s) (h_so (n:=nbasis s) (H1 s)) (v_so (n:=nbasis s) (hijkl s)).

Arguments op_of : clear implicits.

Lemma two_sum (f : 'I_2 -> C) : \sum_i f i = f 0 + f 1.
Proof. by rewrite big_ord_recl big_ord1; congr (_ + f _); exact: val_inj. Qed.

Lemma ortho_conj m s nup (A : 'I_m.+1 -> {set 'I_(nbasis s + nbasis s)}) eigh :
  (forall i j k l, hijkl s i j k l = hijkl s j i l k) ->
  ecore s \is Num.real -> (forall i j, (H1 s i j)^* = H1 s j i) ->
  (forall i j k l, (hijkl s i j k l)^* = hijkl s k l i j) ->
  same_electrons (nelec s) nup A -> eigh_ok eigh ->
  exists2 c : 'cV[C]_m.+1, recompute_ortho eigh s (fun i => occ (A i)) = Ok c &
    ground (op_of s) A (fun i => (c i 0)^*).
Proof.
move=> vs er hh vh hA he.
have [c e lo] := ortho_lowest vs hA er hh vh he.
by exists c => //; apply: (ground_lowest hA); apply: lowest_conj lo.
Qed.

Lemma ortho_real m s nup (A : 'I_m.+1 -> {set 'I_(nbasis s + nbasis s)}) eigh :
  (forall i j k l, hijkl s i j k l = hijkl s j i l k) ->
  ecore s \is Num.real -> (forall i j, H1 s i j \is Num.real /\ H1 s i j = H1 s j i) ->
  (forall i j k l, hijkl s i j k l \is Num.real /\ hijkl s i j k l = hijkl s k l i j) ->
  same_electrons (nelec s) nup A -> eigh_ok eigh ->
  exists2 c : 'cV[C]_m.+1, recompute_ortho eigh s (fun i => occ (A i)) = Ok c &
    ground (op_of s) A (fun i => c i 0).
Proof.
move=> vs er hr vr hA he.
have hh i j : (H1 s i j)^* = H1 s j i by have [r ->] := hr i j; apply/CrealP; have [] := hr j i.
have vh i j k l : (hijkl s i j k l)^* = hijkl s k l i j.
  by have [r ->] := vr i j k l; apply/CrealP; have [] := vr k l i j.
have [c e [l1 l2]] := ortho_lowest vs hA er hh vh he.
have sy := @Hf_sym C m s vs nup A hA (fun i j => proj2 (hr i j)) (fun i j k l => proj2 (vr i j k l)).
exists c => //; apply: (ground_lowest hA); split=> // x hx.
have E (y : 'I_m.+1 -> C) F G : (forall i j, F i j = G i j) -> sesq F y y = sesq G y y.
  by move=> h; apply: eq_bigr => i _; apply: eq_bigr => j _; rewrite h.
by have := l2 x hx; rewrite /expectation !(E _ _ _ (fun i j => sy j i)).
Qed.

Lemma ortho_imaginary m s nup (A : 'I_m.+1 -> {set 'I_(nbasis s + nbasis s)}) eigh :
  ecore s = 0 -> (forall i j k l, hijkl s i j k l = 0) ->
  (forall i j, (H1 s i j)^* = H1 s j i /\ H1 s j i = - H1 s i j) ->
  same_electrons (nelec s) nup A -> eigh_ok eigh ->
  exists2 c : 'cV[C]_m.+1, recompute_ortho eigh s (fun i => occ (A i)) = Ok c &
    highest (op_of s) A (fun i => c i 0).
Proof.
move=> e0 v0 hh hA he.
have vs i j k l : hijkl s i j k l = hijkl s j i l k by rewrite !v0.
have vh i j k l : (hijkl s i j k l)^* = hijkl s k l i j by rewrite !v0 conjC0.
have er : ecore s \is Num.real by rewrite e0 rpred0.
have [c e lo] := ortho_lowest vs hA er (fun i j => proj1 (hh i j)) vh he.
exists c => //; apply: (highest_anti hA) lo.
exact: Hf_anti e0 v0 (fun i j => proj2 (hh i j)).
Qed.

(** Two orbitals and one electron, with a purely imaginary hopping. *)
Definition hop2 (i j : nat) : C :=
  if (i == 0%N) && (j == 1%N) then 'i else if (i == 1%N) && (j == 0%N) then - 'i else 0.
Definition imag2 : system C := System 2 1 0 hop2 (fun _ _ _ _ => 0).
Definition site2 (i : 'I_2) : {set 'I_(2 + 2)} := [set lshift 2 i].

Lemma site2_same : same_electrons 1 1 site2.
Proof.
split=> [i j /setP /(_ (lshift 2 i))|i]; first by rewrite !inE eqxx => /esym /eqP /lshift_inj.
rewrite cards1; split=> //; rewrite /ups (_ : [set _ in _ | _] = [set lshift 2 i]) ?cards1 //.
by apply/setP => x; rewrite !inE; case: eqP => // ->; rewrite /spin /= -ltnNge ltn_ord.
Qed.

Lemma sgn_set1 M (p : 'I_M) : sgn C [set p] p = 1.
Proof.
rewrite /sgn (_ : [set _ in _ | _] = set0) ?cards0 ?expr0 //.
by apply/setP => x; rewrite !inE; case: eqP => // ->; rewrite ltnn.
Qed.

Lemma site2_op i j : op_of imag2 (ket C (site2 j)) (site2 i) = hop2 i j.
Proof.
rewrite /op_of /hamiltonian /= mul0r add0r.
have -> : two_body 2%:R^-1 (v_so (n:=2) (fun _ _ _ _ => 0)) (ket C (site2 j)) (site2 i) = 0 :> C.
  rewrite /two_body big1 ?mulr0 // => p _; rewrite big1 // => q _; rewrite big1 // => r _.
  by rewrite big1 // => t _; rewrite /v_so; case: ifP; rewrite mul0r.
have so k l : h_so (n:=2) hop2 (lshift 2 k) (lshift 2 l) = hop2 k l.
  by rewrite /h_so /orb /spin /= (leqNgt 2 k) (leqNgt 2 l) !ltn_ord.
rewrite addr0; case: (i =P j) => [->|/eqP ij].
  by rewrite one_body0 /site2 big_set1 so.
rewrite /site2 -[[set lshift 2 j]]setU0 -[[set lshift 2 i]]setU0.
rewrite one_body1 ?inE //; last by rewrite (inj_eq (@lshift_inj _ _)) eq_sym.
by rewrite !setU0 !sgn_set1 !mul1r so.
Qed.

Lemma imag2_herm i j : (H1 imag2 i j)^* = H1 imag2 j i /\ H1 imag2 j i = - H1 imag2 i j.
Proof.
rewrite /= /hop2; case: i => [|[|i]]; case: j => [|[|j]];
  by rewrite /= ?rmorphN /= ?conjC0 ?conjCi ?oppr0 ?opprK.
Qed.

Lemma imag2_wrong (eigh : 'M[C]_2 -> res ('rV[C]_2 * 'M[C]_2)) : eigh_ok eigh ->
  exists2 c : 'cV[C]_2, recompute_ortho eigh imag2 (fun i => occ (site2 i)) = Ok c &
    ~ ground (op_of imag2) site2 (fun i => c i 0).
Proof.
move=> he.
have [c e [n1 hi]] := @ortho_imaginary 1 imag2 1%N site2 eigh erefl (fun _ _ _ _ => erefl) imag2_herm
  site2_same he.
exists c => // -[_ lo].
have en := @energy_sesq C 1 imag2 1%N site2 site2_same.
pose x (z : C) (i : 'I_2) : C := if i == 0 then 1 else z.
have xe z : exists i, x z i != 0 by exists 0; rewrite /x eqxx oner_eq0.
have ex z : `|z| = 1 -> energy (op_of imag2) (combination site2 (x z)) = ('i * z - 'i * z^*) / 2%:R.
  move=> z1; rewrite en; congr (_ / _); last first.
    by rewrite two_sum /x /= normr1 z1 expr1n.
  have so i j := site2_op i j; rewrite /op_of in so.
  rewrite /sesq !two_sum !so /x /= /hop2 /= conjC1 !mulr0 !add0r !addr0 !mul1r.
  by rewrite mulr1 mulrN [z * _]mulrC [z^* * _]mulrC.
have i1 : `|'i| = 1 :> C := normCi C.
have := le_trans (hi _ (xe (- 'i))) (lo _ (xe 'i)).
rewrite !ex ?normrN // rmorphN /= conjCi opprK !mulrN -expr2 sqrCi opprK.
rewrite -opprD mulNr divff ?(pnatr_eq0 C 2) // => h.
by have := le_lt_trans h (ltrN10 C); rewrite ltr10.
Qed.
End Main.

Section General75.
Variable C : numClosedFieldType.
Local Notation cj := (@conjC C).
Variables (m n nu nd : nat).
Local Notation N := m.+1.
Variables (psiu : 'I_N -> 'M[C]_(n, nu)) (psid : 'I_N -> 'M[C]_(n, nd)).
Variables (eps : C) (le : 'M[C]_n -> 'M[C]_n -> C).
Local Notation S_el := (pair_overlap psiu psid).
(* <D_i| H |D_j> *)
Let F (i j : 'I_N) : C :=
  S_el i j * le (green cj (psiu i) (psiu j)) (green cj (psid i) (psid j)).
Let entry rc i j := pair_entry eps rc le (psiu i) (psiu j) (psid i) (psid j).

Lemma pair_unit i j :
  ((psiu j)^T *m map_mx cj (psiu i) \in unitmx) && ((psid j)^T *m map_mx cj (psid i) \in unitmx)
  = (S_el i j != 0).
Proof.
by rewrite !tr_ovlp !unitmx_tr !unitmxE !unitfE /pair_overlap mulf_eq0 negb_or.
Qed.

Lemma entryE rc i j : entry rc i j =
  if S_el i j == 0 then Err ValueError
  else if eps < `|S_el i j| then if rc then Err AttributeError else Ok (F i j, S_el i j)
  else Ok (0, 0).
Proof.
rewrite /entry /pair_entry pair_unit; case: eqP => [//|/eqP nz] /=.
have := pair_ovlpE psiu psid i j; rewrite /pair_ovlp /= => ->.
have := pair_green (psiu i) (psiu j); rewrite /= => ->.
by have := pair_green (psid i) (psid j); rewrite /= => ->.
Qed.

Lemma S_conj i j : (S_el i j)^* = S_el j i.
Proof.
have h k (A B : 'M[C]_(n, k)) : (overlap cj A B)^* = overlap cj B A.
  rewrite /overlap /ovlp_mx -(BackProp_Proofs.adj_det ((map_mx cj A)^T *m B)); congr (\det _).
  by rewrite -[(map_mx cj A)^T]/(adj A) adjM TGreen_Proofs.adjK.
by rewrite /pair_overlap /overlap2 rmorphM /= !h.
Qed.

Lemma norm_S i j : `|S_el i j| = `|S_el j i|.
Proof. by rewrite -S_conj norm_conjC. Qed.

Let Fc := above_only eps S_el F.
Let Sc := above_only eps S_el S_el.

Lemma Sc_conj i j : (Sc i j)^* = Sc j i.
Proof. by rewrite /Sc /above_only norm_S; case: ifP; rewrite ?S_conj ?conjC0. Qed.

Lemma general_singular75 eigh i j : S_el i j = 0 ->
  recompute_general eigh eps false le psiu psid = Err ValueError.
Proof.
move=> z; rewrite /recompute_general.
have [k [l [kl zz]]] : exists k l : 'I_N, (k <= l)%N /\ S_el k l = 0.
  case: (leqP i j) => [h|/ltnW h]; first by exists i, j.
  by exists j, i; split=> //; rewrite -S_conj z conjC0.
rewrite (@first_err_only _ _ _ _ (k, l) ValueError) ?mem_upper //=; last first.
  by rewrite -/(entry false k l) entryE zz eqxx.
move=> q e; rewrite -/(entry false q.1 q.2) entryE.
by case: eqP => _; [case|case: ifP].
Qed.

Lemma general_rchol eigh : eps < `|S_el 0 0| -> 0 <= eps ->
  recompute_general eigh eps true le psiu psid = Err AttributeError.
Proof.
move=> h e0; rewrite /recompute_general.
have -> : first_err [seq pair_entry eps true le (psiu p.1) (psiu p.2) (psid p.1) (psid p.2)
   | p <- upper_pairs N] = Some AttributeError.
  rewrite /upper_pairs enum_ordSl /=.
  rewrite -/(entry true 0 0) entryE h.
  by rewrite -normr_eq0 gt_eqF // (le_lt_trans e0 h).
by [].
Qed.

Section Herm.
Hypothesis F_conj : forall i j, (F i j)^* = F j i.
Hypothesis S_nz : forall i j, S_el i j != 0.
Variable eigh : 'M[C]_N -> 'M[C]_N -> res ('rV[C]_N * 'M[C]_N).
Hypothesis heigh : eigh2_ok eigh.

Lemma Fc_conj i j : (Fc i j)^* = Fc j i.
Proof. by rewrite /Fc /above_only norm_S; case: ifP; rewrite ?F_conj ?conjC0. Qed.

Lemma entry_value i j : value (0, 0) (entry false i j) = (Fc i j, Sc i j).
Proof. by rewrite entryE (negbTE (S_nz i j)) /Fc /Sc /above_only; case: ifP. Qed.

Lemma herm_mx (G : 'I_N -> 'I_N -> C) : (forall i j, (G i j)^* = G j i) ->
  adj (\matrix_(i, j) G i j) = \matrix_(i, j) G i j.
Proof. by move=> h; apply/matrixP => i j; rewrite adj_ent !mxE h. Qed.

Lemma general_run : recompute_general eigh eps false le psiu psid
  = first_col (eigh (\matrix_(i, j) Fc i j) (\matrix_(i, j) Sc i j)).
Proof.
rewrite /recompute_general first_err_map; last first.
  move=> [i j] _ /=; rewrite -/(entry false i j) entryE (negbTE (S_nz i j)).
  by case: ifP => _; eexists.
congr (first_col (eigh _ _)); apply/matrixP => i j; rewrite !mxE -!/(entry false _ _) !entry_value /=.
- by rewrite Fc_conj; case: ifP.
- by rewrite Sc_conj; case: ifP.
Qed.

Lemma pos_def_independent : pos_def (\matrix_(i, j) Sc i j) <-> independent Sc.
Proof.
split=> h x.
- move=> [i xi]; rewrite sesqE; apply: h; apply: contra_neq xi => /matrixP /(_ i 0).
  by rewrite !mxE.
- move=> x0; have := h (fun i => x i 0); rewrite sesqE colvE; apply.
  have [i hi|all] := pickP (fun i => x i 0 != 0); first by exists i.
  case/eqP: x0; apply/matrixP => i j; rewrite ord1 [RHS]mxE; apply/eqP.
  by have := all i => /negbFE.
Qed.

Lemma general_lowest : independent Sc -> exists2 c : 'cV[C]_N,
  recompute_general eigh eps false le psiu psid = Ok c & lowest Fc Sc (fun i => c i 0).
Proof.
move=> /pos_def_independent pd; rewrite general_run.
have [h _] := heigh (\matrix_(i, j) Fc i j) (\matrix_(i, j) Sc i j).
rewrite !from_upper_id in h; try by apply: herm_mx; [exact: Sc_conj || exact: Fc_conj].
have [w [v [-> hw hS hH]]] := h pd.
by exists (col 0 v) => //; exact: lowest_eig hw hS hH.
Qed.

Lemma general_dependent : ~ independent Sc ->
  recompute_general eigh eps false le psiu psid = Err ValueError.
Proof.
move=> nd'; rewrite general_run.
have [_ h] := heigh (\matrix_(i, j) Fc i j) (\matrix_(i, j) Sc i j).
rewrite h // from_upper_id; last exact: herm_mx Sc_conj.
by move/pos_def_independent.
Qed.
End Herm.
End General75.
