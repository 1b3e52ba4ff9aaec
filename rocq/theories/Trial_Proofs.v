(* Proofs for C70. *)

From Verif Require Import Base.
Set Warnings "-notation-overridden,-ambiguous-paths".
From mathcomp Require Import all_ssreflect all_fingroup all_algebra.
From Verif Require Import Ortho_Spec Ortho_Model Ortho_Proofs TGreen_Model TGreen_Proofs
  LowRank_Spec PivotQR_Proofs Spectral_Proofs Trial_Spec Trial_Model.

Set Implicit Arguments.
Unset Strict Implicit.
Unset Printing Implicit Defensive.

Import Order.TTheory GRing.Theory Num.Theory.
Local Open Scope ring_scope.

Section Algebra.
Variable C : numClosedFieldType.
Variable M : nat.
Notation mat := 'M[C]_M.
Notation dens := 'rV[C]_M.

Lemma trace_sum k (e : dens) (Z : 'M[C]_(M, k)) :
  \tr (adj Z *m diag_mx e *m Z) = \sum_i e 0 i * \sum_j `|Z i j| ^+ 2.
Proof.
rewrite /mxtrace (eq_bigr (fun j => \sum_i e 0 i * `|Z i j| ^+ 2)); last first.
  move=> j _; rewrite mxE; apply: eq_bigr => i _.
  by rewrite mul_mx_diag mxE adj_ent normCK; rewrite -mulrA mulrC -mulrA.
by rewrite exchange_big; apply: eq_bigr => i _; rewrite mulr_sumr.
Qed.

(* rows of orthonormal columns *)
Section Rows.
Variable k : nat.
Variable Z : 'M[C]_(M, k).
Hypothesis hZ : orthonormal Z.
Let p i := \sum_j `|Z i j| ^+ 2.

Lemma row_ge0 i : 0 <= p i.
Proof. by apply: sumr_ge0 => j _; rewrite exprn_ge0. Qed.

Lemma rowE i : (Z *m adj Z) i i = p i.
Proof. by rewrite mxE; apply: eq_bigr => j _; rewrite adj_ent normCK. Qed.

Lemma row_le1 i : p i <= 1.
Proof.
have PP : (Z *m adj Z) *m (Z *m adj Z) = Z *m adj Z.
  by rewrite -mulmxA (mulmxA (adj Z)) hZ mul1mx.
have PA : adj (Z *m adj Z) = Z *m adj Z by rewrite adjM adjK.
have h : p i = \sum_l `|(Z *m adj Z) i l| ^+ 2.
  rewrite -rowE -{1}PP mxE; apply: eq_bigr => l _.
  by rewrite -[in X in _ * X]PA adj_ent normCK.
have h2 : p i ^+ 2 <= p i.
  rewrite [X in _ <= X]h (bigD1 i) //= rowE ger0_norm ?row_ge0 // ler_addl.
  by apply: sumr_ge0 => l _; rewrite exprn_ge0.
case: (eqVneq (p i) 0) => [->|h0]; first exact: ler01.
have : 0 < p i by rewrite lt_def h0 row_ge0.
by move=> /ler_pmul2l <-; rewrite mulr1 -expr2.
Qed.

Lemma row_sum : \sum_i p i = k%:R.
Proof.
rewrite (eq_bigr (fun i => (Z *m adj Z) i i)); last by move=> i _; rewrite rowE.
by rewrite -/(\tr _) mxtrace_mulC hZ mxtrace1.
Qed.
End Rows.

Lemma trace_real k (H : mat) (X : 'M[C]_(M, k)) : hermitian H -> one_body_energy H X \is Num.real.
Proof.
move=> hH; apply/CrealP; rewrite /one_body_energy.
have -> : (\tr (adj X *m H *m X))^* = \tr (adj (adj X *m H *m X)).
  by rewrite /mxtrace rmorph_sum; apply: eq_bigr => i _; rewrite adj_ent.
by rewrite !adjM adjK hH mulmxA.
Qed.

Definition pick k (f : 'I_k -> 'I_M) p (A : 'M[C]_(p, M)) : 'M[C]_(p, k) := \matrix_(i, j) A i (f j).

Lemma pick_orth k (f : 'I_k -> 'I_M) (A : mat) : injective f -> orthonormal A ->
  orthonormal (pick f A).
Proof.
move=> fi hA; apply/matrixP => i j; rewrite mxE.
rewrite (eq_bigr (fun l => adj A (f i) l * A l (f j))); last first.
  by move=> l _; rewrite !adj_ent !mxE.
have /matrixP /(_ (f i) (f j)) := hA; rewrite mxE => ->.
by rewrite !mxE (inj_eq fi).
Qed.

Lemma pick_eigen k (f : 'I_k -> 'I_M) (H A : mat) (e : dens) : H *m A = A *m diag_mx e ->
  H *m pick f A = pick f A *m diag_mx (\row_j e 0 (f j)).
Proof.
move=> hA; apply/matrixP => i j; transitivity ((H *m A) i (f j)).
  by rewrite [LHS]mxE [RHS]mxE; apply: eq_bigr => l _; rewrite mxE.
by rewrite hA !mul_mx_diag !mxE.
Qed.

Lemma pick_energy k (f : 'I_k -> 'I_M) (H A : mat) (e : dens) : injective f -> orthonormal A ->
  H *m A = A *m diag_mx e -> one_body_energy H (pick f A) = \sum_j e 0 (f j).
Proof.
move=> fi hA hE; rewrite /one_body_energy -mulmxA (pick_eigen f hE) mulmxA.
rewrite (pick_orth fi hA) mul1mx mxtrace_diag.
by apply: eq_bigr => j _; rewrite mxE.
Qed.

(* the lowest sum of eigenvalues *)
Lemma lowest k (hk : (k <= M)%N) (H A : mat) (e : dens) (Y : 'M[C]_(M, k)) :
  (forall i, e 0 i \is Num.real) -> (forall i j : 'I_M, (i <= j)%N -> e 0 i <= e 0 j) ->
  orthonormal A -> H *m A = A *m diag_mx e -> orthonormal Y ->
  \sum_(j < k) e 0 (widen_ord hk j) <= one_body_energy H Y.
Proof.
move=> er es hA hE hY.
have VA := unitaryV hA.
pose Z := adj A *m Y.
have hZ : orthonormal Z.
  by rewrite /orthonormal /Z adjM adjK -mulmxA (mulmxA A) VA mul1mx.
pose p i := \sum_j `|Z i j| ^+ 2.
have -> : one_body_energy H Y = \sum_i e 0 i * p i.
  rewrite -trace_sum /one_body_energy /Z adjM adjK; congr mxtrace.
  have -> : H = A *m diag_mx e *m adj A by rewrite -hE -mulmxA VA mulmx1.
  by rewrite !mulmxA.
have p0 i : 0 <= p i := row_ge0 Z i.
have p1 i : p i <= 1 := row_le1 hZ i.
have ps : \sum_i p i = k%:R := row_sum hZ.
have wE (g : 'I_M -> C) : \sum_(j < k) g (widen_ord hk j) = \sum_(i < M) (i < k)%N%:R * g i.
  rewrite -(big_ord_narrow (F := g)) big_mkcond; apply: eq_bigr => i _.
  by case: ifP; rewrite ?mul1r ?mul0r.
rewrite wE -subr_ge0 -sumrB.
have pz : k = 0%N -> forall i, p i = 0.
  by move=> k0 i; rewrite /p; move: (Z); rewrite k0 => Z0; rewrite big_ord0.
case: k hk Y hY Z hZ p p0 p1 ps wE pz => [|k] hk Y hY Z hZ p p0 p1 ps wE pz.
  by rewrite big1 // => i _; rewrite ltn0 mul0r pz // mulr0 subr0.
pose c := e 0 (Ordinal hk).
have wk : \sum_(i < M) (i < k.+1)%N%:R = k.+1%:R :> C.
  have := wE (fun=> 1); rewrite sumr_const card_ord => ->.
  by apply: eq_bigr => i _; rewrite mulr1.
have -> : \sum_i (e 0 i * p i - (i < k.+1)%N%:R * e 0 i)
        = \sum_i (e 0 i - c) * (p i - (i < k.+1)%N%:R).
  rewrite [RHS](eq_bigr (fun i : 'I_M => (e 0 i * p i - (i < k.+1)%N%:R * e 0 i)
                                 - (c * p i - c * (i < k.+1)%N%:R))); last first.
    by move=> i _; rewrite mulrBl !mulrBr [e 0 i * _%:R]mulrC.
  by rewrite [RHS]sumrB [X in _ - X]sumrB -!mulr_sumr ps wk subrr subr0.
apply: sumr_ge0 => i _; case: ltnP => hi /=.
  by apply: mulr_le0; rewrite subr_le0 // es.
by rewrite subr0 mulr_ge0 // subr_ge0 es //= ltnW.
Qed.

Lemma ground_pick k (hk : (k <= M)%N) (H A : mat) (e : dens) :
  (forall i, e 0 i \is Num.real) -> (forall i j : 'I_M, (i <= j)%N -> e 0 i <= e 0 j) ->
  orthonormal A -> H *m A = A *m diag_mx e -> ground_orbitals H (pick (widen_ord hk) A).
Proof.
move=> er es hA hE.
have wi : injective (widen_ord hk) by move=> i j [] /val_inj.
split; first exact: pick_orth.
  by exists (\row_j e 0 (widen_ord hk j)); apply: pick_eigen.
by move=> Y hY; rewrite (pick_energy wi hA hE); exact: (lowest hk er es hA hE hY).
Qed.

Lemma densityE k (X : 'M[C]_(M, k)) : density X = sites X.
Proof.
apply/rowP => i; rewrite !mxE; apply: eq_bigr => j _.
by rewrite !mxE normCK.
Qed.

Lemma sites_real k (X : 'M[C]_(M, k)) : real_row (sites X).
Proof. by move=> i; rewrite mxE; apply/ger0_real/sumr_ge0 => j _; rewrite exprn_ge0. Qed.

Lemma gab_selfE k (X : 'M[C]_(M, k)) : orthonormal X -> gab_self X = Ok (X *m adj X).
Proof.
move=> hX; rewrite /gab_self.
have hX' : (map_mx (@conjC C) X)^T *m X = 1%:M by exact: hX.
by rewrite hX' unitmx1 /gab hX' invmx1 mul1mx.
Qed.

Lemma one_body_dot k (H : mat) (X : 'M[C]_(M, k)) :
  \sum_i \sum_j H i j * (X *m adj X)^T i j = one_body_energy H X.
Proof.
rewrite /one_body_energy -mulmxA mxtrace_mulC -mulmxA /mxtrace.
by apply: eq_bigr => i _; rewrite [RHS]mxE; apply: eq_bigr => j _; rewrite [in LHS]mxE.
Qed.

Lemma local_energyE nup ndn (U : C) (T : mat * mat) (up : 'M[C]_(M, nup)) (dn : 'M[C]_(M, ndn)) :
  local_energy_hubbard U T ((up *m adj up)^T, (dn *m adj dn)^T) = hubbard_energy T U up dn.
Proof.
rewrite /local_energy_hubbard /hubbard_energy /= -!one_body_dot; congr (_ + _ * _).
  rewrite -big_split /=; apply: eq_bigr => i _; rewrite -big_split /=.
  by apply: eq_bigr.
apply: eq_bigr => i _; rewrite -!densityE !mxE.
by congr (_ * _); apply: eq_bigr => j _; rewrite !mxE.
Qed.

Lemma hub_real nup ndn (U : C) (T : mat * mat) (up : 'M[C]_(M, nup)) (dn : 'M[C]_(M, ndn)) :
  U \is Num.real -> hermitian T.1 -> hermitian T.2 -> hubbard_energy T U up dn \is Num.real.
Proof.
move=> hU h1 h2; rewrite /hubbard_energy !rpredD ?trace_real //.
by rewrite rpredM // rpred_sum // => i _; rewrite rpredM ?sites_real.
Qed.

Lemma mean_herm (T : mat) (U : C) (n : dens) : hermitian T -> U \is Num.real -> real_row n ->
  hermitian (mean_field T U n).
Proof.
move=> hT hU hn; apply/matrixP => i j; rewrite adj_ent !mxE rmorphD.
have /matrixP /(_ i j) := hT; rewrite adj_ent => ->.
congr (_ + _); rewrite rmorphMn /= rmorphM /= (CrealP hU) (CrealP (hn _)) eq_sym.
by case: eqP => [->|].
Qed.

Lemma sym_herm (R : mat) : (forall i j, R i j \is Num.real) -> hermitian (symmetrised R).
Proof.
move=> hR; apply/matrixP => i j; rewrite adj_ent !mxE rmorphM rmorphD /= fmorphV rmorph_nat.
by rewrite !(CrealP (hR _ _)) addrC.
Qed.

Lemma empty_zero (X : 'M[C]_(M, 0)) : X *m adj X = 0.
Proof. by apply/matrixP => i j; rewrite !mxE big_ord0. Qed.

Lemma first_cols k (hk : (k <= M)%N) (A : mat) :
  assign k (slice A k) = Ok (pick (widen_ord hk) A).
Proof.
have hs : size (slice A k) = k by rewrite /slice size_takel // size_map size_enum_ord.
rewrite /assign hs eqxx /slice; congr Ok.
apply/matrixP => i j; rewrite !mxE nth_take //.
have hj : (j < M)%N by exact: leq_trans (ltn_ord j) hk.
rewrite (nth_map (Ordinal hj)) ?size_enum_ord // mxE; congr (A i _).
by apply/val_inj; rewrite /= nth_enum_ord.
Qed.

End Algebra.

Section Routines.
Variable C : numClosedFieldType.
Variable M : nat.
Notation mat := 'M[C]_M.
Notation dens := 'rV[C]_M.
Variable eigh : mat -> dens * mat.
Variable argsort : dens -> 'S_M.
Hypothesis eigh_ok : eigh_right eigh.
Hypothesis argsort_ok : argsort_right argsort.
Notation diag_sorted := (diagonalise_sorted eigh argsort).

Lemma sorted_ok (H : mat) : hermitian H ->
  [/\ real_row (diag_sorted H).1,
      forall i j : 'I_M, (i <= j)%N -> (diag_sorted H).1 0 i <= (diag_sorted H).1 0 j,
      orthonormal (diag_sorted H).2
    & H *m (diag_sorted H).2 = (diag_sorted H).2 *m diag_mx (diag_sorted H).1].
Proof.
move=> /eigh_ok; rewrite /diagonalise_sorted; case: (eigh H) => e V /= [er hV hE].
split.
- by move=> i; rewrite mxE.
- by move=> i j hij; rewrite !mxE; exact: argsort_ok.
- have -> : col_perm (argsort e) V = pick (argsort e) V by apply/matrixP => i j; rewrite !mxE.
  by apply: pick_orth => //; exact: perm_inj.
have -> : col_perm (argsort e) V = pick (argsort e) V by apply/matrixP => i j; rewrite !mxE.
rewrite (pick_eigen _ hE); congr (_ *m diag_mx _).
by apply/rowP => j; rewrite !mxE.
Qed.

(* the orbitals taken *)
Definition low k (H : mat) : 'M[C]_(M, k) :=
  \matrix_(i, j) nth 0 (slice (diag_sorted H).2 k) j i 0.

Lemma lowE k (hk : (k <= M)%N) H : low k H = pick (widen_ord hk) (diag_sorted H).2.
Proof.
have := first_cols hk (diag_sorted H).2; rewrite /assign.
have -> : size (slice (diag_sorted H).2 k) = k by rewrite /slice size_takel // size_map size_enum_ord.
by rewrite eqxx => -[].
Qed.

Lemma low_assign k H : (k <= M)%N -> assign k (slice (diag_sorted H).2 k) = Ok (low k H).
Proof. by move=> hk; rewrite first_cols -lowE. Qed.

Lemma low_ground k H : (k <= M)%N -> hermitian H -> ground_orbitals H (low k H).
Proof.
by move=> hk /sorted_ok [er es hV hE]; rewrite lowE; exact: (ground_pick hk er es hV hE).
Qed.

Lemma low_orth k H : (k <= M)%N -> hermitian H -> orthonormal (low k H).
Proof. by move=> hk hH; case: (low_ground hk hH). Qed.

Lemma low_energy k H : (k <= M)%N -> hermitian H ->
  one_body_energy H (low k H) = \sum_(i < M | (i < k)%N) (diag_sorted H).1 0 i.
Proof.
move=> hk /sorted_ok [er es hV hE]; rewrite lowE (pick_energy _ hV hE); last first.
  by move=> i j [] /val_inj.
by rewrite (big_ord_narrow hk).
Qed.

Variable o : uhf_opts C.
Variables nup ndn : nat.
Variable T : mat * mat.
Hypothesis hup : (nup <= M)%N.
Hypothesis hdn : (ndn <= M)%N.
Hypothesis hT1 : hermitian T.1.
Hypothesis hT2 : hermitian T.2.
Hypothesis hU : u_ueff o \is Num.real.
Hypothesis ha : u_alpha o \is Num.real.
Notation F := (uhf_out low nup ndn T (u_ueff o)).
Notation E := (uhf_energy low nup ndn T (u_ueff o)).
Notation real2 n := (real_row n.1 /\ real_row n.2).

Lemma uhf_orth (n : dens * dens) : real2 n ->
  orthonormal (uhf_up low nup T (u_ueff o) n) /\ orthonormal (uhf_dn low ndn T (u_ueff o) n).
Proof. by case=> h1 h2; split; apply: low_orth => //; exact: mean_herm. Qed.

Lemma gab_dn k (X : 'M[C]_(M, k)) : orthonormal X ->
  (if (0 < k)%N then gab_self X else Ok 0) = Ok (X *m adj X).
Proof.
by case: k X => [|k] X hX; [rewrite empty_zero | rewrite gab_selfE].
Qed.

Lemma diag_mf nu nd : diagonalise_mean_field eigh argsort o nup ndn T nu nd =
  Ok (uhf_up low nup T (u_ueff o) (nu, nd), uhf_dn low ndn T (u_ueff o) (nu, nd),
      (diag_sorted (mean_field T.1 (u_ueff o) nd)).1, (diag_sorted (mean_field T.2 (u_ueff o) nu)).1).
Proof.
rewrite /diagonalise_mean_field /uhf_up /uhf_dn /=.
have := low_assign (mean_field T.1 (u_ueff o) nd) hup.
have := low_assign (mean_field T.2 (u_ueff o) nu) hdn.
rewrite -!/(mean_field _ _ _).
by case: (diag_sorted _) => ed vd /= hd; case: (diag_sorted _) => eu vu /= ->; rewrite hd.
Qed.

Lemma real_mixed (h : (dens * dens) * (dens * dens)) : real2 h.1 -> real2 h.2 -> real2 (mixed2 (u_alpha o) h).
Proof.
case: h => [[a b] [c d]] /= [h1 h2] [h3 h4].
by split=> i; rewrite !mxE rpredD // rpredM // rpredB ?rpred1.
Qed.

Lemma real_outputs (s : dens * dens) k : real2 s ->
  real2 (outputs F (u_alpha o) s k).1 /\ real2 (outputs F (u_alpha o) s k).2.
Proof.
move=> hs; elim: k => [|k [IH1 IH2]] //=; split=> //.
by split; exact: sites_real.
Qed.

Lemma real_input (s : dens * dens) k : real2 s -> real2 (input F (u_alpha o) s k).
Proof. by move=> hs; apply: real_mixed; case: (real_outputs k hs). Qed.

Lemma small_bool s e0 k :
  reflect (small_change F E (u_alpha o) (u_deps o) s e0 k)
    (self_consistant o (E (input F (u_alpha o) s k)) (energy_before F E (u_alpha o) s e0 k)
       (F (input F (u_alpha o) s k)).1 (outputs F (u_alpha o) s k).1.1
       (F (input F (u_alpha o) s k)).2 (outputs F (u_alpha o) s k).1.2).
Proof.
apply: (iffP idP); first by case/andP=> /andP [].
by case=> h1 h2 h3; rewrite /self_consistant h1 h2 h3.
Qed.

Lemma loop_spec (s : dens * dens) e0 : real2 s -> forall it k,
  (forall j, (j < k)%N -> ~ small_change F E (u_alpha o) (u_deps o) s e0 j) ->
  exists2 r, uhf_loop eigh argsort o nup ndn T it (input F (u_alpha o) s k).1
      (input F (u_alpha o) s k).2 (outputs F (u_alpha o) s k).1.1 (outputs F (u_alpha o) s k).1.2
      (energy_before F E (u_alpha o) s e0 k) = Ok r
  & match r.1 with
    | Some f => exists2 k', converges F E (u_alpha o) (u_deps o) s e0 (k + it) k'
        & let n := input F (u_alpha o) s k' in
          [/\ f_up f = uhf_up low nup T (u_ueff o) n, f_dn f = uhf_dn low ndn T (u_ueff o) n,
              f_e f = E n & r.2 = F n]
    | None => forall j, (j < k + it)%N -> ~ small_change F E (u_alpha o) (u_deps o) s e0 j
    end.
Proof.
move=> hs; elim=> [|it IH] k hk; first by eexists; [reflexivity | rewrite addn0].
have hr := real_input k hs.
have [o1 o2] := uhf_orth hr.
have er : E (input F (u_alpha o) s k) \is Num.real by apply: hub_real.
cbn [uhf_loop]; rewrite diag_mf; cbn [rbind].
rewrite -surjective_pairing gab_selfE // gab_dn //; cbn [rbind].
rewrite local_energyE !densityE.
rewrite (Creal_ReP _ er).
case: (small_bool s e0 k) => hc.
  eexists; first reflexivity.
  exists k; last by [].
  by split=> //; rewrite addnS ltnS leq_addr.
have [|r hr1 hr2] := IH k.+1.
  by move=> j; rewrite ltnS leq_eqVlt => /orP [/eqP ->|] //; exact: hk.
by exists r; [exact: hr1 | rewrite addnS; exact: hr2].
Qed.

Notation Rmat := (mat * mat)%type.
Definition real_start (R : Rmat) : Prop :=
  (forall i j, R.1 i j \is Num.real) /\ (forall i j, R.2 i j \is Num.real).

Lemma initialiseE R : real_start R ->
  initialise eigh argsort nup ndn R =
  Ok (start_up low nup R, start_dn low ndn R, start_energy low nup ndn R).
Proof.
case=> h1 h2; rewrite /initialise /start_energy /start_up /start_dn.
rewrite !low_energy //; try exact: sym_herm.
have := low_assign (symmetrised R.1) hup.
have := low_assign (symmetrised R.2) hdn.
rewrite -!/(symmetrised _).
by case: (diag_sorted _) => ed vd /= hd; case: (diag_sorted _) => eu vu /= ->; rewrite hd.
Qed.

Notation conv := (uhf_converges low nup ndn T (u_ueff o) (u_alpha o) (u_deps o) (u_nconv o)).
Notation inp := (uhf_input low nup ndn T (u_ueff o) (u_alpha o)).

(* one attempt *)
Lemma attempt_spec R : real_start R ->
  exists2 r, (let n := uhf_start low nup ndn R in
              uhf_loop eigh argsort o nup ndn T (u_nconv o) n.1 n.2 n.1 n.2
                (start_energy low nup ndn R)) = Ok r
  & match r.1 with
    | Some f => exists2 k, conv R k
        & [/\ f_up f = uhf_up low nup T (u_ueff o) (inp R k),
              f_dn f = uhf_dn low ndn T (u_ueff o) (inp R k),
              f_e f = E (inp R k) & r.2 = F (inp R k)]
    | None => forall k, ~ conv R k
    end.
Proof.
move=> hR; set s := uhf_start low nup ndn R; set e0 := start_energy _ _ _ _.
have hs : real2 s by split; exact: sites_real.
have [|r hr1 hr2] := @loop_spec s e0 hs (u_nconv o) 0 => //.
have i0 : input F (u_alpha o) s 0 = s.
  by rewrite /input /mixed2 /= -!scalerDl subrK !scale1r.
exists r; first by move: hr1; rewrite i0.
case: r.1 hr2 => [f|] //.
by move=> h k [hk hc _]; exact: (h k).
Qed.

Lemma conv_uniq R k k' : conv R k -> conv R k' -> k = k'.
Proof.
case=> _ h1 h2 [_ h3 h4]; case: (ltngtP k k') => // h.
- by case: (h4 _ h).
- by case: (h2 _ h).
Qed.

Lemma conv_deps R k : conv R k -> 0 < u_deps o.
Proof. by case=> _ [h _ _] _; exact: le_lt_trans h. Qed.

Lemma conv_real R k : real_start R -> E (inp R k) \is Num.real.
Proof. by move=> hR; apply: hub_real. Qed.

Lemma foldl_min_in (l : seq C) x : foldl Order.min x l \in x :: l.
Proof.
elim: l x => [|y l IH] x /=; first by rewrite inE.
have := IH (Order.min x y); rewrite !inE => /orP [/eqP ->|->]; last by rewrite !orbT.
by rewrite /Order.min; case: ifP => _; rewrite eqxx ?orbT.
Qed.

Lemma py_min_last (l : seq C) e : (forall m, m \in l -> e < m) -> py_min (rcons l e) = Ok e.
Proof.
case: l => [|x l] //= h; rewrite foldl_rcons.
have := h _ (foldl_min_in l x) => he.
by rewrite /Order.min (lt_gtF he).
Qed.

Definition accepted (done : seq Rmat) (f : found C M nup ndn) R k : Prop :=
  [/\ R \in done, conv R k, f_up f = uhf_up low nup T (u_ueff o) (inp R k),
      f_dn f = uhf_dn low ndn T (u_ueff o) (inp R k) & f_e f = E (inp R k)].

Definition inv (done : seq Rmat) (minima : seq C) (acc : option (found C M nup ndn))
    (nav : option (dens * dens)) : Prop :=
  (forall l R k, done = rcons l R -> conv R k -> nav = Some (F (inp R k))) /\
  match acc with
  | None => minima = [::] /\ forall R k, R \in done -> ~ conv R k
  | Some f => (exists R k, accepted done f R k) /\
      (exists2 m0, minima = rcons m0 (f_e f) & forall m, m \in m0 -> f_e f < m) /\
      (forall R k, R \in done -> conv R k -> f_e f <= E (inp R k) + u_deps o)
  end.

Lemma attempts_spec starts : forall done attempt minima acc nav,
  (forall R, R \in done ++ starts -> real_start R) ->
  (attempt = 0%N -> minima = [::]) -> inv done minima acc nav ->
  exists minima' acc' nav', attempts eigh argsort o T attempt starts minima acc nav
      = Ok (minima', acc', nav') /\ inv (done ++ starts) minima' acc' nav'.
Proof.
elim: starts => [|R starts IH] done att minima acc nav hreal h0 hinv.
  by exists minima, acc, nav; rewrite cats0.
have hR : real_start R by apply: hreal; rewrite mem_cat inE eqxx orbT.
have hd R' : R' \in done -> real_start R' by move=> h; apply: hreal; rewrite mem_cat h.
cbn [attempts]; rewrite initialiseE //; cbn [rbind]; rewrite !densityE.
have [[f n] hr1 hr2] := attempt_spec hR.
rewrite -/(uhf_start low nup ndn R).1; move: hr1 => /= ->; cbn [rbind].
rewrite -cat_rcons in hreal *.
case: f hr2 => [f|] /= hr2; last first.
  apply: IH => //.
  split; first by move=> l R' k /rcons_inj [_ <-] /hr2.
  case: hinv => _; case: acc => [f|].
    case=> [[R' [k [h1 h2 h3 h4 h5]]] [hm hb]]; split; last split=> //.
      by exists R', k; split=> //; rewrite mem_rcons inE h1 orbT.
    by move=> R2 k2; rewrite mem_rcons inE => /orP [/eqP -> /hr2|] //; exact: hb.
  by case=> -> hn; split=> // R' k; rewrite mem_rcons inE => /orP [/eqP -> /hr2|] //; exact: hn.
case: hr2 => k hk [hu hdd he hn].
have hdeps := conv_deps hk.
have er := conv_real k hR.
have hnav : forall l R' k', rcons done R = rcons l R' -> conv R' k' -> Some n = Some (F (inp R' k')).
  by move=> l R' k' /rcons_inj [_ <-] h; rewrite hn (conv_uniq h hk).
have mem R' : R' \in rcons done R -> R' = R \/ R' \in done.
  by rewrite mem_rcons inE => /orP [/eqP|]; [left | right].
have -> : (att == 0%N) || all (fun m => u_deps o < m - f_e f) minima
        = all (fun m => u_deps o < m - f_e f) minima.
  by case: eqP => // /h0 ->.
case: allP => hall.
  apply: IH => //; split=> //; split; last split.
  - by exists R, k; split=> //; rewrite mem_rcons inE eqxx.
  - exists minima => // m /hall; rewrite ltr_subr_addr => h.
    by apply: lt_trans h; rewrite ltr_addr.
  - move=> R' k' /mem [-> h|h h'].
      by rewrite (conv_uniq h hk) he ler_addl ltW.
    case: hinv => _; case: acc => [f0|].
      case=> _ [[m0 hm _] hb]; apply: le_trans (hb _ _ h h').
      have /hall : f_e f0 \in minima by rewrite hm mem_rcons inE eqxx.
      by rewrite ltr_subr_addr => h1; apply/ltW/(lt_trans _ h1); rewrite ltr_addr.
    by case=> _ /(_ _ _ h h').
apply: IH => //; split=> //.
case: hinv => _; case: acc => [f0|]; last by case=> h _; case: hall; rewrite h.
case=> [[R' [k0 [h1 h2 h3 h4 h5]]] [[m0 hm hlt] hb]]; split; last split=> //.
- by exists R', k0; split=> //; rewrite mem_rcons inE h1 orbT.
- by exists m0.
move=> R2 k2 /mem [-> h|h]; last exact: hb.
rewrite (conv_uniq h hk) -he.
have r0 : f_e f0 \is Num.real by rewrite h5; apply: conv_real; exact: hd.
have rf : f_e f \is Num.real by rewrite he.
have rd : f_e f + u_deps o \is Num.real by rewrite rpredD // gtr0_real.
case: (real_leP r0 rd) => // hlt2; case: hall => m hmm.
rewrite ltr_subr_addr addrC; apply: lt_le_trans hlt2 _.
by move: hmm; rewrite hm mem_rcons inE => /orP [/eqP ->|/hlt /ltW].
Qed.

Lemma inv0 : inv [::] [::] None None.
Proof. by split=> //; case. Qed.

(* the search *)
Lemma find_none U starts : (forall R, R \in starts -> real_start R) ->
  (forall R k, R \in starts -> ~ conv R k) ->
  find_uhf_wfn eigh argsort o nup ndn T U starts
  = (U, Err (if u_verbose o then ValueError else NameError)).
Proof.
move=> hreal hnone; rewrite /find_uhf_wfn.
have [mm [acc [nav [-> [_ h]]]]] := attempts_spec (done := [::]) (attempt := 0%N) hreal (fun _ => erefl) inv0.
case: acc h => [f|[-> _]] /=; last by case: (u_verbose o).
by case=> [[R [k [h1 h2 _ _ _]]] _]; case: (hnone _ _ h1 h2).
Qed.

Lemma find_some U starts : (forall R, R \in starts -> real_start R) ->
  (exists R k, R \in starts /\ conv R k) ->
  exists f nav, find_uhf_wfn eigh argsort o nup ndn T U starts = (U, Ok (f, f_e f, nav)) /\
    (exists R k, accepted starts f R k) /\
    (forall R k, R \in starts -> conv R k -> f_e f <= E (inp R k) + u_deps o) /\
    (forall l R k, starts = rcons l R -> conv R k -> nav = Some (F (inp R k))).
Proof.
move=> hreal [R0 [k0 [hR0 hc0]]]; rewrite /find_uhf_wfn.
have [mm [acc [nav [-> [hn h]]]]] := attempts_spec (done := [::]) (attempt := 0%N) hreal (fun _ => erefl) inv0.
case: acc h => [f|[_ /(_ _ _ hR0 hc0)]] //= [ha' [[m0 hm hlt] hb]].
exists f, nav; split; last by split.
have hmin : py_min mm = Ok (f_e f) by rewrite hm py_min_last.
by rewrite hmin /=; case: (u_verbose o).
Qed.
End Routines.

(* how far a converged input is from its output *)
Section Residual.
Variable C : numClosedFieldType.
Variable M : nat.
Notation dens := 'rV[C]_M.

Lemma dist_tri (a : C) (x y z : dens) :
  dist x ((1 - a) *: y + a *: z) <= dist x y + `|a| * dist y z.
Proof.
rewrite /dist mulrA -mulrDl ler_wpmul2r ?invr_ge0 ?ler0n //.
rewrite mulr_sumr -big_split /=; apply: ler_sum => i _; rewrite !mxE.
have -> : x 0 i - ((1 - a) * y 0 i + a * z 0 i) = (x 0 i - y 0 i) + a * (y 0 i - z 0 i).
  by rewrite mulrBl mul1r mulrBr !opprD opprK !addrA.
by apply: le_trans (ler_norm_add _ _) _; rewrite normrM.
Qed.

Lemma residual (F : dens * dens -> dens * dens) E (alpha deps : C) (s : dens * dens) e0 k :
  small_change F E alpha deps s e0 k ->
  let n := input F alpha s k in
  let h := outputs F alpha s k in
  dist (F n).1 n.1 < sqrtC deps + `|alpha| * dist h.1.1 h.2.1 /\
  dist (F n).2 n.2 < sqrtC deps + `|alpha| * dist h.1.2 h.2.2.
Proof.
case=> _ h1 h2; split.
- by apply: le_lt_trans (dist_tri _ _ _ _) _; rewrite ltr_add2r.
- by apply: le_lt_trans (dist_tri _ _ _ _) _; rewrite ltr_add2r.
Qed.
End Residual.

(* two sites *)
Section Two.
Variable C : numClosedFieldType.
Definition row2 (x y : C) : 'rV[C]_2 := \row_i (if i == 0 then x else y).

Lemma row2_0 x y : row2 x y 0 0 = x. Proof. by rewrite mxE. Qed.
Lemma row2_1 x y : row2 x y 0 1 = y. Proof. by rewrite mxE. Qed.

Lemma row2P (r : 'rV[C]_2) x y : r 0 0 = x -> r 0 1 = y -> r = row2 x y.
Proof.
move=> h0 h1; apply/rowP => i; rewrite mxE; case: eqP => [-> //|h].
by rewrite -h1; congr (r 0 _); apply/val_inj; case: i h => [[|[|i]]] hi // h; case: h; exact/val_inj.
Qed.

Lemma sum2 (f : 'I_2 -> C) : \sum_i f i = f 0 + f 1.
Proof.
rewrite !big_ord_recl big_ord0 addr0; congr (_ + f _); exact/val_inj.
Qed.

Lemma one2 k (d : 'rV[C]_2) (X : 'M[C]_(2, k)) :
  one_body_energy (diag_mx d) X = d 0 0 * sites X 0 0 + d 0 1 * sites X 0 1.
Proof. by rewrite /one_body_energy trace_sum sum2 !mxE. Qed.

Lemma sites2 (X : 'M[C]_(2, 1)) : orthonormal X -> sites X 0 0 + sites X 0 1 = 1.
Proof. by move=> hX; have := row_sum hX; rewrite sum2 !mxE. Qed.

Lemma sites_ge0 k (X : 'M[C]_(2, k)) i : 0 <= sites X 0 i.
Proof. by rewrite mxE; apply: sumr_ge0 => j _; rewrite exprn_ge0. Qed.

Lemma delta_orth (a : 'I_2) : orthonormal (delta_mx a 0 : 'M[C]_(2, 1)).
Proof.
apply/matrixP => i j; rewrite !ord1 mxE (bigD1 a) //= big1 ?addr0.
  by rewrite !mxE !eqxx rmorph1 mulr1.
by move=> l hl; rewrite !mxE (negPf hl) mulr0.
Qed.

Lemma delta_sites (a : 'I_2) i : sites (delta_mx a 0 : 'M[C]_(2, 1)) 0 i = (i == a)%:R.
Proof. by rewrite mxE big_ord1 mxE eqxx andbT; case: eqP; rewrite ?normr1 ?normr0 ?expr1n ?expr0n. Qed.

Lemma ground2 (d : 'rV[C]_2) (X : 'M[C]_(2, 1)) : ground_orbitals (diag_mx d) X ->
  (d 0 0 < d 0 1 -> sites X = row2 1 0) /\ (d 0 1 < d 0 0 -> sites X = row2 0 1).
Proof.
case=> hX _ hmin.
have hs := sites2 hX.
have g0 := sites_ge0 X 0; have g1 := sites_ge0 X 1.
split=> hd.
- have := hmin _ (delta_orth 0); rewrite !one2 !delta_sites !eqxx /= mulr1 mulr0 addr0.
  have -> : sites X 0 0 = 1 - sites X 0 1 by rewrite -hs addrK.
  rewrite mulrBr mulr1 -addrA ger_addl addrC -mulrBl => h.
  have z : sites X 0 1 = 0.
    apply/eqP; rewrite eq_le g1 andbT; move: h; rewrite pmulr_rle0 //.
    by rewrite subr_gt0.
  by apply: row2P => //; move: hs; rewrite z addr0.
- have := hmin _ (delta_orth 1); rewrite !one2 !delta_sites !eqxx /= mulr1 mulr0 add0r.
  have -> : sites X 0 1 = 1 - sites X 0 0 by rewrite -hs addrAC subrr add0r.
  rewrite mulrBr mulr1 addrC -addrA ger_addl addrC -mulrBl => h.
  have z : sites X 0 0 = 0.
    apply/eqP; rewrite eq_le g0 andbT; move: h; rewrite pmulr_rle0 //.
    by rewrite subr_gt0.
  by apply: row2P => //; move: hs; rewrite z add0r.
Qed.
End Two.

Section Witness.
Variable C : numClosedFieldType.
Variable eigh : 'M[C]_2 -> 'rV[C]_2 * 'M[C]_2.
Variable argsort : 'rV[C]_2 -> 'S_2.
Hypothesis eigh_ok : eigh_right eigh.
Hypothesis argsort_ok : argsort_right argsort.
Notation low := (low eigh argsort).

(* two sites with energies 0 and 1, no hopping *)
Definition wT : 'M[C]_2 * 'M[C]_2 := (diag_mx (row2 0 1), diag_mx (row2 0 1)).
Definition wopts : uhf_opts C := MkUhf 2%:R 2%:R^-1 4%:R^-1 5 false.
Definition wR1 : 'M[C]_2 * 'M[C]_2 := (diag_mx (row2 1 0), diag_mx (row2 1 0)).
Definition wR2 : 'M[C]_2 * 'M[C]_2 := (diag_mx (row2 1 0), diag_mx (row2 0 1)).
Notation wF := (uhf_out low 1 1 wT 2%:R).
Notation wE := (uhf_energy low 1 1 wT 2%:R).

Lemma diag2_herm (x y : C) : x \is Num.real -> y \is Num.real -> hermitian (diag_mx (row2 x y)).
Proof.
move=> hx hy; apply/matrixP => i j; rewrite adj_ent !mxE rmorphMn /= [i == j]eq_sym.
case: (j =P i) => [->|_]; rewrite ?mulr0n //.
by case: eqP => _; rewrite (CrealP _).
Qed.

Lemma wmean (a b : C) : mean_field (diag_mx (row2 0 1)) 2%:R (row2 a b)
  = diag_mx (row2 (2%:R * a) (1 + 2%:R * b)).
Proof.
rewrite /mean_field -raddfD; congr diag_mx; apply: row2P; rewrite !mxE ?eqxx ?add0r //.
Qed.

Lemma wlow (x y : C) : x \is Num.real -> y \is Num.real ->
  (x < y -> sites (low 1 (diag_mx (row2 x y))) = row2 1 0) /\
  (y < x -> sites (low 1 (diag_mx (row2 x y))) = row2 0 1).
Proof.
move=> hx hy.
have := ground2 (low_ground eigh_ok argsort_ok (k := 1) isT (diag2_herm hx hy)).
by rewrite row2_0 row2_1.
Qed.

Lemma wEE n : wE n = (wF n).1 0 1 + (wF n).2 0 1
  + 2%:R * ((wF n).1 0 0 * (wF n).2 0 0 + (wF n).1 0 1 * (wF n).2 0 1).
Proof. by rewrite /uhf_energy /hubbard_energy /= !one2 !row2_0 !row2_1 !mul0r !add0r !mul1r sum2. Qed.

Lemma wF11 : wF (row2 0 1, row2 0 1) = (row2 1 0, row2 1 0).
Proof.
rewrite /uhf_out /uhf_up /uhf_dn /= wmean mulr0 mulr1.
have [h _] := @wlow 0 (1 + 2%:R) (rpred0 _) (rpredD (rpred1 _) (rpred_nat _ _)).
by rewrite h // addr_gt0 ?ltr01 ?ltr0n.
Qed.

Lemma wFhalf : wF (row2 2%:R^-1 2%:R^-1, row2 2%:R^-1 2%:R^-1) = (row2 1 0, row2 1 0).
Proof.
rewrite /uhf_out /uhf_up /uhf_dn /= wmean divff ?pnatr_eq0 //.
have [h _] := @wlow 1 (1 + 1) (rpred1 _) (rpredD (rpred1 _) (rpred1 _)).
by rewrite h // ltr_addl ltr01.
Qed.

Lemma wF10 : wF (row2 0 1, row2 1 0) = (row2 0 1, row2 1 0).
Proof.
rewrite /uhf_out /uhf_up /uhf_dn /= !wmean !mulr0 !mulr1 addr0.
have [_ h1] := @wlow 2%:R 1 (rpred_nat _ _) (rpred1 _).
have [h2 _] := @wlow 0 (1 + 2%:R) (rpred0 _) (rpredD (rpred1 _) (rpred_nat _ _)).
by rewrite h1 ?h2 // ?addr_gt0 ?ltr01 ?ltr0n // ltr1n.
Qed.

Lemma sym_diag (d : 'rV[C]_2) : symmetrised (diag_mx d) = diag_mx d.
Proof.
rewrite /symmetrised tr_diag_mx -[X in _ *: (X + _)]scale1r -[X in _ *: (_ + X)]scale1r -scalerDl scalerA.
by rewrite mulVf ?scale1r // (pnatr_eq0 _ 2).
Qed.

Lemma wlow10 : sites (low 1 (diag_mx (row2 1 0))) = row2 0 1.
Proof. by have [_ h] := @wlow 1 0 (rpred1 _) (rpred0 _); rewrite h ?ltr01. Qed.
Lemma wlow01 : sites (low 1 (diag_mx (row2 0 1))) = row2 1 0.
Proof. by have [h _] := @wlow 0 1 (rpred0 _) (rpred1 _); rewrite h ?ltr01. Qed.

Lemma wstart1 : uhf_start low 1 1 wR1 = (row2 0 1, row2 0 1).
Proof. by rewrite /uhf_start /start_up /start_dn /= !sym_diag wlow10. Qed.
Lemma wstart2 : uhf_start low 1 1 wR2 = (row2 0 1, row2 1 0).
Proof. by rewrite /uhf_start /start_up /start_dn /= !sym_diag wlow10 wlow01. Qed.
Lemma wenergy1 : start_energy low 1 1 wR1 = 0.
Proof.
rewrite /start_energy /start_up /start_dn /= !sym_diag !one2 wlow10 !row2_0 !row2_1.
by rewrite !mul0r !mulr0 !addr0.
Qed.
Lemma wenergy2 : start_energy low 1 1 wR2 = 0.
Proof.
rewrite /start_energy /start_up /start_dn /= !sym_diag !one2 wlow10 wlow01 !row2_0 !row2_1.
by rewrite !mul0r !mulr0 !addr0.
Qed.

Notation winp := (uhf_input low 1 1 wT 2%:R 2%:R^-1).
Notation wconv := (uhf_converges low 1 1 wT 2%:R 2%:R^-1 4%:R^-1 5).

Lemma half2 : 1 - 2%:R^-1 = 2%:R^-1 :> C.
Proof.
have h : 2%:R^-1 + 2%:R^-1 = 1 :> C.
  by rewrite -mulr2n -[LHS]mulr_natr mulVf // (pnatr_eq0 _ 2).
by rewrite -{1}h addrK.
Qed.

Lemma mix_same (x : 'rV[C]_2) : (1 - 2%:R^-1) *: x + 2%:R^-1 *: x = x.
Proof. by rewrite -scalerDl subrK scale1r. Qed.

Lemma winp1_0 : winp wR1 0 = (row2 0 1, row2 0 1).
Proof. by rewrite /uhf_input /input /mixed2 /= !mix_same; exact: wstart1. Qed.
Lemma winp2_0 : winp wR2 0 = (row2 0 1, row2 1 0).
Proof. by rewrite /uhf_input /input /mixed2 /= !mix_same; exact: wstart2. Qed.

Lemma wout1 : outputs wF 2%:R^-1 (uhf_start low 1 1 wR1) 1 = ((row2 1 0, row2 1 0), (row2 0 1, row2 0 1)).
Proof. by cbn [outputs fst]; rewrite -/(input wF _ _ 0) -/(winp wR1 0) winp1_0 wF11 wstart1. Qed.
Lemma wout2 : outputs wF 2%:R^-1 (uhf_start low 1 1 wR2) 1 = ((row2 0 1, row2 1 0), (row2 0 1, row2 1 0)).
Proof. by cbn [outputs fst]; rewrite -/(input wF _ _ 0) -/(winp wR2 0) winp2_0 wF10 wstart2. Qed.

Lemma winp1_1 : winp wR1 1 = (row2 2%:R^-1 2%:R^-1, row2 2%:R^-1 2%:R^-1).
Proof.
rewrite /uhf_input /input wout1 /mixed2 half2 /=.
by congr pair; apply: row2P; rewrite !mxE /= ?mulr1 ?mulr0 ?addr0 ?add0r.
Qed.
Lemma winp2_1 : winp wR2 1 = (row2 0 1, row2 1 0).
Proof. by rewrite /uhf_input /input wout2 /mixed2 /= !mix_same. Qed.

Lemma dist_self (x : 'rV[C]_2) : dist x x = 0.
Proof. by rewrite /dist big1 ?mul0r // => i _; rewrite subrr normr0. Qed.
Lemma deps_pos : 0 < 4%:R^-1 :> C.
Proof. by rewrite invr_gt0 ltr0n. Qed.
Lemma sdeps_pos : 0 < sqrtC (4%:R^-1 : C).
Proof. by rewrite sqrtC_gt0 deps_pos. Qed.

Lemma wE1 : wE (winp wR1 0) = 2%:R /\ wE (winp wR1 1) = 2%:R.
Proof.
rewrite !wEE winp1_0 winp1_1 wF11 wFhalf /= !row2_0 !row2_1.
by rewrite !mulr0 !mulr1 !addr0 !add0r mulr1.
Qed.
Lemma wE2 : wE (winp wR2 0) = 1 /\ wE (winp wR2 1) = 1.
Proof.
rewrite !wEE winp2_0 winp2_1 wF10 /= !row2_0 !row2_1.
by rewrite !mulr0 !mul0r !addr0 !mulr0 addr0.
Qed.

Lemma wconv1 : wconv wR1 1.
Proof.
have [e0 e1] := wE1.
split=> //.
- split.
  + rewrite /energy /energy_before /energy -/(winp wR1 1) -/(winp wR1 0) e0 e1 subrr normr0.
    exact: deps_pos.
  + by rewrite -/(winp wR1 1) winp1_1 wFhalf wout1 dist_self sdeps_pos.
  + by rewrite -/(winp wR1 1) winp1_1 wFhalf wout1 dist_self sdeps_pos.
case=> // _ [h _ _]; move: h; rewrite /energy /energy_before -/(winp wR1 0) e0 wenergy1 subr0.
rewrite normr_nat => h.
have : 2%:R < 1 :> C by apply: lt_trans h _; rewrite invf_lt1 ?ltr0n // (ltr_nat _ 1).
by rewrite (ltr_nat _ 2 1).
Qed.
Lemma wconv2 : wconv wR2 1.
Proof.
have [e0 e1] := wE2.
split=> //.
- split.
  + rewrite /energy /energy_before /energy -/(winp wR2 1) -/(winp wR2 0) e0 e1 subrr normr0.
    exact: deps_pos.
  + by rewrite -/(winp wR2 1) winp2_1 wF10 wout2 dist_self sdeps_pos.
  + by rewrite -/(winp wR2 1) winp2_1 wF10 wout2 dist_self sdeps_pos.
case=> // _ [h _ _]; move: h; rewrite /energy /energy_before -/(winp wR2 0) e0 wenergy2 subr0.
rewrite normr1 => h.
have : 1 < 1 :> C by apply: lt_trans h _; rewrite invf_lt1 ?ltr0n // (ltr_nat _ 1).
by rewrite ltxx.
Qed.
End Witness.
