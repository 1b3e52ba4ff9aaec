(* Proofs: freezing core orbitals. *)

From Verif Require Import Base.
Set Warnings "-notation-overridden,-ambiguous-paths".
From mathcomp Require Import all_ssreflect all_algebra.
From Verif Require Import Ortho_Model LEnergy_Model LEnergy_Spec LEnergy_Proofs.
From Verif Require Import Freeze_Model Freeze_Spec.

Set Implicit Arguments.
Unset Strict Implicit.
Unset Printing Implicit Defensive.

Import Order.TTheory GRing.Theory Num.Theory.
Local Open Scope ring_scope.

Section RingFacts.
Variables (K : Type) (z o : K) (ad mu sb : K -> K -> K) (op : K -> K).
Hypothesis Kth : ring_theory z o ad mu sb op (@eq K).
Add Ring Kring : Kth.
Local Notation "x +' y" := (ad x y) (at level 50, left associativity).
Local Notation "x *' y" := (mu x y) (at level 40, left associativity).
Local Notation "-' x" := (op x) (at level 35, right associativity).

(* c core, a and b active electrons; x: exchange *)
Lemma rf_cross h cc ca cb aa bb ab xc xa xb xaa xbb :
  h *' ((cc +' (ca +' ca) +' aa) +' (cc +' (cb +' cb) +' bb)
        +' (o +' o) *' (cc +' cb +' ca +' ab)
        +' -' ((xc +' (xa +' xa) +' xaa) +' (xc +' (xb +' xb) +' xbb)))
  = h *' (cc +' cc +' (o +' o) *' cc +' -' (xc +' xc))
    +' h *' (aa +' bb +' (o +' o) *' ab +' -' (xaa +' xbb))
    +' (h +' h) *' ((o +' o) *' ca +' -' xa +' ((o +' o) *' cb +' -' xb)).
Proof. ring. Qed.

Lemma rf_sum w sa tb c0 t ca xa cb xb xta xtb e :
  w +' (sa +' tb) +' (c0 +' t +' ((o +' o) *' ca +' -' xa
                                 +' ((o +' o) *' cb +' -' xb))) +' e
  = (sa +' (o +' o) *' ca +' -' xta) +' (tb +' (o +' o) *' cb +' -' xtb) +' t
    +' (w +' c0 +' e) +' -' (xa +' -' xta +' (xb +' -' xtb)).
Proof. ring. Qed.

End RingFacts.

Section Bilinear.
Variable C : numClosedFieldType.

Section Coul.
Variables (M naux : nat) (L : 'I_naux -> 'M[C]_M).

Definition coulL (A B : 'M[C]_M) : C :=
  \sum_n \tr (L n *m A^T) * \tr (L n *m B^T).
Definition exchL (A B : 'M[C]_M) : C :=
  \sum_n \tr ((L n *m A^T) *m (L n *m B^T)).

Lemma coulC A B : coulL A B = coulL B A.
Proof. by apply: eq_bigr => x _; rewrite mulrC. Qed.
Lemma exchC A B : exchL A B = exchL B A.
Proof. by apply: eq_bigr => x _; rewrite mxtrace_mulC. Qed.
Lemma coulDl A B D : coulL (A + B) D = coulL A D + coulL B D.
Proof.
rewrite -big_split; apply: eq_bigr => x _.
by rewrite linearD mulmxDr mxtraceD mulrDl.
Qed.
Lemma exchDl A B D : exchL (A + B) D = exchL A D + exchL B D.
Proof.
rewrite -big_split; apply: eq_bigr => x _.
by rewrite linearD mulmxDr mulmxDl mxtraceD.
Qed.
Lemma coulDr A B D : coulL D (A + B) = coulL D A + coulL D B.
Proof. by rewrite !(coulC D) coulDl. Qed.
Lemma exchDr A B D : exchL D (A + B) = exchL D A + exchL D B.
Proof. by rewrite !(exchC D) exchDl. Qed.

Lemma coul_sq A B :
  coulL (A + B) (A + B) = coulL A A + (coulL A B + coulL A B) + coulL B B.
Proof. by rewrite coulDl !coulDr (coulC B A) !addrA. Qed.
Lemma exch_sq A B :
  exchL (A + B) (A + B) = exchL A A + (exchL A B + exchL A B) + exchL B B.
Proof. by rewrite exchDl !exchDr (exchC B A) !addrA. Qed.
Lemma coul_cross A B D :
  coulL (A + B) (A + D) = coulL A A + coulL A D + coulL A B + coulL B D.
Proof. by rewrite coulDl !coulDr (coulC B A) !addrA. Qed.

Lemma wick2L G :
  wick2 (integrals L) G
  = half C * (coulL G.1 G.1 + coulL G.2 G.2 + 2%:R * coulL G.1 G.2
              - (exchL G.1 G.1 + exchL G.2 G.2)).
Proof.
pose sys := MkSystem (0, 0)
  (\matrix_(x, n) L n (flat_row x) (flat_col x) : 'M_(M * M, naux)) 0.
have E x : Lx sys x = L x.
  by apply/matrixP => i k; rewrite !mxE !flatK.
have -> : wick2 (integrals L) G = wick2 (fun p r q u => hijkl sys p q r u) G.
  rewrite /wick2; congr (_ * _); do 6 (apply: eq_bigr => ? _).
  congr (_ * _); rewrite -[hijkl _ _ _ _ _]/(v4 sys _ _ _ _) v4E.
  by apply: eq_bigr => x _; rewrite E.
rewrite wick2_form /two_form.
have Ec A B : coulx sys A B = coulL A B by apply: eq_bigr => x _; rewrite E.
have Ex A B : exchx sys A B = exchL A B by apply: eq_bigr => x _; rewrite E.
by rewrite !Ec !Ex.
Qed.

(* The core matrices. *)
Definition Jmat (G : 'M[C]_M) : 'M[C]_M := \sum_n \tr (L n *m G^T) *: L n.
Definition Kmat (G : 'M[C]_M) : 'M[C]_M := \sum_n L n *m G^T *m L n.

Lemma coul_J A B : coulL A B = \tr (Jmat A *m B^T).
Proof.
rewrite mulmx_suml raddf_sum; apply: eq_bigr => n _.
by rewrite -scalemxAl /= mxtraceZ.
Qed.
Lemma exch_K A B : exchL A B = \tr (Kmat A *m B^T).
Proof.
by rewrite mulmx_suml raddf_sum; apply: eq_bigr => n _; rewrite mulmxA.
Qed.

Lemma core_matrix (G : 'M[C]_M) :
  core_cholesky1 L G = Jmat G - half C *: (Kmat G)^T.
Proof.
apply/matrixP => r s; rewrite !mxE !summxE; congr (_ - _ * _).
  apply: eq_bigr => n _; rewrite !mxE !flatK mulrC; congr (_ * _).
  rewrite -sum_prod_tr /sum_prod sum_flat.
  by apply: eq_bigr => i _; apply: eq_bigr => j _; rewrite !mxE !flatK.
apply: eq_bigr => n _.
transitivity (((L n)^T *m G *m (L n)^T) r s).
  by rewrite [RHS]mxE; apply: eq_bigr => q _; congr (_ * _); rewrite mxE.
by rewrite -[X in _ *m X *m _](trmxK G) -trmx_mul -trmx_mul mxE mulmxA.
Qed.

End Coul.

End Bilinear.

Section Freeze.
Variable C : numClosedFieldType.
Variables nc ncas nv naux : nat.
Local Notation M := (nc + (ncas + nv))%N.

Lemma Gcore_right : Gcore C nc ncas nv = core_only C nc ncas nv.
Proof.
rewrite /Gcore /gab /psi_core map_col_mx map_mx1 map_mx0 tr_col_mx trmx1 trmx0.
rewrite mul_row_col mulmx1 mulmx0 addr0 invmx1 mul1mx mul_col_row !mulmx1.
by rewrite ?mulmx0 ?mul0mx.
Qed.

Definition Sel : 'M[C]_(M, ncas) := col_mx 0 (col_mx 1%:M 0).

Lemma sliceE (A : 'M[C]_M) : slice A = Sel^T *m A *m Sel.
Proof.
transitivity (ulsubmx (drsubmx A)).
  by apply/matrixP => i j; rewrite !mxE.
rewrite -[A in RHS]submxK -[drsubmx A in RHS]submxK /Sel.
rewrite tr_col_mx trmx0 tr_col_mx trmx1 trmx0 mul_row_block !mul0mx !add0r.
rewrite mul_row_block !mul0mx !addr0 !mul1mx.
by rewrite mul_row_col mulmx0 add0r mul_row_col mulmx1 mulmx0 addr0.
Qed.

Definition emb (g : 'M[C]_ncas) : 'M[C]_M := Sel *m g *m Sel^T.

Lemma with_coreE g : with_core nc nv g = core_only C nc ncas nv + emb g.
Proof.
have E : (col_mx 1%:M 0 : 'M[C]_(ncas + nv, ncas)) *m g *m (row_mx 1%:M 0 : 'M[C]_(ncas, ncas + nv))
  = block_mx g 0 0 0.
  rewrite (mul_col_mx (1%:M) 0 g) mul1mx mul0mx
     (mul_col_row g 0 1%:M 0);
  by rewrite !mulmx1 !mulmx0.
rewrite /emb /Sel tr_col_mx trmx0 tr_col_mx trmx1 trmx0.
rewrite mul_col_mx mul0mx mul_col_row E !mulmx0 mul0mx.
by rewrite add_block_mx !addr0 add0r.
Qed.

Lemma tr_emb (A : 'M[C]_M) g : \tr (A *m (emb g)^T) = \tr (slice A *m g^T).
Proof.
rewrite sliceE /emb trmx_mul trmxK trmx_mul.
by rewrite mxtrace_mulC -!mulmxA [RHS]mxtrace_mulC !mulmxA [LHS]mxtrace_mulC !mulmxA.
Qed.

Lemma tr_emb2 (A B : 'M[C]_M) g g' :
  \tr (A *m (emb g)^T *m (B *m (emb g')^T))
  = \tr (slice A *m g^T *m (slice B *m g'^T)).
Proof.
rewrite mulmxA tr_emb !sliceE /emb trmx_mul trmxK trmx_mul.
by rewrite !mulmxA.
Qed.

Lemma sliceD (A B : 'M[C]_M) : slice (A + B) = slice A + slice B.
Proof. by apply/matrixP => i j; rewrite !mxE. Qed.
Lemma sliceZ a (A : 'M[C]_M) : slice (a *: A) = a *: slice A.
Proof. by apply/matrixP => i j; rewrite !mxE. Qed.
Lemma slice_tr (A : 'M[C]_M) : slice A^T = (slice A)^T.
Proof. by apply/matrixP => i j; rewrite !mxE. Qed.

Variable L : 'I_naux -> 'M[C]_M.
Variable h : 'M[C]_M.

Local Notation P := (core_only C nc ncas nv).
Local Notation hf := (frozen_h1e h L).
Local Notation Lf := (frozen_chol L).

(* Exchange of an active electron with the core. *)
Definition core_exchange : 'M[C]_ncas := slice (Kmat L P).

Lemma coul_emb g g' : coulL L (emb g) (emb g') = coulL Lf g g'.
Proof. by apply: eq_bigr => n _; rewrite !tr_emb. Qed.
Lemma exch_emb g g' : exchL L (emb g) (emb g') = exchL Lf g g'.
Proof. by apply: eq_bigr => n _; rewrite tr_emb2. Qed.

Lemma frozenE :
  hf = let f := slice (h + 2%:R *: Jmat L P) - core_exchange^T in (f, f).
Proof.
rewrite /frozen_h1e /core_contribution_cholesky /= !Gcore_right core_matrix.
have -> : slice (h + 2%:R *: (Jmat L P - half C *: (Kmat L P)^T))
  = slice (h + 2%:R *: Jmat L P) - core_exchange^T; last by [].
have E2 : 2%:R * half C = 1 by rewrite mulr_natl mulr2n half2.
rewrite scalerBr scalerA E2 scale1r addrA.
by rewrite -[- (Kmat L P)^T]scaleN1r sliceD sliceZ scaleN1r slice_tr.
Qed.

Lemma trD (A B D : 'M[C]_ncas) : \tr ((A + B) *m D) = \tr (A *m D) + \tr (B *m D).
Proof. by rewrite mulmxDl mxtraceD. Qed.
Lemma trN (A D : 'M[C]_ncas) : \tr (- A *m D) = - \tr (A *m D).
Proof. by rewrite mulNmx raddfN. Qed.

Lemma gap_two ga gb :
  wick2 (integrals L) (with_core nc nv ga, with_core nc nv gb)
  = wick2 (integrals L) (P, P) + wick2 (integrals Lf) (ga, gb)
    + ((1 + 1) * \tr (slice (Jmat L P) *m ga^T) - \tr (core_exchange *m ga^T)
      + ((1 + 1) * \tr (slice (Jmat L P) *m gb^T) - \tr (core_exchange *m gb^T))).
Proof.
rewrite !wick2L /= !with_coreE !coul_sq !exch_sq coul_cross.
rewrite !coul_emb !exch_emb -!tr_emb -!coul_J -!exch_K.
by etransitivity; [exact: (rf_cross (comring_th C)) | rewrite half2 mul1r].
Qed.

Lemma wick1_core ga gb :
  wick1 (h, h) (with_core nc nv ga, with_core nc nv gb)
  = wick1 (h, h) (P, P) + (\tr (slice h *m ga^T) + \tr (slice h *m gb^T)).
Proof.
have E (A B : 'M[C]_M) : sum_prod h (A + B) = sum_prod h A + sum_prod h B.
  by rewrite !sum_prod_tr [(A + B)^T]linearD /= mulmxDr mxtraceD.
by rewrite !wick1E /= !with_coreE !E !(sum_prod_tr h (emb _)) !tr_emb addrACA.
Qed.

Lemma gap ga gb ecore :
  (energies (h, h) (integrals L) ecore (with_core nc nv ga, with_core nc nv gb)).1.1
  = (energies hf (integrals Lf)
      (energies (h, h) (integrals L) ecore (P, P)).1.1 (ga, gb)).1.1
    - \tr ((core_exchange - core_exchange^T) *m (ga + gb)^T).
Proof.
rewrite /energies /= gap_two wick1_core frozenE /=.
rewrite (wick1E (_, _) (ga, gb)) /= !sum_prod_tr.
rewrite [(ga + gb)^T]linearD /= mulmxDr mxtraceD sliceD sliceZ !trD !trN.
rewrite -!scalemxAl.
rewrite !mxtraceZ.
exact: (rf_sum (comring_th C)).
Qed.

Lemma exact_iff :
  (forall ga gb ecore,
     (energies (h, h) (integrals L) ecore
        (with_core nc nv ga, with_core nc nv gb)).1.1
     = (energies hf (integrals Lf)
         (energies (h, h) (integrals L) ecore (P, P)).1.1 (ga, gb)).1.1)
  <-> core_exchange^T = core_exchange.
Proof.
split=> [H|H ga gb ecore]; last by rewrite gap H subrr mul0mx mxtrace0 subr0.
apply/esym/eqP; rewrite -subr_eq0; apply/eqP/matrixP => i j.
have := H (delta_mx i j) 0 0; rewrite gap addr0.
move/(canRL (addKr _)); rewrite addNr => /eqP; rewrite oppr_eq0 => /eqP E.
rewrite [RHS]mxE -[RHS]E -sum_prod_tr /sum_prod.
rewrite (bigD1 i) //= (bigD1 j) //= !big1 ?addr0.
- by rewrite [delta_mx _ _ _ _]mxE !eqxx mulr1.
- by move=> k hk; rewrite big1 // => l _; rewrite [delta_mx _ _ _ _]mxE (negPf hk) mulr0.
- by move=> l hl; rewrite [delta_mx _ _ _ _]mxE (negPf hl) andbF mulr0.
Qed.

Lemma symmetric_exact : (forall n, (L n)^T = L n) ->
  core_exchange^T = core_exchange.
Proof.
move=> H; rewrite -slice_tr; congr slice.
rewrite /Kmat raddf_sum; apply: eq_bigr => n _ /=.
by rewrite !trmx_mul trmxK H tr_block_mx trmx1 !trmx0 mulmxA.
Qed.

End Freeze.

Section Constant.
Variable C : numClosedFieldType.

Lemma constant_right nc ncas nv naux (L : 'I_naux -> 'M[C]_(nc + (ncas + nv)))
    h ecore :
  let core := core_only C nc ncas nv in
  let sys := MkSystem (h, h)
    (\matrix_(x, n) L n (flat_row x) (flat_col x)) ecore in
  local_energy_generic_cholesky sys (Gcore C nc ncas nv, Gcore C nc ncas nv)
  = energies (h, h) (integrals L) ecore (core, core).
Proof.
move=> core sys; rewrite cholesky_right !Gcore_right -/core /energies.
have -> // : wick2 (fun p r q u => hijkl sys p q r u) (core, core)
  = wick2 (integrals L) (core, core).
rewrite /wick2; congr (_ * _); do 6 (apply: eq_bigr => ? _).
congr (_ * _); rewrite -[hijkl _ _ _ _ _]/(v4 sys _ _ _ _) v4E.
by apply: eq_bigr => x _; rewrite !mxE !flatK.
Qed.

(* One core and two active orbitals; one vector, not symmetric. *)
Definition L_skew (n : 'I_1) : 'M[C]_(1 + (2 + 0)) :=
  delta_mx (rshift 1 (lshift 0 0)) 0 + delta_mx 0 (rshift 1 (lshift 0 1)).

Lemma mul_one n (A B : 'M[C]_n) k i j :
  (A *m delta_mx k k *m B) i j = A i k * B k j.
Proof.
rewrite -(mul_delta_mx (0 : 'I_1)) mulmxA -mulmxA -colE -rowE mxE big_ord1.
by rewrite !mxE.
Qed.

Lemma skew_exchange : let core := core_only C 1 2 0 in
  let X := slice (\sum_n L_skew n *m core *m L_skew n) in X^T <> X.
Proof.
move=> core X H; move/matrixP: H => /(_ ord_max ord0).
have E : core = delta_mx (lshift _ 0) (lshift _ 0).
  rewrite /core /core_only; apply/matrixP => i j.
  case: (split_ordP i) => k ->; case: (split_ordP j) => l ->.
  - by rewrite block_mxEul !mxE !ord1 !eqxx.
  - by rewrite block_mxEur !mxE andbC.
  - by rewrite block_mxEdl !mxE.
  - by rewrite block_mxEdr !mxE.
rewrite /X !mxE !big_ord1 E !mul_one !mxE /=.
rewrite !(mul0r, mulr0, addr0, add0r, mulr1) => /eqP.
by rewrite ?oner_eq0 // eq_sym oner_eq0.
Qed.

End Constant.
