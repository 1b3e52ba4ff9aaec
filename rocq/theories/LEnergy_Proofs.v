(* Proofs about local energies. *)

From Verif Require Import Base.
Set Warnings "-notation-overridden,-ambiguous-paths".
From mathcomp Require Import all_ssreflect all_algebra.
From Verif Require Import LEnergy_Model LEnergy_Spec.

Set Implicit Arguments.
Unset Strict Implicit.
Unset Printing Implicit Defensive.

Import Order.TTheory GRing.Theory Num.Theory.
Local Open Scope ring_scope.

(* Ring identities, for the commutative rings of mathcomp. *)
Section RingFacts.
Variables (K : Type) (z o : K) (ad mu sb : K -> K -> K) (op : K -> K).
Hypothesis Kth : ring_theory z o ad mu sb op (@eq K).
Add Ring Kring : Kth.
Local Notation "x +' y" := (ad x y) (at level 50, left associativity).
Local Notation "x *' y" := (mu x y) (at level 40, left associativity).
Local Notation "-' x" := (op x) (at level 35, right associativity).

Lemma rf_pno h h0 a1 a0 b1 b0 d1 d0 k1 k0 l1 l0 :
  h0 +' h *' (a1 +' -' a0) +' h *' (b1 +' -' b0) +' (d1 +' -' d0)
  +' -' (h *' (k1 +' -' k0)) +' -' (h *' (l1 +' -' l0))
  = (h *' a1 +' h *' b1 +' d1 +' -' (h *' k1) +' -' (h *' l1))
    +' (h0 +' -' (h *' a0 +' h *' b0 +' d0 +' -' (h *' k0) +' -' (h *' l0))).
Proof. ring. Qed.

End RingFacts.

Lemma comring_th (R : comRingType) :
  ring_theory (0 : R) 1 +%R *%R (fun x y => x - y) -%R eq.
Proof.
split; [exact: add0r|exact: addrC|exact: addrA|exact: mul1r|exact: mulrC
  |exact: mulrA|exact: mulrDl|by []|exact: subrr].
Qed.

Section Flat.
Variables m n : nat.

Lemma flatK (i : 'I_m) (j : 'I_n) :
  (flat_row (flat i j) = i) * (flat_col (flat i j) = j).
Proof.
have n0 : (0 < n)%N by exact: leq_ltn_trans (leq0n j) (ltn_ord j).
split; apply: val_inj => /=.
  by rewrite divnMDl // divn_small ?addn0.
by rewrite modnMDl modn_small.
Qed.

Lemma flatE (x : 'I_(m * n)) : flat (flat_row x) (flat_col x) = x.
Proof. by apply: val_inj => /=; rewrite -divn_eq. Qed.

Lemma sum_flat (R : zmodType) (f : 'I_(m * n) -> R) :
  \sum_x f x = \sum_i \sum_j f (flat i j).
Proof.
rewrite (pair_big predT predT) /=.
rewrite (reindex (fun p : 'I_m * 'I_n => flat p.1 p.2)) //=.
exists (fun x => (flat_row x, flat_col x)) => x _ /=; last exact: flatE.
by rewrite !flatK; case: x.
Qed.

End Flat.

Section LE.
Variable C : numClosedFieldType.
Implicit Types (M naux na nb : nat).

Lemma half2 : half C + half C = 1.
Proof. by rewrite /half -mulrDl -mulr2n mulfV ?pnatr_eq0. Qed.

Lemma sum_prod_tr m n (A B : 'M[C]_(m, n)) : sum_prod A B = \tr (A *m B^T).
Proof.
by apply: eq_bigr => i _; rewrite mxE; apply: eq_bigr => j _; rewrite mxE.
Qed.

Lemma tr_mul m n (A : 'M[C]_(m, n)) (B : 'M[C]_(n, m)) : \tr (A *m B) = \sum_i \sum_j A i j * B j i.
Proof. by apply: eq_bigr => i _; rewrite mxE. Qed.

Lemma dot_ravel m n k (A : 'M[C]_(m * n, k)) (G : 'M[C]_(m, n)) x :
  (A^T *m ravel G) x 0 = \sum_i \sum_j A (flat i j) x * G i j.
Proof.
rewrite mxE sum_flat; apply: eq_bigr => i _; apply: eq_bigr => j _.
by rewrite !mxE !flatK.
Qed.

Section Rect.
Variables (M naux m n : nat).

Lemma sum4 (f : 'I_naux -> 'I_m -> 'I_M -> 'I_n -> 'I_M -> C) :
  \sum_p \sum_r \sum_q \sum_u \sum_x f x p r q u
  = \sum_x \sum_p \sum_r \sum_q \sum_u f x p r q u.
Proof.
rewrite [RHS]exchange_big /=; apply: eq_bigr => p _.
rewrite [RHS]exchange_big /=; apply: eq_bigr => r _.
rewrite [RHS]exchange_big /=; apply: eq_bigr => q _.
by rewrite [RHS]exchange_big.
Qed.

Variables (L1 : 'I_naux -> 'M[C]_(m, M)) (L2 : 'I_naux -> 'M[C]_(n, M)).
Variables (A : 'M[C]_(m, M)) (B : 'M[C]_(n, M)).

Lemma coul_rect :
  \sum_p \sum_r \sum_q \sum_u (\sum_x L1 x p r * L2 x q u) * A p r * B q u
  = \sum_x sum_prod (L1 x) A * sum_prod (L2 x) B.
Proof.
transitivity (\sum_p \sum_r \sum_q \sum_u \sum_x
    L1 x p r * L2 x q u * A p r * B q u).
  do 4 (apply: eq_bigr => ? _); by rewrite !mulr_suml.
rewrite sum4; apply: eq_bigr => x _; rewrite /sum_prod.
rewrite mulr_suml; apply: eq_bigr => p _; rewrite mulr_suml.
apply: eq_bigr => r _; rewrite mulr_sumr; apply: eq_bigr => q _.
rewrite mulr_sumr; apply: eq_bigr => u _.
by rewrite -mulrA mulrACA.
Qed.

Lemma exch_rect :
  \sum_p \sum_r \sum_q \sum_u (\sum_x L1 x p r * L2 x q u) * A p u * B q r
  = \sum_x \tr ((L1 x *m B^T) *m (L2 x *m A^T)).
Proof.
transitivity (\sum_p \sum_r \sum_q \sum_u \sum_x
    L1 x p r * L2 x q u * A p u * B q r).
  do 4 (apply: eq_bigr => ? _); by rewrite !mulr_suml.
rewrite sum4; apply: eq_bigr => x _.
rewrite tr_mul; apply: eq_bigr => p _.
rewrite exchange_big /=; apply: eq_bigr => q _.
rewrite !mxE mulr_suml; apply: eq_bigr => r _.
rewrite mulr_sumr; apply: eq_bigr => u _.
by rewrite !mxE -mulrA [A p u * _]mulrC mulrACA.
Qed.

End Rect.

Section Basis.
Variables (M naux : nat) (sys : system C M naux).

Definition Lx (x : 'I_naux) : 'M[C]_M :=
  \matrix_(i, k) chol_vecs sys (flat i k) x.

Definition coulx (A B : 'M[C]_M) : C :=
  \sum_x \tr (Lx x *m A^T) * \tr (Lx x *m B^T).
Definition exchx (A B : 'M[C]_M) : C :=
  \sum_x \tr ((Lx x *m A^T) *m (Lx x *m B^T)).

Lemma coulxC A B : coulx A B = coulx B A.
Proof. by apply: eq_bigr => x _; rewrite mulrC. Qed.

Lemma X_tr (A : 'M[C]_M) x :
  ((chol_vecs sys)^T *m ravel A) x 0 = \tr (Lx x *m A^T).
Proof.
rewrite dot_ravel -sum_prod_tr.
by apply: eq_bigr => i _; apply: eq_bigr => j _; rewrite mxE.
Qed.

Lemma dot_X (A B : 'M[C]_M) :
  dot ((chol_vecs sys)^T *m ravel A) ((chol_vecs sys)^T *m ravel B)
  = coulx A B.
Proof. by apply: eq_bigr => x _; rewrite !X_tr. Qed.

Definition v4 (p r q u : 'I_M) : C := hijkl sys p q r u.

Lemma v4E p r q u : v4 p r q u = \sum_x Lx x p r * Lx x q u.
Proof. by apply: eq_bigr => x _; rewrite !mxE. Qed.

Lemma coul_v4 (A B : 'M[C]_M) :
  \sum_p \sum_r \sum_q \sum_u v4 p r q u * A p r * B q u = coulx A B.
Proof.
transitivity (\sum_p \sum_r \sum_q \sum_u
    (\sum_x Lx x p r * Lx x q u) * A p r * B q u).
  by do 4 (apply: eq_bigr => ? _); rewrite v4E.
by rewrite coul_rect; apply: eq_bigr => x _; rewrite !sum_prod_tr.
Qed.

Lemma exch_v4 (A B : 'M[C]_M) :
  \sum_p \sum_r \sum_q \sum_u v4 p r q u * A p u * B q r = exchx A B.
Proof.
transitivity (\sum_p \sum_r \sum_q \sum_u
    (\sum_x Lx x p r * Lx x q u) * A p u * B q r).
  by do 4 (apply: eq_bigr => ? _); rewrite v4E.
by rewrite exch_rect; apply: eq_bigr => x _; rewrite mxtrace_mulC.
Qed.

Lemma exx_T (G : 'M[C]_M) :
  \sum_l \sum_k \sum_n
    (\sum_i G i l * chol_vecs sys (flat i k) n)
    * (\sum_i G i k * chol_vecs sys (flat i l) n) = exchx G G.
Proof.
transitivity (\sum_l \sum_k \sum_n (G^T *m Lx n) l k * (G^T *m Lx n) k l).
  do 3 (apply: eq_bigr => ? _).
  by rewrite !mxE; congr (_ * _); apply: eq_bigr => i _; rewrite !mxE.
rewrite /exchx [LHS]pair_big /= exchange_big /=; apply: eq_bigr => x _.
rewrite -(pair_big xpredT xpredT
            (fun l k => (G^T *m Lx x) l k * (G^T *m Lx x) k l)) /=.
by rewrite -tr_mul -[in RHS]mulmxA [in RHS]mxtrace_mulC !mulmxA.
Qed.

(* A half-rotated matrix: conj(psi)^T L. *)
Lemma rotateE n (psi : 'M[C]_(M, n)) a k x :
  rotate psi sys (flat a k) x = ((map_mx conjC psi)^T *m Lx x) a k.
Proof.
by rewrite !mxE !flatK; apply: eq_bigr => m _; rewrite !mxE.
Qed.

Lemma X_half n (psi : 'M[C]_(M, n)) (Gh : 'M[C]_(n, M)) x :
  ((rotate psi sys)^T *m ravel Gh) x 0
  = \tr (Lx x *m (map_mx conjC psi *m Gh)^T).
Proof.
rewrite dot_ravel trmx_mul mulmxA mxtrace_mulC mulmxA -sum_prod_tr.
by apply: eq_bigr => i _; apply: eq_bigr => j _; rewrite rotateE.
Qed.

Lemma exx_half_right n (psi : 'M[C]_(M, n)) (Gh : 'M[C]_(n, M)) :
  exx_half (rotate psi sys) Gh
  = exchx (map_mx conjC psi *m Gh) (map_mx conjC psi *m Gh).
Proof.
apply: eq_bigr => x _.
have E : reshape (row x (rotate psi sys)^T) = (map_mx conjC psi)^T *m Lx x.
  by apply/matrixP => a k; rewrite [LHS]mxE ![in LHS]mxE -rotateE mxE.
rewrite E -tr_mul trmx_mul -!mulmxA mxtrace_mulC.
by rewrite !mulmxA.
Qed.

End Basis.

Section Wick.
Variable M : nat.
Variable v : 'I_M -> 'I_M -> 'I_M -> 'I_M -> C.

Definition coul4 (A B : 'M[C]_M) : C :=
  \sum_p \sum_r \sum_q \sum_u v p r q u * A p r * B q u.
Definition exch4 (A B : 'M[C]_M) : C :=
  \sum_p \sum_r \sum_q \sum_u v p r q u * A p u * B q r.

Lemma wick_same (A B : 'M[C]_M) :
  \sum_p \sum_r \sum_q \sum_u v p r q u * (A p r * B q u - A p u * B q r)
  = coul4 A B - exch4 A B.
Proof.
rewrite -sumrB; apply: eq_bigr => p _; rewrite -sumrB; apply: eq_bigr => r _.
rewrite -sumrB; apply: eq_bigr => q _; rewrite -sumrB; apply: eq_bigr => u _.
by rewrite mulrBr !mulrA.
Qed.

Lemma wick_opp (A B : 'M[C]_M) :
  \sum_p \sum_r \sum_q \sum_u v p r q u * (A p r * B q u - 0) = coul4 A B.
Proof. by do 4 (apply: eq_bigr => ? _); rewrite subr0 mulrA. Qed.

Lemma wick2E (G : 'M[C]_M * 'M[C]_M) :
  wick2 v G = half C * (coul4 G.1 G.1 - exch4 G.1 G.1)
            + half C * (coul4 G.2 G.2 - exch4 G.2 G.2)
            + half C * coul4 G.1 G.2 + half C * coul4 G.2 G.1.
Proof.
have E (h a b c d : C) :
  h * ((b + d) + (c + a)) = h * a + h * b + h * c + h * d.
  by rewrite -!mulrDr addrC [c + a]addrC addrACA addrA.
by rewrite /wick2 !big_bool /= !wick_same !wick_opp; exact: E.
Qed.

Lemma wick1E (h G : 'M[C]_M * 'M[C]_M) :
  wick1 h G = sum_prod h.1 G.1 + sum_prod h.2 G.2.
Proof. by rewrite /wick1 big_bool /= addrC. Qed.

Lemma generic_right h ecore G :
  local_energy_generic h v G ecore = energies h v ecore G.
Proof. by rewrite /energies wick2E wick1E. Qed.

End Wick.

Section Agree.
Variables (M naux : nat) (sys : system C M naux).

Local Notation v := (fun p r q u : 'I_M => hijkl sys p q r u).

Definition two_form (Ga Gb : 'M[C]_M) : C :=
  half C * (coulx sys Ga Ga + coulx sys Gb Gb + 2%:R * coulx sys Ga Gb
            - (exchx sys Ga Ga + exchx sys Gb Gb)).

Lemma wick2_form G : wick2 v G = two_form G.1 G.2.
Proof.
rewrite wick2E /coul4 /exch4 !(coul_v4 sys) !(exch_v4 sys).
rewrite (coulxC sys G.2 G.1) /two_form.
have E (a b c d e : C) : half C * (a - d) + half C * (b - e) + half C * c
    + half C * c = half C * (a + b + 2%:R * c - (d + e)).
  rewrite -!mulrDr; congr (_ * _).
  by rewrite addrACA -opprD -addrA addrAC mulr_natl mulr2n.
exact: E.
Qed.

Lemma cholesky_right G :
  local_energy_generic_cholesky sys G = energies (H1 sys) v (ecore sys) G.
Proof.
by rewrite /local_energy_generic_cholesky !dot_X !exx_T
   /energies wick2_form wick1E.
Qed.

Variables na nb : nat.

Lemma opt_right (psia : 'M[C]_(M, na)) (psib : 'M[C]_(M, nb)) Gha Ghb :
  let G := (map_mx conjC psia *m Gha, map_mx conjC psib *m Ghb) in
  local_energy_generic_cholesky_opt sys G (Gha, Ghb)
    (half_rotate psia psib sys)
  = energies (H1 sys) v (ecore sys) G.
Proof.
move=> G; rewrite /local_energy_generic_cholesky_opt /local_energy_2body /=.
rewrite /half_rotate col_mxKu col_mxKd !exx_half_right.
have D m n (p1 : 'M[C]_(M, m)) g1 (p2 : 'M[C]_(M, n)) g2 :
  dot ((rotate p1 sys)^T *m ravel g1) ((rotate p2 sys)^T *m ravel g2)
  = coulx sys (map_mx conjC p1 *m g1) (map_mx conjC p2 *m g2).
  by apply: eq_bigr => x _; rewrite !X_half.
by rewrite !D /energies wick2_form wick1E.
Qed.

Lemma reshape4K m n (w : 'I_m -> 'I_M -> 'I_n -> 'I_M -> C) i p j q :
  reshape4 (ravel4 w) i p j q = w i p j q.
Proof. by rewrite /reshape4 mxE !flatK. Qed.

Lemma vipjqE m n (A : 'M[C]_(M, m)) (B : 'M[C]_(M, n)) i p j q :
  vipjq A B sys i p j q
  = \sum_x ((map_mx conjC A)^T *m Lx sys x) i p
           * ((map_mx conjC B)^T *m Lx sys x) j q.
Proof.
rewrite /vipjq; under eq_bigr do rewrite exchange_big /=.
rewrite exchange_big /=; apply: eq_bigr => x _.
rewrite !mxE mulr_suml; apply: eq_bigr => k _.
rewrite mulr_sumr; apply: eq_bigr => r _; rewrite !mxE.
by rewrite -mulrA mulrACA; congr (_ * _); rewrite mulrC.
Qed.

Lemma J_half m n (A : 'M[C]_(M, m)) (B : 'M[C]_(M, n)) (g : 'M[C]_(m, M))
    (h : 'M[C]_(n, M)) :
  \sum_i \sum_r \sum_j \sum_s vipjq A B sys i r j s * g i r * h j s
  = coulx sys (map_mx conjC A *m g) (map_mx conjC B *m h).
Proof.
transitivity (\sum_i \sum_r \sum_j \sum_s
  (\sum_x ((map_mx conjC A)^T *m Lx sys x) i r
         * ((map_mx conjC B)^T *m Lx sys x) j s) * g i r * h j s).
  by do 4 (apply: eq_bigr => ? _); rewrite vipjqE.
rewrite coul_rect; apply: eq_bigr => x _; rewrite !sum_prod_tr.
by rewrite !trmx_mul !mulmxA; congr (_ * _);
   rewrite [RHS]mxtrace_mulC !mulmxA.
Qed.

Lemma K_half m (A : 'M[C]_(M, m)) (g : 'M[C]_(m, M)) :
  \sum_i \sum_r \sum_j \sum_s vipjq A A sys i r j s * g i s * g j r
  = exchx sys (map_mx conjC A *m g) (map_mx conjC A *m g).
Proof.
transitivity (\sum_i \sum_r \sum_j \sum_s
  (\sum_x ((map_mx conjC A)^T *m Lx sys x) i r
         * ((map_mx conjC A)^T *m Lx sys x) j s) * g i s * g j r).
  by do 4 (apply: eq_bigr => ? _); rewrite vipjqE.
rewrite exch_rect; apply: eq_bigr => x _.
by rewrite !trmx_mul -!mulmxA mxtrace_mulC !mulmxA.
Qed.

Lemma five_terms (a b c d e : C) :
  half C * a + half C * b + c + - (half C * d) + - (half C * e)
  = half C * (a + b + 2%:R * c - (d + e)).
Proof.
rewrite !mulrDr mulrN mulrDr opprD !addrA.
by rewrite [half C * (2%:R * c)]mulrA /half mul1r mulVf ?pnatr_eq0 // mul1r.
Qed.

Lemma exact_right (psia : 'M[C]_(M, na)) (psib : 'M[C]_(M, nb)) Gha Ghb :
  let G := (map_mx conjC psia *m Gha, map_mx conjC psib *m Ghb) in
  local_energy_generic_opt sys G (Gha, Ghb) (exact_eri psia psib sys)
  = energies (H1 sys) v (ecore sys) G.
Proof.
move=> G; rewrite /local_energy_generic_opt /exact_eri /=.
rewrite !(row_mxKl, row_mxKr).
have J m n (A : 'M[C]_(M, m)) (B : 'M[C]_(M, n)) (g : 'M[C]_(m, M))
    (h : 'M[C]_(n, M)) :
  \sum_i \sum_r \sum_j \sum_s
    reshape4 (ravel4 (vipjq A B sys)) i r j s * g i r * h j s
  = coulx sys (map_mx conjC A *m g) (map_mx conjC B *m h).
  by rewrite -J_half; do 4 (apply: eq_bigr => ? _); rewrite reshape4K.
have K m (A : 'M[C]_(M, m)) (g : 'M[C]_(m, M)) :
  \sum_i \sum_r \sum_j \sum_s
    reshape4 (ravel4 (vipjq A A sys)) i r j s * g i s * g j r
  = exchx sys (map_mx conjC A *m g) (map_mx conjC A *m g).
  by rewrite -K_half; do 4 (apply: eq_bigr => ? _); rewrite reshape4K.
by rewrite !J !K /energies wick2_form wick1E !mulNr five_terms.
Qed.

(* PNO *)

Lemma thetaUVE (u : 'rV[C]_M) (f : uvt C M) (w : 'rV[C]_M) : thetaUV u f w = (u *m uvt_prod f *m w^T) 0 0.
Proof.
case: f => k [U VT] /=; rewrite mulmxA -mulmxA mxE; apply: eq_bigr => x _.
by congr (_ * _); rewrite !mxE; apply: eq_bigr => p _; rewrite !mxE mulrC.
Qed.

Local Notation vmat A B := (Vab A B sys).

Lemma bilin (V : 'M[C]_M) (u w : 'rV[C]_M) :
  (u *m V *m w^T) 0 0 = \sum_p \sum_q V p q * u 0 p * w 0 q.
Proof.
rewrite mxE; under eq_bigr do rewrite !mxE mulr_suml.
rewrite exchange_big /=; apply: eq_bigr => p _; apply: eq_bigr => q _.
by rewrite [u 0 p * _]mulrC.
Qed.

Lemma zip_prod m n (ijs : seq ('I_m * 'I_n)) fs (V : 'I_m * 'I_n -> 'M[C]_M)
    (T : Type) (g : T -> 'I_m * 'I_n -> 'M[C]_M -> T) e :
  map uvt_prod fs = map V ijs ->
  foldl (fun e x => g e x.1 (uvt_prod x.2)) e (zip ijs fs)
  = foldl (fun e ij => g e ij (V ij)) e ijs.
Proof.
elim: ijs fs e => [|ij ijs IH] [|f fs] e //= [E1 E2].
by rewrite E1 IH.
Qed.

Lemma foldl_sum (T : Type) (f g : T -> C) l e :
  foldl (fun e x => (e.1 + f x, e.2 - g x)) e l
  = (e.1 + \sum_(x <- l) f x, e.2 - \sum_(x <- l) g x).
Proof.
elim: l e => [|x l IH] e /=; first by rewrite !big_nil addr0 subr0; case: e.
by rewrite IH /= !big_cons -!addrA opprD.
Qed.

Lemma upper_half n (F : 'I_n -> 'I_n -> C) :
  (forall i j, F i j = F j i) ->
  \sum_(ij <- ij_same n) (if ij.1 == ij.2 then half C else 1) * F ij.1 ij.2
  = half C * \sum_i \sum_j F i j.
Proof.
move=> sF; rewrite /ij_same big_allpairs_dep /= !big_enum /=.
have Eq1 (i : 'I_n) : \sum_(j <- [seq j <- enum 'I_n | (val i <= val j)%N])
    (if i == j then half C else 1) * F i j
  = half C * (\sum_(j : 'I_n | (i <= j)%N) F i j + \sum_(j : 'I_n | (i < j)%N) F i j).
  rewrite big_filter big_enum_cond /= [X in _ + X]big_mkcond [X in X + _]big_mkcond.
  rewrite [LHS]big_mkcond -big_split big_distrr /=; apply: eq_bigr => j _.
  rewrite leq_eqVlt -[_ == _]/(i == j); case: eqP => [->|ne] /=.
    by rewrite ltnn addr0.
  case: ltnP => _; last by rewrite addr0 mulr0.
  by rewrite mul1r -[F i j in LHS]mul1r -half2 mulrDl mulrDr.
rewrite (eq_bigr _ (fun i _ => Eq1 i)) -big_distrr /=; congr (_ * _).
rewrite big_split /= [X in _ + X](exchange_big_dep predT) //=.
rewrite -big_split /=; apply: eq_bigr => i _.
rewrite [RHS](bigID (fun j : 'I_n => (i <= j)%N)) /=; congr (_ + _).
by apply: eq_big => j; [rewrite -ltnNge|rewrite sF].
Qed.

Lemma pno_same_right n (psi : 'M[C]_(M, n)) (Gh GT : 'M[C]_(n, M)) fs :
  map uvt_prod fs = map (vmat psi psi) (ij_same n) ->
  let J g := coulx sys (map_mx conjC psi *m g) (map_mx conjC psi *m g) in
  let K g := exchx sys (map_mx conjC psi *m g) (map_mx conjC psi *m g) in
  pno_same Gh GT (ij_same n) fs
  = (half C * (J Gh - J GT), - (half C * (K Gh - K GT))).
Proof.
move=> hf J K; rewrite /pno_same.
pose c (ij : 'I_n * 'I_n) := if ij.1 == ij.2 then half C else 1.
pose FJ (g : 'M[C]_(n, M)) (ij : 'I_n * 'I_n) V := (row ij.1 g *m V *m (row ij.2 g)^T) 0 0 : C.
pose FK (g : 'M[C]_(n, M)) (ij : 'I_n * 'I_n) V := (row ij.2 g *m V *m (row ij.1 g)^T) 0 0 : C.
transitivity (foldl (fun (e : C * C) (x : 'I_n * 'I_n * uvt C M) =>
   (e.1 + c x.1 * (FJ Gh x.1 (uvt_prod x.2) - FJ GT x.1 (uvt_prod x.2)),
    e.2 - c x.1 * (FK Gh x.1 (uvt_prod x.2) - FK GT x.1 (uvt_prod x.2))))
   (0, 0) (zip (ij_same n) fs)).
  elim: (zip _ _) (0, 0) => [|[[i j] f] l IH] e //=.
  by rewrite !thetaUVE; exact: IH.
rewrite (@zip_prod _ _ (ij_same n) fs _ _ (fun (e : C * C) ij V =>
   (e.1 + c ij * (FJ Gh ij V - FJ GT ij V),
    e.2 - c ij * (FK Gh ij V - FK GT ij V))) (0, 0) hf).
rewrite foldl_sum /= add0r sub0r.
have sv i p j q : vipjq psi psi sys i p j q = vipjq psi psi sys j q i p.
  by rewrite !vipjqE; apply: eq_bigr => x _; rewrite mulrC.
have JE g i j : FJ g (i, j) (vmat psi psi (i, j))
  = \sum_p \sum_q vipjq psi psi sys i p j q * g i p * g j q.
  by rewrite /FJ bilin; do 2 (apply: eq_bigr => ? _); rewrite !mxE.
have KE g i j : FK g (i, j) (vmat psi psi (i, j))
  = \sum_p \sum_q vipjq psi psi sys i p j q * g j p * g i q.
  by rewrite /FK bilin; do 2 (apply: eq_bigr => ? _); rewrite !mxE.
have JS g : \sum_i \sum_j FJ g (i, j) (vmat psi psi (i, j)) = J g.
  rewrite /J -J_half; apply: eq_bigr => i _.
  rewrite [RHS]exchange_big /=; apply: eq_bigr => j _; exact: JE.
have KS g : \sum_i \sum_j FK g (i, j) (vmat psi psi (i, j)) = K g.
  rewrite /K -K_half; apply: eq_bigr => i _.
  rewrite [RHS]exchange_big /=; apply: eq_bigr => j _; rewrite KE.
  by do 2 (apply: eq_bigr => ? _); rewrite mulrAC.
have JC g i j : FJ g (i, j) (vmat psi psi (i, j)) = FJ g (j, i) (vmat psi psi (j, i)).
  rewrite !JE exchange_big /=; do 2 (apply: eq_bigr => ? _).
  by rewrite sv mulrAC.
have KC g i j : FK g (i, j) (vmat psi psi (i, j)) = FK g (j, i) (vmat psi psi (j, i)).
  rewrite !KE exchange_big /=; do 2 (apply: eq_bigr => ? _).
  by rewrite sv mulrAC.
have US (F : (('I_n * 'I_n) -> C) ) : (forall i j, F (i, j) = F (j, i)) ->
  \sum_(ij <- ij_same n) c ij * F ij = half C * \sum_i \sum_j F (i, j).
  move=> sF; rewrite -(upper_half (F := fun i j => F (i, j))) //.
  by apply: eq_bigr => -[i j] _.
congr (_, - _).
- rewrite (US (fun ij => FJ Gh ij (vmat psi psi ij) - FJ GT ij (vmat psi psi ij))).
    by congr (_ * _); rewrite -!JS -sumrB; apply: eq_bigr => i _; rewrite -sumrB.
  by move=> i j; rewrite JC [X in _ - X]JC.
- rewrite (US (fun ij => FK Gh ij (vmat psi psi ij) - FK GT ij (vmat psi psi ij))).
    by congr (_ * _); rewrite -!KS -sumrB; apply: eq_bigr => i _; rewrite -sumrB.
  by move=> i j; rewrite KC [X in _ - X]KC.
Qed.

Lemma foldl_sum1 (T : Type) (f : T -> C) l e :
  foldl (fun e x => e + f x) e l = e + \sum_(x <- l) f x.
Proof.
elim: l e => [|x l IH] e /=; first by rewrite big_nil addr0.
by rewrite IH /= big_cons -addrA.
Qed.

Lemma pno_opp_right (psia : 'M[C]_(M, na)) (psib : 'M[C]_(M, nb))
    (Gh GT : 'M[C]_(na, M) * 'M[C]_(nb, M)) fs :
  map uvt_prod fs = map (vmat psia psib) (ij_opp na nb) ->
  let J (g : 'M[C]_(na, M) * 'M[C]_(nb, M)) :=
    coulx sys (map_mx conjC psia *m g.1) (map_mx conjC psib *m g.2) in
  pno_opp Gh GT (ij_opp na nb) fs = J Gh - J GT.
Proof.
move=> hf J; rewrite /pno_opp.
pose FJ (g : 'M[C]_(na, M) * 'M[C]_(nb, M)) (ij : 'I_na * 'I_nb) V :=
  (row ij.1 g.1 *m V *m (row ij.2 g.2)^T) 0 0 : C.
transitivity (foldl (fun (e : C) (x : 'I_na * 'I_nb * uvt C M) =>
   e + (FJ Gh x.1 (uvt_prod x.2) - FJ GT x.1 (uvt_prod x.2)))
   0 (zip (ij_opp na nb) fs)).
  elim: (zip _ _) (0 : C) => [|[[i j] f] l IH] e //=.
  by rewrite !thetaUVE; exact: IH.
rewrite (@zip_prod _ _ (ij_opp na nb) fs _ _ (fun (e : C) ij V =>
   e + (FJ Gh ij V - FJ GT ij V)) 0 hf).
rewrite foldl_sum1 add0r /ij_opp big_allpairs /= big_enum /=.
have JE g : \sum_i \sum_j FJ g (i, j) (vmat psia psib (i, j)) = J g.
  rewrite /J -J_half; apply: eq_bigr => i _.
  rewrite [RHS]exchange_big /=; apply: eq_bigr => j _.
  by rewrite /FJ bilin; do 2 (apply: eq_bigr => ? _); rewrite !mxE.
rewrite -!JE -sumrB; apply: eq_bigr => i _.
by rewrite -sumrB big_enum.
Qed.

Lemma pno_general (psia : 'M[C]_(M, na)) (psib : 'M[C]_(M, nb)) Gha Ghb
    (C0 : 'M[C]_(M, na) * 'M[C]_(M, nb)) e0 UVT :
  map uvt_prod UVT.1.1 = map (vmat psia psia) (ij_same na) ->
  map uvt_prod UVT.1.2 = map (vmat psib psib) (ij_same nb) ->
  map uvt_prod UVT.2 = map (vmat psia psib) (ij_opp na nb) ->
  let G := (map_mx conjC psia *m Gha, map_mx conjC psib *m Ghb) in
  let G0 := (map_mx conjC psia *m C0.1^T, map_mx conjC psib *m C0.2^T) in
  let e2 := wick2 v G + (half C * (e0.1.1 - e0.1.2 - e0.2) - wick2 v G0) in
  local_energy_generic_pno sys G (Gha, Ghb) C0 e0 UVT
  = (wick1 (H1 sys) G + e2 + ecore sys, wick1 (H1 sys) G + ecore sys, e2).
Proof.
case: UVT => [[fa fb] fab]; case: e0 => [[c0 xa0] xb0] /= ha hb hab.
rewrite /local_energy_generic_pno (pno_same_right _ _ ha) (pno_same_right _ _ hb).
rewrite (pno_opp_right _ _ hab) /= !wick2_form wick1E /two_form /=.
set h0 := half C * (c0 - xa0 - xb0).
set a1 := coulx _ _ _; set a0 := coulx _ _ _.
set b1 := coulx _ _ _; set b0 := coulx _ _ _.
set d1 := coulx _ _ _; set d0 := coulx _ _ _.
set k1 := exchx _ _ _; set k0 := exchx _ _ _.
set l1 := exchx _ _ _; set l0 := exchx _ _ _.
have -> : h0 + half C * (a1 - a0) + half C * (b1 - b0) + (d1 - d0)
   + - (half C * (k1 - k0)) + - (half C * (l1 - l0))
  = half C * (a1 + b1 + 2%:R * d1 - (k1 + l1))
    + (h0 - half C * (a0 + b0 + 2%:R * d0 - (k0 + l0))).
  by rewrite -!five_terms; exact: (rf_pno (comring_th C)).
by [].
Qed.

Lemma pno_right (psia : 'M[C]_(M, na)) (psib : 'M[C]_(M, nb)) Gha Ghb
    (C0 : 'M[C]_(M, na) * 'M[C]_(M, nb)) UVT :
  map uvt_prod UVT.1.1 = map (vmat psia psia) (ij_same na) ->
  map uvt_prod UVT.1.2 = map (vmat psib psib) (ij_same nb) ->
  map uvt_prod UVT.2 = map (vmat psia psib) (ij_opp na nb) ->
  let G := (map_mx conjC psia *m Gha, map_mx conjC psib *m Ghb) in
  local_energy_generic_pno sys G (Gha, Ghb) C0
    (local_energy_2body (half_rotate psia psib sys) (C0.1^T, C0.2^T)) UVT
  = energies (H1 sys) v (ecore sys) G.
Proof.
move=> ha hb hab G; rewrite (pno_general _ _ _ _ ha hb hab) /energies.
suff E : half C *
  ((local_energy_2body (half_rotate psia psib sys) (C0.1^T, C0.2^T)).1.1 -
   (local_energy_2body (half_rotate psia psib sys) (C0.1^T, C0.2^T)).1.2 -
   (local_energy_2body (half_rotate psia psib sys) (C0.1^T, C0.2^T)).2)
  = wick2 v (map_mx conjC psia *m C0.1^T, map_mx conjC psib *m C0.2^T).
  by rewrite E subrr addr0.
have := opt_right psia psib C0.1^T C0.2^T.
rewrite /local_energy_generic_cholesky_opt /energies.
case: (local_energy_2body _ _) => [[c xa] xb] /= [_ _ <-].
by rewrite opprD addrA.
Qed.


(* The dispatcher and the walker *)
Lemma walker_right (psia : 'M[C]_(M, na)) (psib : 'M[C]_(M, nb)) Gha Ghb
    (C0 : 'M[C]_(M, na) * 'M[C]_(M, nb)) UVT sw rest :
  map uvt_prod UVT.1.1 = map (vmat psia psia) (ij_same na) ->
  map uvt_prod UVT.1.2 = map (vmat psib psib) (ij_same nb) ->
  map uvt_prod UVT.2 = map (vmat psia psib) (ij_opp na nb) ->
  let G := (map_mx conjC psia *m Gha, map_mx conjC psib *m Ghb) in
  (2 <= na * M)%N ->
  walker_local_energy sys sw rest G (Gha, Ghb) (half_rotate psia psib sys)
    (exact_eri psia psib sys) C0
    (local_energy_2body (half_rotate psia psib sys) (C0.1^T, C0.2^T)) UVT
  = if stochastic_ri sw then
      Err (if control_variate sw then AttributeError else ValueError)
    else if pno sw && ~~ (exact sw && control_variate sw) then
      Err AssertionError
    else if control_variate sw && ~~ exact sw then Err TypeError
    else Ok (energies (H1 sys) v (ecore sys) G).
Proof.
move=> ha hb hab G h2; rewrite /walker_local_energy /local_energy.
rewrite /stochastic_call h2 !exact_right !opt_right !(pno_right _ _ _ ha hb hab).
by case: sw => -[] [] [] [].
Qed.

End Agree.

(* Random signs *)
Section Signs.
Variables m n : nat.

Lemma card_signs0 : #|{: {ffun 'I_m * 'I_n -> bool}}|%:R != 0 :> C.
Proof.
by rewrite pnatr_eq0 -lt0n; apply/card_gt0P; exists [ffun _ => true].
Qed.

Lemma mean_const c : mean (fun _ : 'M[C]_(m, n) => c) = c.
Proof.
rewrite /mean sumr_const -[X in X / _]mulr_natr -mulrA mulfV ?mulr1 //.
exact: card_signs0.
Qed.

Lemma mean_ext (f g : 'M[C]_(m, n) -> C) : (forall t, f t = g t) -> mean f = mean g.
Proof. by move=> E; rewrite /mean; congr (_ / _); apply: eq_bigr => s _. Qed.

Lemma mean_sum I (r : seq I) (P : pred I) (f : I -> 'M[C]_(m, n) -> C) :
  mean (fun t => \sum_(i <- r | P i) f i t) = \sum_(i <- r | P i) mean (f i).
Proof. by rewrite /mean exchange_big mulr_suml. Qed.

Lemma mean_add (f g : 'M[C]_(m, n) -> C) :
  mean (fun t => f t + g t) = mean f + mean g.
Proof. by rewrite /mean big_split mulrDl. Qed.

Lemma mean_scale c (f : 'M[C]_(m, n) -> C) :
  mean (fun t => c * f t) = c * mean f.
Proof. by rewrite /mean -mulr_sumr mulrA. Qed.

Lemma mean_signs x y s :
  mean (fun t : 'M[C]_(m, n) => t x s * t y s) = (x == y)%:R.
Proof.
case: eqP => [->|ne] /=.
  rewrite -[RHS](mean_const 1) /mean; congr (_ / _); apply: eq_bigr => t _.
  by rewrite !mxE -expr2 sqrr_sign.
pose flip (t : {ffun 'I_m * 'I_n -> bool}) : {ffun 'I_m * 'I_n -> bool} :=
  [ffun p => if p == (x, s) then ~~ t p else t p].
have flipK : involutive flip.
  move=> t; apply/ffunP => p; rewrite !ffunE; case: eqP => // _.
  exact: negbK.
have E : \sum_(t : {ffun 'I_m * 'I_n -> bool})
    signs C t x s * signs C t y s
  = - \sum_(t : {ffun 'I_m * 'I_n -> bool}) signs C t x s * signs C t y s.
  rewrite {1}(reindex_inj (inv_inj flipK)) /= -sumrN; apply: eq_bigr => t _.
  rewrite !mxE !ffunE eqxx xpair_eqE; case: eqP => [e|_] /=.
    by case: ne.
  by rewrite signrN mulNr.
rewrite /mean; suff -> : \sum_(t : {ffun 'I_m * 'I_n -> bool})
    signs C t x s * signs C t y s = 0 by rewrite mul0r.
by move/eqP: E; rewrite -subr_eq0 opprK -mulr2n mulrn_eq0 /= => /eqP.
Qed.

End Signs.

(* The stochastic exchange energy *)
Section Stochastic.
Variables (M naux : nat) (sys : system C M naux).
Variables (na nb ns : nat).

Lemma exx_sampleE n (r : 'M[C]_(n * M, naux)) (g : 'M[C]_(n, M)) theta sq :
  let R x := reshape (row x r^T) *m g^T in
  exx_sample (sample r theta sq) g
  = \sum_(s < ns) \sum_x \sum_y
      sq * sq * \tr (R x *m R y) * (theta x s * theta y s).
Proof.
move=> R; apply: eq_bigr => s _.
have E : reshape (row s (sample r theta sq)^T) *m g^T
  = \sum_x (sq * theta x s) *: R x.
  apply/matrixP => a b; rewrite summxE !mxE.
  transitivity (\sum_k \sum_x sq * theta x s * (r (flat a k) x * g b k)).
    apply: eq_bigr => k _; rewrite !mxE mulr_sumr mulr_suml.
    apply: eq_bigr => x _.
    by rewrite -!mulrA; congr (_ * _); rewrite mulrCA.
  rewrite exchange_big /=; apply: eq_bigr => x _; rewrite !mxE mulr_sumr.
  by apply: eq_bigr => k _; rewrite !mxE.
rewrite -tr_mul E mulmx_suml raddf_sum; apply: eq_bigr => x _ /=.
rewrite mulmx_sumr raddf_sum; apply: eq_bigr => y _ /=.
rewrite -scalemxAl -scalemxAr scalerA mxtraceZ.
by rewrite mulrACA [_ * \tr _]mulrAC.
Qed.

Lemma exx_sample_mean n (r : 'M[C]_(n * M, naux)) (g : 'M[C]_(n, M)) sq :
  sq * sq * ns%:R = 1 ->
  mean (fun theta : 'M[C]_(naux, ns) => exx_sample (sample r theta sq) g)
  = exx_half r g.
Proof.
move=> hsq; rewrite (mean_ext (exx_sampleE r g ^~ sq)) mean_sum.
pose R x := reshape (row x r^T) *m g^T.
transitivity (\sum_(s < ns) \sum_x sq * sq * \tr (R x *m R x)).
  apply: eq_bigr => s _; rewrite mean_sum; apply: eq_bigr => x _.
  rewrite mean_sum (bigD1 x) //= big1 ?addr0.
    by rewrite mean_scale mean_signs eqxx mulr1.
  by move=> y ne; rewrite mean_scale mean_signs eq_sym (negbTE ne) mulr0.
rewrite sumr_const card_ord -mulr_sumr -mulr_natr mulrAC hsq mul1r.
by apply: eq_bigr => x _; rewrite tr_mul.
Qed.

Lemma stochastic_right (psia : 'M[C]_(M, na)) (psib : 'M[C]_(M, nb)) Gha Ghb
    sq control :
  (0 < ns)%N -> sq * sq * ns%:R = 1 ->
  (forall c, control = Some c ->
     c.2 = (exx_half (rotate psia sys) c.1.1^T, exx_half (rotate psib sys) c.1.2^T)) ->
  let G := (map_mx conjC psia *m Gha, map_mx conjC psib *m Ghb) in
  let v := fun p r q u => hijkl sys p q r u in
  exists E : 'M[C]_(naux, ns) -> C * C * C,
  [/\ forall theta, local_energy_stochastic sys G (Gha, Ghb)
        (rotate psia sys) (rotate psib sys) control theta sq = Ok (E theta),
      forall theta, (E theta).1.2 = (energies (H1 sys) v (ecore sys) G).1.2,
      mean (fun theta => (E theta).2) = (energies (H1 sys) v (ecore sys) G).2 &
      mean (fun theta => (E theta).1.1) = (energies (H1 sys) v (ecore sys) G).1.1].
Proof.
move=> ns0 hsq hc G v.
have := opt_right sys psia psib Gha Ghb.
rewrite /local_energy_generic_cholesky_opt /local_energy_2body /half_rotate.
rewrite col_mxKu col_mxKd /= -/G => EG0.
have {EG0} EG : _ = energies (H1 sys) v (ecore sys) G := EG0.
rewrite /local_energy_stochastic /= (gtn_eqF ns0).
set ra := rotate psia sys in EG hc *; set rb := rotate psib sys in EG hc *.
set ec := _ + 2%:R * _ in EG *.
pose ex n (r : 'M[C]_(n * M, naux)) (g : 'M[C]_(n, M)) (t : 'M[C]_(naux, ns)) :=
  exx_sample (sample r t sq) g.
pose X theta : C := match control with
    | Some ((c0a, c0b), (xa0, xb0)) =>
        (xa0 + (ex _ ra Gha theta - ex _ ra c0a^T theta))
        + (xb0 + (ex _ rb Ghb theta - ex _ rb c0b^T theta))
    | None => ex _ ra Gha theta + ex _ rb Ghb theta
    end.
have MX : mean X = exx_half ra Gha + exx_half rb Ghb.
  rewrite /X; case: control hc {X} => [[[c0a c0b] [xa0 xb0]]|] hc.
    have [/= ea eb] := hc _ erefl.
    have mb n (r : 'M[C]_(n * M, naux)) (g g0 : 'M[C]_(n, M)) c :
      c = exx_half r g0 ->
      mean (fun t => c + (ex _ r g t - ex _ r g0 t)) = exx_half r g.
      move=> ->; rewrite mean_add mean_const mean_add exx_sample_mean //.
      rewrite -[mean (fun t => - _)](@mean_ext _ _ (fun t => (-1) * ex _ r g0 t)).
        by rewrite mean_scale exx_sample_mean // mulN1r addrCA subrr addr0.
      by move=> t; rewrite mulN1r.
    by rewrite mean_add (mb _ _ _ _ _ ea) (mb _ _ _ _ _ eb).
  by rewrite mean_add !exx_sample_mean.
pose b1 := one_body sys G.
exists (fun theta => (b1 + half C * (ec - X theta) + ecore sys, b1 + ecore sys,
                      half C * (ec - X theta))).
have M2 : mean (fun theta => half C * (ec - X theta))
  = half C * (ec - (exx_half ra Gha + exx_half rb Ghb)).
  rewrite mean_scale mean_add mean_const -MX.
  rewrite -[mean (fun t => - _)](@mean_ext _ _ (fun t => (-1) * X t)).
    by rewrite mean_scale mulN1r.
  by move=> t; rewrite mulN1r.
split.
- move=> theta; rewrite /X.
  by case: control {hc X MX M2} => [[[c0a c0b] [xa0 xb0]]|].
- by move=> theta; case: EG.
- by rewrite M2; case: EG.
- by rewrite mean_add mean_const mean_add mean_const M2; case: EG.
Qed.

End Stochastic.

(* Core contributions *)
Lemma core_agree M naux (chol : 'I_naux -> 'M[C]_M) (G : 'M[C]_M * 'M[C]_M) :
  core_contribution (fun p q r s => \sum_n chol n p q * chol n r s) G
  = core_contribution_cholesky chol G.
Proof.
suff E (A : 'M[C]_M) :
  core_contribution1 (fun p q r s => \sum_n chol n p q * chol n r s) A
  = core_cholesky1 chol A.
  by rewrite /core_contribution /core_contribution_cholesky !E.
apply/matrixP => r s; rewrite !mxE; congr (_ - _ * _).
  transitivity (\sum_n \sum_p \sum_q chol n p q * chol n r s * A p q).
    rewrite [RHS]exchange_big /=; apply: eq_bigr => p _.
    rewrite [RHS]exchange_big /=; apply: eq_bigr => q _.
    by rewrite mulr_suml.
  apply: eq_bigr => n _; rewrite !mxE !flatK sum_flat mulr_sumr.
  apply: eq_bigr => p _; rewrite mulr_sumr; apply: eq_bigr => q _.
  by rewrite !mxE !flatK mulrA [chol n p q * _]mulrC.
transitivity (\sum_n \sum_p \sum_q chol n p r * chol n s q * A p q).
  rewrite [RHS]exchange_big /=; apply: eq_bigr => p _.
  rewrite [RHS]exchange_big /=; apply: eq_bigr => q _.
  by rewrite mulr_suml.
apply: eq_bigr => n _; rewrite exchange_big /=; apply: eq_bigr => q _.
rewrite !mxE mulr_suml; apply: eq_bigr => p _.
by rewrite !mxE mulrAC.
Qed.

(* Hubbard *)
Section Hub.
Variable M : nat.
Variable U : C.

Lemma onsite_sum (f : 'I_M -> 'I_M -> 'I_M -> 'I_M -> C) :
  \sum_p \sum_r \sum_q \sum_u onsite U p r q u * f p r q u
  = U * \sum_p f p p p p.
Proof.
rewrite mulr_sumr; apply: eq_bigr => p _.
rewrite (bigD1 p) //= [X in _ + X]big1 ?addr0.
  rewrite (bigD1 p) //= [X in _ + X]big1 ?addr0.
    rewrite (bigD1 p) //= [X in _ + X]big1 ?addr0.
      by rewrite /onsite eqxx.
    by move=> u ne; rewrite /onsite eqxx /= eq_sym (negbTE ne) mul0r.
  move=> q ne; rewrite big1 // => u _.
  by rewrite /onsite eqxx /= eq_sym (negbTE ne) mul0r.
move=> r ne; rewrite big1 // => q _; rewrite big1 // => u _.
by rewrite /onsite eq_sym (negbTE ne) mul0r.
Qed.

Lemma hijkl_onsite (i j k l : 'I_M) : hijkl_hubbard U i j k l = onsite U i k j l :> C.
Proof.
rewrite /hijkl_hubbard /onsite.
case: (i =P j) => [->|nij] /=.
  rewrite [k == j]eq_sym andbb.
  by case: (j =P k) => [->|] //=; rewrite ?[j == _]eq_sym; case: (j == k).
by case: (i =P k) => [<-|] //=; rewrite (introF eqP nij).
Qed.

Lemma hubbard_wick2 (G : 'M[C]_M * 'M[C]_M) :
  wick2 (fun p r q u : 'I_M => onsite U p r q u) G
  = U * \sum_i G.1 i i * G.2 i i.
Proof.
rewrite wick2E.
have E A B : coul4 (fun p r q u : 'I_M => onsite U p r q u) A B
  = U * \sum_p A p p * B p p.
  rewrite -(onsite_sum (fun p r q u => A p r * B q u)) /coul4.
  by do 4 (apply: eq_bigr => ? _); rewrite mulrA.
have F A B : exch4 (fun p r q u : 'I_M => onsite U p r q u) A B
  = U * \sum_p A p p * B p p.
  rewrite -(onsite_sum (fun p r q u => A p u * B q r)) /exch4.
  by do 4 (apply: eq_bigr => ? _); rewrite mulrA.
rewrite !E !F !subrr !mulr0 !add0r.
rewrite [\sum_p G.2 p p * _](eq_bigr (fun p => G.1 p p * G.2 p p)).
  by rewrite -mulrDl half2 mul1r.
by move=> p _; rewrite mulrC.
Qed.

Lemma hubbard_right (T : 'M[C]_M * 'M[C]_M) symmetric G :
  local_energy_hubbard T U symmetric G
  = energies T (fun p r q u => hijkl_hubbard U p q r u) 0 G.
Proof.
have E : wick2 (fun p r q u => hijkl_hubbard U p q r u) G
  = wick2 (fun p r q u : 'I_M => onsite U p r q u) G.
  rewrite /wick2; congr (_ * _); do 6 (apply: eq_bigr => ? _).
  by rewrite hijkl_onsite.
rewrite /energies E hubbard_wick2 wick1E !addr0 /local_energy_hubbard.
suff -> : \sum_i \sum_j (T.1 i j * G.1 i j + T.2 i j * G.2 i j)
  = sum_prod T.1 G.1 + sum_prod T.2 G.2 by [].
by rewrite -big_split /=; apply: eq_bigr => i _; rewrite big_split.
Qed.

Lemma site_l (i : 'I_M) : site (lshift M i) = i.
Proof. by rewrite /site -[lshift M i]/(unsplit (inl i)) unsplitK. Qed.
Lemma site_r (i : 'I_M) : site (rshift M i) = i.
Proof. by rewrite /site -[rshift M i]/(unsplit (inr i)) unsplitK. Qed.

Lemma onsite_so_sum (G : 'M[C]_(M + M)) :
  wick2_so (onsite_so U) G
  = U * \sum_k (ulsubmx G k k * drsubmx G k k - dlsubmx G k k * ursubmx G k k).
Proof.
rewrite /wick2_so.
transitivity (half C * \sum_p \sum_q (if site p == site q then U else 0)
     * (G p p * G q q - G p q * G q p)).
  congr (_ * _); apply: eq_bigr => p _.
  rewrite (bigD1 p) //= [X in _ + X]big1 ?addr0.
    apply: eq_bigr => q _; rewrite (bigD1 q) //= [X in _ + X]big1 ?addr0.
      by rewrite /onsite_so !eqxx.
    by move=> u ne; rewrite /onsite_so eqxx /= eq_sym (negbTE ne) mul0r.
  move=> r ne; rewrite big1 // => q _; rewrite big1 // => u _.
  by rewrite /onsite_so eq_sym (negbTE ne) mul0r.
have D (s t : 'I_M -> 'I_(M + M)) : (forall i, site (s i) = i) ->
    (forall i, site (t i) = i) ->
  \sum_i \sum_j (if site (s i) == site (t j) then U else 0)
     * (G (s i) (s i) * G (t j) (t j) - G (s i) (t j) * G (t j) (s i))
  = U * \sum_i (G (s i) (s i) * G (t i) (t i) - G (s i) (t i) * G (t i) (s i)).
  move=> hs ht; rewrite mulr_sumr; apply: eq_bigr => i _.
  rewrite (bigD1 i) //= [X in _ + X]big1 ?addr0 ?hs ?ht ?eqxx //.
  by move=> j ne; rewrite ht eq_sym (negbTE ne) mul0r.
rewrite big_split_ord /=.
under eq_bigr do rewrite big_split_ord /=.
under [X in _ + X]eq_bigr do rewrite big_split_ord /=.
rewrite !big_split /=.
rewrite !(D (lshift M), D (@rshift M M)) //; try exact: site_l; try exact: site_r.
have Z (s : 'I_M -> 'I_(M + M)) :
  \sum_i (G (s i) (s i) * G (s i) (s i) - G (s i) (s i) * G (s i) (s i)) = 0.
  by rewrite big1 // => i _; rewrite subrr.
rewrite !Z mulr0 add0r addr0.
have Sy : \sum_i (G (rshift M i) (rshift M i) * G (lshift M i) (lshift M i) -
      G (rshift M i) (lshift M i) * G (lshift M i) (rshift M i))
  = \sum_i (G (lshift M i) (lshift M i) * G (rshift M i) (rshift M i) -
      G (lshift M i) (rshift M i) * G (rshift M i) (lshift M i)).
  by apply: eq_bigr => i _; rewrite mulrC [X in _ - X]mulrC.
rewrite Sy -mulr2n -mulr_natl mulrA /half mul1r mulVf ?pnatr_eq0 // mul1r.
congr (_ * _); rewrite -big_split /=; apply: eq_bigr => k _; rewrite !mxE.
by rewrite [X in _ - X]mulrC.
Qed.

Lemma ghf_right (T : 'M[C]_M * 'M[C]_M) nd (Gi : 'I_nd -> 'M[C]_(M + M)) w denom :
  let t i := sum_prod (block_mx T.1 0 0 T.2) (Gi i) in
  let u i := wick2_so (onsite_so U) (Gi i) in
  local_energy_hubbard_ghf T U Gi w denom
  = ((\sum_i w i * t i) / denom + (\sum_i w i * u i) / denom,
     (\sum_i w i * t i) / denom, (\sum_i w i * u i) / denom).
Proof.
move=> t u; rewrite /local_energy_hubbard_ghf.
have -> : \sum_i \sum_k \sum_l w i * Gi i k l * block_mx T.1 0 0 T.2 k l
  = \sum_i w i * t i.
  apply: eq_bigr => i _; rewrite /t /sum_prod mulr_sumr; apply: eq_bigr => k _.
  by rewrite mulr_sumr; apply: eq_bigr => l _; rewrite -mulrA [Gi i k l * _]mulrC.
have -> // : U * (\sum_j \sum_k w j * (ulsubmx (Gi j) k k * drsubmx (Gi j) k k
        - dlsubmx (Gi j) k k * ursubmx (Gi j) k k))
  = \sum_i w i * u i.
rewrite [LHS]mulr_sumr; apply: eq_bigr => i _; rewrite /u onsite_so_sum.
by rewrite [RHS]mulrCA; congr (U * _); rewrite [RHS]mulr_sumr.
Qed.

End Hub.

(* Several determinants *)
Lemma multi_det_right M (le : 'M[C]_M * 'M[C]_M -> C * C * C) dets :
  let tot (f : C * C * C -> C) := \sum_(wG <- dets) wG.1 * f (le wG.2) in
  let den := \sum_(wG <- dets) wG.1 in
  local_energy_multi_det le dets
  = (tot (fun e => e.1.1) / den, tot (fun e => e.1.2) / den,
     tot (fun e => e.2) / den).
Proof.
move=> tot den; rewrite /local_energy_multi_det.
have F l (a b c d : C) :
  foldl (fun acc wG =>
      let '(e, t, v, d) := acc in
      let '(w, G) := wG in
      let '(e', t', v') := le G in
      (e + w * e', t + w * t', v + w * v', d + w)) (a, b, c, d) l
  = (a + \sum_(wG <- l) wG.1 * (le wG.2).1.1,
     b + \sum_(wG <- l) wG.1 * (le wG.2).1.2,
     c + \sum_(wG <- l) wG.1 * (le wG.2).2,
     d + \sum_(wG <- l) wG.1).
  elim: l a b c d => [|[w G] l IH] a b c d /=.
    by rewrite !big_nil !addr0.
  by case E : (le G) => [[x y] z]; rewrite IH !big_cons /= E /= !addrA.
by rewrite F !add0r.
Qed.

End LE.
