(* Every square matrix has a singular value decomposition: the spectral theorem for A^H A, and
   then the QR factorisation with pivoting of a matrix with orthogonal columns. *)

From Verif Require Import Base.
Set Warnings "-notation-overridden,-ambiguous-paths".
From mathcomp Require Import all_ssreflect all_fingroup all_algebra.
From Verif Require Import Rank1_Spec Ortho_Spec Ortho_Proofs PivotQR_Proofs Spectral_Proofs
  TGreen_Spec RegInv_Spec.

Set Implicit Arguments.
Unset Strict Implicit.
Unset Printing Implicit Defensive.

Import Order.TTheory GRing.Theory Num.Theory.
Local Open Scope ring_scope.

Section SVD.
Variable C : numClosedFieldType.
Variable n : nat.

Lemma orthM (P Q : 'M[C]_n) : orthonormal P -> orthonormal Q -> orthonormal (P *m Q).
Proof. by rewrite /orthonormal => p q; rewrite adjM -mulmxA (mulmxA (adj P)) p mul1mx q. Qed.

Lemma orth_perm (s : 'S_n) : orthonormal (perm_mx s : 'M[C]_n).
Proof. by rewrite /orthonormal /adj map_perm_mx tr_perm_mx -perm_mxM mulVg perm_mx1. Qed.

Lemma svd_columns (X : 'M[C]_n) (w : 'rV[C]_n) : adj X *m X = diag_mx w ->
  exists (Q : 'M[C]_n) (r : 'rV[C]_n) (s : 'S_n), [/\ orthonormal Q, forall i, r 0 i \is Num.real
    & X = Q *m diag_mx r *m perm_mx s].
Proof.
move=> hX; have [U [s [oU h1 h2 h3]]] := pivot_exists X.
set R := U *m col_perm s X in h1 h2 h3.
have eR i j : i != j -> (adj R *m R) i j = 0.
  move=> ne; rewrite /R adjM -mulmxA (mulmxA (adj U)) oU mul1mx.
  have e1 : (adj X *m X) (s i) (s j) = 0 by rewrite hX mxE (inj_eq perm_inj) (negbTE ne) mulr0n.
  by rewrite -e1 !mxE; apply: eq_bigr => k _; rewrite !mxE.
have RE : R = U *m col_perm s X by [].
clearbody R.
have up k (i j : 'I_n) : (i < k)%N -> (i < j)%N -> R i j = 0.
  elim: k i j => // k IH i j ik ij.
  have c l : l != i -> R l i = 0.
    by rewrite neq_ltn => /orP[li|]; [apply: IH => //; apply: leq_trans li _ | apply: h1].
  have [r0|rn] := eqVneq (R i i) 0.
    have := h3 i i j erefl (ltnW ij); rewrite r0 normr0 expr0n /= => le.
    apply/eqP; rewrite -normr_eq0 -sqrf_eq0 -(@le_anti _ _ (`|R i j| ^+ 2) 0) //.
    rewrite exprn_ge0 // andbT; apply: le_trans le.
    rewrite (bigD1 i) //= ler_addl sumr_ge0 // => l _; exact: exprn_ge0.
  have := eR i j; rewrite neq_ltn ij => /(_ isT); rewrite mxE (bigD1 i) //= big1 => [|l li].
    rewrite adj_ent addr0 => /eqP; rewrite mulf_eq0 conjC_eq0 (negbTE rn) => /eqP //.
  by rewrite adj_ent (c _ li) conjC0 mul0r.
exists (adj U), (\row_i R i i), s; split; first exact: orth_adj.
- by move=> i; rewrite mxE; apply: h2.
- have -> : diag_mx (\row_i R i i) = R.
    apply/matrixP => i j; rewrite !mxE; case: (ltngtP i j) => [lt|gt|/val_inj ->].
    + by rewrite (up i.+1 i j) // -val_eqE /= ltn_eqF.
    + by rewrite (h1 i j) // -val_eqE /= gtn_eqF.
    + by rewrite eqxx.
  by rewrite RE mulmxA oU mul1mx col_permE -mulmxA -perm_mxM mulVg perm_mx1 mulmx1.
Qed.

Lemma svd_exists (A : 'M[C]_n) : exists U D V, svd_of A U D V.
Proof.
have hH : adj (adj A *m A) = adj A *m A by rewrite adjM; congr (_ *m _); apply/matrixP => i j; rewrite !adj_ent conjCK.
have [W oW [d _ hd]] := spectral hH.
have hX : adj (A *m W) *m (A *m W) = diag_mx d.
  by rewrite adjM -mulmxA (mulmxA (adj A)) hd mulmxA oW mul1mx.
have [Q [r [s [oQ rr hQ]]]] := svd_columns hX.
pose sg : 'rV[C]_n := \row_i (if r 0 i < 0 then -1 else 1).
exists (Q *m diag_mx sg), (\row_i `|r 0 i|), (perm_mx s *m adj W); split.
- rewrite -(mulmxA Q) mulmx_diag (_ : \row_j _ = r) ?mulmxA -?hQ; last first.
    apply/rowP => i; rewrite !mxE; case: ifP => lt.
      by rewrite ltr0_norm // mulN1r opprK.
    by rewrite mul1r ger0_norm // real_leNgt ?lt // rpred0.
  by rewrite -mulmxA (mulmx1C oW) mulmx1.
- apply: orthM => //; rewrite /orthonormal.
  rewrite (_ : adj (diag_mx sg) = diag_mx sg); last first.
    apply/matrixP => i j; rewrite adj_ent !mxE eq_sym; case: eqP => [->|_]; last by rewrite !mulr0n conjC0.
    by rewrite !mulr1n; case: ifP => _; rewrite ?rmorphN1 ?rmorph1.
  rewrite mulmx_diag (_ : \row_j _ = const_mx 1) ?diag_const_mx //.
  by apply/rowP => i; rewrite !mxE; case: ifP; rewrite ?mulN1r ?opprK ?mul1r.
- by apply: orthM; [exact: orth_perm | exact: orth_adj].
- by move=> i; rewrite mxE.
Qed.

Definition svd_ofb (A : 'M[C]_n) (x : 'M[C]_n * 'rV[C]_n * 'M[C]_n) : bool :=
  let '(U, D, V) := x in
  [&& A == U *m diag_mx D *m V, adj U *m U == 1%:M, adj V *m V == 1%:M & [forall i, 0 <= D 0 i]].

Lemma svd_ofP A x : reflect (svd_of A x.1.1 x.1.2 x.2) (svd_ofb A x).
Proof.
case: x => [[U D] V]; apply: (iffP and4P) => /= -[h1 h2 h3 h4]; split.
- exact/eqP. - exact/eqP. - exact/eqP. - exact/forallP.
- exact/eqP. - exact/eqP. - exact/eqP. - exact/forallP.
Qed.

Lemma svd_ofb_exists A : exists x, svd_ofb A x.
Proof. by have [U [D [V h]]] := svd_exists A; exists (U, D, V); apply/svd_ofP. Qed.

Definition svd_fun A : 'M[C]_n * 'rV[C]_n * 'M[C]_n := xchoose (svd_ofb_exists A).

Lemma svd_funP A : svd_of A (svd_fun A).1.1 (svd_fun A).1.2 (svd_fun A).2.
Proof. exact/svd_ofP/xchooseP. Qed.

Lemma svd_fun_right : svd_right svd_fun.
Proof.
move=> A; case: (svd_fun A) (svd_funP A) => [[U D] V] /= [h1 h2 h3 h4]; split=> // i.
exact: ger0_real.
Qed.
End SVD.
