(* Proofs about orthogonal atomic orbitals. *)

From Verif Require Import Base.
Set Warnings "-notation-overridden,-ambiguous-paths".
From mathcomp Require Import all_ssreflect all_algebra.
From Verif Require Import OrthoAO_Model OrthoAO_Spec.

Set Implicit Arguments.
Unset Strict Implicit.
Unset Printing Implicit Defensive.

Import Order.TTheory GRing.Theory Num.Theory.
Local Open Scope ring_scope.

Section Proofs.
Variables (C : numClosedFieldType) (n : nat).
Local Notation "A ^c" := (map_mx (@conjC C) A) (at level 2, format "A ^c").

Variables (S : 'M[C]_n) (d : 'rV[C]_n) (U : 'M[C]_n) (K : {set 'I_n}).
Hypothesis eig : eigen_of S d U.
Hypothesis pos : forall i, i \in K -> 0 < d 0 i.
Local Notation V := (columns K U).
Local Notation X := (scaled K d U).
Let dk : 'rV[C]_#|K| := \row_j d 0 (enum_val j).
Let w : 'rV[C]_#|K| := \row_j (sqrtC (d 0 (enum_val j)))^-1.

Lemma colsE : V = U *m \matrix_(i, j) (i == enum_val j :> 'I_n)%:R.
Proof.
apply/matrixP => i j; rewrite !mxE (bigD1 (enum_val j)) //= mxE eqxx mulr1 big1 ?addr0 // => l /negbTE h.
by rewrite mxE h mulr0.
Qed.

Lemma scaledE : X = V *m diag_mx w.
Proof. by apply/matrixP => i j; rewrite mul_mx_diag !mxE. Qed.

Lemma cols_orth : (V^c)^T *m V = 1%:M.
Proof.
apply/matrixP => a b; have [/matrixP /(_ (enum_val a) (enum_val b)) + _] := eig.
rewrite !mxE (inj_eq enum_val_inj) => <-; apply: eq_bigr => i _; by rewrite !mxE.
Qed.

Lemma cols_eig : S *m V = V *m diag_mx dk.
Proof.
have [_ /matrixP h] := eig; apply/matrixP => i j; rewrite mul_mx_diag !mxE.
have := h i (enum_val j); rewrite mul_mx_diag !mxE => <-.
by apply: eq_bigr => l _; rewrite !mxE.
Qed.

Lemma w_real : w^c = w.
Proof.
apply/rowP => j; rewrite !mxE; apply: CrealP; rewrite rpredV ger0_real // sqrtC_ge0 ltW // pos //.
exact: enum_valP.
Qed.

Lemma w_sq : diag_mx w *m diag_mx dk *m diag_mx w = 1%:M.
Proof.
apply/matrixP => a b; rewrite mul_mx_diag mul_diag_mx !mxE mulrnAr mulrnAl; case: (a =P b) => [<-|//].
have p : 0 < d 0 (enum_val a) by apply: pos; exact: enum_valP.
rewrite !mulr1n mulrAC -expr2 exprVn sqrtCK mulVf //; exact: lt0r_neq0.
Qed.

Lemma scaled_orth : orthonormal S X.
Proof.
rewrite /orthonormal scaledE -mulmxA [S *m _]mulmxA cols_eig map_mxM map_diag_mx w_real trmx_mul tr_diag_mx.
by rewrite -!mulmxA [(V^c)^T *m _]mulmxA cols_orth mul1mx mulmxA w_sq.
Qed.

Definition Smod : 'M[C]_n := V *m diag_mx dk *m ((V)^T)^c.

Lemma Smod_cols : Smod *m V = S *m V.
Proof. by rewrite /Smod -map_trmx -mulmxA cols_orth mulmx1 cols_eig. Qed.

Lemma Smod_X : Smod *m X = S *m X.
Proof. by rewrite scaledE !mulmxA Smod_cols. Qed.

Lemma XXS : X *m (X^c)^T *m Smod = V *m (V^c)^T.
Proof.
have E : (X^c)^T *m V = diag_mx w.
  by rewrite scaledE map_mxM map_diag_mx w_real trmx_mul tr_diag_mx -mulmxA cols_orth mulmx1.
have W2 : diag_mx w *m (diag_mx w *m diag_mx dk) = 1%:M.
  by rewrite [diag_mx w *m diag_mx dk]diag_mxC mulmxA w_sq.
rewrite /Smod -map_trmx -!mulmxA [(X^c)^T *m _]mulmxA E scaledE -!mulmxA; congr (_ *m _).
by rewrite [diag_mx w *m (diag_mx dk *m _)]mulmxA mulmxA W2 mul1mx.
Qed.

Lemma Smod_inv : Smod *m (X *m (X^c)^T) *m Smod = Smod.
Proof.
by rewrite -mulmxA XXS mulmxA /Smod -map_trmx -[_ *m _ *m V]mulmxA cols_orth mulmx1.
Qed.

Lemma all_cols : K = setT -> V *m (V^c)^T = 1%:M.
Proof.
move=> KT; have [h _] := eig; have /matrixP h' := mulmx1C h; apply/matrixP => i j; rewrite -h' !mxE.
rewrite (eq_bigr (fun a => U i (enum_val a) * (U j (enum_val a))^*)) => [|a _]; last by rewrite !mxE.
rewrite -(big_enum_val (A := mem K) (fun l => U i l * (U j l)^*)) /= KT.
by apply: eq_big => [l|l _]; rewrite ?inE // !mxE.
Qed.

Lemma Smod_all : K = setT -> Smod = S.
Proof. by move=> KT; rewrite /Smod -map_trmx -cols_eig -mulmxA all_cols // mulmx1. Qed.

Lemma orbitals (F : 'M[C]_n) e c : eigen_of ((X^c)^T *m (F *m X)) e c ->
  orthonormal S (X *m c) /\
  (X^c)^T *m (F *m (X *m c)) = (X^c)^T *m (S *m (X *m c) *m diag_mx e).
Proof.
have so := scaled_orth; rewrite /orthonormal in so *.
move=> [cu ce]; split.
  by rewrite map_mxM trmx_mul -!mulmxA (mulmxA S) (mulmxA (X^c)^T) (mulmxA (X^c)^T) so mul1mx.
by rewrite !mulmxA in ce so *; rewrite ce so mul1mx.
Qed.

Lemma orbitals_all (F : 'M[C]_n) e c : K = setT -> eigen_of ((X^c)^T *m (F *m X)) e c ->
  F *m (X *m c) = S *m (X *m c) *m diag_mx e.
Proof.
move=> KT /orbitals [_ h]; have I : S *m X *m (X^c)^T = 1%:M.
  by rewrite -mulmxA; apply: mulmx1C; rewrite -[S]Smod_all // XXS all_cols.
by rewrite -[LHS]mul1mx -[RHS]mul1mx -I -!(mulmxA (S *m X)) h.
Qed.
End Proofs.

Lemma kept_zeroed (C : numClosedFieldType) n (d : 'rV[C]_n) cutoff : 0 <= cutoff ->
  kept (zeroed d cutoff) cutoff = kept d cutoff.
Proof.
move=> c0; apply/setP => i; rewrite !inE mxE; case: ifP => // lt.
by rewrite (le_gtF c0) (lt_gtF lt).
Qed.
