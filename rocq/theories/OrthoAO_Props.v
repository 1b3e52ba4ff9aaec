(* C83: orthogonal atomic orbitals. *)

From Verif Require Import Base.
Set Warnings "-notation-overridden,-ambiguous-paths".
From mathcomp Require Import all_ssreflect all_algebra.
From Verif Require Import OrthoAO_Model OrthoAO_Spec OrthoAO_Proofs.

Set Implicit Arguments.
Unset Strict Implicit.
Unset Printing Implicit Defensive.

Import Order.TTheory GRing.Theory Num.Theory.
Local Open Scope ring_scope.

Section Props.
Variables (C : numClosedFieldType) (n : nat) (S : 'M[C]_n) (d : 'rV[C]_n) (U : 'M[C]_n) (cutoff : C).
Local Notation "A ^c" := (map_mx (@conjC C) A) (at level 2, format "A ^c").

Lemma kept_pos : 0 <= cutoff -> forall i, i \in kept d cutoff -> 0 < d 0 i.
Proof. by move=> c0 i; rewrite inE; exact: le_lt_trans. Qed.

(* The orbitals are orthonormal, for every overlap matrix, singular or not. *)
Theorem C83_orthonormal : 0 <= cutoff -> eigen_of S d U -> orthonormal S (get_orthoAO d U cutoff).
Proof. by move=> c0 eig; apply: (scaled_orth eig (kept_pos c0)). Qed.

(* One for each eigenvalue above the cutoff; if all are, they span everything. *)
Theorem C83_complete : 0 <= cutoff -> eigen_of S d U -> (forall i, cutoff < d 0 i) ->
  let X := get_orthoAO d U cutoff in X *m (X^c)^T *m S = 1%:M.
Proof.
move=> c0 eig all /=; have KT : kept d cutoff = setT by apply/setP => i; rewrite !inE all.
by rewrite -(Smod_all eig KT) (XXS eig (kept_pos c0)) (all_cols eig KT).
Qed.

(* The modified overlap matrix: the orbitals are those of get_orthoAO, orthonormal with it as with
   S, it acts on them as S does, and X X^+ is its generalised inverse. *)
Theorem C83_modified : 0 <= cutoff -> eigen_of S d U ->
  let (Sm, X) := get_ortho_ao_mod d U cutoff in
  orthonormal Sm X /\ orthonormal S X /\ Sm *m X = S *m X /\ Sm *m (X *m (X^c)^T) *m Sm = Sm /\
  ((forall i, cutoff < d 0 i) -> Sm = S).
Proof.
move=> c0 eig; rewrite /get_ortho_ao_mod; set K := kept _ _.
have EK : K = kept d cutoff by exact: kept_zeroed.
have pos i : i \in K -> 0 < d 0 i by rewrite EK; exact: kept_pos.
have same i : i \in K -> zeroed d cutoff 0 i = d 0 i.
  by rewrite EK inE mxE => lt; rewrite (lt_gtF lt).
have -> : scaled K (zeroed d cutoff) U = scaled K d U.
  by apply/matrixP => i j; rewrite [LHS]mxE [RHS]mxE same //; exact: enum_valP.
have -> : \row_j zeroed d cutoff 0 (enum_val j) = \row_j d 0 (enum_val j) :> 'rV_#|K|.
  by apply/rowP => j; rewrite [LHS]mxE [RHS]mxE same //; exact: enum_valP.
have SX := Smod_X K eig; have so := scaled_orth eig pos.
rewrite /Smod in SX; rewrite /orthonormal in so *.
split; first by rewrite -mulmxA SX mulmxA.
split=> //; split=> //; split; first exact: (Smod_inv eig pos).
by move=> all; apply: (Smod_all eig); rewrite EK; apply/setP => i; rewrite !inE all.
Qed.

(* Molecular orbitals X c: orthonormal, the Roothaan equation F (X c) = S (X c) e holds on the span
   of the orbitals, and everywhere if nothing was left out. *)
Theorem C83_orbitals (F : 'M[C]_n) (eigh : 'M[C]_#|kept d cutoff| -> 'rV[C]_#|kept d cutoff| * 'M[C]_#|kept d cutoff|) :
  0 <= cutoff -> eigen_of S d U -> (forall A, A = (A^c)^T -> eigen_of A (eigh A).1 (eigh A).2) -> F = (F^c)^T ->
  let X := get_orthoAO d U cutoff in
  let (e, c) := molecular_orbitals_rhf eigh F X in
  orthonormal S (X *m c) /\
  (X^c)^T *m (F *m (X *m c)) = (X^c)^T *m (S *m (X *m c) *m diag_mx e) /\
  ((forall i, cutoff < d 0 i) -> F *m (X *m c) = S *m (X *m c) *m diag_mx e).
Proof.
move=> c0 eig he herm /=; rewrite /molecular_orbitals_rhf; set A := _ *m _.
have hA : A = (A^c)^T.
  rewrite /A !map_mxM !trmx_mul -map_trmx trmxK -herm mulmxA.
  by congr (_ *m _ *m _); apply/matrixP => i j; rewrite !mxE conjCK.
have := he A hA; case: (eigh A) => e c /= h.
have [h1 h2] := orbitals eig (kept_pos c0) h.
split=> //; split=> // all; apply: (orbitals_all eig (kept_pos c0) _ h).
by apply/setP => i; rewrite !inE all.
Qed.
End Props.

Print Assumptions C83_orthonormal.
Print Assumptions C83_complete.
Print Assumptions C83_modified.
Print Assumptions C83_orbitals.

(* A singular overlap matrix: one of the two orbitals is left out. *)
Example C83_example (C : numClosedFieldType) :
  let d : 'rV[C]_2 := \row_i (i == ord0)%:R in
  eigen_of (diag_mx d) d 1%:M /\ #|kept d 0| = 1%N.
Proof.
split; first by rewrite /eigen_of mulmx1 mul1mx map_mx1 trmx1 mulmx1.
rewrite (_ : kept _ _ = [set ord0]) ?cards1 //; apply/setP => i; rewrite !inE mxE.
by case: (i == ord0); rewrite ?ltr01 ?ltxx.
Qed.
