(* C84: the extended Koopmans theorem. *)

From Verif Require Import Base.
Set Warnings "-notation-overridden,-ambiguous-paths".
From mathcomp Require Import all_ssreflect all_algebra.
From Verif Require Import OrthoAO_Model OrthoAO_Spec OrthoAO_Proofs OrthoAO_Props EktIpea_Model EktIpea_Spec.

Set Implicit Arguments.
Unset Strict Implicit.
Unset Printing Implicit Defensive.

Import Order.TTheory GRing.Theory Num.Theory.
Local Open Scope ring_scope.

Section Props.
Variables (C : numClosedFieldType) (n : nat).
Variable eigh : forall k, 'M[C]_k -> 'rV[C]_k * 'M[C]_k.
Variables (cutoff sf : C).
Local Notation "A ^c" := (map_mx (@conjC C) A) (at level 2, format "A ^c").
Hypothesis lawful : forall k (A : 'M[C]_k), hermitian A -> eigen_of A (eigh A).1 (eigh A).2.
Hypothesis c0 : 0 <= cutoff.

Lemma lower_id k (A : 'M[C]_k) : hermitian A -> lower A = A.
Proof.
move=> h; have hE i j : A i j = (A j i)^* by rewrite {1}h !mxE.
apply/matrixP => i j; rewrite mxE; case: ltngtP => // e.
have <- : i = j by exact: val_inj.
by apply/Creal_ReP/CrealP; rewrite -hE.
Qed.

Lemma herm_cong k (F : 'M[C]_n) (X : 'M[C]_(n, k)) : hermitian F -> hermitian ((X^c)^T *m (F *m X)).
Proof.
rewrite /hermitian => h; rewrite !map_mxM !trmx_mul -map_trmx trmxK -h mulmxA.
by congr (_ *m _ *m _); apply/matrixP => i j; rewrite !mxE conjCK.
Qed.

Lemma core k (S F : 'M[C]_n) (X : 'M[C]_(n, k)) e c : orthonormal S X -> eigen_of ((X^c)^T *m (F *m X)) e c ->
  orthonormal S (X *m c) /\ ((X *m c)^c)^T *m F *m (X *m c) = diag_mx e /\
  (S *m (X *m (X^c)^T) *m S = S -> S \in unitmx -> F *m (X *m c) = S *m (X *m c) *m diag_mx e).
Proof.
rewrite /orthonormal => so [cu ce]; rewrite !map_mxM trmx_mul; split.
  have -> : (c^c)^T *m (X^c)^T *m S *m (X *m c) = (c^c)^T *m ((X^c)^T *m S *m X) *m c by rewrite !mulmxA.
  by rewrite so mulmx1.
split.
  have -> : (c^c)^T *m (X^c)^T *m F *m (X *m c) = (c^c)^T *m ((X^c)^T *m (F *m X) *m c) by rewrite !mulmxA.
  by rewrite ce mulmxA cu mul1mx.
move=> inv US; have I : S *m (X *m (X^c)^T) = 1%:M.
  by rewrite -[LHS](mulmxK US) inv mulmxV.
rewrite -[LHS]mul1mx -I.
have -> : S *m (X *m (X^c)^T) *m (F *m (X *m c)) = S *m X *m ((X^c)^T *m (F *m X) *m c) by rewrite !mulmxA.
by rewrite ce !mulmxA.
Qed.

Lemma koopmans_ok (S F : 'M[C]_n) : hermitian S -> hermitian F ->
  diagonalised_by S F (koopmans eigh cutoff S F).1 /\
  ((forall i, cutoff < (eigh S).1 0 i) -> generalised_eigenvalues S F (koopmans eigh cutoff S F).1).
Proof.
move=> hS hF; rewrite /koopmans /np_eigh (lower_id hS).
set X := (get_ortho_ao_mod _ _ _).2; pose Sm := (get_ortho_ao_mod (eigh S).1 (eigh S).2 cutoff).1.
have [_ [so [_ [inv all]]]] : orthonormal Sm X /\ orthonormal S X /\ Sm *m X = S *m X /\
    Sm *m (X *m (X^c)^T) *m Sm = Sm /\ ((forall i, cutoff < (eigh S).1 0 i) -> Sm = S).
  exact: (C83_modified c0 (lawful hS)).
clearbody X Sm; rewrite (lower_id (herm_cong X hF)).
have [on [dg ge]] := core so (lawful (herm_cong X hF)).
split; first by eexists; split; [exact: on|exact: dg].
move=> big; eexists; split; first exact: on.
apply: ge; first by move: inv; rewrite (all big).
have [uu ee] := lawful hS; have [_ uU] := mulmx1_unit uu.
have : S *m (eigh S).2 \in unitmx.
  rewrite ee unitmx_mul uU /= unitmxE det_diag unitfE; apply/prodf_neq0 => i _.
  by rewrite lt0r_neq0 // (le_lt_trans c0).
by rewrite unitmx_mul => /andP [].
Qed.

Lemma sum_hermitian (A B : 'M[C]_n) : hermitian (spin_average A B).
Proof.
have rr (z : C) : ('Re z)^* = 'Re z by apply/CrealP/Creal_Re.
have rc (z : C) : 'Re z = 'Re (z^*) by rewrite !ReE conjCK [z^* + z]addrC.
apply/matrixP => i j; rewrite !mxE rmorphM rr fmorphV rmorph_nat rc; congr (_ * 'Re _).
by rewrite !rmorphD !conjCK addrC.
Qed.

Lemma gamma_hermitian (S : 'M[C]_n) : hermitian S -> hermitian (2%:R *: 1%:M - S^T).
Proof.
rewrite /hermitian => h; apply/matrixP => i j; rewrite !mxE rmorphB rmorphM /= !rmorph_nat [j == i]eq_sym.
by congr (_ - _); rewrite {1}h !mxE.
Qed.

(* The potentials belong to orbitals that are orthonormal with the spin-summed density matrix (the
   affinities: with 2 - the density matrix) and in which the averaged Fock matrix is diagonal.  If
   all occupations are above the cutoff they are the generalised eigenvalues. *)
Theorem C84_potentials_partial ru rd eu ed fh eh fp ep (G : 'M[C]_n) (Fh Fp : 'M[C]_n) :
  significant sf fh eh Fh -> significant sf fp ep Fp -> hermitian Fh -> hermitian Fp ->
  (exists Ru Rd, significant sf ru eu Ru /\ significant sf rd ed Rd /\
     forall i j, G i j = 'Re (Ru i j + Rd i j + (Ru j i + Rd j i)^*) / 2%:R) ->
  let r := analyse_ekt_ipea eigh cutoff sf ru rd eu ed fh eh fp ep in
  let eip := r.1.1 in let eea := r.2.1 in
  diagonalised_by G Fh eip /\ diagonalised_by (2%:R *: 1%:M - G^T) Fp eea /\
  ((forall i, cutoff < (eigh G).1 0 i) -> generalised_eigenvalues G Fh eip) /\
  ((forall i, cutoff < (eigh (2%:R *: 1%:M - G^T)).1 0 i) ->
     generalised_eigenvalues (2%:R *: 1%:M - G^T) Fp eea).
Proof.
have sc av err A : significant sf av err A -> screen sf av err = A.
  move=> h; apply/matrixP => i j; rewrite mxE; have [h1 h2] := h i j.
  by case: ifP => [/h1 ->//|/negbT /h2 ->].
move=> /sc sh /sc sp hh hp [Ru [Rd [/sc su [/sc sd GE]]]].
have EG : spin_average Ru Rd = G by apply/matrixP => i j; rewrite GE !mxE mulrC.
have hG : hermitian G by rewrite -EG; exact: sum_hermitian.
have [a b] := koopmans_ok hG hh; have [a' b'] := koopmans_ok (gamma_hermitian hG) hp.
rewrite /analyse_ekt_ipea /= sh sp su sd EG.
by split; [exact: a|split; [exact: a'|split; [exact: b|exact: b']]].
Qed.

Lemma imaginary k (X : 'M[C]_(n, k)) : (0 < k)%N -> (X^c)^T *m X = 1%:M ->
  ~ diagonalised_by (1%:M : 'M[C]_n) 'i%:M (np_eigh eigh ((X^c)^T *m ('i%:M *m X))).1.
Proof.
move=> k0 so; rewrite mul_scalar_mx -scalemxAr so /np_eigh.
have -> : lower ('i *: 1%:M : 'M[C]_k) = 0.
  apply/matrixP => i j; rewrite !mxE; case: ltngtP => e.
  - by rewrite -val_eqE /= (gtn_eqF e) mulr0.
  - by rewrite -val_eqE /= (gtn_eqF e) mulr0 conjC0.
  - by rewrite eqxx mulr1 Re_i.
have h0 : hermitian (0 : 'M[C]_k) by rewrite /hermitian map_mx0 trmx0.
have [u0 e0] := lawful h0; move=> [Z [oz]].
have -> : diag_mx (eigh (0 : 'M[C]_k)).1 = 0.
  by rewrite -[LHS]mul1mx -u0 -mulmxA -e0 mul0mx mulmx0.
rewrite mul_mx_scalar -scalemxAl; move: oz; rewrite /orthonormal mulmx1 => ->.
move/matrixP => /(_ (Ordinal k0) (Ordinal k0)); rewrite !mxE eqxx mulr1 => /eqP.
by rewrite (negbTE (neq0Ci _)).
Qed.

(* A Fock matrix that is not Hermitian is not diagonalised. *)
Theorem C84_nonhermitian_refuted (fp ep : 'M[C]_n) : (0 < n)%N -> cutoff < 1 ->
  ~ diagonalised_by (1%:M : 'M[C]_n) 'i%:M
      (analyse_ekt_ipea eigh cutoff sf (2%:R^-1)%:M (2%:R^-1)%:M 0 0 'i%:M 0 fp ep).1.1.
Proof.
move=> n0 c1.
have s0 (A : 'M[C]_n) : screen sf A 0 = A.
  by apply/matrixP => i j; rewrite !mxE mulr0 normr_lt0.
have h1 : hermitian (1%:M : 'M[C]_n) by rewrite /hermitian map_mx1 trmx1.
have sa : spin_average (2%:R^-1)%:M (2%:R^-1)%:M = 1%:M :> 'M[C]_n.
  have hh : 2%:R^-1 + 2%:R^-1 = 1 :> C by rewrite -mulr2n -(mulr_natr (2%:R^-1 : C) 2) mulVf // pnatr_eq0.
  apply/matrixP => i j; rewrite !mxE [j == i]eq_sym -mulrnDl hh.
  case: (i == j); rewrite ?mulr0n ?mulr1n ?conjC0 ?conjC1.
    have /Creal_ReP -> : (1 + 1 : C) \is Num.real by rewrite rpredD ?rpred1.
    by apply: (mulVf (x := 2%:R : C)); rewrite pnatr_eq0.
  by rewrite addr0 (Creal_ReP _ _) ?rpred0 ?mulr0.
have L := lawful h1; have [uu ee] := L.
have de i : (eigh (1%:M : 'M[C]_n)).1 0 i = 1.
  have : diag_mx (eigh (1%:M : 'M[C]_n)).1 = 1%:M.
    by move: (congr1 (mulmx (((eigh (1%:M : 'M[C]_n)).2^c)^T)) ee); rewrite mul1mx mulmxA uu mul1mx => <-.
  by move=> /matrixP /(_ i i); rewrite !mxE eqxx !mulr1n.
rewrite /analyse_ekt_ipea /= !s0 sa /koopmans.
have -> : np_eigh eigh (1%:M : 'M[C]_n) = eigh 1%:M by rewrite /np_eigh (lower_id h1).
apply: imaginary.
  by apply/card_gt0P; exists (Ordinal n0); rewrite inE mxE de (lt_gtF c1).
have [_ [so _]] := C83_modified c0 L.
by move: so; rewrite /orthonormal mulmx1.
Qed.
End Props.
Print Assumptions C84_potentials_partial.
Print Assumptions C84_nonhermitian_refuted.
