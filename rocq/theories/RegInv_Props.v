(* C77: the regularised inverse of utils/linalg.py is the solution operator of a damped least
   squares problem, whatever singular value decomposition is used. *)

From Verif Require Import Base.
Set Warnings "-notation-overridden,-ambiguous-paths".
From mathcomp Require Import all_ssreflect all_fingroup all_algebra all_field.
From Verif Require Import Rank1_Spec Ortho_Spec RegInv_Model RegInv_Spec RegInv_Proofs
  TGreen_Spec RegInv_SVD.

Set Implicit Arguments.
Unset Strict Implicit.
Unset Printing Implicit Defensive.

Import Order.TTheory GRing.Theory Num.Theory.
Local Open Scope ring_scope.

Section Props.
Variable C : numClosedFieldType.
Variable n : nat.
Variable svd : 'M[C]_n -> res ('M[C]_n * 'rV[C]_n * 'M[C]_n).
Variables (A U V : 'M[C]_n) (D : 'rV[C]_n) (c : C).
Hypothesis e : svd A = Ok (U, D, V).
Hypothesis sv : svd_of A U D V.
Hypothesis cr : c \is Num.real.

(* (A^H A + c^2)^-1 A^H, for every matrix: it does not depend on the decomposition. *)
Theorem C77_formula : c != 0 ->
  normal_mx A c \in unitmx /\
  regularise svd A c = Ok (Some (invmx (normal_mx A c) *m adj A)).
Proof. by move=> c0; case: (code_cutoff e sv cr c0) => B [-> u <- _]. Qed.

(* B b is the one minimum of |A x - b|^2 + c^2 |x|^2. *)
Theorem C77_least_squares : c != 0 -> exists2 B, regularise svd A c = Ok (Some B) &
  forall b, minimiser (cost A c b) (B *m b).
Proof.
move=> c0; case: (code_cutoff e sv cr c0) => B [eB _ _ h]; exists B => // b.
exact: minimiser_lemma.
Qed.

(* No element grows beyond 1 / (2 c), however small the singular values are. *)
Theorem C77_bounded : c != 0 -> exists2 B, regularise svd A c = Ok (Some B) &
  forall b, 4%:R * c ^+ 2 * sqnorm (B *m b) <= sqnorm b.
Proof.
move=> c0; exists (adj V *m diag_mx (damped c D) *m adj U).
  by apply: (code_ok e); apply: (nz_c sv cr c0).
by move=> b; apply: (bounded_lemma sv cr (nz_c sv cr c0)).
Qed.

(* The distance from the inverse. *)
Theorem C77_error : c != 0 -> A \in unitmx -> exists2 B, regularise svd A c = Ok (Some B) &
  invmx A - B = c ^+ 2 *: (invmx (normal_mx A c) *m invmx A).
Proof.
move=> c0 uA; case: (code_cutoff e sv cr c0) => B [eB u _ h]; exists B => //.
rewrite scalemxAr; apply: (canRL (mulKmx u)).
by rewrite mulmxBr h {1}/normal_mx mulmxDl mulmxK // mul_scalar_mx addrAC subrr add0r.
Qed.

(* Without a cutoff: the inverse, or NaN for singular matrices. *)
Theorem C77_exact : c = 0 ->
  regularise svd A c = Ok (if A \in unitmx then Some (invmx A) else None).
Proof.
by move=> c0; case: ifP => [u|/negbT u]; [apply: (code_exact e sv c0 u) | apply: (code_singular e sv c0 u)].
Qed.

(* With a cutoff the result is a pseudo-inverse only of the zero matrix. *)
Theorem C77_pseudo : c != 0 -> exists2 B, regularise svd A c = Ok (Some B) &
  (A *m B *m A = A <-> A = 0).
Proof.
move=> c0; have nz := nz_c sv cr c0.
exists (adj V *m diag_mx (damped c D) *m adj U); first exact: (code_ok e).
split; first exact: (pseudo_lemma sv nz c0).
by move=> ->; rewrite mulmx0.
Qed.
End Props.
Print Assumptions C77_formula.
Print Assumptions C77_least_squares.
Print Assumptions C77_bounded.
Print Assumptions C77_error.
Print Assumptions C77_exact.
Print Assumptions C77_pseudo.

(* Every matrix has a decomposition, so that the hypotheses above (and those of C43 on the
   singular value decomposition) can be met for all matrices of all sizes. *)
Theorem C77_svd (C : numClosedFieldType) n : exists svd : 'M[C]_n -> 'M[C]_n * 'rV[C]_n * 'M[C]_n,
  (forall A, let '(U, D, V) := svd A in svd_of A U D V) /\ svd_right svd.
Proof.
exists (@svd_fun C n); split; last exact: svd_fun_right.
by move=> A; case: (svd_fun A) (svd_funP A) => [[U D] V].
Qed.
Print Assumptions C77_svd.

(* The documentation calls it the pseudo-inverse. *)
Theorem C77_pseudo_refuted : exists (A U V : 'M[algC]_2) (D : 'rV[algC]_2),
  svd_of A U D V /\ forall c svd B, c \is Num.real -> c != 0 -> svd A = Ok (U, D, V) ->
    regularise svd A c = Ok (Some B) -> A *m B *m A <> A.
Proof.
pose D : 'rV[algC]_2 := \row_i (i == 0)%:R.
have sv : svd_of (diag_mx D) 1%:M D 1%:M.
  split; rewrite ?mul1mx ?mulmx1 //; try by rewrite /orthonormal mulmx1 /adj map_mx1 trmx1.
  by move=> i; rewrite mxE ler0n.
exists (diag_mx D), 1%:M, 1%:M, D; split=> // c svd B cr c0 e eB h.
case: (C77_pseudo e sv cr c0) => B'; rewrite eB => -[<-] [/(_ h) z _].
have := congr1 (fun X : 'M[algC]_2 => X 0 0) z; rewrite !mxE eqxx mulr1n => /eqP.
by rewrite oner_eq0.
Qed.
Print Assumptions C77_pseudo_refuted.

(* The hypotheses hold for a singular matrix. *)
Example C77_example : exists (A U V : 'M[algC]_2) (D : 'rV[algC]_2),
  svd_of A U D V /\ A \notin unitmx /\ A != 0.
Proof.
pose D : 'rV[algC]_2 := \row_i (i == 0)%:R.
exists (diag_mx D), 1%:M, 1%:M, D; split; last split.
- split; rewrite ?mul1mx ?mulmx1 //; try by rewrite /orthonormal mulmx1 /adj map_mx1 trmx1.
  by move=> i; rewrite mxE ler0n.
- by rewrite unitmxE det_diag !big_ord_recl big_ord0 !mxE /= mul0r mulr0 unitr0.
- apply/eqP => /matrixP /(_ 0 0); rewrite !mxE eqxx mulr1n => /eqP.
  by rewrite oner_eq0.
Qed.
