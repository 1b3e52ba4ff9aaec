(* C81: the rotated Green's function. *)

From Verif Require Import Base.
Set Warnings "-notation-overridden,-ambiguous-paths".
From mathcomp Require Import all_ssreflect all_algebra all_field.
From Verif Require Import Rotated_Model Rotated_Spec Rotated_Proofs.

Set Implicit Arguments.
Unset Strict Implicit.
Unset Printing Implicit Defensive.

Import Order.TTheory GRing.Theory Num.Theory.
Local Open Scope ring_scope.

Section Props.
Variable C : numClosedFieldType.
Local Notation "A ^c" := (map_mx (@conjC C) A) (at level 2, format "A ^c").

(* The transposes of both results are the half-rotated Green's functions, and nothing else is. *)
Theorem C81_transpose n nu nd (psiu phiu : 'M[C]_(n, nu)) (psid phid : 'M[C]_(n, nd)) :
  (psiu^c)^T *m phiu \in unitmx -> (psid^c)^T *m phid \in unitmx -> (0 < nd)%N ->
  exists Gu Gd, rotated_greens_function psiu phiu psid phid = (Gu, inr Gd) /\
    (forall H, half_rotated psiu phiu H <-> H = Gu^T) /\
    (forall H, half_rotated psid phid H <-> H = Gd^T).
Proof.
move=> Uu Ud d0; rewrite /rotated_greens_function d0.
do 2 eexists; split; first by [].
by split=> H; split=> [h|->]; [exact: half_unique h (rot_half _)|exact: rot_half|
  exact: half_unique h (rot_half _)|exact: rot_half].
Qed.

(* With the trial they give the Green's function: a projector onto as many states as electrons. *)
Theorem C81_green n nu nd (psiu phiu : 'M[C]_(n, nu)) (psid phid : 'M[C]_(n, nd)) :
  (psiu^c)^T *m phiu \in unitmx ->
  let G := psiu^c *m ((rotated_greens_function psiu phiu psid phid).1)^T in
  G *m G = G /\ \tr G = nu%:R.
Proof. by move=> U; apply: (half_green (phi := phiu)); exact: rot_half. Qed.

(* Reorthogonalisation does not change it. *)
Theorem C81_invariant n nu nd (psiu phiu : 'M[C]_(n, nu)) (psid phid : 'M[C]_(n, nd)) Ru Rd :
  (psiu^c)^T *m phiu \in unitmx -> (psid^c)^T *m phid \in unitmx -> Ru \in unitmx -> Rd \in unitmx ->
  rotated_greens_function psiu (phiu *m Ru) psid (phid *m Rd) = rotated_greens_function psiu phiu psid phid.
Proof. by move=> *; rewrite /rotated_greens_function !rot_invariant. Qed.

(* Without down electrons the second matrix is zero and has the shape of the first. *)
Theorem C81_no_down n nu (psiu phiu : 'M[C]_(n, nu)) (psid phid : 'M[C]_(n, 0)) :
  (rotated_greens_function psiu phiu psid phid).2 = inl 0.
Proof. by []. Qed.

(* The result itself is not the half-rotated Green's function, which greens_function stores in the
   same place: not even when the shapes agree. *)
Theorem C81_shape_refuted : exists psi phi : 'M[C]_2, (psi^c)^T *m phi \in unitmx /\
  ~ half_rotated psi phi (rotated_greens_function psi phi psi phi).1.
Proof.
pose psi : 'M[C]_2 := \matrix_(i, j) ((i <= j)%N)%:R.
have conj_psi : psi^c = psi by apply/matrixP => i j; rewrite !mxE rmorph_nat.
have det_psi : \det psi = 1.
  by rewrite (expand_det_row _ ord0) !big_ord_recl big_ord0 /cofactor !det_mx11 !mxE /= !expr0 ?mul1r ?mulr1
    /bump /= ?mulr0 ?mul0r ?addr0.
have U : psi^T \in unitmx by rewrite unitmx_tr unitmxE det_psi unitr1.
exists psi, 1%:M; rewrite conj_psi mulmx1; split; first exact: U.
rewrite /rotated_greens_function /= /inverse_overlap conj_psi mulmx1 mul1mx => -[E _].
have E' : invmx psi^T *m psi = 1%:M by rewrite -[X in _ *m X]conj_psi.
have : psi = psi^T by rewrite -[LHS]mul1mx -(mulmxV U) -mulmxA E' mulmx1.
by move/matrixP/(_ ord0 ord_max); rewrite !mxE /= => /eqP; rewrite oner_eq0.
Qed.
End Props.

Print Assumptions C81_transpose.
Print Assumptions C81_green.
Print Assumptions C81_invariant.
Print Assumptions C81_no_down.
Print Assumptions C81_shape_refuted.

(* The hypotheses hold for a walker equal to the trial, one electron on two sites. *)
Definition one_electron (C : numClosedFieldType) : 'M[C]_(2, 1) := \matrix_(i, j) (i == ord0)%:R.
Example C81_example (C : numClosedFieldType) :
  (map_mx (@conjC C) (one_electron C))^T *m one_electron C \in unitmx.
Proof.
rewrite (_ : _ *m _ = 1%:M) ?unitmx1 //.
apply/matrixP => i j; rewrite !mxE !big_ord_recl big_ord0 !mxE !ord1 /= rmorph1 mulr1 rmorph0 mulr0.
by rewrite !addr0.
Qed.
