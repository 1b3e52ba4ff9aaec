(* Proofs about the rotated Green's function. *)

From Verif Require Import Base.
Set Warnings "-notation-overridden,-ambiguous-paths".
From mathcomp Require Import all_ssreflect all_algebra.
From Verif Require Import Rotated_Model Rotated_Spec.

Set Implicit Arguments.
Unset Strict Implicit.
Unset Printing Implicit Defensive.

Import Order.TTheory GRing.Theory Num.Theory.
Local Open Scope ring_scope.

Section Proofs.
Variable C : numClosedFieldType.
Local Notation "A ^c" := (map_mx (@conjC C) A) (at level 2, format "A ^c").

Lemma rot_half n m (psi phi : 'M[C]_(n, m)) : (psi^c)^T *m phi \in unitmx ->
  half_rotated psi phi (phi *m inverse_overlap psi phi)^T.
Proof.
move=> U; split.
  rewrite -[psi^c in LHS]trmxK -trmx_mul mulmxA.
  by rewrite /inverse_overlap mulmxV // trmx1.
by exists (inverse_overlap psi phi)^T; rewrite trmx_mul.
Qed.

Lemma half_unique n m (psi phi : 'M[C]_(n, m)) H H' :
  half_rotated psi phi H -> half_rotated psi phi H' -> H = H'.
Proof.
move=> [E [X EX]] [E' [X' EX']].
have EY : X *m (phi^T *m psi^c) = 1%:M by rewrite mulmxA -EX.
have EY' : X' *m (phi^T *m psi^c) = 1%:M by rewrite mulmxA -EX'.
have [U _] := mulmx1_unit (mulmx1C EY).
rewrite EX EX'; congr (_ *m _).
by rewrite -[X](mulmxK U) EY -[X'](mulmxK U) EY'.
Qed.

Lemma half_green n m (psi phi : 'M[C]_(n, m)) H : half_rotated psi phi H ->
  (psi^c *m H) *m (psi^c *m H) = psi^c *m H /\ \tr (psi^c *m H) = m%:R.
Proof.
move=> [E _]; split; first by rewrite mulmxA -(mulmxA _ H) E mulmx1.
by rewrite mxtrace_mulC E mxtrace1.
Qed.

Lemma rot_invariant n m (psi phi : 'M[C]_(n, m)) (R : 'M[C]_m) :
  (psi^c)^T *m phi \in unitmx -> R \in unitmx ->
  phi *m R *m inverse_overlap psi (phi *m R) = phi *m inverse_overlap psi phi.
Proof.
move=> U UR; apply: trmx_inj.
have U' : (psi^c)^T *m (phi *m R) \in unitmx by rewrite mulmxA unitmx_mul U.
have [E [X EX]] := rot_half U'.
apply: (half_unique (phi := phi) (psi := psi)); last exact: rot_half.
by split=> //; exists (X *m R^T); rewrite EX trmx_mul mulmxA.
Qed.
End Proofs.
