(* The rotated Green's function of a walker with one determinant.

   Sources (all under /repo/pauxy):
     walkers/single_det.py 96-115    inverse_overlap
     walkers/single_det.py 323-338   rotated_greens_function

   Simplifications: exact numbers of any numerically closed field; the two spins are separate
   matrices, so that the slices at nup disappear.  scipy.linalg.inv of a singular matrix raises;
   invmx is total, and the theorems assume invertibility. *)

From Verif Require Import Base.
Set Warnings "-notation-overridden,-ambiguous-paths".
From mathcomp Require Import all_ssreflect all_algebra.

Set Implicit Arguments.
Unset Strict Implicit.
Unset Printing Implicit Defensive.

Import Order.TTheory GRing.Theory Num.Theory.
Local Open Scope ring_scope.

Section Rotated.
Variable C : numClosedFieldType.
Local Notation "A ^c" := (map_mx (@conjC C) A) (at level 2, format "A ^c").

Definition inverse_overlap n m (psi phi : 'M[C]_(n, m)) : 'M[C]_m := invmx ((psi^c)^T *m phi).

(* Gmod[1] has the shape of Gmod[0] when there are no down electrons. *)
Definition rotated_greens_function n nu nd (psiu phiu : 'M[C]_(n, nu)) (psid phid : 'M[C]_(n, nd))
  : 'M[C]_(n, nu) * ('M[C]_(n, nu) + 'M[C]_(n, nd)) :=
  (phiu *m inverse_overlap psiu phiu,
   if (0 < nd)%N then inr (phid *m inverse_overlap psid phid) else inl 0).
End Rotated.
