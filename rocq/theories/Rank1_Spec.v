(* What rank-one updates and site sweeps are compared with: determinants and
   inverses computed from scratch.  Nothing here refers to the model. *)

From Verif Require Import Base.
Set Warnings "-notation-overridden,-ambiguous-paths".
From mathcomp Require Import all_ssreflect all_algebra.

Set Implicit Arguments.
Unset Strict Implicit.
Unset Printing Implicit Defensive.

Import GRing.Theory.
Local Open Scope ring_scope.

Section Spec.
Variable K : fieldType.
Variable cj : K -> K.

(* The overlap matrix of two sets of orbitals and its determinant. *)
Definition ovlp_mx n m (psi phi : 'M[K]_(n, m)) : 'M[K]_m :=
  (map_mx cj psi)^T *m phi.

Definition overlap n m (psi phi : 'M[K]_(n, m)) : K := \det (ovlp_mx psi phi).

(* Row i multiplied by x. *)
Definition scale_row n m (phi : 'M[K]_(n, m)) (i : 'I_n) (x : K)
  : 'M[K]_(n, m) :=
  \matrix_(k, a) (if k == i then x * phi k a else phi k a).

(* Row i replaced by v. *)
Definition set_row n m (phi : 'M[K]_(n, m)) (i : 'I_n) (v : 'rV[K]_m)
  : 'M[K]_(n, m) :=
  \matrix_(k, a) (if k == i then v 0 a else phi k a).

(* The Green's function <psi| c_i^+ c_j |phi> / <psi|phi>. *)
Definition green n m (psi phi : 'M[K]_(n, m)) : 'M[K]_n :=
  (phi *m invmx (ovlp_mx psi phi) *m (map_mx cj psi)^T)^T.

(* The thermal Green's function <c_i c_j^+> of the density matrix A. *)
Definition tgreen n (A : 'M[K]_n) : 'M[K]_n := invmx (1%:M + A).

(* The unnormalised partition function det(1 + A). *)
Definition zpart n (A : 'M[K]_n) : K := \det (1%:M + A).

(* The stored quantities of a walker agree with its orbitals: the stored
   inverses are the inverses of the overlap matrices and the stored overlap
   is the overlap times x. *)
Definition stored_right n nu nd (psiu phiu : 'M[K]_(n, nu))
    (psid phid : 'M[K]_(n, nd)) (iu : 'M[K]_nu) (id : 'M[K]_nd) (o x : K)
  : Prop :=
  ovlp_mx psiu phiu \in unitmx /\
  ovlp_mx psid phid \in unitmx /\
  iu = invmx (ovlp_mx psiu phiu) /\
  id = invmx (ovlp_mx psid phid) /\
  o = overlap psiu phiu * overlap psid phid * x.

End Spec.
