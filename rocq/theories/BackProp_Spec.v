(* What back propagation is compared with: ordered products of one-step
   matrices.  Nothing here refers to the model. *)

From Verif Require Import Base.
Set Warnings "-notation-overridden,-ambiguous-paths".
From mathcomp Require Import all_ssreflect all_algebra.
From Verif Require Import Rank1_Spec Ortho_Spec Taylor_Spec.

Set Implicit Arguments.
Unset Strict Implicit.
Unset Printing Implicit Defensive.

Import Order.TTheory GRing.Theory Num.Theory.
Local Open Scope ring_scope.

Section Spec.
Variable C : numClosedFieldType.

(* B(x_N) ... B(x_1) for the path x_1, ..., x_N *)
Definition path_product F n (B : F -> 'M[C]_n) (path : seq F) : 'M[C]_n :=
  foldl (fun P x => B x *m P) 1%:M path.

(* Half a one-body step on either side of X. *)
Definition trotter n (B X : 'M[C]_n) : 'M[C]_n := B *m X *m B.

(* The two-body matrix of a path of continuous fields with expansion order N,
   V giving the potential of a field. *)
Definition cont_step F n (N : nat) (B : 'M[C]_n) (V : F -> 'M[C]_n) (x : F)
  : 'M[C]_n := trotter B (taylor N (V x)).

(* sum of the fields times the matrices *)
Definition field_sum n nc (H : 'I_nc -> 'M[C]_n) (x : 'I_nc -> C) : 'M[C]_n :=
  \sum_g x g *: H g.

(* The number multiplying a site with field x and spin s. *)
Definition spin_site (ep em : C) (x s : bool) : C := if x == s then ep else em.
Definition charge_site (ep em : C) (x s : bool) : C := if x then em else ep.

Definition site_step n (B : 'M[C]_n) (a : bool -> C) (x : 'I_n -> bool)
  : 'M[C]_n := trotter B (diag_mx (\row_i a (x i))).

(* b is the adjoint of P applied to psi, as far as overlaps with
   determinants are concerned: up to the factor d and the choice of orbitals
   in the span. *)
Definition back_of n m (P : 'M[C]_n) (psi b : 'M[C]_(n, m)) (d : C) : Prop :=
  [/\ same_span (adj P *m psi) b, 0 < d,
      (forall phi, overlap (@conjC C) psi (P *m phi)
                   = d * overlap (@conjC C) b phi)
    & (forall phi, ovlp_mx (@conjC C) psi (P *m phi) \in unitmx ->
         green (@conjC C) b phi = green (@conjC C) (adj P *m psi) phi)].

(* A back propagation along the path returned the adjoints of the products
   for both spins; no orthogonalisation takes place if the path is no longer
   than nst. *)
Definition goes_back F n nu nd (Bu Bd : F -> 'M[C]_n) (path : seq F)
    (nst : nat) (psi : 'M[C]_(n, nu) * 'M[C]_(n, nd))
    (r : res (('M[C]_(n, nu) * 'M[C]_(n, nd))
              * seq ('M[C]_(n, nu) * 'M[C]_(n, nd)))) : Prop :=
  exists b st du dd, r = Ok (b, st)
    /\ back_of (path_product Bu path) psi.1 b.1 du
    /\ back_of (path_product Bd path) psi.2 b.2 dd
    /\ ((size path <= nst)%N -> [/\ du = 1, dd = 1,
          b.1 = adj (path_product Bu path) *m psi.1
        & b.2 = adj (path_product Bd path) *m psi.2]).

(* The library's QR does its work. *)
Definition qr_works (qr : forall n m, 'M[C]_(n, m) -> 'M[C]_(n, m) * 'M[C]_m)
  : Prop :=
  forall n m (A : 'M[C]_(n, m)), full_rank A ->
  is_qr A (qr n m A).1 (qr n m A).2.

(* The overlap with the combination of determinants in which d has the
   coefficient w. *)
Definition comb_overlap n m (ds : seq (C * 'M[C]_(n, m))) (phi : 'M[C]_(n, m))
  : C := \sum_(d <- ds) (d.1)^* * overlap (@conjC C) d.2 phi.

End Spec.
