(* Equal-time and time-displaced Green's functions of a pair of determinants
   and a path of propagators.  Nothing here refers to the model except the
   record of a walker. *)

From Verif Require Import Base.
Set Warnings "-notation-overridden,-ambiguous-paths".
From mathcomp Require Import all_ssreflect all_algebra.
From Verif Require Import Rank1_Spec Ortho_Spec Taylor_Spec BackProp_Spec ITCF_Model.

Set Implicit Arguments.
Unset Strict Implicit.
Unset Printing Implicit Defensive.

Import Order.TTheory GRing.Theory Num.Theory.
Local Open Scope ring_scope.

Section Spec.
Variable C : numClosedFieldType.
Local Notation cj := (@conjC C).

(* <A| c_j^+ c_i |B> and <A| c_i c_j^+ |B>, over <A|B> *)
Definition lesser n m (A B : 'M[C]_(n, m)) : 'M[C]_n :=
  B *m invmx (adj A *m B) *m adj A.
Definition greater n m (A B : 'M[C]_(n, m)) : 'M[C]_n := 1%:M - lesser A B.

Section Path.
Variables (n nu nd : nat).
Local Notation pair := ('M[C]_n * 'M[C]_n)%type.
Local Notation dets := ('M[C]_(n, nu) * 'M[C]_(n, nd))%type.

(* The product of the propagators of a path for either spin. *)
Definition prod_u (Bs : seq pair) : 'M[C]_n := path_product (fun B => B.1) Bs.
Definition prod_d (Bs : seq pair) : 'M[C]_n := path_product (fun B => B.2) Bs.

(* The trial taken back along a path, a determinant taken forward. *)
Definition go_back (Bs : seq pair) (psi : dets) : dets :=
  (adj (prod_u Bs) *m psi.1, adj (prod_d Bs) *m psi.2).
Definition go_forward (Bs : seq pair) (R : dets) : dets :=
  (prod_u Bs *m R.1, prod_d Bs *m R.2).

(* The equal-time Green's functions: greater, then lesser. *)
Definition equal_time (A B : dets) : pair * pair :=
  ((greater A.1 B.1, greater A.2 B.2), (lesser A.1 B.1, lesser A.2 B.2)).

(* Those at slice k of the path. *)
Definition at_slice (k : nat) (Bs : seq pair) (psi R : dets) : pair * pair :=
  equal_time (go_back (drop k Bs) psi) (go_forward (take k Bs) R).

(* The time-displaced ones between slice 0 and slice k. *)
Definition displaced (k : nat) (Bs : seq pair) (psi R : dets) : pair * pair :=
  let G := equal_time (go_back Bs psi) R in
  let Pu := prod_u (take k Bs) in
  let Pd := prod_d (take k Bs) in
  ((Pu *m G.1.1, Pd *m G.1.2), (G.2.1 *m invmx Pu, G.2.2 *m invmx Pd)).

Definition invertible (Bs : seq pair) : Prop :=
  forall B, List.In B Bs -> B.1 \in unitmx /\ B.2 \in unitmx.

(* The trial is not orthogonal to R taken along the path. *)
Definition nonorthogonal (Bs : seq pair) (psi R : dets) : Prop :=
  ovlp_mx cj psi.1 (prod_u Bs *m R.1) \in unitmx
  /\ ovlp_mx cj psi.2 (prod_d Bs *m R.2) \in unitmx.

(* Every propagator of the path maps the trial, taken back, to itself. *)
Definition eigen (Bs : seq pair) (psi : dets) : Prop :=
  forall B, List.In B Bs ->
    same_span (adj B.1 *m psi.1) psi.1 /\ same_span (adj B.2 *m psi.2) psi.2.

End Path.

(* The same with one matrix for both spins. *)
Definition slice1 n m (k : nat) (Bs : seq 'M[C]_n) (psi R : 'M[C]_(n, m))
  : 'M[C]_n * 'M[C]_n :=
  let A := adj (path_product id (drop k Bs)) *m psi in
  let B := path_product id (take k Bs) *m R in (greater A B, lesser A B).

Definition re_part n (A : 'M[C]_n) : 'M[C]_n := map_mx (fun x => 'Re x) A.

(* f applied one after the other to a list. *)
Fixpoint chain T A (f : T -> A -> res T) (x : T) (l : seq A) : res T :=
  match l with [::] => Ok x | a :: l' => rbind (f x a) (fun y => chain f y l') end.

(* The weight of a walker, with or without the factors of its path. *)
Definition path_weight n nu nd (restore : bool) (w : itcf_walker C n nu nd) : C :=
  w_weight w * (if restore then w_fac0 w / w_fac1 w else 1).

(* The sum over walkers of weight times the real part of f. *)
Definition weighted n nu nd (restore : bool) (ws : seq (itcf_walker C n nu nd))
    (f : itcf_walker C n nu nd -> 'M[C]_n) : 'M[C]_n :=
  \sum_(w <- ws) path_weight restore w *: re_part (f w).

(* The greater functions of both spins and the lesser one of the first are, in
   the cell c, the sums for the functions between slices 0 and k. *)
Definition three_right n nu nd restore (ws : seq (itcf_walker C n nu nd))
    (psi : 'M[C]_(n, nu) * 'M[C]_(n, nd)) (k : nat)
    (c : ('M[C]_n * 'M[C]_n) * ('M[C]_n * 'M[C]_n)) : Prop :=
  let D w := displaced k (w_steps w) psi (w_right w) in
  [/\ c.1.1 = weighted restore ws (fun w => (D w).1.1),
      c.1.2 = weighted restore ws (fun w => (D w).1.2)
    & c.2.1 = weighted restore ws (fun w => (D w).2.1)].

Definition fourth_right n nu nd restore (ws : seq (itcf_walker C n nu nd))
    (psi : 'M[C]_(n, nu) * 'M[C]_(n, nd)) (k : nat)
    (c : ('M[C]_n * 'M[C]_n) * ('M[C]_n * 'M[C]_n)) : Prop :=
  c.2.2 = weighted restore ws
            (fun w => (displaced k (w_steps w) psi (w_right w)).2.2).

(* A walker whose stack holds the propagators of its path. *)
Definition sound n nu nd (psi : 'M[C]_(n, nu) * 'M[C]_(n, nd))
    (w : itcf_walker C n nu nd) : Prop :=
  [/\ w_stack w = w_steps w, invertible (w_steps w)
    & nonorthogonal (w_steps w) psi (w_right w)].

End Spec.
