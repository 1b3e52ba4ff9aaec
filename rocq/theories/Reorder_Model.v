(* One-body Hamiltonians after the two-body operator is written as a sum of
   squares.

   Sources (all under /repo/pauxy):
     systems/generic.py 202-210     construct_h1e_mod
     systems/hubbard.py 148-155     construct_h1e_mod
     systems/ueg.py 282-296         vq
     systems/ueg.py 298-319         mod_one_body
     systems/ueg.py 338-402         scaled_density_operator_incore
     systems/ueg.py 404-428         two_body_potentials_incore
     systems/ueg.py 435-460         hijkl

   Simplifications: numbers are elements of an arbitrary numerically closed
   field; pi, the volume and the function giving |kfac q|^2 are arguments.
   Wave vectors are elements of an arbitrary abelian group.  The flattened
   sparse density operators are one matrix per momentum transfer; the table
   lookup is an argument (C33 shows that it finds exactly the basis).  hijkl
   compares squared lengths with 1e-12; here vectors are compared exactly. *)

From Verif Require Import Base.
Set Warnings "-notation-overridden,-ambiguous-paths".
From mathcomp Require Import all_ssreflect all_algebra.
From Verif Require Import LEnergy_Model.

Set Implicit Arguments.
Unset Strict Implicit.
Unset Printing Implicit Defensive.

Import Order.TTheory GRing.Theory Num.Theory.
Local Open Scope ring_scope.

Section Reorder.
Variable C : numClosedFieldType.
Variable M : nat.

(* generic.py 202-210 *)
Definition construct_h1e_mod naux (chol : 'M[C]_(M * M, naux))
    (h1e : 'M[C]_M * 'M[C]_M) : 'M[C]_M * 'M[C]_M :=
  let chol_3 i k n := chol (flat i k) n in
  let v0 := \matrix_(i, j) (half C * \sum_k \sum_n chol_3 i k n * chol_3 j k n) in
  (h1e.1 - v0, h1e.2 - v0).

(* hubbard.py 148-155 *)
Definition construct_h1e_mod_hubbard (symmetric : bool) (U : C)
    (H1 : 'M[C]_M * 'M[C]_M) : 'M[C]_M * 'M[C]_M :=
  if ~~ symmetric then
    let v0 := (half C * U) *: 1%:M in
    (H1.1 - v0, H1.2 - v0)
  else H1.

Section UEG.
Variable V : zmodType.
Variables pi vol : C.
Variable norm2 : V -> C.
Variable basis : 'I_M -> V.
Variable lookup_basis : V -> option 'I_M.
Variable qvecs : seq V.

Definition vq (q : V) : C := 4%:R * pi / norm2 q.

(* ueg.py 298-319: the inner loop subtracts one term for every other j *)
Definition mod_one_body (T : 'M[C]_M) : 'M[C]_M :=
  let fac := 1 / (2%:R * vol) in
  \matrix_(i, i')
    if i == i' then
      foldl (fun h j => if i != j then h - fac * vq (basis i - basis j) else h)
            (T i i) (enum 'I_M)
    else T i i'.

(* ueg.py 338-402: row kpq, column i *)
Definition rho_q (q : V) : 'M[C]_M :=
  let factor := sqrtC (pi / vol / norm2 q) in
  \matrix_(kpq, i)
    if lookup_basis (basis i + q) == Some kpq then factor else 0.
(* transpose=True: row i, column kpq *)
Definition rho_qH (q : V) : 'M[C]_M :=
  let factor := sqrtC (pi / vol / norm2 q) in
  \matrix_(i, kpq)
    if lookup_basis (basis i + q) == Some kpq then factor else 0.

(* 404-428 *)
Definition iA (q : V) : 'M[C]_M := 'i *: (rho_q q + rho_qH q).
Definition iB (q : V) : 'M[C]_M := - (rho_q q - rho_qH q).

(* 435-460 *)
Definition hijkl_ueg (i j k l : 'I_M) : C :=
  let q1 := basis k - basis i in
  let q2 := basis j - basis l in
  if (q1 != 0) && (q1 == q2) then 1 / vol * vq q1 else 0.

End UEG.
End Reorder.
