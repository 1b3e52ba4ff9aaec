(* Extended Koopmans' theorem: generalised Fock matrices.

   Source: /repo/pauxy/estimators/ekt.py
     ekt_1p_fock_opt 10-42, ekt_1h_fock_opt 46-74,
     gen_fock_1h 76-128, gen_fock_1p 130-185.

   Simplifications: numbers are elements of an arbitrary numerically closed
   field.  cholvec[n,p,q] is a function of n, so that the assertions on its
   shape hold.  Intermediates that are not used (Ta of line 94, the last
   reshape of line 40) are left out. *)

From Verif Require Import Base.
Set Warnings "-notation-overridden,-ambiguous-paths".
From mathcomp Require Import all_ssreflect all_algebra.

Set Implicit Arguments.
Unset Strict Implicit.
Unset Printing Implicit Defensive.

Import Order.TTheory GRing.Theory Num.Theory.
Local Open Scope ring_scope.

Section Ekt.
Variable C : numClosedFieldType.
Variables M nchol : nat.
Variable h1 : 'M[C]_M.
Variable cholvec : 'I_nchol -> 'M[C]_M.

(* cholvec.reshape((nchol, nmo*nmo)).dot(rdm1.ravel()) *)
Definition Xn (rdm1 : 'M[C]_M) (n : 'I_nchol) : C :=
  \sum_i \sum_k cholvec n i k * rdm1 i k.

(* tensordot(X, cholvec.transpose(0,2,1), axes=([0],[0])): 24-25, 57-58 *)
Definition XcholT (rdm1 : 'M[C]_M) : 'M[C]_M :=
  \matrix_(i, k) \sum_n Xn rdm1 n * cholvec n k i.

(* tensordot(X, cholvec, axes=([0],[0])): 101-102, 148-149 *)
Definition Xchol (rdm1 : 'M[C]_M) : 'M[C]_M :=
  \matrix_(i, k) \sum_n Xn rdm1 n * cholvec n i k.

(* 10-42 *)
Definition ekt_1p_fock_opt (rdm1a rdm1b : 'M[C]_M) : 'M[C]_M :=
  let gamma := 1%:M - rdm1a^T + 1%:M - rdm1b^T in
  let rdm1 := rdm1a + rdm1b in
  let Xachol := XcholT rdm1a in
  let Xbchol := XcholT rdm1b in
  let J := 2%:R *: (Xachol + Xbchol) - 2%:R *: (rdm1a^T *m Xbchol)
           - rdm1a^T *m Xachol - rdm1b^T *m Xbchol in
  let K := \sum_x
    let c := cholvec x in
    let c2 := (cholvec x)^T in
    (- (c *m rdm1^T *m c2) + rdm1a^T *m c *m rdm1a^T *m c2
     + rdm1b^T *m c *m rdm1b^T *m c2) in
  gamma *m h1 + J + K.

(* 46-74 *)
Definition ekt_1h_fock_opt (rdm1a rdm1b : 'M[C]_M) : 'M[C]_M :=
  let Xachol := XcholT rdm1a in
  let Xbchol := XcholT rdm1b in
  let J := - (2%:R *: (rdm1a *m Xbchol^T)) - rdm1a *m Xachol^T
           - rdm1b *m Xbchol^T in
  let K := \sum_x
    let c := cholvec x in
    let c2 := (cholvec x)^T in
    (rdm1a *m c^T *m rdm1a *m c2^T + rdm1a *m c^T *m rdm1b *m c2^T) in
  let gamma := rdm1a + rdm1b in
  - (gamma *m h1^T) + J + K.

(* 76-128 *)
Definition gen_fock_1h (rdm1a rdm1b : 'M[C]_M) : 'M[C]_M * 'M[C]_M :=
  let Xachol := Xchol rdm1a in
  let Xbchol := Xchol rdm1b in
  let Ja := - (rdm1a *m Xachol^T) - rdm1a *m Xbchol^T in
  let Jb := - (rdm1b *m Xachol^T) - rdm1b *m Xbchol^T in
  let T rdm1 n i p := \sum_k cholvec n i k * rdm1 p k in
  let K rdm1 : 'M[C]_M :=
    \matrix_(p, q) \sum_n \sum_i T rdm1 n i p * T rdm1 n q i in
  let F1a := - (rdm1a *m h1^T) in
  let F1b := - (rdm1b *m h1^T) in
  (F1a + Ja + K rdm1a, F1b + Jb + K rdm1b).

(* 130-185 *)
Definition gen_fock_1p (rdm1a rdm1b : 'M[C]_M) : 'M[C]_M * 'M[C]_M :=
  let Xachol := Xchol rdm1a in
  let Xbchol := Xchol rdm1b in
  let Ja := - (rdm1a^T *m Xachol) - rdm1a^T *m Xbchol + (Xachol + Xbchol) in
  let Jb := - (rdm1b^T *m Xbchol) - rdm1b^T *m Xachol + (Xachol + Xbchol) in
  let T rdm1 n l p := \sum_j cholvec n j l * rdm1 j p in
  let K rdm1 : 'M[C]_M :=
    \matrix_(p, q) (\sum_n \sum_l T rdm1 n l p * T rdm1 n q l
                    - \sum_n \sum_l cholvec n p l * T rdm1 n q l) in
  let F1a := (1%:M - rdm1a)^T *m h1 in
  let F1b := (1%:M - rdm1b)^T *m h1 in
  (F1a + Ja + K rdm1a, F1b + Jb + K rdm1b).

End Ekt.
