(* Energies and Fock matrices of the uniform electron gas, and the other Fock matrices.

   Sources (all under /repo/pauxy):
     systems/ueg.py 120-124, 140-170     nlimit, ikpq_i, ikpq_kpq, ipmq_i, ipmq_pmq
     estimators/ueg.py 14-19, 21-26      exchange_greens_function, coulomb_greens_function
     estimators/ueg.py 27-88             local_energy_ueg
     estimators/ueg.py 91-130            build_J, build_K
     estimators/ueg.py 133-173           fock_ueg
     estimators/ueg_kernels.pyx          coulomb_greens_function_per_qvec,
                                         exchange_greens_function_per_qvec,
                                         build_J_opt, build_K_opt
     estimators/generic.py 458-466       fock_generic
     estimators/hubbard.py 208-214       fock_hubbard
     estimators/fock.py 5-15             fock_matrix

   Simplifications: as in Reorder_Model: exact arithmetic, plane waves are elements of
   an abelian group, lookup_basis is an argument (C33 is about it).  The pairs of arrays
   with index i and the index of k_i + q are lists of pairs.  += on an entry of an array
   that starts from zero is a sum.  einsum raises ValueError when the number of axes is
   wrong. *)

From Verif Require Import Base.
Set Warnings "-notation-overridden,-ambiguous-paths".
From mathcomp Require Import all_ssreflect all_algebra.
From Verif Require Import LEnergy_Model Reorder_Model.

Set Implicit Arguments.
Unset Strict Implicit.
Unset Printing Implicit Defensive.

Import Order.TTheory GRing.Theory Num.Theory.
Local Open Scope ring_scope.

Section Energy.
Variable C : numClosedFieldType.
Variable M : nat.
Notation mat2 := ('M[C]_M * 'M[C]_M)%type.

Section UEG.
Variable V : zmodType.
Variables pi vol : C.
Variable norm2 : V -> C.
Variable basis : 'I_M -> V.
Variable lookup_basis : V -> option 'I_M.
Variable qvecs : seq V.
Variable nlimit : nat.

(* systems/ueg.py 120-124 *)
Definition limit (thermal : bool) (nup : nat) : nat := if thermal then M else nup.

(* systems/ueg.py 140-170: pairs (i, index of k_i + q), (i, index of k_i - q) *)
Definition ikpq (q : V) : seq ('I_M * 'I_M) :=
  pmap (fun i : 'I_M => if lookup_basis (basis i + q) is Some j then Some (i, j) else None)
       [seq i : 'I_M <- enum 'I_M | (i < nlimit)%N].
Definition ipmq (q : V) : seq ('I_M * 'I_M) :=
  pmap (fun i : 'I_M => if lookup_basis (basis i - q) is Some j then Some (i, j) else None)
       [seq i : 'I_M <- enum 'I_M | (i < nlimit)%N].

Definition Gkpq (G : 'M[C]_M) (q : V) : C := \sum_(x <- ikpq q) G x.1 x.2.
Definition Gpmq (G : 'M[C]_M) (q : V) : C := \sum_(x <- ipmq q) G x.1 x.2.
Definition Gprod (G : 'M[C]_M) (q : V) : C :=
  \sum_(x <- ikpq q) \sum_(y <- ipmq q) G y.1 x.2 * G x.1 y.2.

Definition vqvec (q : V) : C := vq pi norm2 q.
Definition fac : C := 1 / (2%:R * vol).

(* the contraction of vqvec with an array over qvecs *)
Definition vdot (f : V -> C) : C := \sum_(q <- qvecs) vqvec q * f q.

(* estimators/ueg.py 27-88 *)
Definition local_energy_ueg (diagH1 : bool) (H1 : mat2) (G : mat2) : C * C * C :=
  let ke := if diagH1 then \sum_i H1.1 i i * G.1 i i + \sum_i H1.2 i i * G.2 i i
            else \sum_i \sum_j H1.1 i j * G.1 i j + \sum_i \sum_j H1.2 i j * G.2 i j in
  let essa := fac * vdot (fun q => Gkpq G.1 q * Gpmq G.1 q - Gprod G.1 q) in
  let essb := fac * vdot (fun q => Gkpq G.2 q * Gpmq G.2 q - Gprod G.2 q) in
  let eos := fac * vdot (fun q => Gkpq G.1 q * Gpmq G.2 q)
             + fac * vdot (fun q => Gkpq G.2 q * Gpmq G.1 q) in
  let pe := essa + essb + eos in
  (ke + pe, ke, pe).

(* estimators/ueg.py 91-114, with the arguments in the order of its definition *)
Definition build_J (Gpmq Gkpq : V -> C) : 'M[C]_M :=
  \matrix_(j, i)
    (\sum_(q <- qvecs) (if lookup_basis (basis j + q) == Some i
                        then fac * vqvec q * Gkpq q else 0)
   + \sum_(q <- qvecs) (if lookup_basis (basis j - q) == Some i
                        then fac * vqvec q * Gpmq q else 0)).

(* ueg_kernels.pyx: J[0,j,i] for (i, j) in the lists *)
Definition build_J_opt (Gkpq Gpmq : V -> C) : 'M[C]_M :=
  \matrix_(a, b)
    \sum_(q <- qvecs)
      (\sum_(x <- ipmq q) (if (x.2 == a) && (x.1 == b) then fac * vqvec q * Gpmq q else 0)
     + \sum_(x <- ikpq q) (if (x.2 == a) && (x.1 == b) then fac * vqvec q * Gkpq q else 0)).

(* estimators/ueg.py 116-130 and ueg_kernels.pyx, one spin *)
Definition build_K_opt (G : 'M[C]_M) : 'M[C]_M :=
  \matrix_(a, b)
    \sum_(q <- qvecs)
      (\sum_(j <- ipmq q) \sum_(k <- ikpq q)
         (if (j.1 == a) && (k.2 == b) then - (fac * vqvec q * G j.2 k.1) else 0)
     + \sum_(j <- ikpq q) \sum_(p <- ipmq q)
         (if (j.1 == a) && (p.2 == b) then - (fac * vqvec q * G j.2 p.1) else 0)).

(* estimators/ueg.py 133-173 *)
Definition fock_ueg (H1 : mat2) (G : mat2) : mat2 :=
  let J := build_J_opt (fun q => Gkpq G.1 q + Gkpq G.2 q) (fun q => Gpmq G.1 q + Gpmq G.2 q) in
  (H1.1 + J + build_K_opt G.1, H1.2 + J + build_K_opt G.2).
End UEG.

(* generic.py 458-466.  hs_pot has two axes (orbital pairs, fields) or three. *)
Inductive hs_array (naux : nat) : Type :=
| Axes2 (_ : 'M[C]_(M * M, naux))
| Axes3 (_ : 'I_naux -> 'M[C]_M).

Definition fock_generic naux (sparse : bool) (hs_pot : hs_array naux) (h1e_mod P : mat2)
  : res mat2 :=
  match hs_pot, sparse with
  | Axes2 hs, true =>
      let mf_shift n := 'i * (\sum_p \sum_q P.1 p q * hs (flat p q) n)
                        + 'i * (\sum_p \sum_q P.2 p q * hs (flat p q) n) in
      let VMF := \matrix_(p, q) ('i * \sum_n hs (flat p q) n * mf_shift n) in
      Ok (h1e_mod.1 - VMF, h1e_mod.2 - VMF)
  | Axes3 hs, false =>
      let mf_shift n := 'i * (\sum_p \sum_q hs n p q * P.1 p q + \sum_p \sum_q hs n p q * P.2 p q) in
      let VMF := \matrix_(p, q) ('i * \sum_n hs n p q * mf_shift n) in
      Ok (h1e_mod.1 - VMF, h1e_mod.2 - VMF)
  | _, _ => Err ValueError
  end.

(* hubbard.py 208-214 *)
Definition fock_hubbard (T : mat2) (U : C) (P : mat2) : mat2 :=
  let niu := \matrix_(i, j) (if i == j then P.1 i i else 0) in
  let nid := \matrix_(i, j) (if i == j then P.2 i i else 0) in
  (T.1 + U *: nid, T.2 + U *: niu).
End Energy.
