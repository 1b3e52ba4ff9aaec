(* Energies by Wick's theorem, and averages over random signs.  Nothing here
   refers to the model. *)

From Verif Require Import Base.
Set Warnings "-notation-overridden,-ambiguous-paths".
From mathcomp Require Import all_ssreflect all_algebra.

Set Implicit Arguments.
Unset Strict Implicit.
Unset Printing Implicit Defensive.

Import Order.TTheory GRing.Theory Num.Theory.
Local Open Scope ring_scope.

Section Spec.
Variable C : numClosedFieldType.

Section Wick.
Variable M : nat.

(* G of one of the two spins. *)
Definition spin (G : 'M[C]_M * 'M[C]_M) (s : bool) : 'M[C]_M :=
  if s then G.2 else G.1.

(* sum_s sum_ij h_ij <c+_is c_js> with G_ij = <c+_i c_j> *)
Definition wick1 (h G : 'M[C]_M * 'M[C]_M) : C :=
  \sum_(s : bool) \sum_i \sum_j spin h s i j * spin G s i j.

(* 1/2 sum (pr|qu) <c+_ps c+_qt c_ut c_rs> *)
Definition wick2 (v : 'I_M -> 'I_M -> 'I_M -> 'I_M -> C)
    (G : 'M[C]_M * 'M[C]_M) : C :=
  1 / 2%:R * \sum_(s : bool) \sum_(t : bool) \sum_p \sum_r \sum_q \sum_u
    v p r q u * (spin G s p r * spin G t q u
                 - (if s == t then spin G s p u * spin G t q r else 0)).

Definition energies (h : 'M[C]_M * 'M[C]_M)
    (v : 'I_M -> 'I_M -> 'I_M -> 'I_M -> C) (ecore : C)
    (G : 'M[C]_M * 'M[C]_M) : C * C * C :=
  (wick1 h G + wick2 v G + ecore, wick1 h G + ecore, wick2 v G).

(* The same for spin orbitals with one Green's function. *)
Definition wick2_so (v : 'I_M -> 'I_M -> 'I_M -> 'I_M -> C) (G : 'M[C]_M) : C :=
  1 / 2%:R * \sum_p \sum_r \sum_q \sum_u
    v p r q u * (G p r * G q u - G p u * G q r).

End Wick.

(* On-site repulsion: U for electrons at one site. *)
Definition onsite M (U : C) (p r q u : 'I_M) : C :=
  if (p == r) && (r == q) && (q == u) then U else 0.

(* The same on spin orbitals: the first M are up, the last M down. *)
Definition site M (x : 'I_(M + M)) : 'I_M :=
  match split x with inl i => i | inr i => i end.
Definition is_down M (x : 'I_(M + M)) : bool :=
  match split x with inl _ => false | inr _ => true end.
Definition onsite_so M (U : C) (p r q u : 'I_(M + M)) : C :=
  if (p == r) && (q == u) && (site r == site q) then U else 0.

(* The matrix with factors U and VT. *)
Definition uvt_prod M (f : {k : nat & ('M[C]_(M, k) * 'M[C]_(k, M))%type})
  : 'M[C]_M := let '(existT k (U, VT)) := f in U *m VT.

(* Average over independent fair signs. *)
Definition signs m n (s : {ffun 'I_m * 'I_n -> bool}) : 'M[C]_(m, n) :=
  \matrix_(i, j) (-1) ^+ (s (i, j)).
Definition mean m n (f : 'M[C]_(m, n) -> C) : C :=
  (\sum_(s : {ffun 'I_m * 'I_n -> bool}) f (signs s))
  / #|{: {ffun 'I_m * 'I_n -> bool}}|%:R.

End Spec.

Arguments uvt_prod {C M} f.
