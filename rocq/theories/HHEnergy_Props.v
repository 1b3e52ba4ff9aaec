(* C64: energies of the Hubbard-Holstein model and of coherent states. *)

From Verif Require Import Base BaseFacts.
Set Warnings "-notation-overridden,-ambiguous-paths".
From mathcomp Require Import all_ssreflect all_fingroup all_algebra all_field.
From Verif Require Import LEnergy_Model LEnergy_Spec HHEnergy_Model HHEnergy_Spec HHEnergy_Proofs.

Set Implicit Arguments.
Unset Strict Implicit.
Unset Printing Implicit Defensive.

Import Order.TTheory GRing.Theory Num.Theory.
Local Open Scope ring_scope.

Section Props.
Variable C : numClosedFieldType.
Variable M : nat.
Notation mat2 := ('M[C]_M * 'M[C]_M)%type.

(* The local energy in position space, and its copy in the trial wavefunction. *)
Theorem C64_position : forall (y : hh C M) (G : mat2) X Lap, hm y != 0 ->
  (hh_position y G X Lap).1.1 = holstein (hT y) (hU y) (hg y) (hm y) (hw y) G X Lap /\
  (hh_position y G X Lap).1.1 = (hh_position y G X Lap).1.2 + (hh_position y G X Lap).2 /\
  hh_position y G X Lap = hh_jax (hT y) (hU y) (hg y) (hm y) (hw y) G X Lap.
Proof.
move=> y G X Lap mN; split; first exact: position_right; split => //.
rewrite /hh_position /=.
set a := \sum_i _; set b := hU y * _; set c := half C * _ * _ * _; set d := _ - _; set e := - _ * _ * _.
by rewrite [d + c]addrC !addrA.
Qed.

(* Momentum space, with the Lang-Firsov transformation and m w0 = 1, the default. *)
Theorem C64_momentum_partial : forall expi (y : hh C M) (G : mat2) P Lap,
  0 < hm y -> 0 < hw y -> hm y * hw y = 1 ->
  exists e, hh_momentum expi y true G P Lap = Ok e /\
    let gm := gamma_lf y true in
    e.1.1 = lang_firsov (hT y) (fun i => expi (gm * P i)) (Ueff y)
      (gm ^+ 2 * (hm y * hw y ^+ 2) / 2%:R - gm * (hg y * sqrtC (2%:R * hm y * hw y)))
      (hm y) (hw y) G P Lap.
Proof. exact: momentum_ok. Qed.

(* Why these are the coefficients: with occupations nu and nd of a site, the displacement
   x + gm n removes the coupling. *)
Theorem C64_lang_firsov : forall (y : hh C M) (nu nd x : C), 0 < hm y -> 0 < hw y ->
  nu * nu = nu -> nd * nd = nd ->
  let gm := gamma_lf y true in let n := nu + nd in
  hU y * (nu * nd) + (hm y * hw y ^+ 2 / 2%:R * (x + gm * n) ^+ 2
    - hg y * sqrtC (2%:R * hm y * hw y) * n * (x + gm * n))
  = Ueff y * (nu * nd)
    + (gm ^+ 2 * (hm y * hw y ^+ 2) / 2%:R - gm * (hg y * sqrtC (2%:R * hm y * hw y))) * n
    + hm y * hw y ^+ 2 / 2%:R * x ^+ 2.
Proof. exact: site_identity. Qed.

(* For any other mass the assertion fails. *)
Theorem C64_momentum_raises : forall expi (y : hh C M) (G : mat2) P Lap, 0 < hm y -> 0 < hw y ->
  (hh_momentum expi y true G P Lap = Err AssertionError <-> hg y != 0 /\ hm y * hw y != 1).
Proof. exact: momentum_raises. Qed.

Theorem C64_momentum_off_refuted : forall expi (y : hh C M) (G : mat2) P Lap,
  0 < hm y -> 0 < hw y -> hg y != 0 -> hh_momentum expi y false G P Lap = Err AssertionError.
Proof. exact: momentum_off. Qed.

(* The first shift of a coherent state is the best one for its density. *)
Theorem C64_first_shift : forall (y : hh C M) (G : mat2) s, 0 < hm y -> 0 < hw y ->
  hg y \is Num.real -> (forall i, G.1 i i \is Num.real /\ G.2 i i \is Num.real) ->
  (coherent_energy y G s).1.1
  = (coherent_energy y G (first_shift y G)).1.1
    + hm y * hw y ^+ 2 / 2%:R * (\sum_i (s i - first_shift y G i) ^+ 2).
Proof. exact: shift_minimum. Qed.

(* A single coherent state. *)
Theorem C64_coherent : forall (y : hh C M) (G : mat2) s, 0 < hm y -> 0 < hw y ->
  let e := coherent_energy y G s in
  let b i := s i * sqrtC (hm y * hw y / 2%:R) in
  [/\ e.1.1 = e.1.2 + e.2,
      e.1.2 = wick1 (hT y) G + wick2 (fun p r q u => onsite (hU y) p r q u) G
    & e.2 = hw y * (\sum_i b i * b i) + - hg y * (\sum_i (G.1 i i + G.2 i i) * (b i + b i))].
Proof. exact: coherent_closed. Qed.

Section Many.
Variables na nb : nat.
Variable expo : C -> C.
Variable y : hh C M.
Hypothesis m0 : 0 < hm y.
Hypothesis w0 : 0 < hw y.
Hypothesis symT : (hT y).1^T = (hT y).1 /\ (hT y).2^T = (hT y).2.

(* Superpositions of coherent states with real orbitals, shifts and coefficients. *)
Theorem C64_multi_partial : forall n (st : 'I_n -> coherent C M na nb),
  (forall i, [/\ map_mx conjC (oa (st i)) = oa (st i), map_mx conjC (ob (st i)) = ob (st i),
              (forall k, sh (st i) k \is Num.real) & co (st i) \is Num.real]) ->
  let e f := expectation (fun i => co (st i)) f
    (fun i j => coherent_overlap expo (oa (st i)) (oa (st j)) (ob (st i)) (ob (st j))
                  (beta y (st i)) (beta y (st j))) in
  let el i j := electron_part (hT y) (hU y) (oa (st i)) (oa (st j)) (ob (st i)) (ob (st j)) in
  let ph i j := phonon_part (hg y) (hw y) (oa (st i)) (oa (st j)) (ob (st i)) (ob (st j))
                  (beta y (st i)) (beta y (st j)) in
  multi_energy expo y st = (e (fun i j => el i j + ph i j), e el, e ph).
Proof. exact: multi_right. Qed.

(* Permutations of one state: the same formula if the orbitals are orthonormal and the
   permutations are symmetries of the lattice. *)
Theorem C64_perm_partial : forall n (s : coherent C M na nb) (c : 'I_n -> C) (p : 'I_n -> 'S_M),
  [/\ map_mx conjC (oa s) = oa s, map_mx conjC (ob s) = ob s,
      (forall k, sh s k \is Num.real) & co s \is Num.real] ->
  (forall i, c i \is Num.real) ->
  (oa s)^T *m oa s = 1%:M -> (ob s)^T *m ob s = 1%:M -> expo 0 = 1 ->
  (forall k i j, (hT y).1 (p k i) (p k j) = (hT y).1 i j) ->
  (forall k i j, (hT y).2 (p k i) (p k j) = (hT y).2 i j) ->
  let st i := permuted s (c i) (p i) in
  perm_energy expo y st s = multi_energy expo y st.
Proof. exact: perm_right. Qed.
End Many.
End Props.

(* The option symmetric has no effect. *)
Theorem C64_symmetric_refuted : forall C : numClosedFieldType,
  exists (y : hh C 1) (G : 'M[C]_1 * 'M[C]_1),
    [/\ hsym y, 0 < hm y & 0 < hw y] /\
    (hh_position y G (fun _ => 0) (fun _ => 0)).1.1
    != holstein (hT y) (hU y) (hg y) (hm y) (hw y) G (fun _ => 0) (fun _ => 0)
       - hU y / 2%:R * (\tr G.1 + \tr G.2).
Proof.
move=> C; exists (HH (0, 0) 1 0 1 1 true), (1%:M, 1%:M); split; first by rewrite /= ltr01.
rewrite position_right /=; last exact: oner_neq0.
rewrite -subr_eq0 opprB addrC subrK !mxtrace1 mul1r mulf_neq0 ?invr_eq0 ?pnatr_eq0 //.
by rewrite -natrD pnatr_eq0.
Qed.

(* Products of coefficients are not conjugated: two states with coefficients 1 and i. *)
Theorem C64_multi_refuted : forall (C : numClosedFieldType) (expo : C -> C),
  expo 0 = 1 -> (forall x, expo x != 0) ->
  exists (y : hh C 1) (st : 'I_2 -> coherent C 1 1 0),
    [/\ 0 < hm y, 0 < hw y & (hT y).1^T = (hT y).1 /\ (hT y).2^T = (hT y).2] /\
    (multi_energy expo y st).1.1
    != expectation (fun i => co (st i))
         (fun i j => electron_part (hT y) (hU y) (oa (st i)) (oa (st j)) (ob (st i)) (ob (st j))
           + phonon_part (hg y) (hw y) (oa (st i)) (oa (st j)) (ob (st i)) (ob (st j))
               (beta y (st i)) (beta y (st j)))
         (fun i j => coherent_overlap expo (oa (st i)) (oa (st j)) (ob (st i)) (ob (st j))
               (beta y (st i)) (beta y (st j))).
Proof.
move=> C expo e0 eN; exists (one_site C), (@two_states C); split.
  by split; rewrite /= ?ltr0n ?ltr01 // trmx0.
by rewrite expect1 //; exact: multi_differs.
Qed.

(* All permutations of the sites are used, but the energy of the given state is taken for
   each: an open chain of three sites. *)
Theorem C64_perm_refuted : forall (C : numClosedFieldType) (expo : C -> C), expo 0 = 1 ->
  exists (y : hh C 3) (s : coherent C 3 1 0),
    [/\ 0 < hm y, 0 < hw y, (oa s)^T *m oa s = 1%:M
      & (forall i, sh s i = 0)] /\
    let st (k : 'I_#|'S_3|) := permuted s (sqrtC #|'S_3|%:R)^-1 (enum_val k) in
    (perm_energy expo y st s).1.1 != (multi_energy expo y st).1.1.
Proof.
move=> C expo e0; exists (three_sites C), (state3 C); split.
  by split; rewrite /= ?ltr01 //; exact: psi3_norm.
exact: perm_differs.
Qed.

(* One site with one up electron, at U = 1, g = 1, m = 2, w0 = 1 (so sqrt(2 m w0) = 2)
   and X = 1, Lap = 1. *)
Example C64_instance (C : numClosedFieldType) :
  let y := HH (0, 0) 1 1 2%:R 1 false : hh C 1 in
  (hh_position y (1%:M, 0) (fun _ => 1) (fun _ => 1)).1.1 = - 2%:R + 1 / 4%:R /\
  0 < hm y /\ hm y * hw y != 1.
Proof.
cbv zeta; split; last by rewrite /= ltr0n mulr1 (eqr_nat C 2 1).
rewrite /hh_position !big_ord1 /= !mxE /= !mulr1 !mul1r !mul0r !addr0 expr1n.
have h : (2%:R : C) != 0 by rewrite pnatr_eq0.
have q : (4%:R : C) != 0 by rewrite pnatr_eq0.
have -> : sqrtC (2%:R * 2%:R) = 2%:R :> C by rewrite -expr2 sqrCK // ler0n.
rewrite /half add0r !mulr1 div1r mulVf // mulN1r mulNr -invfM -natrM addrC; congr (_ + _).
apply: (mulIf q); rewrite !mulrDl !mulNr mulVf // mul1r.
have -> : (2%:R)^-1 * 4%:R = 2%:R :> C by rewrite (natrM _ 2 2) mulKf.
by rewrite -opprD -(natrD C 1 2) -(natrB _ (isT : (3 <= 4)%N)).
Qed.

Print Assumptions C64_position.
Print Assumptions C64_momentum_partial.
Print Assumptions C64_lang_firsov.
Print Assumptions C64_momentum_raises.
Print Assumptions C64_momentum_off_refuted.
Print Assumptions C64_first_shift.
Print Assumptions C64_coherent.
Print Assumptions C64_multi_partial.
Print Assumptions C64_perm_partial.
Print Assumptions C64_symmetric_refuted.
Print Assumptions C64_multi_refuted.
Print Assumptions C64_perm_refuted.
