(* C70: single-determinant trial wavefunctions are the determinants they claim to be. *)

From Verif Require Import Base.
Set Warnings "-notation-overridden,-ambiguous-paths".
From mathcomp Require Import all_ssreflect all_fingroup all_algebra all_field.
From Verif Require Import Ortho_Spec Ortho_Model Trial_Spec Trial_Model Spectral_Proofs Trial_Proofs
  Trial_More Trial_Last.

Set Implicit Arguments.
Unset Strict Implicit.
Unset Printing Implicit Defensive.

Import Order.TTheory GRing.Theory Num.Theory.
Local Open Scope ring_scope.

(* There are routines as assumed. *)
Theorem C70_routines (C : numClosedFieldType) (M : nat) :
  (exists eigh : 'M[C]_M -> 'rV[C]_M * 'M[C]_M, eigh_right eigh) /\
  (exists argsort : 'rV[C]_M -> 'S_M, argsort_right argsort).
Proof.
exact (conj (ex_intro _ _ (@eigh0_right C M)) (ex_intro _ _ (@argsort0_right C M))).
Qed.

Section Props.
Variable C : numClosedFieldType.
Variable M : nat.
Notation mat := 'M[C]_M.
Variable eigh : mat -> 'rV[C]_M * mat.
Variable argsort : 'rV[C]_M -> 'S_M.
Hypothesis eigh_ok : eigh_right eigh.
Hypothesis argsort_ok : argsort_right argsort.

(* Free electrons: the lowest orbitals of each spin, and no determinant has a lower energy
   without interaction. *)
Theorem C70_free nup ndn (T : mat * mat) : (nup <= M)%N -> (ndn <= M)%N ->
  hermitian T.1 -> hermitian T.2 ->
  exists t, [/\ free_electron eigh argsort nup ndn T None = Ok t,
    ground_orbitals T.1 (s_up t), ground_orbitals T.2 (s_dn t),
    s_G t = ((s_up t *m adj (s_up t))^T, (s_dn t *m adj (s_dn t))^T)
    & forall (up : 'M[C]_(M, nup)) (dn : 'M[C]_(M, ndn)), orthonormal up -> orthonormal dn ->
      hubbard_energy T 0 (s_up t) (s_dn t) <= hubbard_energy T 0 up dn].
Proof. exact: free_right. Qed.

(* Other orbitals chosen by the user: distinct ones, as many as electrons of either spin. *)
Theorem C70_reference_partial n (T : mat * mat) (r : seq nat) : hermitian T.1 -> hermitian T.2 ->
  uniq r -> all (fun j => (j < M)%N) r -> size r = n ->
  exists t, [/\ free_electron eigh argsort n n T (Some r) = Ok t,
    orthonormal (s_up t), orthonormal (s_dn t),
    exists e : 'rV[C]_n, T.1 *m s_up t = s_up t *m diag_mx e
    & exists e : 'rV[C]_n, T.2 *m s_dn t = s_dn t *m diag_mx e].
Proof. exact: reference_ok. Qed.

(* With different numbers of electrons no choice works. *)
Theorem C70_reference_refuted nup ndn (T : mat * mat) (r : seq nat) :
  nup != ndn -> (1 < maxn nup ndn)%N ->
  is_ok (free_electron eigh argsort nup ndn T (Some r)) = false.
Proof. exact: reference_open. Qed.

(* Orbitals without spin mixing read from a file are told apart only if no orbital of spin up
   has a node. *)
Theorem C70_ghf nup ndn (A : 'M[C]_(M, nup)) (B : 'M[C]_(M, ndn)) (tol : C) :
  (0 < M)%N -> 0 <= tol -> orthonormal A -> orthonormal B ->
  (forall i j, tol < `|A i j|) <->
  free_electron_ghf tol (block_mx A 0 0 B) = Ok (MkSD A B ((A *m adj A)^T, (B *m adj B)^T)).
Proof. exact: ghf_iff. Qed.

Theorem C70_ghf_refuted nup ndn (A : 'M[C]_(M, nup)) (B : 'M[C]_(M, ndn)) (tol : C) i j :
  (0 < M)%N -> 0 <= tol -> A i j = 0 ->
  is_ok (free_electron_ghf tol (block_mx A 0 0 B)) = false.
Proof. exact: ghf_zero. Qed.

(* Hartree-Fock orbitals: the first columns. *)
Theorem C70_hartree_fock nup ndn (hu : (nup <= M)%N) (hd : (ndn <= M)%N) (A B : mat) :
  orthonormal A -> orthonormal B ->
  exists t, [/\ hartree_fock nup ndn (UHF A B) None = Ok t,
    orthonormal (s_up t) /\ orthonormal (s_dn t),
    forall i j, s_up t i j = A i (widen_ord hu j),
    forall i j, s_dn t i j = B i (widen_ord hd j)
    & s_G t = ((s_up t *m adj (s_up t))^T, (s_dn t *m adj (s_dn t))^T)].
Proof. exact: hf_uhf. Qed.

Theorem C70_restricted nup ndn (A : mat) : (nup <= M)%N -> (ndn <= M)%N -> orthonormal A ->
  hartree_fock nup ndn (RHF A) None = hartree_fock nup ndn (UHF A A) None.
Proof. exact: hf_rhf. Qed.

(* Excitations from i to a: the columns are those of the orbitals with a in place of i, if a
   was not occupied. *)
Theorem C70_excite nup ndn (hu : (nup <= M)%N) (hd : (ndn <= M)%N) (A : mat) (i : 'I_nup) (a : 'I_M) :
  orthonormal A ->
  ((nup <= a)%N || (a == i :> nat) ->
   exists t, [/\ hartree_fock nup ndn (RHF A) (Some (i : nat, a : nat)) = Ok t, orthonormal (s_up t),
     forall r, s_up t r i = A r a,
       forall r j, j != i -> s_up t r j = A r (widen_ord hu j)
     & forall r j, s_dn t r j = A r (widen_ord hd j)]) /\
  ((a < nup)%N && (a != i :> nat) ->
   hartree_fock nup ndn (RHF A) (Some (i : nat, a : nat)) = Err ValueError).
Proof. exact: excite_right. Qed.

Theorem C70_excite_down nup ndn (hu : (nup <= M)%N) (hd : (ndn <= M)%N) (A : mat) (i : 'I_ndn) (a : 'I_M) :
  orthonormal A -> (ndn <= a)%N || (a == i :> nat) ->
  exists t, [/\ hartree_fock nup ndn (RHF A) (Some (nup + i, a : nat)%N) = Ok t, orthonormal (s_dn t),
    forall r, s_dn t r i = A r a,
      forall r j, j != i -> s_dn t r j = A r (widen_ord hd j)
    & forall r j, s_up t r j = A r (widen_ord hu j)].
Proof. exact: excite_down_right. Qed.

Theorem C70_excite_refuted nup ndn (A B : mat) i a : (nup <= M)%N -> (ndn <= M)%N ->
  is_ok (hartree_fock nup ndn (UHF A B) (Some (i, a))) = false.
Proof. by move=> hu hd; exact: uhf_excite. Qed.

(* The unrestricted Hartree-Fock search, for some choice of the lowest orbitals of each
   matrix.  What it returns comes from a run of the iteration that stopped, with the energy
   of the determinant returned, which no other run beats by more than deps; the field of the
   last step is within the tolerance and the mixing of the field of the determinant. *)
Theorem C70_uhf : exists low : forall k, mat -> 'M[C]_(M, k),
  (forall k H, (k <= M)%N -> hermitian H -> ground_orbitals H (low k H)) /\
  forall (o : uhf_opts C) nup ndn (T : mat * mat),
  (nup <= M)%N -> (ndn <= M)%N -> hermitian T.1 -> hermitian T.2 ->
  u_ueff o \is Num.real -> u_alpha o \is Num.real ->
  forall (U : C) (starts : seq (mat * mat)),
  (forall R, R \in starts -> (forall i j, R.1 i j \is Num.real) /\ (forall i j, R.2 i j \is Num.real)) ->
  let conv := uhf_converges low nup ndn T (u_ueff o) (u_alpha o) (u_deps o) (u_nconv o) in
  let inp := uhf_input low nup ndn T (u_ueff o) (u_alpha o) in
  let up := uhf_up low nup T (u_ueff o) in
  let dn := uhf_dn low ndn T (u_ueff o) in
  let outs R k := outputs (uhf_out low nup ndn T (u_ueff o)) (u_alpha o) (uhf_start low nup ndn R) k in
  ((forall R k, R \in starts -> ~ conv R k) ->
   find_uhf_wfn eigh argsort o nup ndn T U starts = (U, Err (if u_verbose o then ValueError else NameError))) /\
  ((exists R k, R \in starts /\ conv R k) ->
   exists f nav R k,
   [/\ find_uhf_wfn eigh argsort o nup ndn T U starts = (U, Ok (f, f_e f, nav)),
       R \in starts /\ conv R k,
       f_up f = up (inp R k) /\ f_dn f = dn (inp R k),
       f_e f = hubbard_energy T (u_ueff o) (f_up f) (f_dn f)
     & (forall R' k', R' \in starts -> conv R' k' ->
          f_e f <= hubbard_energy T (u_ueff o) (up (inp R' k')) (dn (inp R' k')) + u_deps o) /\
       let h := outs R k in
       dist (sites (f_up f)) (inp R k).1 < sqrtC (u_deps o) + `|u_alpha o| * dist h.1.1 h.2.1 /\
       dist (sites (f_dn f)) (inp R k).2 < sqrtC (u_deps o) + `|u_alpha o| * dist h.1.2 h.2.2]).
Proof. exact: uhf_right. Qed.

(* A field equal to the field it generates gives a self-consistent determinant. *)
Theorem C70_fixed_point (low : forall k, mat -> 'M[C]_(M, k)) nup ndn (T : mat * mat) (U : C)
    (n : 'rV[C]_M * 'rV[C]_M) :
  (forall k H, (k <= M)%N -> hermitian H -> ground_orbitals H (low k H)) ->
  (nup <= M)%N -> (ndn <= M)%N -> hermitian T.1 -> hermitian T.2 -> U \is Num.real ->
  uhf_out low nup ndn T U n = n ->
  self_consistent T U (uhf_up low nup T U n) (uhf_dn low ndn T U n).
Proof. exact: fixed_right. Qed.
End Props.

(* But the test for convergence compares the outputs of two steps: whatever the routines, a
   determinant can be returned that is not self-consistent. *)
Theorem C70_uhf_refuted (C : numClosedFieldType) (eigh : 'M[C]_2 -> 'rV[C]_2 * 'M[C]_2)
    (argsort : 'rV[C]_2 -> 'S_2) : eigh_right eigh -> argsort_right argsort ->
  exists o T U R f nav,
  [/\ hermitian T.1, hermitian T.2, 0 < u_deps o,
      find_uhf_wfn eigh argsort o 1 1 T U [:: R] = (U, Ok (f, f_e f, nav))
    & ~ self_consistent T (u_ueff o) (f_up f) (f_dn f)].
Proof. exact: false_conv_ex. Qed.

(* The densities returned need not be those of the determinant returned. *)
Theorem C70_nav_refuted (C : numClosedFieldType) (eigh : 'M[C]_2 -> 'rV[C]_2 * 'M[C]_2)
    (argsort : 'rV[C]_2 -> 'S_2) : eigh_right eigh -> argsort_right argsort ->
  exists o T U starts f nav,
  [/\ find_uhf_wfn eigh argsort o 1 1 T U starts = (U, Ok (f, f_e f, Some nav)),
      self_consistent T (u_ueff o) (f_up f) (f_dn f)
    & nav <> (sites (f_up f), sites (f_dn f))].
Proof. exact: false_nav_ex. Qed.

(* The total spin printed is right for real orbitals, and not for others. *)
Theorem C70_spin (C : numClosedFieldType) M nup ndn (up : 'M[C]_(M, nup)) (dn : 'M[C]_(M, ndn)) :
  (forall i j, up i j \is Num.real) -> spin_square up dn = total_spin up dn.
Proof. exact: spin_right. Qed.

Theorem C70_spin_refuted (C : numClosedFieldType) : exists up dn : 'M[C]_(2, 1),
  [/\ orthonormal up, orthonormal dn, spin_square up dn = 1 & total_spin up dn = 0].
Proof.
exact (ex_intro _ (spiral C) (ex_intro _ (spiral C)
  (And4 (@spiral_orth C) (@spiral_orth C) (proj1 (@spiral_wrong C)) (proj2 (@spiral_wrong C))))).
Qed.

(* The checkerboard on a lattice with four columns, with the numbers of electrons of the two
   kinds of sites: opposite spins on neighbouring sites. *)
Theorem C70_checkerboard_partial (C : numClosedFieldType) M nup ndn :
  nup = count (even_site 4) (iota 0 M) -> ndn = count (predC (even_site 4)) (iota 0 M) ->
  exists up dn, [/\ @checkerboard C M nup ndn = Ok (up, dn), orthonormal up, orthonormal dn,
    forall i, sites up 0 i + sites dn 0 i = 1
    & forall i j : 'I_M, adjacent 4 i j -> sites up 0 i = sites dn 0 j /\ sites dn 0 i = sites up 0 j].
Proof. exact: board_right. Qed.

(* Not on a lattice with two columns, and not with fewer electrons. *)
Theorem C70_checkerboard_refuted (C : numClosedFieldType) : exists up dn,
  [/\ @checkerboard C 4 2 2 = Ok (up, dn), adjacent 2 0 2, sites up 0 0 = 1 & sites up 0 (inord 2) = 1].
Proof. exact: board_two. Qed.

Theorem C70_checkerboard_raises (C : numClosedFieldType) M nup ndn :
  (ndn < count (predC (even_site 4)) (iota 0 M))%N -> @checkerboard C M nup ndn = Err IndexError.
Proof. exact: board_err. Qed.

(* The hypotheses hold: two sites with one electron of each spin, over the algebraic numbers. *)
Example free_case : exists (eigh : 'M[algC]_2 -> 'rV[algC]_2 * 'M[algC]_2) (argsort : 'rV[algC]_2 -> 'S_2)
  (T : 'M[algC]_2 * 'M[algC]_2) t,
  [/\ eigh_right eigh, argsort_right argsort, hermitian T.1
    & free_electron eigh argsort 1 1 T None = Ok t].
Proof.
exists (@eigh0 _ 2), (@argsort0 _ 2), (wT _).
have [t [E _ _ _ _]] := @C70_free _ _ _ _ (@eigh0_right _ 2) (@argsort0_right _ 2) 1 1
  (wT [numClosedFieldType of algC]) isT isT (wherm _) (wherm _).
by exists t; split; [exact: eigh0_right | exact: argsort0_right | exact: wherm |].
Qed.

(* There are routines for which the search succeeds, with a self-consistent result. *)
Example uhf_case : exists (eigh : 'M[algC]_2 -> 'rV[algC]_2 * 'M[algC]_2) (argsort : 'rV[algC]_2 -> 'S_2)
  o T U starts f nav,
  [/\ eigh_right eigh, argsort_right argsort,
      find_uhf_wfn eigh argsort o 1 1 T U starts = (U, Ok (f, f_e f, Some nav))
    & self_consistent T (u_ueff o) (f_up f) (f_dn f)].
Proof.
have [o [T [U [st [f [nav [h1 h2 _]]]]]]] := C70_nav_refuted (@eigh0_right [numClosedFieldType of algC] 2) (@argsort0_right _ 2).
by exists (@eigh0 _ 2), (@argsort0 _ 2), o, T, U, st, f, nav; split=> //;
  [exact: eigh0_right | exact: argsort0_right].
Qed.

Example board_case : count (even_site 4) (iota 0 16) = 8%N /\ count (predC (even_site 4)) (iota 0 16) = 8%N.
Proof. by []. Qed.

Print Assumptions C70_routines.
Print Assumptions C70_free.
Print Assumptions C70_reference_partial.
Print Assumptions C70_reference_refuted.
Print Assumptions C70_ghf.
Print Assumptions C70_ghf_refuted.
Print Assumptions C70_hartree_fock.
Print Assumptions C70_restricted.
Print Assumptions C70_excite.
Print Assumptions C70_excite_down.
Print Assumptions C70_excite_refuted.
Print Assumptions C70_uhf.
Print Assumptions C70_fixed_point.
Print Assumptions C70_uhf_refuted.
Print Assumptions C70_nav_refuted.
Print Assumptions C70_spin.
Print Assumptions C70_spin_refuted.
Print Assumptions C70_checkerboard_partial.
Print Assumptions C70_checkerboard_refuted.
Print Assumptions C70_checkerboard_raises.
