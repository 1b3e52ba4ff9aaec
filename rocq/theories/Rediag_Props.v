(** C75: the coefficients computed by recompute_ci_coeffs give the combination of the
    determinants of the trial wavefunction with the lowest energy. *)

From Verif Require Import Base.
Set Warnings "-notation-overridden,-ambiguous-paths".
From mathcomp Require Import all_ssreflect all_fingroup all_algebra.
From Verif Require Import Rank1_Spec Ortho_Spec MultiDet_Spec Fock_Spec CI_Model
  Rediag_Model Rediag_Spec Rediag_Proofs Rediag_More Rediag_Last.

Set Implicit Arguments.
Unset Strict Implicit.
Unset Printing Implicit Defensive.

Import Order.TTheory GRing.Theory Num.Theory.
Local Open Scope ring_scope.

(** What is assumed of eigh can be met for all matrices. *)
Theorem C75_eigh : forall (C : numClosedFieldType) N (H S : 'M[C]_N),
  (exists (w : 'rV[C]_N) (v : 'M[C]_N), [/\ increasing w, orthonormal v
     & from_upper H *m v = v *m diag_mx w]) /\
  (pos_def (from_upper S) -> exists (w : 'rV[C]_N) (v : 'M[C]_N), [/\ increasing w,
     adj v *m from_upper S *m v = 1%:M & from_upper H *m v = from_upper S *m v *m diag_mx w]).
Proof. by move=> C N H S; split; [exact: eigh_exists | exact: eigh2_exists]. Qed.
Print Assumptions C75_eigh.

(** Orthogonal expansions: right for real integrals. *)
Theorem C75_ortho_partial : forall (C : numClosedFieldType) m (s : system C) nup
    (A : 'I_m.+1 -> {set 'I_(nbasis s + nbasis s)}) (eigh : 'M[C]_m.+1 -> res ('rV[C]_m.+1 * 'M[C]_m.+1)),
  (forall i j k l, hijkl s i j k l = hijkl s j i l k) ->
  ecore s \is Num.real -> (forall i j, H1 s i j \is Num.real /\ H1 s i j = H1 s j i) ->
  (forall i j k l, hijkl s i j k l \is Num.real /\ hijkl s i j k l = hijkl s k l i j) ->
  same_electrons (nelec s) nup A -> eigh_ok eigh ->
  exists2 c : 'cV[C]_m.+1, recompute_ortho eigh s (fun i => occ (A i)) = Ok c &
    ground (hamiltonian (2%:R^-1) (ecore s) (h_so (n:=nbasis s) (H1 s)) (v_so (n:=nbasis s) (hijkl s)))
      A (fun i => c i 0).
Proof. exact ortho_real. Qed.
Print Assumptions C75_ortho_partial.

(** With complex integrals the coefficients are the conjugates of the right ones. *)
Theorem C75_ortho_conj : forall (C : numClosedFieldType) m (s : system C) nup
    (A : 'I_m.+1 -> {set 'I_(nbasis s + nbasis s)}) (eigh : 'M[C]_m.+1 -> res ('rV[C]_m.+1 * 'M[C]_m.+1)),
  (forall i j k l, hijkl s i j k l = hijkl s j i l k) ->
  ecore s \is Num.real -> (forall i j, (H1 s i j)^* = H1 s j i) ->
  (forall i j k l, (hijkl s i j k l)^* = hijkl s k l i j) ->
  same_electrons (nelec s) nup A -> eigh_ok eigh ->
  exists2 c : 'cV[C]_m.+1, recompute_ortho eigh s (fun i => occ (A i)) = Ok c &
    ground (hamiltonian (2%:R^-1) (ecore s) (h_so (n:=nbasis s) (H1 s)) (v_so (n:=nbasis s) (hijkl s)))
      A (fun i => (c i 0)^*).
Proof. exact ortho_conj. Qed.
Print Assumptions C75_ortho_conj.

(** A one-body Hamiltonian that is purely imaginary gets the combination with the highest energy. *)
Theorem C75_imaginary : forall (C : numClosedFieldType) m (s : system C) nup
    (A : 'I_m.+1 -> {set 'I_(nbasis s + nbasis s)}) (eigh : 'M[C]_m.+1 -> res ('rV[C]_m.+1 * 'M[C]_m.+1)),
  ecore s = 0 -> (forall i j k l, hijkl s i j k l = 0) ->
  (forall i j, (H1 s i j)^* = H1 s j i /\ H1 s j i = - H1 s i j) ->
  same_electrons (nelec s) nup A -> eigh_ok eigh ->
  exists2 c : 'cV[C]_m.+1, recompute_ortho eigh s (fun i => occ (A i)) = Ok c &
    highest (hamiltonian (2%:R^-1) (ecore s) (h_so (n:=nbasis s) (H1 s)) (v_so (n:=nbasis s) (hijkl s)))
      A (fun i => c i 0).
Proof. exact ortho_imaginary. Qed.
Print Assumptions C75_imaginary.

(* Hermitian integrals for which the coefficients are wrong whatever eigh returns. *)
Theorem C75_ortho_refuted : forall C : numClosedFieldType, exists (s : system C)
    (A : 'I_2 -> {set 'I_(nbasis s + nbasis s)}),
  [/\ forall i j, (H1 s i j)^* = H1 s j i, forall i j k l, hijkl s i j k l = 0,
      same_electrons (nelec s) 1 A &
    forall eigh : 'M[C]_2 -> res ('rV[C]_2 * 'M[C]_2), eigh_ok eigh ->
    exists2 c : 'cV[C]_2, recompute_ortho eigh s (fun i => occ (A i)) = Ok c &
      ~ ground (hamiltonian (2%:R^-1) (ecore s) (h_so (n:=nbasis s) (H1 s))
                  (v_so (n:=nbasis s) (hijkl s))) A (fun i => c i 0)].
Proof.
move=> C; exists (imag2 C), site2; split=> //.
- by move=> i j; have [] := imag2_herm C i j.
- exact: site2_same.
- exact: imag2_wrong.
Qed.
Print Assumptions C75_ortho_refuted.

(** Other expansions: right when all overlaps are above the threshold. *)
Theorem C75_general_partial : forall (C : numClosedFieldType) m n nu nd
    (psiu : 'I_m.+1 -> 'M[C]_(n, nu)) (psid : 'I_m.+1 -> 'M[C]_(n, nd)) (eps : C)
    (le : 'M[C]_n -> 'M[C]_n -> C) (eigh : 'M[C]_m.+1 -> 'M[C]_m.+1 -> res ('rV[C]_m.+1 * 'M[C]_m.+1)),
  let S := pair_overlap psiu psid in
  let F i j := S i j * le (green (@conjC C) (psiu i) (psiu j)) (green (@conjC C) (psid i) (psid j)) in
  (forall i j, (F i j)^* = F j i) -> 0 <= eps -> (forall i j, eps < `|S i j|) ->
  eigh2_ok eigh ->
  (independent S -> exists2 c : 'cV[C]_m.+1,
     recompute_general eigh eps false le psiu psid = Ok c & lowest F S (fun i => c i 0)) /\
  (~ independent S -> recompute_general eigh eps false le psiu psid = Err ValueError).
Proof. exact general_above. Qed.
Print Assumptions C75_general_partial.

(** In general pairs under the threshold are left out of both matrices. *)
Theorem C75_general : forall (C : numClosedFieldType) m n nu nd
    (psiu : 'I_m.+1 -> 'M[C]_(n, nu)) (psid : 'I_m.+1 -> 'M[C]_(n, nd)) (eps : C)
    (le : 'M[C]_n -> 'M[C]_n -> C) (eigh : 'M[C]_m.+1 -> 'M[C]_m.+1 -> res ('rV[C]_m.+1 * 'M[C]_m.+1)),
  let S := pair_overlap psiu psid in
  let F i j := S i j * le (green (@conjC C) (psiu i) (psiu j)) (green (@conjC C) (psid i) (psid j)) in
  (forall i j, (F i j)^* = F j i) -> (forall i j, S i j != 0) -> eigh2_ok eigh ->
  (independent (above_only eps S S) -> exists2 c : 'cV[C]_m.+1,
     recompute_general eigh eps false le psiu psid = Ok c &
     lowest (above_only eps S F) (above_only eps S S) (fun i => c i 0)) /\
  (~ independent (above_only eps S S) ->
     recompute_general eigh eps false le psiu psid = Err ValueError).
Proof.
by move=> C m n nu nd psiu psid eps le eigh S F hF hS he; split;
  [exact: general_lowest | exact: general_dependent].
Qed.
Print Assumptions C75_general.

(* Orthogonal determinants raise; and so do half-rotated Cholesky vectors, always: the first
   determinant has a norm. *)
Theorem C75_raises : forall (C : numClosedFieldType) m n nu nd
    (psiu : 'I_m.+1 -> 'M[C]_(n, nu)) (psid : 'I_m.+1 -> 'M[C]_(n, nd)) (eps : C)
    (le : 'M[C]_n -> 'M[C]_n -> C) (eigh : 'M[C]_m.+1 -> 'M[C]_m.+1 -> res ('rV[C]_m.+1 * 'M[C]_m.+1)),
  (forall i j, pair_overlap psiu psid i j = 0 ->
     recompute_general eigh eps false le psiu psid = Err ValueError) /\
  (0 <= eps -> eps < `|pair_overlap psiu psid 0 0| ->
     recompute_general eigh eps true le psiu psid = Err AttributeError).
Proof.
by move=> C m n nu nd psiu psid eps le eigh; split=> [i j|e0 h];
  [exact: general_singular75 | exact: general_rchol].
Qed.
Print Assumptions C75_raises.

(* With any threshold two determinants can be too orthogonal for their coupling to be seen. *)
Theorem C75_threshold_refuted : forall (C : numClosedFieldType) (eps : C), 0 < eps -> eps < 1 ->
  exists (psiu : 'I_2 -> 'M[C]_(2, 1)) (psid : 'I_2 -> 'M[C]_(2, 0)) (t : 'M[C]_2),
  let le Gu Gd := dot_mx t Gu + dot_mx t Gd in
  let S := pair_overlap psiu psid in
  let F i j := S i j * le (green (@conjC C) (psiu i) (psiu j)) (green (@conjC C) (psid i) (psid j)) in
  [/\ forall i j, (F i j)^* = F j i, forall i j, S i j != 0 &
    forall eigh : 'M[C]_2 -> 'M[C]_2 -> res ('rV[C]_2 * 'M[C]_2), eigh2_ok eigh ->
    exists2 c : 'cV[C]_2, recompute_general eigh eps false le psiu psid = Ok c &
      ~ lowest F S (fun i => c i 0)].
Proof. exact threshold_wrong. Qed.
Print Assumptions C75_threshold_refuted.

(* The hypotheses of C75_ortho_partial and C75_general_partial. *)
Example C75_ortho_case (C : numClosedFieldType) : same_electrons 1 1 site2 /\
  forall i j : nat, let h (i j : nat) : C := (i != j)%:R in h i j \is Num.real /\ h i j = h j i.
Proof.
split; first exact: site2_same.
by move=> i j h; rewrite /h eq_sym; split=> //; exact: rpred_nat.
Qed.

Example C75_general_case (C : numClosedFieldType) :
  let S := pair_overlap (near (2%:R^-1 : C)) (@none C) in
  independent S /\ forall i j, 4%:R^-1 < `|S i j|.
Proof. exact: near_case. Qed.
