(* C61, C62: energies of the electron gas, and Fock matrices. *)

From Verif Require Import Base BaseFacts.
Set Warnings "-notation-overridden,-ambiguous-paths".
From mathcomp Require Import all_ssreflect all_algebra all_field.
From Verif Require Import LEnergy_Model LEnergy_Spec Reorder_Model.
From Verif Require Import UEGEnergy_Model UEGEnergy_Spec UEGEnergy_Proofs.

Set Implicit Arguments.
Unset Strict Implicit.
Unset Printing Implicit Defensive.

Import Order.TTheory GRing.Theory Num.Theory.
Local Open Scope ring_scope.

Section Props.
Variable C : numClosedFieldType.
Variable M : nat.
Variable V : zmodType.
Variables pi vol : C.
Variable norm2 : V -> C.
Variable basis : 'I_M -> V.
Variable lookup : V -> option 'I_M.
Variable qvecs : seq V.
Hypothesis PW : plane_waves basis lookup qvecs.
Notation mat2 := ('M[C]_M * 'M[C]_M)%type.
Local Notation v := (coulomb basis (bare pi vol norm2)).

(* C61: the energies are the Wick contractions of the plane wave Hamiltonian if the
   lists have every row where the Green's functions do not vanish. *)
Theorem C61_energy : forall n (diagH1 : bool) (H1 G : mat2),
  (diagH1 -> diagonal H1.1 /\ diagonal H1.2) ->
  rows_below n G.1 -> rows_below n G.2 ->
  local_energy_ueg pi vol norm2 basis lookup qvecs n diagH1 H1 G = energies H1 v 0 G.
Proof.
case: PW => inj [look [un [full z]]] n diagH1 H1 G; exact: ueg_energy.
Qed.

(* In general the potential energy is the contraction of the Green's functions with the
   other rows set to zero. *)
Theorem C61_exact : forall n (diagH1 : bool) (H1 G : mat2),
  (diagH1 -> diagonal H1.1 /\ diagonal H1.2) ->
  let pe := wick2 v (cut n G.1, cut n G.2) in
  local_energy_ueg pi vol norm2 basis lookup qvecs n diagH1 H1 G
  = (wick1 H1 G + pe, wick1 H1 G, pe).
Proof.
case: PW => inj [look [un [full z]]] n diagH1 H1 G; exact: ueg_exact.
Qed.

(* At finite temperature they are for every Green's function. *)
Theorem C61_thermal : forall nup (diagH1 : bool) (H1 G : mat2),
  (diagH1 -> diagonal H1.1 /\ diagonal H1.2) ->
  local_energy_ueg pi vol norm2 basis lookup qvecs (limit M true nup) diagH1 H1 G
  = energies H1 v 0 G.
Proof. by move=> nup diagH1 H1 G d; apply: C61_energy => //; apply: rows_all. Qed.

(* At zero temperature they are for walkers with a trial wavefunction of the lowest
   plane waves if there are at least as many up electrons as down electrons. *)
Theorem C61_walker_partial : forall nup ndown (diagH1 : bool) (H1 : mat2)
    (A B : 'M[C]_(M, nup)) (A' B' : 'M[C]_(M, ndown)),
  (ndown <= nup)%N ->
  (diagH1 -> diagonal H1.1 /\ diagonal H1.2) ->
  (forall (i : 'I_M) j, (nup <= i)%N -> A i j = 0) ->
  (forall (i : 'I_M) j, (ndown <= i)%N -> A' i j = 0) ->
  let greens m (X Y : 'M[C]_(M, m)) :=
    (Y *m invmx ((map_mx conjC X)^T *m Y) *m (map_mx conjC X)^T)^T in
  let G := (greens nup A B, greens ndown A' B') in
  local_energy_ueg pi vol norm2 basis lookup qvecs (limit M false nup) diagH1 H1 G
  = energies H1 v 0 G.
Proof.
move=> nup ndown diagH1 H1 A B A' B' le d hA hA' greens G; apply: C61_energy => //.
  exact: rows_greens.
by apply: rows_greens => i j h; apply: hA'; exact: leq_trans h.
Qed.

(* C62: the Fock matrix has the exchange matrix of the transposed density matrix; it is
   the derivative of the energy exactly if this does not matter. *)
Theorem C62_ueg : forall nup (H1 G : mat2),
  derivative (energy H1 v) G (mean_field H1 v G) /\
  fock_ueg pi vol norm2 basis lookup qvecs (limit M true nup) H1 G
  = (H1.1 + direct v (G.1 + G.2) - exchange v (G.1)^T,
     H1.2 + direct v (G.1 + G.2) - exchange v (G.2)^T) /\
  (derivative (energy H1 v) G (fock_ueg pi vol norm2 basis lookup qvecs (limit M true nup) H1 G)
   <-> exchange v (G.1)^T = exchange v G.1 /\ exchange v (G.2)^T = exchange v G.2).
Proof.
case: PW => inj [look [un [full z]]] nup H1 G; split; first exact: mean_field_derivative.
by split; [exact: fock_code | exact: fock_derivative].
Qed.

Theorem C62_ueg_symmetric_partial : forall nup (H1 G : mat2),
  symmetric G.1 -> symmetric G.2 ->
  derivative (energy H1 v) G (fock_ueg pi vol norm2 basis lookup qvecs (limit M true nup) H1 G).
Proof.
by move=> nup H1 G s1 s2; apply/(proj2 (proj2 (C62_ueg nup H1 G))); rewrite s1 s2.
Qed.

(* The python version of the direct matrix is the transpose of the compiled one. *)
Theorem C62_build_J : forall nup (gk gp : V -> C),
  build_J pi vol norm2 basis lookup qvecs gp gk
  = (build_J_opt pi vol norm2 basis lookup qvecs (limit M true nup) gk gp)^T.
Proof. case: PW => inj [look [un [full z]]] nup gk gp; exact: build_J_tr. Qed.
End Props.

(* The derivative is unique, so there is one right Fock matrix. *)
Theorem C62_unique : forall (C : numClosedFieldType) M (E : 'M[C]_M * 'M[C]_M -> C) G F F',
  derivative E G F -> derivative E G F' -> F = F'.
Proof. exact: derivative_unique. Qed.

Theorem C62_hubbard : forall (C : numClosedFieldType) M (T P : 'M[C]_M * 'M[C]_M) (U : C),
  derivative (energy T (fun p r q u : 'I_M => onsite U p r q u)) P (fock_hubbard T U P).
Proof. by move=> C M T P U; rewrite fock_hubbardE; exact: mean_field_derivative. Qed.

(* The Fock matrix of a system with Cholesky vectors cannot be computed: its array has
   two axes, and the dense branch is for three. *)
Theorem C62_generic_raises : forall (C : numClosedFieldType) M naux
    (chol : 'M[C]_(M * M, naux)) (h1e_mod P : 'M[C]_M * 'M[C]_M),
  fock_generic false (Axes2 chol) h1e_mod P = Err ValueError.
Proof. by []. Qed.

(* The sparse branch has the direct matrix without exchange, added to the one-body
   Hamiltonian of the propagator. *)
Theorem C62_generic_sparse : forall (C : numClosedFieldType) M naux
    (chol : 'M[C]_(M * M, naux)) (h1e_mod P : 'M[C]_M * 'M[C]_M),
  let J := direct (fun p r q u => \sum_n chol (flat p r) n * chol (flat q u) n) (P.1 + P.2) in
  fock_generic true (Axes2 chol) h1e_mod P = Ok (h1e_mod.1 + J, h1e_mod.2 + J).
Proof. exact: fock_generic_sparse. Qed.

Theorem C62_generic_sparse_refuted :
  ~ (forall (C : numClosedFieldType) M naux (chol : 'M[C]_(M * M, naux)) (h P : 'M[C]_M * 'M[C]_M),
       exists F, fock_generic true (Axes2 chol) (construct_h1e_mod chol h) P = Ok F /\
         derivative (energy h (fun p r q u => \sum_n chol (flat p r) n * chol (flat q u) n)) P F).
Proof.
move=> H.
have [F [e D]] := H [numClosedFieldType of algC] 1%N 1%N (const_mx 1) (0, 0) (0, 0).
move: e; rewrite fock_generic_sparse => -[eF].
have := derivative_unique D (mean_field_derivative _ _ _); rewrite -eF.
move=> /(congr1 (fun x : 'M[algC]_1 * 'M[algC]_1 => x.1 0 0)) /eqP; apply/negP.
rewrite !mxE !big_ord1 !mxE !addr0 !mulr1 !mulr0 !sub0r oppr0 !addr0.
by rewrite oppr_eq0 mulf_neq0 ?oner_eq0 ?invr_eq0 ?pnatr_eq0.
Qed.

(* Three plane waves on a line. *)
Definition line (i : 'I_3) : int := i%:Z.
Definition find_line (k : int) : option 'I_3 := [pick i | line i == k].
Definition line_q : seq int := [:: 1; -1; 2%:Z; -2%:Z].

Example C61_line : plane_waves line find_line line_q.
Proof.
have inj : injective line by move=> i j [e]; apply: val_inj.
split=> //; split; last first.
  by split=> //; split=> //; case=> [[|[|[|i]]] hi] [[|[|[|j]]] hj].
move=> k i; rewrite /find_line; case: pickP => [j /eqP <-|no].
  by split=> [[->]|/inj ->].
by split=> // e; have := no i; rewrite e eqxx.
Qed.
Definition abs2 (q : int) : algC := (q * q)%:~R.

(* With fewer up than down electrons the rows of the down electrons are cut off. *)
Theorem C61_refuted :
  ~ (forall (C : numClosedFieldType) M (V : zmodType) (pi vol : C) (norm2 : V -> C)
       (basis : 'I_M -> V) lookup qvecs, plane_waves basis lookup qvecs ->
     forall nup ndown (H1 : 'M[C]_M * 'M[C]_M) (A : 'M[C]_(M, nup)) (A' : 'M[C]_(M, ndown)),
     (forall (i : 'I_M) j, (nup <= i)%N -> A i j = 0) ->
     (forall (i : 'I_M) j, (ndown <= i)%N -> A' i j = 0) ->
     let greens m (X Y : 'M[C]_(M, m)) :=
       (Y *m invmx ((map_mx conjC X)^T *m Y) *m (map_mx conjC X)^T)^T in
     let G := (greens nup A A, greens ndown A' A') in
     local_energy_ueg pi vol norm2 basis lookup qvecs (limit M false nup) false H1 G
     = energies H1 (coulomb basis (bare pi vol norm2)) 0 G).
Proof.
move=> H.
have := H [numClosedFieldType of algC] 3%N [zmodType of int] 1 1 abs2 line find_line line_q
  C61_line 1%N 3%N (0, 0) (\matrix_(i, j) (i == 0)%:R) 1%:M _ _.
have sq : ((map_mx conjC ((\matrix_(i, j) (i == 0)%:R) : 'M[algC]_(3, 1)))^T
    *m (\matrix_(i, j) (i == 0)%:R) : 'M[algC]_1) = 1%:M.
  apply/matrixP => i j; rewrite !ord1 !mxE (bigD1 0) //= !mxE conjC1 mulr1.
  by rewrite big1 ?addr0 // => k ne; rewrite !mxE (negbTE ne) mulr0.
rewrite /= sq invmx1 !mulmx1.
have -> : (((\matrix_(i, j) (i == 0)%:R : 'M[algC]_(3, 1))
    *m (map_mx conjC ((\matrix_(i, j) (i == 0)%:R) : 'M[algC]_(3, 1)))^T)^T) = delta_mx 0 0.
  apply/matrixP => i j; rewrite !mxE big_ord1 !mxE andbC.
  by rewrite rmorph_nat -natrM mulnb.
rewrite map_mx1 trmx1 invmx1 !mulmx1 trmx1.
case: C61_line => inj [look [un [full z]]].
rewrite ueg_exact //= /energies !addr0.
have d0 : diagonal (delta_mx 0 0 : 'M[algC]_3).
  move=> i j ne; rewrite mxE; case: eqP => // ei; case: eqP => // ej.
  by rewrite ei ej eqxx in ne.
have d1 : diagonal (1%:M : 'M[algC]_3) by move=> i j ne; rewrite mxE (negbTE ne).
have c0 : cut 1 (delta_mx 0 0) = delta_mx 0 0 :> 'M[algC]_3.
  by apply: cut_id => i j h; rewrite mxE; case: (i =P 0) h => // ->.
have c1 : cut 1 1%:M = delta_mx 0 0 :> 'M[algC]_3.
  by apply/matrixP; case=> [[|[|[|i]]] hi] [[|[|[|j]]] hj]; rewrite !mxE.
have h1 (i : 'I_3) (j : 'I_1) :
  (0 < i)%N -> (\matrix_(i, j) (i == 0)%:R : 'M[algC]_(3, 1)) i j = 0.
  by rewrite mxE; case: (i =P 0) => // ->.
have h2 (i j : 'I_3) : (2 < i)%N -> (1%:M : 'M[algC]_3) i j = 0 by case: i => [[|[|[|i]]] hi].
move=> K; have {K} := congr1 (fun x : algC * algC * algC => x.2) (K _ _) => /=.
rewrite c0 c1 !wick2_diagonal //.
set X := _ * \sum_p \sum_q _ * delta_mx 0 0 p p * delta_mx 0 0 q q.
have X0 : X = 0.
  rewrite /X; rewrite big1 ?mulr0 // => p _; rewrite big1 // => q _.
  rewrite /coulomb !mxE !andbb; case: (altP (p =P q)) => [_|ne] /=; first by rewrite !mul0r.
  case: (p =P 0) => [ep|_]; last by rewrite mulr0 mul0r.
  by rewrite -ep [q == p]eq_sym (negbTE ne) mulr0.
rewrite X0 addr0 oppr0 add0r => K; have {K} /esym/eqP := K h1 h2; apply/negP.
rewrite oppr_eq0 mulf_neq0 //; first by rewrite mulf_neq0 ?oner_eq0 ?invr_eq0 ?pnatr_eq0.
have w0 (p q : 'I_3) : 0 <= coulomb line (bare 1 1 abs2) p q q p * 1%:M p p * 1%:M q q :> algC.
  rewrite !mxE !eqxx !mulr1 /coulomb; case: ifP => // _.
  rewrite /bare mulr1 mul1r divr_ge0 ?ler0n //.
  by rewrite /abs2 ler0z -expr2 sqr_ge0.
apply/eqP => /psumr_eq0P e0.
have {e0} e1 := e0 (fun p _ => sumr_ge0 _ (fun q _ => w0 p q)) 0 isT.
have e2 : coulomb line (bare 1 1 abs2) 0 1 1 0 * (1%:M : 'M[algC]_3) 0 0 * (1%:M : 'M[algC]_3) 1 1 = 0.
  have w1 (q : 'I_3) : true -> 0 <= coulomb line (bare 1 1 abs2) 0 q q 0
    * (1%:M : 'M[algC]_3) 0 0 * (1%:M : 'M[algC]_3) q q.
    by move=> _; exact: w0.
  by have P := psumr_eq0P w1 e1; exact: P.
move/eqP: e2; rewrite !mxE !eqxx !mulr1 /coulomb addrC eqxx /= /bare mulr1 mul1r.
by rewrite mulf_eq0 invr_eq0 pnatr_eq0 /abs2 intr_eq0.
Qed.


(* For a hermitian density matrix that is not real the Fock matrix is not the
   derivative of the energy. *)
Theorem C62_refuted :
  ~ (forall (C : numClosedFieldType) M (V : zmodType) (pi vol : C) (norm2 : V -> C)
       (basis : 'I_M -> V) lookup qvecs, plane_waves basis lookup qvecs ->
     forall nup (H1 G : 'M[C]_M * 'M[C]_M), hermitian G.1 -> hermitian G.2 ->
     derivative (energy H1 (coulomb basis (bare pi vol norm2))) G
       (fock_ueg pi vol norm2 basis lookup qvecs (limit M true nup) H1 G)).
Proof.
pose A : 'M[algC]_3 := \matrix_(i, j) (if (i == 1) && (j == 2%:R) then 'i
  else if (i == 2%:R) && (j == 1) then - 'i else 0).
have hA : hermitian A.
  by apply/matrixP; case=> [[|[|[|i]]] hi] [[|[|[|j]]] hj] //;
    rewrite !mxE /= ?rmorph0 ?rmorphN ?conjCi ?opprK.
move=> H.
have := H [numClosedFieldType of algC] 3%N [zmodType of int] 1 1 abs2 line find_line line_q
  C61_line 0%N (0, 0) (A, A) hA hA.
case/(proj2 (proj2 (C62_ueg _ _ _ C61_line _ _ _))) => /= /(congr1 (fun X : 'M[algC]_3 => X 0 1)) E _.
move: E; rewrite !mxE.
rewrite !big_ord_recl !big_ord0 !mxE /coulomb /=.
rewrite !addr0 !mulr0 !mul0r !addr0 !add0r.
set b1 := bare _ _ _ _; set b2 := bare _ _ _ _.
have pos x : x != 0 -> 0 < bare 1 1 abs2 x :> algC.
  move=> nx; rewrite /bare mulr1 mul1r divr_gt0 ?ltr0n // /abs2 ltr0z -expr2.
  by rewrite lt_def sqrf_eq0 nx sqr_ge0.
have b0 : b1 + b2 != 0 by rewrite gt_eqF // addr_gt0 //; apply: pos.
have h0 : 1 / 2%:R != 0 :> algC by rewrite mulf_neq0 ?oner_eq0 ?invr_eq0 ?pnatr_eq0.
move/(mulfI h0)/(mulfI b0)/eqP; rewrite -addr_eq0 -mulr2n mulrn_eq0 /=.
by rewrite (negbTE (neq0Ci _)).
Qed.

Print Assumptions C61_energy.
Print Assumptions C61_exact.
Print Assumptions C61_thermal.
Print Assumptions C61_walker_partial.
Print Assumptions C61_refuted.
Print Assumptions C62_ueg.
Print Assumptions C62_ueg_symmetric_partial.
Print Assumptions C62_build_J.
Print Assumptions C62_unique.
Print Assumptions C62_hubbard.
Print Assumptions C62_generic_raises.
Print Assumptions C62_generic_sparse.
Print Assumptions C62_generic_sparse_refuted.
Print Assumptions C62_refuted.
