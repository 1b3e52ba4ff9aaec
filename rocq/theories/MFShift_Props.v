(* C69: continuous auxiliary fields with a mean-field shift. *)

From Verif Require Import Base.
Set Warnings "-notation-overridden,-ambiguous-paths".
From mathcomp Require Import all_ssreflect all_algebra.
From Verif Require Import LEnergy_Model LEnergy_Proofs Reorder_Model Reorder_Spec Reorder_Proofs
  Reorder_Props.
From Verif Require Import MFShift_Model MFShift_Spec MFShift_Proofs MFMore_Proofs.

Set Implicit Arguments.
Unset Strict Implicit.
Unset Printing Implicit Defensive.

Import Order.TTheory GRing.Theory Num.Theory.
Local Open Scope ring_scope.

(* The Hamiltonian that a propagator p steps with, from its core energy, its
   one-body matrices, and the potential and the factor of a field. *)
Local Notation steps_with cd c p s bd G :=
  (of_step cd c s (c_core p) (c_one p)
     (fun x => (two_body_propagator p s bd false x G).2)
     (fun x => (two_body_propagator p s bd false x G).1.1.1)).

(* Any shift, also a bad one, leaves the Hamiltonian alone. *)
Theorem C69_generic : forall (C : numClosedFieldType) (A : algType C) M
    (cd c : 'I_M -> bool -> A), car cd c ->
  forall naux (sys : system C M naux) (s bd : C) sparse (G G' : 'M[C]_M * 'M[C]_M),
  s != 0 ->
  (forall n p r, chol_vecs sys (flat p r) n = chol_vecs sys (flat r p) n) ->
  let h := construct_h1e_mod (chol_vecs sys) (H1 sys) in
  steps_with cd c (generic (chol_vecs sys) s (ecore sys) h sparse G) s bd G'
  = (ecore sys)%:A + hamiltonian cd c (by_spin (H1 sys)) (fun p r q u => hijkl sys p q r u).
Proof.
move=> C A M cd c hc naux sys s bd sparse G G' s0 sym h.
rewrite (C46_generic hc) => [|n p r]; last by rewrite !mxE; exact: sym.
rewrite addrA; exact: step_generic.
Qed.

Theorem C69_multi_det : forall (C : numClosedFieldType) (A : algType C) M
    (cd c : 'I_M -> bool -> A), car cd c ->
  forall naux (sys : system C M naux) (s bd : C) contract bias (G' : 'M[C]_M * 'M[C]_M),
  s != 0 ->
  (forall n p r, chol_vecs sys (flat p r) n = chol_vecs sys (flat r p) n) ->
  let h := construct_h1e_mod (chol_vecs sys) (H1 sys) in
  steps_with cd c (generic_multi_det (chol_vecs sys) s (ecore sys) h contract bias) s bd G'
  = (ecore sys)%:A + hamiltonian cd c (by_spin (H1 sys)) (fun p r q u => hijkl sys p q r u).
Proof.
move=> C A M cd c hc naux sys s bd contract bias G' s0 sym h.
rewrite (C46_generic hc) => [|n p r]; last by rewrite !mxE; exact: sym.
rewrite addrA; exact: step_generic.
Qed.

Theorem C69_hubbard : forall (C : numClosedFieldType) (A : algType C) M
    (cd c : 'I_M -> bool -> A), car cd c ->
  forall (U s bd : C) (H1 G G' : 'M[C]_M * 'M[C]_M), s != 0 ->
  steps_with cd c (hubbard s U (construct_h1e_mod_hubbard false U H1) G) s bd G'
  = one_body_op cd c (by_spin H1)
    + \sum_p U *: (number cd c p false * number cd c p true).
Proof.
move=> C A M cd c hc U s bd H1 G G' s0.
have [_ ->] := C46_hubbard hc U H1; rewrite [LHS]step_hubbard //; congr (_ + _).
by apply: eq_bigr => p _; rewrite big_bool addrC.
Qed.

(* The decomposition with the spin density: the operator that is off, for
   positive time steps. *)
Theorem C69_spin : forall (C : numClosedFieldType) (A : algType C) M
    (cd c : 'I_M -> bool -> A), car cd c ->
  forall (U dt bd : C) (H1 G G' : 'M[C]_M * 'M[C]_M), 0 < dt ->
  let s := sqrtC dt in
  steps_with cd c (hubbard_spin s U (sqrtC (dt * U)) H1 G) s bd G'
  = one_body_op cd c (by_spin H1)
    + \sum_p U *: (number cd c p false * number cd c p true)
    - (2%:R * U) *: \sum_p (G.1 p p - G.2 p p) *: number cd c p false.
Proof.
move=> C A M cd c hc U dt bd H1 G G' dt0 s; rewrite rootCMl ?ltW //.
by apply: step_spin => //; rewrite sqrtC_eq0 gt_eqF.
Qed.

Theorem C69_spin_partial : forall (C : numClosedFieldType) (A : algType C) M
    (cd c : 'I_M -> bool -> A), car cd c ->
  forall (U dt bd : C) (H1 G G' : 'M[C]_M * 'M[C]_M), 0 < dt ->
  (forall p, G.1 p p = G.2 p p) ->
  let s := sqrtC dt in
  steps_with cd c (hubbard_spin s U (sqrtC (dt * U)) H1 G) s bd G'
  = one_body_op cd c (by_spin H1)
    + \sum_p U *: (number cd c p false * number cd c p true).
Proof.
move=> C A M cd c hc U dt bd H1 G G' dt0 e s; rewrite C69_spin //.
by rewrite [X in _ - _ *: X]big1 ?scaler0 ?subr0 // => p _; rewrite e subrr scale0r.
Qed.

Theorem C69_spin_refuted : forall (C : numClosedFieldType) (A : algType C) M
    (cd c : 'I_M.+1 -> bool -> A), car cd c ->
  forall (U dt bd : C) (H1 G' : 'M[C]_M.+1 * 'M[C]_M.+1), 0 < dt -> U != 0 ->
  let s := sqrtC dt in
  exists G,
  steps_with cd c (hubbard_spin s U (sqrtC (dt * U)) H1 G) s bd G'
  <> one_body_op cd c (by_spin H1)
     + \sum_p U *: (number cd c p false * number cd c p true).
Proof.
move=> C A M cd c hc U dt bd H1 G' dt0 U0 s; rewrite rootCMl ?ltW //.
by apply: step_spin_wrong => //; [exact: ord0|rewrite sqrtC_eq0 gt_eqF].
Qed.

Theorem C69_planewave : forall (C : numClosedFieldType) (A : algType C) M
    (cd c : 'I_M -> bool -> A), car cd c ->
  forall (V : zmodType) (s bd pi vol : C) (norm2 : V -> C) (basis : 'I_M -> V)
    (lookup : V -> option 'I_M) (qvecs : seq V) (T : 'M[C]_M) G',
  injective basis ->
  (forall k i, lookup k = Some i <-> basis i = k) ->
  uniq qvecs -> (0 \notin qvecs) ->
  (forall i j, i != j -> basis i - basis j \in qvecs) ->
  (forall q, norm2 (- q) = norm2 q) -> s != 0 ->
  let h := mod_one_body pi vol norm2 basis T in
  steps_with cd c (planewave s pi vol norm2 basis lookup qvecs (h, h)) s bd G'
  = hamiltonian cd c (by_spin (T, T)) (fun p r q u => hijkl_ueg pi vol norm2 basis p q r u).
Proof.
move=> C A M cd c hc V s bd pi vol norm2 basis lookup qvecs T G' inj look uq q0 full nN s0 h.
by rewrite (C46_ueg hc _ _ _ inj look uq q0 full nN); exact: step_planewave.
Qed.

(* Finite temperature: the chemical potential is subtracted. *)
Theorem C69_thermal_generic : forall (C : numClosedFieldType) (A : algType C) M
    (cd c : 'I_M -> bool -> A), car cd c ->
  forall naux (sys : system C M naux) (s bd mu : C) (G G' : 'M[C]_M * 'M[C]_M),
  s != 0 ->
  (forall n p r, chol_vecs sys (flat p r) n = chol_vecs sys (flat r p) n) ->
  let h := construct_h1e_mod (chol_vecs sys) (H1 sys) in
  exists p, t_generic (chol_vecs sys) s (ecore sys) mu h true G = Ok p /\
  steps_with cd c p s bd G'
  = (ecore sys)%:A + hamiltonian cd c (by_spin (H1 sys)) (fun p r q u => hijkl sys p q r u)
    - mu *: electrons cd c.
Proof.
move=> C A M cd c hc naux sys s bd mu G G' s0 sym h.
have [p [-> E]] := t_generic_right cd c (chol_vecs sys) (ecore sys) mu h G bd G' s0.
exists p; split=> //; rewrite (C46_generic hc) => [|n a r]; last by rewrite !mxE; exact: sym.
by rewrite [LHS]E !addrA addrAC.
Qed.

Theorem C69_thermal_dense_refuted : forall (C : numClosedFieldType) M naux
    (sys : system C M naux) (s mu : C) h (G : 'M[C]_M * 'M[C]_M),
  t_generic (chol_vecs sys) s (ecore sys) mu h false G = Err ValueError.
Proof. by []. Qed.

Theorem C69_thermal_hubbard : forall (C : numClosedFieldType) (A : algType C) M
    (cd c : 'I_M -> bool -> A), car cd c ->
  forall (U s bd mu : C) alt (H1 G G' : 'M[C]_M * 'M[C]_M), s != 0 ->
  steps_with cd c (t_hubbard s U alt mu (construct_h1e_mod_hubbard false U H1) G) s bd G'
  = one_body_op cd c (by_spin H1)
    + \sum_p U *: (number cd c p false * number cd c p true)
    + (if alt then mu else - mu) *: electrons cd c.
Proof.
move=> C A M cd c hc U s bd mu alt H1 G G' s0.
have [_ ->] := C46_hubbard hc U H1; rewrite [LHS]step_t_hubbard // addrAC; congr (_ + _ + _).
  by apply: eq_bigr => p _; rewrite big_bool addrC.
by case: alt; rewrite ?mul1r ?mulN1r.
Qed.

(* The factor is shifted and the one-body part is not. *)
Theorem C69_thermal_planewave : forall (C : numClosedFieldType) (A : algType C) M
    (cd c : 'I_M -> bool -> A), car cd c ->
  forall (V : zmodType) (s bd mu pi vol : C) (norm2 : V -> C) (basis : 'I_M -> V)
    (lookup : V -> option 'I_M) (qvecs : seq V) (T : 'M[C]_M) (G G' : 'M[C]_M * 'M[C]_M),
  injective basis ->
  (forall k i, lookup k = Some i <-> basis i = k) ->
  uniq qvecs -> (0 \notin qvecs) ->
  (forall i j, i != j -> basis i - basis j \in qvecs) ->
  (forall q, norm2 (- q) = norm2 q) -> s != 0 ->
  let h := mod_one_body pi vol norm2 basis T in
  let iA := iA pi vol norm2 basis lookup in
  let iB := iB pi vol norm2 basis lookup in
  let m X := trace2 (X, X) (1%:M - G.1^T, 1%:M - G.2^T) in
  steps_with cd c (t_planewave s pi vol norm2 basis lookup qvecs mu (h, h) G) s bd G'
  = hamiltonian cd c (by_spin (T, T)) (fun p r q u => hijkl_ueg pi vol norm2 basis p q r u)
    - mu *: electrons cd c
    + (op cd c (\sum_(q <- qvecs) (m (iA q) *: iA q + m (iB q) *: iB q))
       - (1 / 2%:R * \sum_(q <- qvecs) (m (iA q) ^+ 2 + m (iB q) ^+ 2))%:A).
Proof.
move=> C A M cd c hc V s bd mu pi vol norm2 basis lookup qvecs T G G' inj look uq q0 full nN s0.
move=> h jA jB m; rewrite (C46_ueg hc _ _ _ inj look uq q0 full nN) [LHS]step_t_planewave //.
by congr (_ + _); rewrite addrAC.
Qed.

Theorem C69_thermal_planewave_partial : forall (C : numClosedFieldType) (A : algType C) M
    (cd c : 'I_M -> bool -> A), car cd c ->
  forall (V : zmodType) (s bd mu pi vol : C) (norm2 : V -> C) (basis : 'I_M -> V)
    (lookup : V -> option 'I_M) (qvecs : seq V) (T : 'M[C]_M) (G G' : 'M[C]_M * 'M[C]_M),
  injective basis ->
  (forall k i, lookup k = Some i <-> basis i = k) ->
  uniq qvecs -> (0 \notin qvecs) ->
  (forall i j, i != j -> basis i - basis j \in qvecs) ->
  (forall q, norm2 (- q) = norm2 q) -> s != 0 ->
  (forall i j, i != j -> G.1 i j = 0 /\ G.2 i j = 0) ->
  let h := mod_one_body pi vol norm2 basis T in
  steps_with cd c (t_planewave s pi vol norm2 basis lookup qvecs mu (h, h) G) s bd G'
  = hamiltonian cd c (by_spin (T, T)) (fun p r q u => hijkl_ueg pi vol norm2 basis p q r u)
    - mu *: electrons cd c.
Proof.
move=> C A M cd c hc V s bd mu pi vol norm2 basis lookup qvecs T G G' inj look uq q0 full nN s0.
move=> dg h; rewrite (C46_ueg hc _ _ _ inj look uq q0 full nN) addrAC.
exact: step_t_planewave_diag.
Qed.

Theorem C69_thermal_planewave_refuted : forall (C : numClosedFieldType) (A : algType C) M
    (cd c : 'I_M -> bool -> A), car cd c ->
  forall (V : zmodType) (s bd mu pi vol : C) (norm2 : V -> C) (basis : 'I_M -> V)
    (lookup : V -> option 'I_M) (qvecs : seq V) (T : 'M[C]_M) (G' : 'M[C]_M * 'M[C]_M) i j,
  injective basis ->
  (forall k i, lookup k = Some i <-> basis i = k) ->
  uniq qvecs -> (0 \notin qvecs) ->
  (forall i j, i != j -> basis i - basis j \in qvecs) ->
  (forall q, norm2 (- q) = norm2 q) -> s != 0 ->
  i != j -> pi / vol / norm2 (basis i - basis j) != 0 ->
  let h := mod_one_body pi vol norm2 basis T in
  exists G,
  steps_with cd c (t_planewave s pi vol norm2 basis lookup qvecs mu (h, h) G) s bd G'
  <> hamiltonian cd c (by_spin (T, T)) (fun p r q u => hijkl_ueg pi vol norm2 basis p q r u)
     - mu *: electrons cd c.
Proof.
move=> C A M cd c hc V s bd mu pi vol norm2 basis lookup qvecs T G' i j inj look uq q0 full nN s0.
move=> ne f0 h.
have [G E] := step_t_planewave_wrong look q0 hc uq full nN mu bd (h, h) G' s0 ne f0.
exists G => W; apply: E; rewrite [LHS]W (C46_ueg hc _ _ _ inj look uq q0 full nN).
by rewrite addrAC.
Qed.

(* Potentials and factors are linear in the fields, so that the operators of
   the single fields determine the step. *)
Theorem C69_linear : forall (C : numClosedFieldType) (A : algType C) M
    (cd c : 'I_M -> bool -> A) (s bd : C) (G G' h1 : 'M[C]_M * 'M[C]_M),
  let lin N (p : cont C M N) :=
    linear_fields (fun x => one_body_op cd c (by_spin (two_body_propagator p s bd false x G).2)) /\
    linear_fields (fun x => (two_body_propagator p s bd false x G).1.1.1 : C^o) in
  (forall naux (chol : 'M[C]_(M * M, naux)) e sparse, lin naux (generic chol s e h1 sparse G')) /\
  (forall naux (chol : 'M[C]_(M * M, naux)) e f b, lin naux (generic_multi_det chol s e h1 f b)) /\
  (forall naux (chol : 'M[C]_(M * M, naux)) e mu sparse p,
     t_generic chol s e mu h1 sparse G' = Ok p -> lin naux p) /\
  (forall U, lin M (hubbard s U h1 G')) /\
  (forall U alt mu, lin M (t_hubbard s U alt mu h1 G')) /\
  (forall U ut, lin M (hubbard_spin s U ut h1 G')) /\
  (forall (V : zmodType) pi vol (norm2 : V -> C) basis lookup qvecs,
     lin _ (planewave s pi vol norm2 basis lookup qvecs h1)) /\
  (forall (V : zmodType) pi vol (norm2 : V -> C) basis lookup qvecs mu,
     lin _ (t_planewave s pi vol norm2 basis lookup qvecs mu h1 G')).
Proof.
move=> C A M cd c s bd G G' h1 lin.
split; first by move=> *; exact: linear_generic.
split; first by move=> *; exact: linear_generic.
split; first by move=> naux chol e mu [] // p [<-]; exact: linear_generic.
split; first by move=> *; exact: linear_hubbard.
split; first by move=> *; exact: linear_hubbard.
split; first by move=> *; exact: linear_spin.
split; by move=> *; exact: linear_planewave.
Qed.

(* The average over the fields of a step of size dt = s^2, to third order in
   s: 1 - dt (h - 1/2 sum_n (v_n - m_n)^2).  The exponentials are cut off at
   the third order or later. *)
Theorem C69_step : forall (C : numClosedFieldType) (A : algType C) N (K k : nat)
    (h : A) (v : 'I_N -> A) (m : 'I_N -> C) (D : seq (C * ('I_N -> C))),
  (3 <= K)%N -> (3 <= k)%N -> like_normal D ->
  forall i, (i < 4)%N ->
  (\sum_(d <- D) d.1%:A *: one_step K k h v m d.2)`_i
  = [:: 1; 0; - completed 0 h v m; 0]`_i.
Proof. by move=> *; apply: average_coef. Qed.

(* A bias, bounded or not, is a change of variables: the density of the
   fields that were drawn, times the factor, is that of the shifted fields, and
   factor and potential are those of the shifted fields. *)
Theorem C69_gauss : forall (C : numClosedFieldType) M N (p : cont C M N) (s bd : C)
    force_bias xi (G : 'M[C]_M * 'M[C]_M),
  let '(cmf, cfb, y, V) := two_body_propagator p s bd force_bias xi G in
  - (1 / 2%:R * sprod xi xi) + cfb = - (1 / 2%:R * sprod y y) /\
  cmf = (two_body_propagator p s bd false y G).1.1.1 /\
  V = (two_body_propagator p s bd false y G).2.
Proof.
move=> C M N p s bd fb xi G.
by split; [exact: (two_body_gauss p s bd fb xi G)|exact: (two_body_same p s bd fb xi G)].
Qed.

(* Without a bound in the way, the bias removes the fluctuations to first
   order: the expectation of the potential and the two factors add up to a
   number that does not depend on the fields. *)
Theorem C69_bias : forall (C : numClosedFieldType) M (s bd : C) (G G' h1 : 'M[C]_M * 'M[C]_M),
  let calm N (p : cont C M N) :=
    (forall i, `|c_bias p G i 0| <= bd) ->
    forall xi,
    let '(cmf, cfb, y, V) := two_body_propagator p s bd true xi G in
    trace2 V G + cmf + cfb = 1 / 2%:R * sprod (c_bias p G) (c_bias p G) in
  (forall naux (chol : 'M[C]_(M * M, naux)) e sparse, calm naux (generic chol s e h1 sparse G')) /\
  (forall naux (chol : 'M[C]_(M * M, naux)) e mu sparse p,
     t_generic chol s e mu h1 sparse G' = Ok p -> calm naux p) /\
  (forall U, calm M (hubbard s U h1 G')) /\
  (forall U alt mu, calm M (t_hubbard s U alt mu h1 G')) /\
  (forall (V : zmodType) pi vol (norm2 : V -> C) basis lookup qvecs,
     calm _ (planewave s pi vol norm2 basis lookup qvecs h1)).
Proof.
move=> C M s bd G G' h1 calm.
split; [|split; [|split; [|split]]].
- by move=> naux chol e sparse small xi; apply: two_body_bias => // y; exact: bias_generic.
- move=> naux chol e mu [] // p [<-] small xi; apply: two_body_bias => // y /=.
  by rewrite ![((ravel _)^T *m chol)^T]sparse_dense; exact: bias_generic.
- by move=> U small xi; apply: two_body_bias => // y; exact: bias_hubbard.
- by move=> U alt mu small xi; apply: two_body_bias => // y; exact: bias_hubbard.
move=> V pi vol norm2 basis lookup qvecs small xi; apply: two_body_bias => // y.
by rewrite /= [dot y 0]dotC dot0 mulr0 subr0; exact: bias_planewave.
Qed.

Theorem C69_bias_spin_refuted : forall (C : numClosedFieldType) M (U dt bd : C)
    (H1 : 'M[C]_M.+1 * 'M[C]_M.+1), 0 < dt -> U != 0 -> 0 <= bd ->
  exists (G : 'M[C]_M.+1 * 'M[C]_M.+1) xi,
  let s := sqrtC dt in
  let p := hubbard_spin s U (sqrtC (dt * U)) H1 G in
  (forall i, `|c_bias p G i 0| <= bd) /\
  let '(cmf, cfb, y, V) := two_body_propagator p s bd true xi G in
  trace2 V G + cmf + cfb <> 1 / 2%:R * sprod (c_bias p G) (c_bias p G).
Proof.
move=> C M U dt bd H1 dt0 U0 bd0; rewrite rootCMl ?ltW //.
by apply: spin_bias_wrong => //; [exact: ord0|rewrite sqrtC_eq0 gt_eqF].
Qed.

(* The rotated vectors give the same bias, if they are dense. *)
Theorem C69_fast : forall (C : numClosedFieldType) M naux nu nd (sys : system C M naux)
    (s : C) mf (psia : 'M[C]_(M, nu)) (psib : 'M[C]_(M, nd)) Gmod,
  let G := (map_mx conjC psia *m Gmod.1, map_mx conjC psib *m Gmod.2) in
  bias_fast false s mf (rotate psia sys) (rotate psib sys) Gmod
  = Ok (bias_slow (chol_vecs sys) s mf G).
Proof. by move=> C M naux nu nd [h1 chol e] s mf psia psib Gmod G; exact: bias_fast_dense. Qed.

Theorem C69_fast_sparse_refuted : forall (C : numClosedFieldType) (s : C), s != 0 ->
  exists (sys : system C 1 1) (psia psib : 'M[C]_1) (Gmod : 'M[C]_1 * 'M[C]_1) b,
  let G := (map_mx conjC psia *m Gmod.1, map_mx conjC psib *m Gmod.2) in
  bias_fast true s 0 (rotate psia sys) (rotate psib sys) Gmod = Ok b /\
  b <> bias_slow (chol_vecs sys) s 0 G.
Proof.
move=> C s s0; have [chol [a [b [Gm [v [E W]]]]]] := fast_sparse_wrong s0.
by exists (MkSystem (0, 0) chol 0), a, b, Gm, v.
Qed.

Theorem C69_fast_sparse_raises : forall (C : numClosedFieldType) M naux nu nd (s : C)
    (mf : 'cV[C]_naux) (r0 : 'M[C]_(nu * M, naux)) (r1 : 'M[C]_(nd * M, naux)) Gmod,
  nu != nd -> bias_fast true s mf r0 r1 Gmod = Err ValueError.
Proof.
move=> C M naux nu nd s mf r0 r1 Gmod ne; rewrite /bias_fast.
by case: eqP => // e; case/eqP: ne.
Qed.

(* There are weighted fields as C69_step asks for, for every number of
   fields, and operators for every number of orbitals (C46_example). *)
Example C69_example : forall (C : numClosedFieldType) N,
  exists D : seq (C * ('I_N.+1 -> C)), like_normal D.
Proof. by move=> C N; exists (points C N); exact: points_normal. Qed.

Example C69_example_electrons : forall (C : numClosedFieldType) (U dt : C)
    (G : 'M[C]_2 * 'M[C]_2), 0 < dt ->
  let cd (p : 'I_2) s := create C (mode p s) in
  let c (p : 'I_2) s := annihilate C (mode p s) in
  steps_with cd c (hubbard (sqrtC dt) U (construct_h1e_mod_hubbard false U (0, 0)) G)
    (sqrtC dt) 1 G
  = \sum_p U *: (number cd c p false * number cd c p true).
Proof.
move=> C U dt G dt0 cd c; rewrite (C69_hubbard (C46_example C 2)) ?sqrtC_eq0 ?gt_eqF //.
rewrite [X in X + _](_ : _ = 0) ?add0r // /one_body_op big1 // => sg _.
by rewrite big1 // => p _; rewrite big1 // => r _; case: sg; rewrite mxE scale0r.
Qed.

Print Assumptions C69_generic.
Print Assumptions C69_multi_det.
Print Assumptions C69_hubbard.
Print Assumptions C69_spin.
Print Assumptions C69_spin_partial.
Print Assumptions C69_spin_refuted.
Print Assumptions C69_planewave.
Print Assumptions C69_thermal_generic.
Print Assumptions C69_thermal_dense_refuted.
Print Assumptions C69_thermal_hubbard.
Print Assumptions C69_thermal_planewave.
Print Assumptions C69_thermal_planewave_partial.
Print Assumptions C69_thermal_planewave_refuted.
Print Assumptions C69_linear.
Print Assumptions C69_step.
Print Assumptions C69_gauss.
Print Assumptions C69_bias.
Print Assumptions C69_bias_spin_refuted.
Print Assumptions C69_fast.
Print Assumptions C69_fast_sparse_refuted.
Print Assumptions C69_fast_sparse_raises.

(* The shift is the right one: for the density matrix it is computed from there is no
   bias, and a step without bias has no linear term in the fields. *)
Theorem C69_shift : forall (C : numClosedFieldType) M (s bd : C) (G G' h1 : 'M[C]_M * 'M[C]_M),
  let centred N (p : cont C M N) P :=
    c_bias p P = 0 /\
    forall x, let '(cmf, _, _, V) := two_body_propagator p s bd false x G' in trace2 V P + cmf = 0 in
  let rdm := (1%:M - G.1^T, 1%:M - G.2^T) in
  (forall naux (chol : 'M[C]_(M * M, naux)) e sparse, centred naux (generic chol s e h1 sparse G) G) /\
  (forall naux (chol : 'M[C]_(M * M, naux)) e mu sparse p,
     t_generic chol s e mu h1 sparse G = Ok p -> centred naux p rdm) /\
  (forall U, centred M (hubbard s U h1 G) G) /\
  (forall U alt mu, centred M (t_hubbard s U alt mu h1 G) rdm).
Proof. exact shift_right. Qed.

(* The same with several determinants, for any linear expectation values: no linear
   term for the trial wavefunction, and with the bias only its square for the walker. *)
Theorem C69_multi_det_bias : forall (C : numClosedFieldType) M naux (chol : 'M[C]_(M * M, naux))
    (s bd e : C) (h1 : 'M[C]_M * 'M[C]_M) (trial walker : 'M[C]_M -> C),
  (forall a A B, trial (a *: A + B) = a * trial A + trial B) ->
  (forall a A B, walker (a *: A + B) = a * walker A + walker B) ->
  let b := bias_multi_det chol s (mean_field_shift_multi_det chol trial) walker in
  let p := generic_multi_det chol s e h1 trial (fun _ => b) in
  (forall x G, let '(cmf, _, _, V) := two_body_propagator p s bd false x G in
     V.2 = V.1 /\ trial V.1 + cmf = 0) /\
  ((forall i, `|b i 0| <= bd) ->
   forall x G, let '(cmf, cfb, y, V) := two_body_propagator p s bd true x G in
     walker V.1 + cmf + cfb = 1 / 2%:R * sprod b b).
Proof. exact multi_shift. Qed.
Print Assumptions C69_shift.
Print Assumptions C69_multi_det_bias.
