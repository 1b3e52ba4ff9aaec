(* C76: trial wavefunctions from particle-hole expansions.  The matrices of
   MultiSlater.from_phmsd and its lists spin_occs describe the same determinants, and the
   overlap with a walker is the inner product of the states on Fock space. *)

From Verif Require Import Base.
Set Warnings "-notation-overridden,-ambiguous-paths".
From mathcomp Require Import all_ssreflect all_fingroup all_algebra all_field.
From Verif Require Import Rank1_Spec Ortho_Spec MultiDet_Model Fock_Spec Rediag_Spec PHMSD_Model
  PHMSD_Spec PHMSD_Overlap PHMSD_Last.

Set Implicit Arguments.
Unset Strict Implicit.
Unset Printing Implicit Defensive.

Import Order.TTheory GRing.Theory Num.Theory.
Local Open Scope ring_scope.

(* spin_occs are the sorted occupied spin orbitals, and the matrices are the same occupation
   number states up to the sign of the permutation that sorts the lists. *)
Theorem C76_states (C : numClosedFieldType) n nu nd ds : all (valid n nu nd) ds -> exists psi,
  from_phmsd C n nu nd false (size ds) (unzip1 ds) (unzip2 ds)
    = Ok ([seq occ (occupied n d.1 d.2) | d <- ds], psi)
  /\ size psi = size ds
  /\ forall k S, (k < size ds)%N ->
     let d := nth ([::], [::]) ds k in let D := nth (0, 0) psi k in
     slater (spin_orbitals D.1 D.2) S
     = (-1) ^+ (inversions d.1 + inversions d.2) * ket C (occupied n d.1 d.2) S.
Proof. exact: states_lemma. Qed.
Print Assumptions C76_states.

(* With sorted lists the trial wavefunction is the combination of the occupation number states
   that the matrix elements with spin_occs assume. *)
Theorem C76_trial_partial (C : numClosedFieldType) n nu nd ds (coeffs : seq C) :
  all (valid n nu nd) ds -> size coeffs = size ds ->
  all (fun d => sorted ltn d.1 && sorted ltn d.2) ds -> exists psi,
  from_phmsd C n nu nd false (size ds) (unzip1 ds) (unzip2 ds)
    = Ok ([seq occ (occupied n d.1 d.2) | d <- ds], psi)
  /\ trial_state coeffs psi
     =1 combination (fun i : 'I_(size ds) => let d := nth ([::], [::]) ds i in occupied n d.1 d.2)
          (fun i => coeffs`_i).
Proof. exact: trial_lemma. Qed.
Print Assumptions C76_trial_partial.

(* Without: another state, not only another sign. *)
Theorem C76_order_refuted : exists n nu nd (ds : seq (seq nat * seq nat)) (coeffs : seq algC),
  all (valid n nu nd) ds /\ size coeffs = size ds /\
  exists psi, from_phmsd [ringType of algC] n nu nd false (size ds) (unzip1 ds) (unzip2 ds)
      = Ok ([seq occ (occupied n d.1 d.2) | d <- ds], psi)
  /\ forall z, ~ trial_state coeffs psi =1 (fun S => z *
       combination (fun i : 'I_(size ds) => let d := nth ([::], [::]) ds i in occupied n d.1 d.2)
         (fun i => coeffs`_i) S).
Proof.
exists 3%N, 2%N, 0%N, wrong_order, [:: 1; 1].
case: order_lemma => v [psi [e ne]]; split=> //; split=> //; exists psi; split=> // z h; apply: (ne z) => S.
rewrite h; congr (z * _); apply: eq_bigr => -[[|[|i]] lt] _ //.
Qed.
Print Assumptions C76_order_refuted.

Example C76_trial_example :
  let ds := [:: ([:: 0], [:: 1]); ([:: 2], [:: 0])]%N in
  all (valid 3%N 1%N 1%N) ds && all (fun d => sorted ltn d.1 && sorted ltn d.2) ds.
Proof. by []. Qed.

(* For all determinants the overlap is the product of the determinants of both spins. *)
Theorem C76_overlap (C : numClosedFieldType) n nu nd (U Pu : 'M[C]_(n, nu)) (D Pd : 'M[C]_(n, nd)) :
  inner (slater (spin_orbitals U D)) (slater (spin_orbitals Pu Pd))
  = \det (adj U *m Pu) * \det (adj D *m Pd).
Proof. exact: overlap_spins. Qed.
Print Assumptions C76_overlap.

(* The overlap a walker with several determinants starts from is <trial|walker>. *)
Theorem C76_walker (C : numClosedFieldType) n nu nd
    (trial : seq (C * 'M[C]_(n, nu) * 'M[C]_(n, nd))) phiu phid :
  (overlap_direct trial phiu phid).2
  = inner (trial_state [seq t.1.1 | t <- trial] [seq (t.1.2, t.2) | t <- trial])
      (slater (spin_orbitals phiu phid)).
Proof. exact: walker_lemma. Qed.
Print Assumptions C76_walker.

(* A determinant with an orbital twice, or with one orbital for several electrons, is accepted
   and vanishes. *)
Theorem C76_doubled (C : numClosedFieldType) n nu nd ds : all (allowed n nu nd) ds -> exists occs psi,
  from_phmsd C n nu nd false (size ds) (unzip1 ds) (unzip2 ds) = Ok (occs, psi)
  /\ forall k S, (k < size ds)%N -> doubled nu nd (nth ([::], [::]) ds k) ->
     let D := nth (0, 0) psi k in slater (spin_orbitals D.1 D.2) S = 0.
Proof. exact: doubled_lemma. Qed.
Print Assumptions C76_doubled.

Example C76_doubled_example :
  let ds := [:: ([:: 1; 1], [::]); ([:: 1], [::]); ([:: 2; 0], [::])]%N in
  all (allowed 3%N 2%N 0%N) ds /\ [seq doubled 2%N 0%N d | d <- ds] = [:: true; true; false].
Proof. by []. Qed.

(* What is accepted, and what raises: orbitals other than the reference always do. *)
Theorem C76_accepts (C : numClosedFieldType) n nu nd ds :
  is_ok (from_phmsd C n nu nd false (size ds) (unzip1 ds) (unzip2 ds)) = all (allowed n nu nd) ds.
Proof. exact: accepts_lemma. Qed.
Print Assumptions C76_accepts.

Theorem C76_raises (C : numClosedFieldType) n nu nd ds :
  (forall N, ds != [::] ->
   from_phmsd C n nu nd true N (unzip1 ds) (unzip2 ds) = Err UnboundLocalError) /\
  (~~ all (allowed n nu nd) ds -> let r := from_phmsd C n nu nd false (size ds) (unzip1 ds) (unzip2 ds) in
   r = Err IndexError \/ r = Err ValueError) /\
  (forall N, all (allowed n nu nd) ds -> (N < size ds)%N ->
   from_phmsd C n nu nd false N (unzip1 ds) (unzip2 ds) = Err IndexError).
Proof. exact: raises_lemma. Qed.
Print Assumptions C76_raises.
