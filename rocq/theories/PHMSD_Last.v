(* Lemmas for C76: the trial wavefunction, its overlap with walkers, and the cases that fail. *)

From Verif Require Import Base.
Set Warnings "-notation-overridden,-ambiguous-paths".
From mathcomp Require Import all_ssreflect all_fingroup all_algebra all_field zify.
From Verif Require Import Rank1_Spec Ortho_Spec Ortho_Model MultiDet_Spec MultiDet_Model Fock_Spec
  Fock_Proofs CI_Proofs Rediag_Spec PHMSD_Model PHMSD_Spec PHMSD_Proofs PHMSD_Overlap.

Set Implicit Arguments.
Unset Strict Implicit.
Unset Printing Implicit Defensive.

Import Order.TTheory GRing.Theory Num.Theory.
Local Open Scope ring_scope.

Section Trial.
Variable C : numClosedFieldType.
Variables n nu nd : nat.

Lemma states_lemma ds : all (valid n nu nd) ds -> exists psi,
  from_phmsd C n nu nd false (size ds) (unzip1 ds) (unzip2 ds)
    = Ok ([seq occ (occupied n d.1 d.2) | d <- ds], psi)
  /\ size psi = size ds
  /\ forall k S, (k < size ds)%N ->
     let d := nth ([::], [::]) ds k in let D := nth (0, 0) psi k in
     slater (spin_orbitals D.1 D.2) S
     = (-1) ^+ (inversions d.1 + inversions d.2) * ket C (occupied n d.1 d.2) S.
Proof.
move=> v; exists (dets_of C n nu nd ds); split; first exact: phmsd_valid; split; first by rewrite size_map.
move=> k S lk /=; rewrite (nth_map ([::], [::])) //=; apply: slater_valid.
by move/(all_nthP ([::], [::])): v => /(_ k lk).
Qed.

Lemma trial_sum (coeffs : seq C) ds S : size coeffs = size ds ->
  all (valid n nu nd) ds ->
  trial_state coeffs (dets_of C n nu nd ds) S
  = \sum_(i < size ds) coeffs`_i
      * ((-1) ^+ (inversions (nth ([::], [::]) ds i).1 + inversions (nth ([::], [::]) ds i).2)
         * ket C (occupied n (nth ([::], [::]) ds i).1 (nth ([::], [::]) ds i).2) S).
Proof.
rewrite /trial_state; elim: ds coeffs => [|d ds IH] [|c cs] //=.
  by rewrite big_nil big_ord0.
by case=> sz /andP[vd v]; rewrite big_cons big_ord_recl /= slater_valid // IH.
Qed.

Lemma trial_lemma ds (coeffs : seq C) : all (valid n nu nd) ds -> size coeffs = size ds ->
  all (fun d => sorted ltn d.1 && sorted ltn d.2) ds -> exists psi,
  from_phmsd C n nu nd false (size ds) (unzip1 ds) (unzip2 ds)
    = Ok ([seq occ (occupied n d.1 d.2) | d <- ds], psi)
  /\ trial_state coeffs psi
     =1 combination (fun i : 'I_(size ds) => let d := nth ([::], [::]) ds i in occupied n d.1 d.2)
          (fun i => coeffs`_i).
Proof.
move=> v sz so; exists (dets_of C n nu nd ds); split; first exact: phmsd_valid.
move=> S; rewrite trial_sum // /combination; apply: eq_bigr => i _; congr (_ * _).
move/(all_nthP ([::], [::])): so => /(_ i (ltn_ord i)) /andP[s1 s2].
by rewrite !inversions_sorted // mul1r.
Qed.

Lemma doubled_lemma ds : all (allowed n nu nd) ds -> exists occs psi,
  from_phmsd C n nu nd false (size ds) (unzip1 ds) (unzip2 ds) = Ok (occs, psi)
  /\ forall k S, (k < size ds)%N -> doubled nu nd (nth ([::], [::]) ds k) ->
     let D := nth (0, 0) psi k in slater (spin_orbitals D.1 D.2) S = 0.
Proof.
move=> al; eexists; exists (dets_of C n nu nd ds); split; first exact: phmsd_ok.
move=> k S lk du /=; rewrite (nth_map ([::], [::])) //=; apply: slater_doubled => //.
by move/(all_nthP ([::], [::])): al => /(_ k lk).
Qed.

Lemma accepts_lemma ds :
  is_ok (from_phmsd C n nu nd false (size ds) (unzip1 ds) (unzip2 ds)) = all (allowed n nu nd) ds.
Proof.
case al: (all _ ds); first by rewrite phmsd_ok.
rewrite /from_phmsd zip_unzip.
by case: (@fill_bad C n nu nd ds (size ds) 0 (leqnn _) (negbT al)) => ->.
Qed.

Lemma raises_lemma ds :
  (forall N, ds != [::] ->
   from_phmsd C n nu nd true N (unzip1 ds) (unzip2 ds) = Err UnboundLocalError) /\
  (~~ all (allowed n nu nd) ds -> let r := from_phmsd C n nu nd false (size ds) (unzip1 ds) (unzip2 ds) in
   r = Err IndexError \/ r = Err ValueError) /\
  (forall N, all (allowed n nu nd) ds -> (N < size ds)%N ->
   from_phmsd C n nu nd false N (unzip1 ds) (unzip2 ds) = Err IndexError).
Proof.
rewrite /from_phmsd zip_unzip; split; [|split] => [N|bad|N al lt].
- by case: ds => [|[a c] ds].
- by case: (@fill_bad C n nu nd ds (size ds) 0 (leqnn _) bad) => -> /=; [left | right].
- by rewrite fill_more.
Qed.

Lemma inner_trial c U D (coeffs : seq C) (psi : seq (pair_t C n nu nd)) g :
  inner (trial_state (c :: coeffs) ((U, D) :: psi)) g
  = c^* * inner (slater (spin_orbitals U D)) g + inner (trial_state coeffs psi) g.
Proof.
rewrite /inner mulr_sumr -big_split; apply: eq_bigr => S _ /=.
by rewrite /trial_state big_cons /= rmorphD rmorphM mulrDl mulrA.
Qed.

Lemma walker_lemma (trial : seq (det_t C n nu nd)) phiu phid :
  (overlap_direct trial phiu phid).2
  = inner (trial_state [seq t.1.1 | t <- trial] [seq (t.1.2, t.2) | t <- trial])
      (slater (spin_orbitals phiu phid)).
Proof.
rewrite /overlap_direct /=; elim: trial => [|t l IH].
  by rewrite big_nil /inner big1 // => S _; rewrite /trial_state big_nil rmorph0 mul0r.
by rewrite /= big_cons /= inner_trial overlap_spins -IH.
Qed.
End Trial.

(** Lists that are not sorted *)
Definition wrong_order : seq (seq nat * seq nat) := [:: ([:: 0; 1], [::]); ([:: 2; 0], [::])]%N.

Lemma order_lemma : all (valid 3%N 2%N 0%N) wrong_order /\
  exists psi, from_phmsd [ringType of algC] 3%N 2%N 0%N false 2%N (unzip1 wrong_order) (unzip2 wrong_order)
      = Ok ([seq occ (occupied 3%N d.1 d.2) | d <- wrong_order], psi)
  /\ forall z, ~ trial_state [:: 1; 1] psi =1 (fun S : {set 'I_(3 + 3)} => z *
       combination (fun i : 'I_2 => let d := nth ([::], [::]) wrong_order i in occupied 3%N d.1 d.2)
         (fun=> 1 : algC) S).
Proof.
have v : all (valid 3%N 2%N 0%N) wrong_order by [].
split=> //; exists (dets_of [comRingType of algC] 3%N 2%N 0%N wrong_order); split.
  exact: (@phmsd_valid [comRingType of algC] 3%N 2%N 0%N wrong_order v).
move=> z e.
set A := occupied 3%N [:: 0; 1]%N [::]; set B := occupied 3%N [:: 2; 0]%N [::].
have ne : (A == B) = false.
  apply/negbTE/eqP => /setP /(_ (lshift 3%N (inord 1 : 'I_3))).
  by rewrite !inE (unsplitK (inl _)) /= !inE inordK.
have eA := e A; have eB := e B; move: eA eB.
rewrite !trial_sum // /combination !big_ord_recl !big_ord0 /= -/A -/B /ket !eqxx.
rewrite [B == A]eq_sym ne /= !(mulr0, mulr1, mul1r, addr0, add0r, expr0, expr1) => <- /eqP.
by rewrite eq_sym -addr_eq0 (_ : 1 + 1 = 2%:R) // pnatr_eq0.
Qed.
