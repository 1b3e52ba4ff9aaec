(* C79: one-body operators from the sampled density matrices. *)

From Coq Require Import Reals List Lra Lia.
From Verif Require Import Base Ratio_Spec OneBody_Model OneBody_Spec OneBody_Proofs.
Import ListNotations.
Local Open Scope R_scope.

(* One row for each split, in their order: the operator contracted with the mean of the sampled
   matrices, and the standard error of the contractions. *)
Theorem C79_rows_partial nb A rdm splits dt skip : splits <> [] ->
  (forall s, In s splits -> (2 <= length (rdm s))%nat) ->
  exists rows, analyse_one_body nb (NoSpin A) rdm splits dt skip = Ok rows /\
    Forall2 (fun s row => exists e,
      row = (INR s * dt, Some (contraction nb A (mean_matrix (rdm s))), Some e) /\
      standard_error (map (fun P => contraction nb A (both P)) (rdm s)) e) splits rows.
Proof.
  intros N H. rewrite rows_value by assumption. eexists. split; [reflexivity|].
  clear N. induction splits as [|s ss IH]; [constructor|]. cbn [map]. constructor.
  - assert (L := H s (or_introl eq_refl)).
    destruct (sem_ok (map (fun P => contraction nb A (both P)) (rdm s))) as [e [E S]];
      [now rewrite map_length|].
    exists e. split; [|assumption]. rewrite E, mean_ok, contraction_mean; [reflexivity|].
    destruct (rdm s); [simpl in L; lia|discriminate].
  - apply IH. intros. apply H. now right.
Qed.
Print Assumptions C79_rows_partial.

(* No error if all samples give the same value. *)
Theorem C79_constant nb A rdm s dt skip v : (2 <= length (rdm s))%nat ->
  (forall P, In P (rdm s) -> contraction nb A (both P) = v) ->
  analyse_one_body nb (NoSpin A) rdm [s] dt skip = Ok [(INR s * dt, Some v, Some 0)].
Proof.
  intros L H.
  destruct (C79_rows_partial nb A rdm [s] dt skip) as [rows [E F]];
    [discriminate|intros ? [<-|[]]; assumption|].
  rewrite E. inversion F as [|? row ? ? [e [-> [e0 he]]] F']; subst. inversion F'; subst.
  assert (M : average (map (fun P => contraction nb A (both P)) (rdm s)) = v).
  { rewrite (map_ext_in _ (fun _ => v) _ H). unfold average. rewrite map_length.
    rewrite (map_ext _ (fun _ => v * 1)) by (intro; ring). rewrite sum_scal.
    assert (S : forall l : list (mat * mat), sum (map (fun _ => 1) l) = INR (length l)).
    { induction l; [reflexivity|]. cbn [map length]. rewrite S_INR, <- IHl. unfold sum. simpl. ring. }
    rewrite S. field. apply not_0_INR. lia. }
  rewrite <- contraction_mean, M. repeat f_equal.
  assert (Z : e ^ 2 = 0).
  { rewrite he. unfold mean_variance. rewrite M, map_map, map_length.
    rewrite (map_ext_in _ (fun _ => 0)); [rewrite sum_zero; unfold Rdiv; ring|].
    intros P hP. rewrite (H P hP). ring. }
  destruct (Req_dec e 0) as [|n]; [assumption|]. exfalso. apply (pow_nonzero e 2); assumption.
Qed.
Print Assumptions C79_constant.

(* The argument skip has no effect at all ... *)
Theorem C79_skip nb A rdm splits dt k k' :
  analyse_one_body nb A rdm splits dt k = analyse_one_body nb A rdm splits dt k'.
Proof. reflexivity. Qed.
Print Assumptions C79_skip.

(* ... so that the first samples are not left out. *)
Definition unit_mat (x : R) : mat := fun _ _ => (x, 0).
Theorem C79_skip_refuted : ~ forall nb A rdm splits dt skip,
  analyse_one_body nb (NoSpin A) rdm splits dt skip
  = analyse_one_body nb (NoSpin A) (fun s => skipn skip (rdm s)) splits dt 0.
Proof.
  intro H.
  specialize (H 1%nat (unit_mat 1)
    (fun _ => [(unit_mat 3, unit_mat 0); (unit_mat 0, unit_mat 0); (unit_mat 0, unit_mat 0)])
    [1%nat] 1 1%nat).
  rewrite !rows_value in H by discriminate. injection H. intros _ h.
  unfold contraction, re_product, both, unit_mat, sum in h. simpl in h. lra.
Qed.
Print Assumptions C79_skip_refuted.

(* An operator with a spin index, for which the function looks, is refused as soon as there is a
   sample. *)
Theorem C79_spin_raises nb up down rdm s splits dt skip : rdm s <> [] ->
  analyse_one_body nb (Spin up down) rdm (s :: splits) dt skip = Err ValueError.
Proof.
  intro N. unfold analyse_one_body. cbn [all_splits analyse_split].
  destruct (rdm s); [contradiction|reflexivity].
Qed.
Print Assumptions C79_spin_raises.

(* No splits: nothing to unpack. *)
Theorem C79_empty nb A rdm dt skip : analyse_one_body nb A rdm [] dt skip = Err ValueError.
Proof. reflexivity. Qed.
Print Assumptions C79_empty.

(* One sample has a value and no error, none has neither. *)
Theorem C79_few nb A rdm s dt skip :
  (forall P, rdm s = [P] ->
     analyse_one_body nb (NoSpin A) rdm [s] dt skip
     = Ok [(INR s * dt, Some (contraction nb A (both P)), None)]) /\
  (rdm s = [] -> analyse_one_body nb (NoSpin A) rdm [s] dt skip = Ok [(INR s * dt, None, None)]).
Proof.
  split; intros; rewrite rows_value by discriminate; cbn [map]; rewrite H; [|reflexivity].
  cbn [map]. rewrite mean_ok by discriminate. unfold np_sem, average, sum. simpl.
  repeat f_equal. field.
Qed.
Print Assumptions C79_few.

(* Two splits with two samples each: the hypotheses hold. *)
Example C79_example : exists rows,
  analyse_one_body 1 (NoSpin (unit_mat 2))
    (fun s => [(unit_mat (INR s), unit_mat 1); (unit_mat 0, unit_mat 3)]) [1%nat; 2%nat] (/ 2) 1
  = Ok rows /\ map (fun r => fst (fst r)) rows = [1 * / 2; 2 * / 2] /\
  map (fun r => snd (fst r)) rows = [Some 5; Some 6].
Proof.
  rewrite rows_value by discriminate. eexists. split; [reflexivity|]. split.
  - simpl. reflexivity.
  - cbn [map fst snd]. rewrite !mean_ok by discriminate.
    unfold average, contraction, re_product, both, unit_mat, sum. simpl. repeat f_equal; field.
Qed.
