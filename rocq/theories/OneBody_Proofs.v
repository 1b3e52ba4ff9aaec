(* Proofs about the one-body estimates. *)

From Coq Require Import Reals List Lra Lia.
From Verif Require Import Base Ratio_Spec OneBody_Model OneBody_Spec.
Import ListNotations.
Local Open Scope R_scope.

Lemma fst_csum l : fst (csum l) = sum (map fst l).
Proof. unfold sum. induction l; simpl; [reflexivity|]. now rewrite IHl. Qed.

Lemma einsum_value nb A B : fst (einsum nb A B) = contraction nb A B.
Proof.
  unfold einsum, contraction. rewrite fst_csum, map_map. f_equal. apply map_ext. intro i.
  rewrite fst_csum, map_map. reflexivity.
Qed.

Lemma sum_plus {T} (f g : T -> R) l : sum (map (fun x => f x + g x) l) = sum (map f l) + sum (map g l).
Proof. unfold sum. induction l; simpl; [ring|]. rewrite IHl. ring. Qed.
Lemma sum_scal {T} c (f : T -> R) l : sum (map (fun x => c * f x) l) = c * sum (map f l).
Proof. unfold sum. induction l; simpl; [ring|]. rewrite IHl. ring. Qed.
Lemma sum_zero {T} (l : list T) : sum (map (fun _ => 0) l) = 0.
Proof. unfold sum. induction l; simpl; [ring|]. rewrite IHl. ring. Qed.
Lemma sum_swap {T U} (f : T -> U -> R) (l : list T) (k : list U) :
  sum (map (fun x => sum (map (fun y => f x y) k)) l) = sum (map (fun y => sum (map (fun x => f x y) l)) k).
Proof.
  induction l as [|x l IH].
  - cbn [map]. change (sum []) with 0. symmetry. apply sum_zero.
  - cbn [map]. change (sum (?a :: ?b)) with (a + sum b).
    transitivity (sum (map (fun y => f x y) k) + sum (map (fun y => sum (map (fun x => f x y) l)) k)).
    + cbn [sum fold_right]. now rewrite <- IH.
    + rewrite <- sum_plus. reflexivity.
Qed.

Lemma sum_div {T} c (f : T -> R) l : sum (map (fun x => f x / c) l) = sum (map f l) / c.
Proof. unfold Rdiv. rewrite (map_ext _ (fun x => / c * f x)) by (intro; ring). rewrite sum_scal. ring. Qed.

Lemma average_map {T} (f : T -> R) l : average (map f l) = sum (map (fun x => f x / INR (length l)) l).
Proof. unfold average. now rewrite map_length, sum_div. Qed.

Lemma contraction_mean nb A (Ps : list (mat * mat)) :
  average (map (fun P => contraction nb A (both P)) Ps) = contraction nb A (mean_matrix Ps).
Proof.
  rewrite average_map. set (n := INR (length Ps)).
  assert (E : forall i j, re_product (A i j) (mean_matrix Ps i j)
    = sum (map (fun P => re_product (A i j) (both P i j) / n) Ps)).
  { intros i j. unfold mean_matrix, re_product. cbn [fst snd]. unfold average. rewrite !map_length. fold n.
    rewrite sum_div. rewrite (map_ext (fun P => fst (A i j) * fst (both P i j) - snd (A i j) * snd (both P i j))
      (fun P => fst (A i j) * fst (both P i j) + (- snd (A i j)) * snd (both P i j))) by (intro; ring).
    rewrite sum_plus, !sum_scal. unfold Rdiv. ring. }
  unfold contraction. symmetry.
  rewrite (map_ext (fun i => sum (map (fun j => re_product (A i j) (mean_matrix Ps i j)) (seq 0 nb)))
    (fun i => sum (map (fun P => sum (map (fun j => re_product (A i j) (both P i j) / n) (seq 0 nb))) Ps))).
  2:{ intro i. rewrite (map_ext _ _ (E i)). apply sum_swap. }
  rewrite sum_swap. f_equal. apply map_ext. intro P.
  rewrite <- sum_div. f_equal. apply map_ext. intro i. now rewrite sum_div.
Qed.

Lemma mean_ok vals : vals <> [] -> np_mean vals = Some (average vals).
Proof. destruct vals; [contradiction|reflexivity]. Qed.

Lemma sem_ok vals : (2 <= length vals)%nat -> exists e, np_sem vals = Some e /\ standard_error vals e.
Proof.
  intro L. unfold np_sem. destruct (Nat.leb_spec (length vals) 1); [lia|].
  eexists. split; [reflexivity|].
  assert (2 <= INR (length vals)) by (replace 2 with (INR 2) by (simpl; lra); now apply le_INR).
  fold (sum vals). fold (average vals).
  set (V := fold_right Rplus 0 _).
  assert (EV : V = sum (map (fun x => (x - average vals) ^ 2) vals)).
  { unfold V, sum. f_equal. apply map_ext. intro x. now rewrite pow2_abs. }
  assert (0 <= V).
  { rewrite EV. unfold sum. generalize (average vals). intro m. clear. induction vals as [|x vals IH]; simpl; [lra|].
    pose proof (Rle_0_sqr (x - m)) as S. unfold Rsqr in S. simpl in IH. lra. }
  assert (0 < sqrt (INR (length vals))) by (apply sqrt_lt_R0; lra).
  assert (0 <= V / (INR (length vals) - 1)).
  { unfold Rdiv. apply Rmult_le_pos; [assumption|]. apply Rlt_le, Rinv_0_lt_compat. lra. }
  split.
  - apply Rmult_le_pos; [apply sqrt_pos|]. now apply Rlt_le, Rinv_0_lt_compat.
  - unfold mean_variance. rewrite <- EV. unfold Rdiv at 1. rewrite Rpow_mult_distr, pow_inv.
    rewrite <- !Rsqr_pow2, !Rsqr_sqrt by lra. field. lra.
Qed.

Lemma split_value nb A Ps : analyse_split nb (NoSpin A) Ps
  = Ok (np_mean (map (fun P => contraction nb A (both P)) Ps), np_sem (map (fun P => contraction nb A (both P)) Ps)).
Proof.
  cbn [analyse_split]. rewrite (map_ext _ (fun P => contraction nb A (both P))); [reflexivity|].
  intro P. now rewrite einsum_value.
Qed.

Lemma rows_value nb A rdm splits dt skip : splits <> [] ->
  analyse_one_body nb (NoSpin A) rdm splits dt skip
  = Ok (map (fun s => (INR s * dt, np_mean (map (fun P => contraction nb A (both P)) (rdm s)),
                       np_sem (map (fun P => contraction nb A (both P)) (rdm s)))) splits).
Proof.
  intro N. unfold analyse_one_body.
  assert (E : all_splits nb (NoSpin A) rdm splits
    = Ok (map (fun s => (np_mean (map (fun P => contraction nb A (both P)) (rdm s)),
                         np_sem (map (fun P => contraction nb A (both P)) (rdm s)))) splits)).
  { clear N. induction splits as [|s ss IH]; [reflexivity|].
    cbn [all_splits]. rewrite split_value. cbn [rbind]. rewrite IH. reflexivity. }
  rewrite E. cbn [rbind]. destruct splits as [|s ss]; [contradiction|].
  cbn [map combine]. f_equal. f_equal. clear. induction ss; simpl; [reflexivity|]. now rewrite IHss.
Qed.
