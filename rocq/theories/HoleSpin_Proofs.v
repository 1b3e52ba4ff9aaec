(* Proofs about the hole and spin densities. *)

From Coq Require Import Reals List Lra Lia.
From Verif Require Import Base Ratio_Spec OneBody_Model OneBody_Proofs HoleSpin_Model HoleSpin_Spec.
Import ListNotations.
Local Open Scope R_scope.

Lemma value M gf : average_correlation 2 M gf = Ok (Corr
  (map (fun i => np_mean (map (hole_at i) gf)) (seq 0 M)) (map (fun i => np_sem (map (hole_at i) gf)) (seq 0 M))
  (map (fun i => np_mean (map (spin_at i) gf)) (seq 0 M)) (map (fun i => np_sem (map (spin_at i) gf)) (seq 0 M))
  gf).
Proof.
  unfold average_correlation. cbn [Nat.leb]. f_equal.
  assert (Eh : forall i, map (fun x : nat -> R => x i) (map (fun n i => 1 - fold_right Rplus 0
    (map (fun s : nat => n s i) (seq 0 2))) (map (fun (g : sample) s i => g s i i) gf)) = map (hole_at i) gf).
  { intro i. rewrite !map_map. apply map_ext. intro g. unfold hole_at, density. simpl. ring. }
  assert (Es : forall i, map (fun x : nat -> R => x i) (map (fun n i => / 2 * (n 0%nat i - n 1%nat i))
    (map (fun (g : sample) s i => g s i i) gf)) = map (spin_at i) gf).
  { intro i. rewrite !map_map. apply map_ext. intro g. unfold spin_at, density. field. }
  f_equal; apply map_ext; intro i; rewrite ?Eh, ?Es; reflexivity.
Qed.

Lemma nth_sites (f : nat -> option R) M i : (i < M)%nat -> nth i (map f (seq 0 M)) None = f i.
Proof.
  intro H. rewrite (nth_indep _ None (f 0%nat)) by now rewrite map_length, seq_length.
  rewrite map_nth, seq_nth by assumption. reflexivity.
Qed.

Lemma columns_ok M gf q : (2 <= length gf)%nat ->
  estimates M gf q (map (fun i => np_mean (map (q i) gf)) (seq 0 M)) (map (fun i => np_sem (map (q i) gf)) (seq 0 M)).
Proof.
  intro L. unfold estimates. rewrite !map_length, seq_length. split; [reflexivity|]. split; [reflexivity|].
  intros i hi. rewrite !nth_sites by assumption. split.
  - apply mean_ok. destruct gf; [simpl in L; lia|discriminate].
  - apply sem_ok. now rewrite map_length.
Qed.

Lemma sum_average {T} (q : nat -> T -> R) gf M :
  sum (map (fun i => average (map (q i) gf)) (seq 0 M)) = average (map (fun g => sum (map (fun i => q i g) (seq 0 M))) gf).
Proof.
  rewrite average_map. rewrite (map_ext _ (fun i => sum (map (fun g => q i g / INR (length gf)) gf))).
  2:{ intro i. apply average_map. }
  rewrite sum_swap. f_equal. apply map_ext. intro g. apply sum_div.
Qed.

Lemma sum_const {T} (v : R) (l : list T) : sum (map (fun _ => v) l) = INR (length l) * v.
Proof.
  induction l as [|x l IH]; [unfold sum; simpl; ring|].
  cbn [map length]. rewrite S_INR. unfold sum in *. cbn [fold_right]. rewrite IH. ring.
Qed.

Lemma average_const {T} (f : T -> R) l v : l <> [] -> (forall x, In x l -> f x = v) -> average (map f l) = v.
Proof.
  intros N H. rewrite (map_ext_in _ (fun _ => v) _ H). unfold average. rewrite sum_const, map_length.
  field. apply not_0_INR. destruct l; [contradiction|discriminate].
Qed.

Lemma hole_total M g : sum (map (fun i => hole_at i g) (seq 0 M)) = INR M - (particles M 0 g + particles M 1 g).
Proof.
  unfold hole_at, particles.
  rewrite (map_ext _ (fun i => 1 + (- (1)) * (density g 0 i + density g 1 i))) by (intro; ring).
  rewrite (sum_plus (fun _ => 1)), (sum_scal (- (1))), sum_const, seq_length.
  rewrite (sum_plus (fun i => density g 0 i) (fun i => density g 1 i)). ring.
Qed.

Lemma spin_total M g : sum (map (fun i => spin_at i g) (seq 0 M)) = (particles M 0 g - particles M 1 g) / 2.
Proof.
  unfold spin_at, particles. rewrite sum_div.
  rewrite (map_ext _ (fun i => density g 0 i + (- (1)) * density g 1 i)) by (intro; ring).
  rewrite (sum_plus (fun i => density g 0 i)), (sum_scal (- (1)) (fun i => density g 1 i)). unfold Rdiv. ring.
Qed.
