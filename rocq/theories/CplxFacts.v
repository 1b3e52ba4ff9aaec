(** Field structure of the exact complex numbers. *)
From Verif Require Export BaseFacts Cplx.
From Coq Require Import Setoid Morphisms Ring Field Lqa QArith Qfield.

Global Instance Ceq_equiv : Equivalence Ceq.
Proof.
  split.
  - intros x; split; reflexivity.
  - intros x y [H1 H2]; split; symmetry; assumption.
  - intros x y z [H1 H2] [H3 H4]; split; etransitivity; eassumption.
Qed.
Global Instance re_m : Proper (Ceq ==> Qeq) re. Proof. intros x y H; apply H. Qed.
Global Instance im_m : Proper (Ceq ==> Qeq) im. Proof. intros x y H; apply H. Qed.
Global Instance mkC_m : Proper (Qeq ==> Qeq ==> Ceq) mkC. Proof. intros a b H c d H'; split; assumption. Qed.
Ltac cun := unfold Cadd, Cmul, Copp, Csub, Cinv, Cdiv, Cconj, Cof, Cabs2, C0, C1, Ci; simpl.
Global Instance Cadd_m : Proper (Ceq ==> Ceq ==> Ceq) Cadd.
Proof. intros a b H c d H'. cun. apply mkC_m; rewrite H, H'; reflexivity. Qed.
Global Instance Cmul_m : Proper (Ceq ==> Ceq ==> Ceq) Cmul.
Proof. intros a b H c d H'. cun. apply mkC_m; rewrite H, H'; reflexivity. Qed.
Global Instance Csub_m : Proper (Ceq ==> Ceq ==> Ceq) Csub.
Proof. intros a b H c d H'. cun. apply mkC_m; rewrite H, H'; reflexivity. Qed.
Global Instance Copp_m : Proper (Ceq ==> Ceq) Copp.
Proof. intros a b H. cun. apply mkC_m; rewrite H; reflexivity. Qed.
Global Instance Cconj_m : Proper (Ceq ==> Ceq) Cconj.
Proof. intros a b H. cun. apply mkC_m; rewrite H; reflexivity. Qed.
Global Instance Cabs2_m : Proper (Ceq ==> Qeq) Cabs2.
Proof. intros a b H. cun. rewrite H; reflexivity. Qed.
Global Instance Cinv_m : Proper (Ceq ==> Ceq) Cinv.
Proof. intros a b H. unfold Cinv. apply mkC_m; rewrite H; reflexivity. Qed.
Global Instance Cdiv_m : Proper (Ceq ==> Ceq ==> Ceq) Cdiv.
Proof. intros a b H c d H'. unfold Cdiv. rewrite H, H'. reflexivity. Qed.
Global Instance Cof_m : Proper (Qeq ==> Ceq) Cof.
Proof. intros a b H. unfold Cof. apply mkC_m; [exact H|reflexivity]. Qed.

Lemma Cabs2_pos x : ~ x =c= C0 -> 0 < Cabs2 x.
Proof.
  intros H. unfold Cabs2.
  destruct (Qlt_le_dec 0 (re x * re x + im x * im x)) as [L|L]; [exact L|].
  exfalso. apply H.
  assert (0 <= re x * re x) by (destruct (Qlt_le_dec (re x) 0); nra).
  assert (0 <= im x * im x) by (destruct (Qlt_le_dec (im x) 0); nra).
  assert (Z1 : re x * re x == 0) by lra. assert (Z2 : im x * im x == 0) by lra.
  apply Qmult_integral in Z1. apply Qmult_integral in Z2.
  split; simpl; tauto.
Qed.
Lemma Cabs2_0 x : x =c= C0 -> Cabs2 x == 0.
Proof. intros H. rewrite H. reflexivity. Qed.

Lemma C_ring : ring_theory C0 C1 Cadd Cmul Csub Copp Ceq.
Proof. constructor; intros; cun; split; simpl; ring. Qed.
Lemma C_field : field_theory C0 C1 Cadd Cmul Csub Copp Cdiv Cinv Ceq.
Proof.
  constructor.
  - exact C_ring.
  - intros [H _]. vm_compute in H. discriminate.
  - intros; reflexivity.
  - intros p H. apply Cabs2_pos in H. unfold Cinv. cun.
    unfold Cabs2 in H. split; simpl; field; lra.
Qed.
Add Field Cfield : C_field.

Lemma Ceqb_spec x y : Ceqb x y = true <-> x =c= y.
Proof. unfold Ceqb, Ceq. rewrite andb_true_iff, !Qeq_bool_iff. tauto. Qed.
Lemma Cof_add a b : Cof (a + b) =c= (Cof a + Cof b)%C. Proof. cun. split; simpl; ring. Qed.
Lemma Cof_mul a b : Cof (a * b) =c= (Cof a * Cof b)%C. Proof. cun. split; simpl; ring. Qed.
Lemma Cof_inj a b : Cof a =c= Cof b <-> a == b.
Proof. split; [intros [H _]; exact H|intros H; rewrite H; reflexivity]. Qed.
Lemma Cof_neq0 a : ~ a == 0 -> ~ Cof a =c= C0.
Proof. intros H H'. apply H. exact (proj1 H'). Qed.
Lemma Cconj_mul a b : Cconj (a * b)%C =c= (Cconj a * Cconj b)%C. Proof. cun; split; simpl; ring. Qed.
Lemma Cconj_add a b : Cconj (a + b)%C =c= (Cconj a + Cconj b)%C. Proof. cun; split; simpl; ring. Qed.
Lemma Cconj_conj a : Cconj (Cconj a) =c= a. Proof. cun; split; simpl; ring. Qed.
Lemma Cmul_conj a : (a * Cconj a)%C =c= Cof (Cabs2 a). Proof. cun; split; simpl; ring. Qed.
Lemma Cabs2_mul a b : Cabs2 (a * b)%C == Cabs2 a * Cabs2 b. Proof. cun. ring. Qed.
Lemma Cmul_integral a b : (a * b)%C =c= C0 -> a =c= C0 \/ b =c= C0.
Proof.
  intros H. apply Cabs2_0 in H. rewrite Cabs2_mul in H. apply Qmult_integral in H.
  destruct H as [H|H]; [left|right].
  - destruct (Ceqb a C0) eqn:E; [apply Ceqb_spec; exact E|]. exfalso.
    assert (~ a =c= C0) as N by (intros N; apply Ceqb_spec in N; congruence).
    apply Cabs2_pos in N. lra.
  - destruct (Ceqb b C0) eqn:E; [apply Ceqb_spec; exact E|]. exfalso.
    assert (~ b =c= C0) as N by (intros N; apply Ceqb_spec in N; congruence).
    apply Cabs2_pos in N. lra.
Qed.

Lemma Csum_app l1 l2 : Csum (l1 ++ l2) =c= (Csum l1 + Csum l2)%C.
Proof. induction l1; simpl; [ring|]. rewrite IHl1. ring. Qed.
Lemma Csum_perm l1 l2 : Permutation l1 l2 -> Csum l1 =c= Csum l2.
Proof.
  induction 1; simpl; [reflexivity|rewrite IHPermutation; reflexivity|ring|].
  etransitivity; eassumption.
Qed.
Lemma Csum_map_ext {A} (f g : A -> C) l : (forall x, In x l -> f x =c= g x) -> Csum (map f l) =c= Csum (map g l).
Proof. induction l; intros H; simpl; [reflexivity|]. rewrite (H a) by (left; reflexivity). rewrite IHl; [reflexivity|]. intros; apply H; right; assumption. Qed.
Lemma Csum_map_scale {A} (c : C) (f : A -> C) l : Csum (map (fun x => c * f x)%C l) =c= (c * Csum (map f l))%C.
Proof. induction l; simpl; [ring|]. rewrite IHl. ring. Qed.
Lemma Csum_map_add {A} (f g : A -> C) l : Csum (map (fun x => f x + g x)%C l) =c= (Csum (map f l) + Csum (map g l))%C.
Proof. induction l; simpl; [ring|]. rewrite IHl. ring. Qed.
Lemma Cprod_app l1 l2 : Cprod (l1 ++ l2) =c= (Cprod l1 * Cprod l2)%C.
Proof. induction l1; simpl; [ring|]. rewrite IHl1. ring. Qed.
Lemma Cprod_perm l1 l2 : Permutation l1 l2 -> Cprod l1 =c= Cprod l2.
Proof.
  induction 1; simpl; [reflexivity|rewrite IHPermutation; reflexivity|ring|].
  etransitivity; eassumption.
Qed.
Lemma Csum_flat_map {A B} (f : B -> C) (g : A -> list B) l :
  Csum (map f (flat_map g l)) =c= Csum (map (fun x => Csum (map f (g x))) l).
Proof. induction l; simpl; [reflexivity|]. rewrite map_app, Csum_app, IHl. reflexivity. Qed.
