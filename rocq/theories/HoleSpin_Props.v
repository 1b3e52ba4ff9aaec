(* C80: hole and spin densities from sampled Green's functions. *)

From Coq Require Import Reals List Lra Lia.
From Verif Require Import Base Ratio_Spec OneBody_Model OneBody_Proofs HoleSpin_Model HoleSpin_Spec HoleSpin_Proofs.
Import ListNotations.
Local Open Scope R_scope.

(* Means and standard errors of both densities on every site. *)
Theorem C80_densities M gf : (2 <= length gf)%nat ->
  exists c, average_correlation 2 M gf = Ok c /\
    estimates M gf hole_at (hole_mean c) (hole_err c) /\
    estimates M gf spin_at (spin_mean c) (spin_err c).
Proof.
  intro L. rewrite value. eexists. split; [reflexivity|]. cbn [hole_mean hole_err spin_mean spin_err].
  split; now apply columns_ok.
Qed.
Print Assumptions C80_densities.

(* Sum rules: with the same numbers of particles in all samples, the holes add up to M - N and the
   spins to half the difference. *)
Theorem C80_sum_rules M gf up down : gf <> [] ->
  (forall g, In g gf -> particles M 0 g = up /\ particles M 1 g = down) ->
  exists c holes spins, average_correlation 2 M gf = Ok c /\
    hole_mean c = map Some holes /\ spin_mean c = map Some spins /\
    sum holes = INR M - (up + down) /\ sum spins = (up - down) / 2.
Proof.
  intros N H. rewrite value. eexists.
  exists (map (fun i => average (map (hole_at i) gf)) (seq 0 M)),
         (map (fun i => average (map (spin_at i) gf)) (seq 0 M)).
  split; [reflexivity|]. cbn [hole_mean spin_mean]. rewrite !map_map.
  split; [apply map_ext; intro; apply mean_ok; destruct gf; [contradiction|discriminate]|].
  split; [apply map_ext; intro; apply mean_ok; destruct gf; [contradiction|discriminate]|].
  rewrite !sum_average. split; apply average_const; try assumption; intros g hg;
    destruct (H g hg) as [<- <-]; [apply hole_total|apply spin_total].
Qed.
Print Assumptions C80_sum_rules.

(* The last result is not the mean Green's function, which is computed and dropped, but all
   samples. *)
Theorem C80_samples ns M gf c : average_correlation ns M gf = Ok c -> last_gf c = gf.
Proof.
  unfold average_correlation. destruct (ns <=? 1)%nat; [discriminate|]. now intros [= <-].
Qed.
Print Assumptions C80_samples.

(* Green's functions of a single spin are refused. *)
Theorem C80_one_spin ns M gf : (ns <= 1)%nat -> average_correlation ns M gf = Err IndexError.
Proof. intro H. unfold average_correlation. destruct (Nat.leb_spec ns 1); [reflexivity|lia]. Qed.
Print Assumptions C80_one_spin.

(* Two sites with one particle of each spin. *)
Definition on_site (a b : nat) : sample := fun s i j =>
  if Nat.eqb i j then if Nat.eqb i (if Nat.eqb s 0 then a else b) then 1 else 0 else 0.
Example C80_example : exists c, average_correlation 2 2 [on_site 0 1; on_site 0 0] = Ok c /\
  hole_mean c = [Some (- (1 / 2)); Some (1 / 2)] /\ spin_mean c = [Some (1 / 4); Some (- (1 / 4))] /\
  (forall g, In g [on_site 0 1; on_site 0 0] -> particles 2 0 g = 1 /\ particles 2 1 g = 1).
Proof.
  rewrite value. eexists. split; [reflexivity|]. cbn [hole_mean spin_mean map seq].
  rewrite !mean_ok by discriminate.
  unfold average, hole_at, spin_at, density, on_site, particles, sum. simpl.
  assert (E : forall a b c d : R, a = c -> b = d -> [Some a; Some b] = [Some c; Some d]) by congruence.
  split; [apply E; field|]. split; [apply E; field|].
  intros g [<-|[<-|[]]]; unfold density; simpl; split; ring.
Qed.
