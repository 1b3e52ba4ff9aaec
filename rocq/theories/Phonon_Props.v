(* C63: wavefunctions of phonons, their local energies and their steps. *)

From Coq Require Import Reals List Lra Lia.
From Verif Require Import Base Phonon_Model Phonon_Spec.
Set Warnings "-ambiguous-paths".
From Coquelicot Require Import Coquelicot.
From Verif Require Import Phonon_Proofs.
Open Scope R_scope.

(* gradient and laplacian are logarithmic derivatives of value. *)
Theorem C63_derivatives : forall m w s X i, length X = length s -> (i < length X)%nat ->
  0 < value m w s X /\
  partial (value m w s) i X (value m w s X * nth i (gradient m w s X) 0) /\
  partial2 (value m w s) i X (value m w s X * nth i (laplacian m w s X) 0).
Proof.
intros m w s X i E H; split; [|split].
- apply value_pos.
- now apply gradient_right.
- now apply laplacian_right.
Qed.

Theorem C63_derivatives_momentum : forall m w s P i, m * w <> 0 ->
  length P = length s -> (i < length P)%nat ->
  partial (value_p m w s) i P (value_p m w s P * nth i (gradient_p m w s P) 0) /\
  partial2 (value_p m w s) i P (value_p m w s P * nth i (laplacian_p m w s P) 0).
Proof.
intros m w s P i N E H; split; [now apply gradient_p_right | now apply laplacian_p_right].
Qed.

(* Derivatives are unique, so there is no other choice. *)
Theorem C63_unique : forall f i X l l', partial f i X l -> partial f i X l' -> l = l'.
Proof.
intros f i X l l' H H'. exact (eq_trans (eq_sym (is_derive_unique _ _ _ H)) (is_derive_unique _ _ _ H')).
Qed.

(* Local energies: the Hamiltonian applied to the wavefunction, divided by it. *)
Theorem C63_energy : forall m w s X, m <> 0 -> length X = length s ->
  oscillators m w (value m w s) X (local_energy m w s X * value m w s X).
Proof. exact energy_right. Qed.

Theorem C63_energy_momentum : forall m w s P, m <> 0 -> w <> 0 -> length P = length s ->
  oscillators_momentum m w (value_p m w s) P (local_energy_p m w s P * value_p m w s P).
Proof. exact energy_p_right. Qed.

(* The same for symmetrized trials. *)
Theorem C63_sym_laplacian : forall m w parts X i,
  (forall p, In p parts -> length X = length (shift p)) ->
  sym_value m w parts X <> 0%C -> (i < length X)%nat ->
  cpartial2 (sym_value m w parts) i X
    (nth i (sym_laplacian m w parts X) 0%C * sym_value m w parts X)%C.
Proof. intros; now apply sym_laplacian_right. Qed.

Theorem C63_sym_energy : forall m w parts X,
  (forall p, In p parts -> length X = length (shift p)) ->
  m <> 0 -> sym_value m w parts X <> 0%C ->
  oscillators_complex m w (sym_value m w parts) X
    (sym_local_energy m w parts X * sym_value m w parts X)%C.
Proof. exact sym_energy_right. Qed.

Theorem C63_sym_gradient_partial : forall m w parts X i,
  (forall p, In p parts -> length X = length (shift p)) ->
  sym_value m w parts X <> 0%C ->
  (forall p, In p parts -> snd (coeff p) = 0) -> (i < length X)%nat ->
  cpartial (sym_value m w parts) i X
    (nth i (sym_gradient m w parts X) 0%C * sym_value m w parts X)%C.
Proof. intros; now apply sym_gradient_right. Qed.

(* The gradient does not conjugate the coefficients, which the value does. *)
Theorem C63_sym_gradient_refuted :
  ~ (forall m w parts X i,
       (forall p, In p parts -> length X = length (shift p)) ->
       sym_value m w parts X <> 0%C -> (i < length X)%nat ->
       cpartial (sym_value m w parts) i X
         (nth i (sym_gradient m w parts X) 0%C * sym_value m w parts X)%C).
Proof.
intro H. destruct sym_gradient_witness as [N F]. apply F, H; auto.
intros p [<-|[<-|[]]]; reflexivity.
Qed.

(* Steps: drift and diffusion, telescoping overlaps, and the exponential of the
   trapezoidal sum of local energies. *)
Theorem C63_steps : forall m w g U dt eshift s wk noise,
  let f := boson_steps m w false g U dt eshift s wk noise in
  let p := path (langevin m dt (gradient m w s)) (wX wk) noise in
  wX f = last p (wX wk) /\
  ot f = (ot wk * RtoC (value m w s (wX f) / value m w s (wX wk)))%C /\
  weight f = weight wk * exp (- dt * (trapezoid (local_energy m w s) p
                                      - INR (length noise) * eshift)).
Proof. exact steps_right. Qed.

(* The ground state has zero variance: no step changes the weight. *)
Theorem C63_zero_variance : forall m w g U dt wk noise, m <> 0 ->
  (forall d, In d noise -> length d = length (wX wk)) ->
  weight (boson_steps m w false g U dt 0 (repeat 0 (length (wX wk))) wk noise) = weight wk.
Proof. exact steps_zero_variance. Qed.

(* Free propagation: the exponential of the trapezoidal sum of potentials. *)
Theorem C63_free : forall m w dt wk noise,
  let f := free_steps m w dt wk noise in
  let p := path add (wX wk) noise in
  wX f = last p (wX wk) /\ ot f = ot wk /\
  weight f = weight wk
    * exp (- dt * trapezoid (fun X => m * w ^ 2 / 2 * square_sum X) p).
Proof. exact free_right. Qed.

(* With the option sorella and no coupling the energy should be the local energy and the
   zero point energy.  The code sums the squares of psi''/psi. *)
Theorem C63_sorella_refuted :
  exists m w U s X, 0 < m /\ 0 < w /\ 0 < U /\ length X = length s /\
    step_energy m w true 0 U s X <> local_energy m w s X + w / 2 * INR (length X).
Proof.
exists 1, 1, 1, (0 :: nil), (2 :: nil). destruct sorella_witness as [-> ->].
repeat split; try lra. simpl. lra.
Qed.

(* Detailed balance of the acceptance probability for steps with the variance dt/m that
   boson_importance_sampling has, when m = 1. *)
Theorem C63_acceptance_partial : forall m w dt s x y dx dy, m = 1 -> 0 < dt ->
  length x = length dx -> length y = length dy ->
  acceptance m w dt s x y dx dy * (gaussian (dt / m) (add x dx) y * value m w s x ^ 2)
  = gaussian (dt / m) (add y dy) x * value m w s y ^ 2.
Proof.
intros m w dt s x y dx dy -> H A B. replace (dt / 1) with dt by field. now apply acceptance_right.
Qed.

Theorem C63_acceptance_refuted :
  exists m w dt s x y, 0 < m /\ 0 < w /\ 0 < dt /\
    let drift X := map (fun v => dt / m * v) (gradient m w s X) in
    acceptance m w dt s x y (drift x) (drift y)
      * (gaussian (dt / m) (add x (drift x)) y * value m w s x ^ 2)
    <> gaussian (dt / m) (add y (drift y)) x * value m w s y ^ 2.
Proof.
exists 2, 1, 1, (0 :: nil), (0 :: nil), (1 :: nil). repeat split; try lra. exact acceptance_witness.
Qed.

(* Two sites: the drift and the local energy of a shifted state, and a symmetrized state
   that does not vanish. *)
Example C63_instance :
  gradient 1 2 (1 :: 0 :: nil) (3 :: 1 :: nil) = -4 :: -2 :: nil /\
  local_energy 1 2 (1 :: 0 :: nil) (3 :: 1 :: nil) = 10 /\
  sym_value 1 1 (Part (1 :: 0 :: nil) 1%C 1%C :: Part (0 :: 1 :: nil) 1%C 1%C :: nil)
    (0 :: 0 :: nil) <> 0%C.
Proof.
split; [|split].
- cbv [gradient each2 map combine fst snd]. repeat f_equal; ring.
- cbv [local_energy laplacian each2 rsum map combine fold_right fst snd length INR]. field.
- intro H. apply (f_equal fst) in H. rewrite sym_fst in H.
  cbv [d map rsum fold_right shift ots coeff fst snd Cmult Cconj RtoC] in H.
  assert (A := value_pos 1 1 (1 :: 0 :: nil) (0 :: 0 :: nil)).
  assert (B := value_pos 1 1 (0 :: 1 :: nil) (0 :: 0 :: nil)). lra.
Qed.

(* Two steps from a state with zero shift. *)
Example C63_instance_steps :
  let wk := W (1 :: nil) 3 1%C in
  wX (boson_steps 1 1 false 0 1 (1 / 2) 0 (0 :: nil) wk ((1 :: nil) :: (0 :: nil) :: nil))
    = 3 / 4 :: nil /\
  weight (boson_steps 1 1 false 0 1 (1 / 2) 0 (repeat 0 1) wk ((1 :: nil) :: (0 :: nil) :: nil)) = 3.
Proof.
split.
- cbv [boson_steps fold_left boson_step wX each2 map combine fst snd gradient]. f_equal. field.
- apply (steps_zero_variance 1 1 0 1 (1 / 2) (W (1 :: nil) 3 1%C)); [lra|].
  intros d [<-|[<-|[]]]; reflexivity.
Qed.

Print Assumptions C63_derivatives.
Print Assumptions C63_derivatives_momentum.
Print Assumptions C63_unique.
Print Assumptions C63_energy.
Print Assumptions C63_energy_momentum.
Print Assumptions C63_sym_laplacian.
Print Assumptions C63_sym_energy.
Print Assumptions C63_sym_gradient_partial.
Print Assumptions C63_sym_gradient_refuted.
Print Assumptions C63_steps.
Print Assumptions C63_zero_variance.
Print Assumptions C63_free.
Print Assumptions C63_sorella_refuted.
Print Assumptions C63_acceptance_partial.
Print Assumptions C63_acceptance_refuted.
