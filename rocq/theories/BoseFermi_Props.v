(** Exact diagonalisation of electrons and phonons (C73). *)
From Verif Require Import Base.
Set Warnings "-notation-overridden,-ambiguous-paths".
From mathcomp Require Import all_ssreflect all_algebra all_field.
From Verif Require Import CI_Model Fock_Spec BoseFermi_Model BoseFermi_Spec BoseFermi_Proofs BoseFermi_Matrix.
Set Implicit Arguments. Unset Strict Implicit. Unset Printing Implicit Defensive.
Import GRing.Theory Num.Theory.
Local Open Scope ring_scope.

(** unlabeled_balls_in_labeled_boxes yields every distribution of the balls that respects the
    capacities, once. *)
Theorem C73_distributions : forall (boxes : seq nat) (balls : nat),
  all (fun b => 1 <= b)%N boxes -> (balls <= sumn boxes)%N ->
  exists l, balls_in_boxes balls boxes = Ok l /\ uniq l /\
    forall d, d \in l <->
      [/\ size d = size boxes, sumn d = balls & forall k, (k < size boxes)%N -> (nth 0 d k <= nth 0 boxes k)%N].
Proof. exact balls_ok. Qed.
Print Assumptions C73_distributions.

(** It raises exactly on a box without capacity or too many balls. *)
Theorem C73_distributions_raises : forall (boxes : seq nat) (balls : nat),
  balls_in_boxes balls boxes = Err ValueError <-> ~~ (all (fun b => 1 <= b)%N boxes && (balls <= sumn boxes)%N).
Proof. exact balls_raises. Qed.
Print Assumptions C73_distributions_raises.

(** The specified phonon operators satisfy the commutation relation. *)
Theorem C73_ccr : forall (C : numClosedFieldType) (s t : nat) (f : seq nat -> C) (v : seq nat),
  (s < size v)%N -> (t < size v)%N ->
  annih_ph s (creat_ph t f) v - creat_ph t (annih_ph s f) v = (s == t)%:R * f v.
Proof. exact ccr. Qed.
Print Assumptions C73_ccr.

(** For symmetric integrals simple_fci_bose_fermi diagonalises the Hubbard-Holstein Hamiltonian
    on the states with at most nmax phonons: the basis has each of them once, and the element in row
    (v, A) and column (x, B) of Htot is <x, B| H |v, A>. *)
Theorem C73_matrix : forall (C : numClosedFieldType) (s : system C) (w0 g : C),
  (forall i j, H1 s i j = H1 s j i) ->
  (forall i j k m, hijkl s i j k m = hijkl s j i m k) ->
  (forall i j k m, hijkl s i j k m = hijkl s k m i j) ->
  forall nup ndown nmax : nat,
  (0 < nbasis s)%N || (nmax == 0%N) -> (nup <= nbasis s)%N -> (ndown <= nbasis s)%N -> nelec s = (nup + ndown)%N ->
  exists ps ds H, bose_fermi s w0 g nup ndown nmax = Ok (ps, ds, H) /\
    uniq ps /\ (forall v, v \in ps <-> size v = nbasis s /\ (sumn v <= nmax)%N) /\
    uniq ds /\ (forall d, (d \in ds) <-> exists A : {set 'I_(nbasis s + nbasis s)},
                  [/\ d = occ A, ups A = nup & #|A| = (nup + ndown)%N]) /\
    forall i j a b (A B : {set 'I_(nbasis s + nbasis s)}),
      (i < size ps)%N -> (j < size ps)%N -> (a < size ds)%N -> (b < size ds)%N ->
      nth [::] ds a = occ A -> nth [::] ds b = occ B ->
      H (i * size ds + a)%N (j * size ds + b)%N =
      Ok (holstein 2%:R^-1 (ecore s) (H1 s) (hijkl s) w0 g (joint_ket C (nth [::] ps i) A) (nth [::] ps j) B).
Proof. exact bose_fermi_ok. Qed.
Print Assumptions C73_matrix.

(** Otherwise it raises. *)
Theorem C73_raises : forall (C : numClosedFieldType) (s : system C) (w0 g : C) (nup ndown nmax : nat),
  (nbasis s == 0%N) && (0 < nmax)%N || (nbasis s < nup)%N || (nbasis s < ndown)%N ->
  bose_fermi s w0 g nup ndown nmax = Err ValueError.
Proof. exact bose_fermi_raises. Qed.
Print Assumptions C73_raises.

(** The local energy and the trial wavefunctions have the coupling with the opposite sign.  The two
    matrices are similar by the parity of the number of phonons, so the energies agree. *)
Theorem C73_sign : forall (C : numClosedFieldType) (n : nat) half e0 h v w g (y x : seq nat) (A B : {set 'I_(n + n)}),
  size y = n -> size x = n ->
  holstein half e0 h v w g (joint_ket C y A) x B =
  (-1) ^+ (sumn y + sumn x) * holstein half e0 h v w (- g) (joint_ket C y A) x B.
Proof. exact holstein_sign. Qed.
Print Assumptions C73_sign.

(** With complex Hermitian integrals the matrix is not Hermitian. *)
Theorem C73_complex_refuted : forall C : numClosedFieldType, exists (s : system C) ps ds H x y,
  (forall i j, (H1 s i j)^* = H1 s j i) /\ nelec s = 1%N /\
  bose_fermi s 0 0 1 0 0 = Ok (ps, ds, H) /\ H 0%N 1%N = Ok x /\ H 1%N 0%N = Ok y /\ y != x^*.
Proof. exact complex_refuted. Qed.
Print Assumptions C73_complex_refuted.

(** Two sites and up to two phonons; boxes of different sizes. *)
Example C73_basis_example :
  rbind (sectors 2 2) (fun bl => Ok (flatten bl)) =
    Ok [:: [:: 0; 0]; [:: 1; 0]; [:: 0; 1]; [:: 2; 0]; [:: 1; 1]; [:: 0; 2]]%N /\
  balls_in_boxes 3 [:: 2; 1; 3]%N =
    Ok [:: [:: 2; 1; 0]; [:: 2; 0; 1]; [:: 1; 1; 1]; [:: 1; 0; 2]; [:: 0; 1; 2]; [:: 0; 0; 3]]%N.
Proof. by vm_compute. Qed.

(** The assumptions of C73_matrix hold for two sites with hopping and a repulsion, and the density
    of a site with one electron is 1. *)
Example C73_example :
  let C := [numClosedFieldType of algC] in
  let s := System 2 1 (0 : C) (fun i j => if i == j then 0 else -1)
             (fun i j k l => if (i == j) && (j == k) && (k == l) then 4%:R else 0) in
  (forall i j, H1 s i j = H1 s j i) /\
  (forall i j k m, hijkl s i j k m = hijkl s j i m k) /\
  (forall i j k m, hijkl s i j k m = hijkl s k m i j) /\
  site_density (n:=2) 0 (ket C [set ord0]) [set ord0] = 1.
Proof. exact (matrix_example _). Qed.
