(** Determinant matrix elements (C29). *)
From Verif Require Import Base.
Set Warnings "-notation-overridden,-ambiguous-paths".
From mathcomp Require Import all_ssreflect all_algebra.
From Verif Require Import CI_Model Fock_Spec Fock_Proofs CI_Proofs.
Set Implicit Arguments. Unset Strict Implicit. Unset Printing Implicit Defensive.
Import GRing.Theory.
Local Open Scope ring_scope.

(** For determinants with the same numbers of electrons of each spin, get_hmatel(di, dj) and its
    one- and two-body parts are <dj| H |di> of the second-quantised operator. *)
Theorem C29_elements_partial : forall (R : comRingType) (s : system R) (half : R), half + half = 1 ->
  (forall i j k m, hijkl s i j k m = hijkl s j i m k) ->
  forall A B : {set 'I_(nbasis s + nbasis s)}, #|A| = nelec s -> #|B| = nelec s -> ups A = ups B ->
  let e1 := ecore s * ket R A B + one_body (h_so (n:=nbasis s) (H1 s)) (ket R A) B in
  let e2 := two_body half (v_so (n:=nbasis s) (hijkl s)) (ket R A) B in
  get_hmatel s (occ A) (occ B) = Ok (e1 + e2, e1, e2).
Proof. exact main. Qed.
Print Assumptions C29_elements_partial.

(** The specified operators satisfy the anticommutation relations. *)
Theorem C29_car : forall (R : comRingType) (M : nat) (p q : 'I_M) (f : state R M) (S : {set 'I_M}),
  annihilate p (create q f) S + create q (annihilate p f) S = (p == q)%:R * f S.
Proof. exact car_mixed. Qed.
Print Assumptions C29_car.

Theorem C29_car_annihilate : forall (R : comRingType) (M : nat) (p q : 'I_M) (f : state R M) (S : {set 'I_M}),
  annihilate p (annihilate q f) S + annihilate q (annihilate p f) S = 0.
Proof. exact car_ann. Qed.
Print Assumptions C29_car_annihilate.

(** Zero beyond double excitations. *)
Theorem C29_beyond_double : forall (R : comRingType) (M : nat) (half : R) h v (A B : {set 'I_M}),
  (2 < #|B :\: A|)%N -> one_body h (ket R A) B = 0 /\ two_body half v (ket R A) B = 0.
Proof. exact many. Qed.
Print Assumptions C29_beyond_double.

(** The matrix is Hermitian (take the identity for cj when the integrals are real). *)
Theorem C29_hermitian : forall (R : comRingType) (s : system R) (half : R) (cj : {rmorphism R -> R}), half + half = 1 ->
  (forall i j k m, hijkl s i j k m = hijkl s j i m k) ->
  cj (ecore s) = ecore s -> (forall i j, cj (H1 s i j) = H1 s j i) ->
  (forall i j k m, cj (hijkl s i j k m) = hijkl s k m i j) ->
  forall (A B : {set 'I_(nbasis s + nbasis s)}) x, #|A| = nelec s -> #|B| = nelec s -> ups A = ups B ->
  get_hmatel s (occ A) (occ B) = Ok x ->
  get_hmatel s (occ B) (occ A) = Ok (cj x.1.1, cj x.1.2, cj x.2).
Proof. exact hmatel_herm. Qed.
Print Assumptions C29_hermitian.

(** get_one_body_matel for any one-body operator. *)
Theorem C29_one_body : forall (R : comRingType) (s : system R) (ints : nat -> nat -> R)
  (A B : {set 'I_(nbasis s + nbasis s)}), #|A| = #|B| -> ups A = ups B ->
  get_one_body_matel s ints (occ A) (occ B) = Ok (one_body (h_so (n:=nbasis s) ints) (ket R A) B).
Proof. exact one_body_main. Qed.
Print Assumptions C29_one_body.

(** simple_fci uses every determinant with the given electron numbers once. *)
Theorem C29_basis : forall n nup ndown, (nup <= n)%N -> (ndown <= n)%N ->
  exists l, dets n nup ndown = Ok l /\ uniq l /\
    forall d, (d \in l) <-> exists A : {set 'I_(n + n)}, [/\ d = occ A, ups A = nup & #|A| = (nup + ndown)%N].
Proof. exact dets_ok. Qed.
Print Assumptions C29_basis.

(** Determinants of different spin: one electron, spin up and spin down, get a nonzero element. *)
Theorem C29_spin_flip_refuted : exists (s : system rat_comRing) (A B : {set 'I_(nbasis s + nbasis s)}),
  #|A| = nelec s /\ #|B| = nelec s /\ get_hmatel s (occ A) (occ B) = Ok (1, 1, 0) /\
  hamiltonian (1 / 2%:R) (ecore s) (h_so (n:=nbasis s) (H1 s)) (v_so (n:=nbasis s) (hijkl s)) (ket _ A) B = 0.
Proof. exact flip_refuted. Qed.
Print Assumptions C29_spin_flip_refuted.

(** Two orbitals with one electron of each spin, and a single excitation of negative sign. *)
Example C29_example :
  let s n := System n 2 (0 : int) (fun i j => 1) (fun i j k l => 1) in
  dets 2 1 1 = Ok [:: [:: 0; 2]; [:: 0; 3]; [:: 1; 2]; [:: 1; 3]]%N /\
  get_hmatel (s 2%N) [:: 0; 2]%N [:: 1; 3]%N = Ok (1, 0, 1) /\
  get_hmatel (s 3%N) [:: 0; 1]%N [:: 1; 2]%N = Ok (-1, -1, 0).
Proof. by vm_compute. Qed.
