(** The Hubbard-Holstein Hamiltonian on electrons and phonons, for C73: a state is a
    function of the phonon numbers of the sites and the set of occupied spin orbitals. *)
From Verif Require Import Base.
Set Warnings "-notation-overridden,-ambiguous-paths".
From mathcomp Require Import all_ssreflect all_algebra.
From Verif Require Import Fock_Spec.
Set Implicit Arguments. Unset Strict Implicit. Unset Printing Implicit Defensive.
Import GRing.Theory Num.Theory.
Local Open Scope ring_scope.

(** one phonon more, and one less, on a site *)
Definition more (site : nat) (v : seq nat) : seq nat := set_nth 0%N v site (nth 0%N v site).+1.
Definition less (site : nat) (v : seq nat) : seq nat := set_nth 0%N v site (nth 0%N v site).-1.

Section Holstein.
  Variables (C : numClosedFieldType).

  (** b and b^dagger *)
  Definition annih_ph (site : nat) (f : seq nat -> C) : seq nat -> C :=
    fun v => sqrtC ((nth 0%N v site).+1)%:R * f (more site v).
  Definition creat_ph (site : nat) (f : seq nat -> C) : seq nat -> C :=
    fun v => if (0 < nth 0%N v site)%N then sqrtC (nth 0%N v site)%:R * f (less site v) else 0.

  Variable n : nat.
  Notation M := (n + n)%N.
  Definition joint : Type := seq nat -> state C M.

  (** the electron density of a site *)
  Definition site_density (site : nat) : state C M -> state C M :=
    one_body (h_so (n:=n) (fun p q => ((p == site) && (q == site))%:R)).

  (** He + w sum b^dagger b + g sum n_i (b_i + b_i^dagger) *)
  Definition holstein (half e0 : C) (h : nat -> nat -> C) (v : nat -> nat -> nat -> nat -> C) (w g : C) (f : joint) : joint :=
    fun x S => hamiltonian half e0 (h_so (n:=n) h) (v_so (n:=n) v) (f x) S
      + w * (\sum_(i < n) creat_ph i (annih_ph i (fun y => f y S)) x)
      + g * \sum_(i < n) site_density i (fun T => annih_ph i (fun y => f y T) x + creat_ph i (fun y => f y T) x) S.

  Definition joint_ket (v : seq nat) (A : {set 'I_M}) : joint := fun x S => ((x == v) && (S == A))%:R.
End Holstein.
