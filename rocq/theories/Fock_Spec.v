(** Second quantisation on the occupation number basis, for C29: spin orbitals
    0 .. 2n-1, the first n with spin up; a state is a function of the set of occupied
    spin orbitals. *)
From Verif Require Import Base.
Set Warnings "-notation-overridden,-ambiguous-paths".
From mathcomp Require Import all_ssreflect all_algebra.
Set Implicit Arguments. Unset Strict Implicit. Unset Printing Implicit Defensive.
Import GRing.Theory.
Local Open Scope ring_scope.

Section Fock.
  Variables (R : comRingType) (M : nat).

  Definition state : Type := {set 'I_M} -> R.

  Definition ket (A : {set 'I_M}) : state := fun S => (S == A)%:R.

  (** (-1) to the number of occupied orbitals before p *)
  Definition sgn (S : {set 'I_M}) (p : 'I_M) : R := (-1) ^+ #|[set x in S | (x < p)%N]|.

  Definition create (p : 'I_M) (f : state) : state :=
    fun S => if p \in S then sgn S p * f (S :\ p) else 0.
  Definition annihilate (p : 'I_M) (f : state) : state :=
    fun S => if p \in S then 0 else sgn S p * f (p |: S).

  (** sum h_pq p^dagger q *)
  Definition one_body (h : 'I_M -> 'I_M -> R) (f : state) : state :=
    fun S => \sum_p \sum_q h p q * create p (annihilate q f) S.

  (** 1/2 sum <pq|rs> p^dagger q^dagger s r *)
  Definition two_body (half : R) (v : 'I_M -> 'I_M -> 'I_M -> 'I_M -> R) (f : state) : state :=
    fun S => half * \sum_p \sum_q \sum_r \sum_s
      v p q r s * create p (create q (annihilate s (annihilate r f))) S.

  Definition hamiltonian (half e0 : R) h v (f : state) : state :=
    fun S => e0 * f S + one_body h f S + two_body half v f S.
End Fock.

Section Spin.
  Variables (R : comRingType) (n : nat).
  Notation M := (n + n)%N.

  Definition spin (p : 'I_M) : bool := (n <= p)%N.
  Definition orb (p : 'I_M) : nat := if spin p then (p - n)%N else p.

  Definition h_so (h : nat -> nat -> R) (p q : 'I_M) : R :=
    if spin p == spin q then h (orb p) (orb q) else 0.
  (** <pq|rs> in physicists' order: p and r, q and s share their spin *)
  Definition v_so (v : nat -> nat -> nat -> nat -> R) (p q r s : 'I_M) : R :=
    if (spin p == spin r) && (spin q == spin s) then v (orb p) (orb q) (orb r) (orb s) else 0.

  (** number of electrons with spin up *)
  Definition ups (A : {set 'I_M}) : nat := #|[set x in A | ~~ spin x]|.

  (** the sorted list of occupied spin orbitals *)
  Definition occ (A : {set 'I_M}) : seq nat := [seq val x | x <- enum A].
End Spin.
