(* Slater determinants as states on Fock space.  Nothing here refers to the model. *)

From Verif Require Import Base.
Set Warnings "-notation-overridden,-ambiguous-paths".
From mathcomp Require Import all_ssreflect all_algebra.
From Verif Require Import Fock_Spec.

Set Implicit Arguments.
Unset Strict Implicit.
Unset Printing Implicit Defensive.

Import GRing.Theory.
Local Open Scope ring_scope.

Section Spec.
Variable C : comRingType.

(* An electron in each of the orbitals v_1, v_2, ...: v_1^+ v_2^+ ... |vacuum>. *)
Fixpoint slater M (vs : seq ('I_M -> C)) : state C M :=
  match vs with
  | [::] => ket C set0
  | v :: vs' => fun S => \sum_p v p * create p (slater vs') S
  end.

(* The columns of the two matrices as spin orbitals, spin up first. *)
Definition spin_orbitals n nu nd (psiu : 'M[C]_(n, nu)) (psid : 'M[C]_(n, nd))
  : seq ('I_(n + n) -> C) :=
  [seq (fun p => if split p is inl i then psiu i j else 0) | j <- enum 'I_nu]
  ++ [seq (fun p => if split p is inr i then psid i j else 0) | j <- enum 'I_nd].

(* The trial wavefunction: sum_i c_i D_i. *)
Definition trial_state n nu nd (coeffs : seq C) (psi : seq ('M[C]_(n, nu) * 'M[C]_(n, nd)))
  : state C (n + n) :=
  fun S => \sum_(t <- zip coeffs psi) t.1 * slater (spin_orbitals t.2.1 t.2.2) S.

(* The set of spin orbitals of a pair of occupation lists. *)
Definition occupied n (a c : seq nat) : {set 'I_(n + n)} :=
  [set p | if split p is inl i then val i \in a else if split p is inr i then val i \in c else false].

(* Occupation lists for nu and nd electrons, with no orbital twice. *)
Definition valid n nu nd (d : seq nat * seq nat) : bool :=
  [&& uniq d.1, uniq d.2, all (fun o => o < n)%N d.1, all (fun o => o < n)%N d.2,
      size d.1 == nu & size d.2 == nd].

(* Lists that are not refused: a single orbital stands for any number of electrons. *)
Definition allowed n nu nd (d : seq nat * seq nat) : bool :=
  [&& all (fun o => o < n)%N d.1, all (fun o => o < n)%N d.2,
      (size d.1 == nu) || (size d.1 == 1%N) & (size d.2 == nd) || (size d.2 == 1%N)].
(* Two electrons of one spin in the same orbital. *)
Definition doubled nu nd (d : seq nat * seq nat) : bool :=
  [|| ~~ uniq d.1, ~~ uniq d.2, (size d.1 == 1%N) && (1 < nu)%N | (size d.2 == 1%N) && (1 < nd)%N].

(* The number of pairs in the wrong order. *)
Fixpoint inversions (l : seq nat) : nat :=
  if l is x :: l' then (count (fun y => y < x)%N l' + inversions l')%N else 0%N.
End Spec.
