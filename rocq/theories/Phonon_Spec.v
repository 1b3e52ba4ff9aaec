(* Derivatives of functions of displacements, and oscillators. *)

From Coq Require Import Reals List.
From Verif Require Import Base.
Set Warnings "-ambiguous-paths".
From Coquelicot Require Import Coquelicot.
Import ListNotations.
Open Scope R_scope.

(* The derivative with respect to the i-th number. *)
Definition partial (f : list R -> R) (i : nat) (X : list R) (l : R) : Prop :=
  is_derive (fun t => f (upd i t X)) (nth i X 0) l.

(* The second derivative with respect to the i-th number. *)
Definition partial2 (f : list R -> R) (i : nat) (X : list R) (l : R) : Prop :=
  exists g, (forall Y, length Y = length X -> partial f i Y (g Y)) /\ partial g i X l.

(* The same for complex values. *)
Definition cpartial (f : list R -> C) (i : nat) (X : list R) (l : C) : Prop :=
  partial (fun Y => fst (f Y)) i X (fst l) /\ partial (fun Y => snd (f Y)) i X (snd l).
Definition cpartial2 (f : list R -> C) (i : nat) (X : list R) (l : C) : Prop :=
  partial2 (fun Y => fst (f Y)) i X (fst l) /\ partial2 (fun Y => snd (f Y)) i X (snd l).

Definition sum_of (l : list R) : R := fold_right Rplus 0 l.
Definition square_sum (X : list R) : R := sum_of (map (fun x => x * x) X).
Definition csum_of (l : list C) : C := fold_right Cplus 0%C l.

(* E is (H f)(X) for oscillators in position space, without zero point energy:
   -1/(2m) sum_i d^2/dx_i^2 + m w^2/2 sum_i x_i^2 - n w/2. *)
Definition oscillators (m w : R) (f : list R -> R) (X : list R) (E : R) : Prop :=
  exists d2 : list R, length d2 = length X /\
    (forall i, (i < length X)%nat -> partial2 f i X (nth i d2 0)) /\
    E = - (1 / (2 * m)) * sum_of d2
        + (m * w ^ 2 / 2 * square_sum X - INR (length X) * w / 2) * f X.
(* The same in momentum space: positions are derivatives. *)
Definition oscillators_momentum (m w : R) (f : list R -> R) (P : list R) (E : R) : Prop :=
  exists d2 : list R, length d2 = length P /\
    (forall i, (i < length P)%nat -> partial2 f i P (nth i d2 0)) /\
    E = - (m * w ^ 2 / 2) * sum_of d2
        + (1 / (2 * m) * square_sum P - INR (length P) * w / 2) * f P.
(* For complex values. *)
Definition oscillators_complex (m w : R) (f : list R -> C) (X : list R) (E : C) : Prop :=
  oscillators m w (fun Y => fst (f Y)) X (fst E) /\ oscillators m w (fun Y => snd (f Y)) X (snd E).

(* The density of a Gaussian step with variance v, without its normalization. *)
Definition gaussian (v : R) (mean y : list R) : R :=
  exp (- sum_of (map (fun p => (fst p - snd p) ^ 2 / (2 * v)) (combine y mean))).

(* Positions visited, and the trapezoidal rule along them. *)
Fixpoint path (next : list R -> list R -> list R) (X : list R) (noise : list (list R))
  : list (list R) :=
  match noise with [] => X :: nil | d :: r => X :: path next (next X d) r end.
Fixpoint trapezoid (e : list R -> R) (p : list (list R)) : R :=
  match p with
  | a :: ((b :: _) as r) => (e a + e b) / 2 + trapezoid e r
  | _ => 0
  end.
Definition add (X Y : list R) : list R := map (fun p => fst p + snd p) (combine X Y).
(* Drift by dt/m times the logarithmic derivative, and diffusion. *)
Definition langevin (m dt : R) (drift : list R -> list R) (X d : list R) : list R :=
  add (add X d) (map (fun x => dt / m * x) (drift X)).
