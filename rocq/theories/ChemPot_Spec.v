(* Vocabulary for searches of a root of the particle number. *)

From Coq Require Import Reals.
From Verif Require Import Base.
Open Scope R_scope.

Section Spec.
Variable dn : R -> R.

Definition increasing : Prop := forall x y, x < y -> dn x < dn y.
Definition decreasing : Prop := forall x y, x < y -> dn y < dn x.
(* A sign change no further than d from x. *)
Definition change_near (x d : R) : Prop :=
  exists a b, x - d <= a /\ a <= b /\ b <= x + d /\ dn a * dn b < 0.
(* The symmetric intervals tried are [-(2k+1), 2k+1]. *)
Definition edge (k : nat) : R := 2 * INR k + 1.
Definition crosses (k : nat) : Prop := dn (- edge k) * dn (edge k) < 0.
Definition touches (k : nat) : Prop := dn (- edge k) * dn (edge k) = 0.
Definition first_change (k : nat) : Prop :=
  crosses k /\ forall j, (j < k)%nat -> 0 < dn (- edge j) * dn (edge j).

End Spec.

(* Mean number of independent fermions with Boltzmann factors xs at mu = 0,
   minus a target.  s is +1 or -1 with the sign convention of the system. *)
Fixpoint fermi (s beta : R) (xs : list R) (mu : R) : R :=
  match xs with
  | [] => 0
  | x :: xs' => x * exp (s * beta * mu) / (1 + x * exp (s * beta * mu))
                + fermi s beta xs' mu
  end.

(* The nested windows of a series: the k-th drops k points at either side. *)
Definition window {A} (data : list A) (k : nat) : list A :=
  firstn (length data - 2 * k) (skipn k data).

Definition least_of (l : list R) : R :=
  match l with [] => 0 | x :: l' => fold_left Rmin l' x end.
Definition greatest_of (l : list R) : R :=
  match l with [] => 0 | x :: l' => fold_left Rmax l' x end.

(* The fit to the k-th window, its root and its residual. *)
Section Fits.
Variable Coef : Type.
Variable order : nat.
Variable polyfit : list (R * R * R) -> Coef * list R.
Variable brentq : Coef -> R -> R -> option (R * bool).
Variable data : list (R * R * R).

Definition wide (k : nat) : Prop := (order + 1 < length (window data k))%nat.
Definition root (k : nat) : option (R * bool) :=
  let mus := map (fun x => fst (fst x)) (window data k) in
  brentq (fst (polyfit (window data k))) (least_of mus) (greatest_of mus).
Definition resid (k : nat) : R := hd 0 (snd (polyfit (window data k))).

End Fits.
Arguments root {Coef} polyfit brentq data k.
Arguments resid {Coef} polyfit data k.
