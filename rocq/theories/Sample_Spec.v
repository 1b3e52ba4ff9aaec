(* Expectations over random numbers, and the unbiased sums over fields. *)

From Coq Require Import Reals List.
Set Warnings "-ambiguous-paths".
From Coquelicot Require Import Coquelicot.
Import ListNotations.
Open Scope R_scope.

(* The mean over n independent numbers uniform in [0, 1]. *)
Fixpoint mean (n : nat) (F : list R -> R) : R :=
  match n with
  | O => F []
  | S m => RInt (fun r => mean m (fun rs => F (r :: rs))) 0 1
  end.

Fixpoint configs (n : nat) : list (list bool) :=
  match n with
  | O => [[]]
  | S m => map (cons false) (configs m) ++ map (cons true) (configs m)
  end.

Definition rsum (l : list R) : R := fold_right Rplus 0 l.
Definition rprod (l : list R) : R := fold_right Rmult 1 l.

(* The determinant after all fields have acted. *)
Fixpoint act {S : Type} (apply : S -> nat -> bool -> S) (s : S)
    (sites : list nat) (xs : list bool) : S :=
  match sites, xs with
  | i :: sites', x :: xs' => act apply (apply s i x) sites' xs'
  | _, _ => s
  end.

(* The average of F over uniformly distributed fields, each with its factor. *)
Definition uniform_sum {S : Type} (apply : S -> nat -> bool -> S)
    (wfac : bool -> R) (F : S -> R) (s : S) (sites : list nat) : R :=
  (/ 2) ^ length sites *
  rsum (map (fun xs => rprod (map wfac xs) * F (act apply s sites xs))
            (configs (length sites))).

(* All overlap ratios on the way are positive. *)
Fixpoint positive {S : Type} (apply : S -> nat -> bool -> S)
    (ratio : S -> nat -> bool -> R) (wfac : bool -> R)
    (s : S) (sites : list nat) : Prop :=
  match sites with
  | [] => True
  | i :: sites' => forall x, 0 < ratio s i x * wfac x /\
                             positive apply ratio wfac (apply s i x) sites'
  end.

(* The sum over fields of the path-wise product of the positive parts of the
   ratios: what the sampling estimates when some ratios are negative. *)
Fixpoint constrained_sum {S : Type} (apply : S -> nat -> bool -> S)
    (ratio : S -> nat -> bool -> R) (wfac : bool -> R) (F : S -> R)
    (sites : list nat) (s : S) : R :=
  match sites with
  | [] => F s
  | i :: l =>
      Rmax (/ 2 * ratio s i false * wfac false) 0
        * constrained_sum apply ratio wfac F l (apply s i false)
      + Rmax (/ 2 * ratio s i true * wfac true) 0
        * constrained_sum apply ratio wfac F l (apply s i true)
  end.

(* The weight of a walker times a function of its determinant. *)
Definition value {S : Type} (F : S -> R) (ws : R * S) : R := fst ws * F (snd ws).

(* The normal density, up to its constant. *)
Definition gauss (x : R) : R := exp (- (/ 2 * (x * x))).

(* l is the integral of F over R^n with the weight gauss in each variable. *)
Fixpoint gauss_int (n : nat) (F : list R -> R) (l : R) : Prop :=
  match n with
  | O => l = F []
  | S m => exists g : R -> R,
      (forall x, gauss_int m (fun xs => F (x :: xs)) (g x)) /\
      is_RInt_gen (fun x => gauss x * g x)
        (Rbar_locally m_infty) (Rbar_locally p_infty) l
  end.
