(* What the transformation is compared with: the average over the fields of
   the one-body factors on an occupation of the sites, and the Boltzmann
   factor of the interaction. *)

From Coq Require Import Reals List.
From Coquelicot Require Import Complex.
Import ListNotations.

Open Scope R_scope.

(* The factor of a site with occupations nu, nd: a up-electron contributes
   f false, a down-electron f true. *)
Definition site (f : bool -> C) (nu nd : bool) : C :=
  Cmult (if nu then f false else RtoC 1) (if nd then f true else RtoC 1).

(* Average over the two values of a field, with weights w. *)
Definition average (f : bool -> bool -> C) (w : bool -> C) (nu nd : bool) : C :=
  Cmult (RtoC (/ 2))
    (Cplus (Cmult (w false) (site (f false) nu nd))
           (Cmult (w true) (site (f true) nu nd))).

Definition occ (b : bool) : R := if b then 1 else 0.

(* All field configurations of n sites. *)
Fixpoint configs (n : nat) : list (list bool) :=
  match n with
  | O => [[]]
  | S m => map (cons false) (configs m) ++ map (cons true) (configs m)
  end.

Definition csum (l : list C) : C := fold_right Cplus (RtoC 0) l.
Definition cprod (l : list C) : C := fold_right Cmult (RtoC 1) l.
Definition rsum (l : list R) : R := fold_right Rplus 0 l.

(* The product over the sites for one configuration. *)
Definition config_factor (f : bool -> bool -> C) (w : bool -> C)
    (xs : list bool) (ns : list (bool * bool)) : C :=
  cprod (map (fun p => Cmult (w (fst p)) (site (f (fst p)) (fst (snd p)) (snd (snd p))))
             (combine xs ns)).

(* The average over all 2^n configurations. *)
Definition lattice_average (f : bool -> bool -> C) (w : bool -> C)
    (ns : list (bool * bool)) : C :=
  Cmult (RtoC ((/ 2) ^ length ns))
    (csum (map (fun xs => config_factor f w xs ns) (configs (length ns)))).
