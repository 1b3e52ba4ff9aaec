(* What the weight update is compared with. *)

From Coq Require Import Reals List.
From Verif Require Import Base.
Set Warnings "-ambiguous-paths".
From Coquelicot Require Import Complex.
Import ListNotations.
Open Scope R_scope.

(* x is in the window of half-width b around c *)
Definition within (x c b : R) : Prop := c - b <= x <= c + b.

(* The nearest point of the window. *)
Definition nearest (x c b : R) : R := Rmin (c + b) (Rmax (c - b) x).

Definition cexp (z : C) : C := (exp (fst z) * cos (snd z), exp (fst z) * sin (snd z)).

(* Cosine of the angle of z: the real part of z / |z|. *)
Definition direction (z : C) : R := fst z / Cmod z.

(* The number of components of modulus above one. *)
Definition large (l : list C) : nat :=
  length (filter (fun z => if Rlt_dec 1 (Cmod z) then true else false) l).

(* Total change of the shift along a run, starting from s0. *)
Fixpoint variation (s0 : R) (shifts : list R) : R :=
  match shifts with
  | [] => 0
  | s :: rest => Rabs (s - s0) + variation s rest
  end.
