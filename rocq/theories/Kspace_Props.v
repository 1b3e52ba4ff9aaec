(* C65: the kinetic step in momentum space. *)

From Verif Require Import Base BaseFacts Lattice_Model Lattice_Spec Lattice_Proofs.
Set Warnings "-notation-overridden,-ambiguous-paths".
From mathcomp Require Import all_ssreflect all_algebra all_field zify.
From Verif Require Import LEnergy_Proofs Kspace_Model Kspace_Spec Kspace_Proofs.

Set Implicit Arguments.
Unset Strict Implicit.
Unset Printing Implicit Defensive.

Import Order.TTheory GRing.Theory Num.Theory.
Local Open Scope ring_scope.

Section Props.
Variable C : numClosedFieldType.
Variable w : nat -> C.
Hypothesis wP : roots w.
Variables (Th : Type) (expi : Th -> C).
(* the hopping matrix of C31: twist, then periodic in x and in y *)
Notation hop t nx ny ks bx bb :=
  (kinetic C Th 0 +%R *%R -%R conjC expi 1 t nx ny ks bx bb).

(* Periodic chains and squares: the factors exp(-dt e/2) between the two Fourier
   transforms give exp(-dt T/2) applied to every column. *)
Theorem C65_kspace_partial : forall t nx ny T B expo phi nup ndown, t^* = t ->
  (1 < nx)%N -> ny = 1%N \/ ny = nx ->
  hop t nx ny None true true = Ok T -> function_of (nx * ny) expo T B ->
  exists phi', kinetic_kspace w nx ny false phi nup ndown (Factors (btk w nx ny t expo)) = Ok phi' /\
    forall i c, (i < nx * ny)%N -> phi' i c = times (nx * ny) B (fun j => phi j c) i.
Proof. move=> t nx ny T B expo phi nup ndown tR n1 R; exact: kspace_right. Qed.

(* Real walkers: nothing is lost with the imaginary part. *)
Theorem C65_real_partial : forall t nx ny T B expo phi nup ndown, t^* = t ->
  (1 < nx)%N -> ny = 1%N \/ ny = nx ->
  hop t nx ny None true true = Ok T -> function_of (nx * ny) expo T B ->
  (forall i j, (i < nx * ny)%N -> (j < nx * ny)%N -> B i j \is Num.real) ->
  (forall i c, phi i c \is Num.real) ->
  exists phi', kinetic_kspace w nx ny true phi nup ndown (Factors (btk w nx ny t expo)) = Ok phi' /\
    forall i c, (i < nx * ny)%N -> phi' i c = times (nx * ny) B (fun j => phi j c) i.
Proof. move=> t nx ny T B expo phi nup ndown tR n1 R; exact: kspace_real. Qed.

(* The hypothesis on B can be met on every periodic lattice and for every function. *)
Theorem C65_exists : forall t nx ny T expo, t^* = t -> (0 < nx)%N -> (0 < ny)%N ->
  hop t nx ny None true true = Ok T -> exists B, function_of (nx * ny) expo T B.
Proof. move=> t nx ny T expo; exact: (hop_function wP). Qed.

(* The rows of transform_matrix are eigenvectors of the hopping matrix at ek, rectangles
   included. *)
Theorem C65_transform : forall t nx ny T k l, t^* = t -> (1 < nx)%N -> (0 < ny)%N ->
  hop t nx ny None true true = Ok T -> (k < nx)%N -> (l < ny)%N ->
  eigen (nx * ny) T (transform_matrix w nx ny (k * ny + l)) (ek w t nx ny k l).
Proof. exact: transform_eigen. Qed.

(* One site along x: the energies contain -2t for a bond that is not in the matrix. *)
Theorem C65_one_column_refuted : forall t ny T B expo phi nup ndown, t^* = t -> (0 < ny)%N ->
  (forall x y, expo (x + y) = expo x * expo y) ->
  hop t 1 ny None true true = Ok T -> function_of (1 * ny) expo T B ->
  exists phi', kinetic_kspace w 1 ny false phi nup ndown (Factors (btk w 1 ny t expo)) = Ok phi' /\
    forall i c, (i < 1 * ny)%N ->
      phi' i c = expo (- 2%:R * t) * times (1 * ny) B (fun j => phi j c) i.
Proof. exact: column. Qed.

(* Rectangles: reshape(nx, ny) reads sites that are numbered x + nx y as if they were
   numbered y + ny x. *)
Theorem C65_rectangle_refuted : forall t expo, t^* = t -> expo (3%:R * t) != expo 0 ->
  exists T B phi phi', [/\ hop t 2 3 None true true = Ok T, function_of 6 expo T B,
    kinetic_kspace w 2 3 false phi 1 0 (Factors (btk w 2 3 t expo)) = Ok phi'
    & exists i, (i < 6)%N /\ phi' i 0%N != times 6 B (fun j => phi j 0%N) i].
Proof. exact: rectangle. Qed.

(* Open boundaries: the energies are those of the periodic lattice. *)
Theorem C65_open_refuted : forall t expo, t^* = t -> expo (- t) != expo (- 2%:R * t) ->
  exists T B phi phi', [/\ hop t 2 1 None false true = Ok T, function_of 2 expo T B,
    kinetic_kspace w 2 1 false phi 1 0 (Factors (btk w 2 1 t expo)) = Ok phi'
    & exists i, (i < 2)%N /\ phi' i 0%N != times 2 B (fun j => phi j 0%N) i].
Proof. exact: open_chain. Qed.

(* The option ffts: the caller passes the matrices bt2 and not the factors btk, and the
   step never succeeds. *)
Theorem C65_ffts_refuted : forall nx ny real phi nup ndown bt2, (0 < nx)%N -> (0 < ny)%N ->
  kinetic_step w nx ny true real phi nup ndown bt2 = Err ValueError.
Proof. exact: matrices_raise. Qed.

(* Without the option both spins are multiplied by their matrix. *)
Theorem C65_real_space : forall nx ny real phi nup ndown bt2,
  exists phi', kinetic_step w nx ny false real phi nup ndown bt2 = Ok phi' /\
    forall i c, phi' i c = times (nx * ny) (bt2 (if (c < nup)%N then 0%N else 1%N)) (fun j => phi j c) i.
Proof. by move=> nx ny real phi nup ndown bt2; eexists. Qed.
End Props.

(* There are roots of unity of every order. *)
Example C65_roots : exists w : nat -> algC, roots w.
Proof.
have H n : exists z : algC, (0 < n)%N ==> n.-primitive_root z.
  case: n => [|n]; first by exists 0.
  by have [z Pz] := C_prim_root_exists (ltn0Sn n); exists z.
by exists (fun n => xchoose (H n)) => n n0; move: (xchooseP (H n)) => /implyP; apply.
Qed.

(* A square: the constant column is multiplied by expo (-4t). *)
Example C65_square : forall (w : nat -> algC), roots w ->
  exists T B phi', [/\
    kinetic algC unit 0 +%R *%R -%R conjC (fun=> 1) 1 1 4 4 None true true = Ok T,
    function_of 16 (fun x => x ^+ 3) T B,
    kinetic_kspace w 4 4 false (fun _ _ => 1) 1 1 (Factors (btk w 4 4 1 (fun x => x ^+ 3))) = Ok phi' &
    forall i, (i < 16)%N -> phi' i 0%N = times 16 B (fun=> 1) i].
Proof.
move=> w wP.
have [T E] : exists T, kinetic algC unit 0 +%R *%R -%R conjC (fun=> 1) 1 1 4 4 None true true = Ok T.
  have [T [E _]] := kinetic_sites algC unit 0 1 +%R *%R (fun x y => x - y) -%R conjC (fun=> 1)
    (comring_th _) (rmorphD _) (rmorphM _) (rmorphN _) (@conjCK _) (conjC1 _) 1 4 4 None true true (conjC1 _) I.
  by exists T.
have [B F] := C65_exists wP (fun x => x ^+ 3) (conjC1 _) (isT : (0 < 4)%N) (isT : (0 < 4)%N) E.
have [phi' [P Q]] := C65_kspace_partial wP (fun _ _ => 1) 1 1 (conjC1 _) (isT : (1 < 4)%N) (or_intror erefl) E F.
by exists T, B, phi'; split=> // i iN; exact: Q.
Qed.

Print Assumptions C65_kspace_partial.
Print Assumptions C65_real_partial.
Print Assumptions C65_exists.
Print Assumptions C65_transform.
Print Assumptions C65_one_column_refuted.
Print Assumptions C65_rectangle_refuted.
Print Assumptions C65_open_refuted.
Print Assumptions C65_ffts_refuted.
Print Assumptions C65_real_space.
