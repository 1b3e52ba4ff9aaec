(* The kinetic step in momentum space.

   Sources (all under /repo/pauxy):
     systems/hubbard.py 327-366          kpoints (kp, eigs; the order of kp is also in Lattice_Model)
     systems/hubbard.py 370-389          ek
     systems/hubbard.py 153-160          transform_matrix
     utils/fft.py                        fft_wavefunction, ifft_wavefunction
     propagation/hubbard.py 46           btk
     propagation/hubbard.py 94-101, 159  the choice of kinetic and its call
     propagation/hubbard.py 800-833      kinetic_kspace (the same in hubbard_holstein.py 814-847)
     propagation/operations.py 29-52     kinetic_real, matrices that are not diagonal

   Simplifications: exact complex numbers.  w n stands for exp(2 pi i / n); theorems only
   use that it is a primitive root of unity of order n.  cos(2 pi k / n) is the mean of
   w^k and w^-k.  numpy.fft.fft2 and ifft2 are the sums that define them.  Walkers are
   functions of row and column.  exp(-dt e / 2) is a function expo of e.  Of
   arrays with other shapes than expected only the shapes are followed. *)

From Verif Require Import Base.
Set Warnings "-notation-overridden,-ambiguous-paths".
From mathcomp Require Import all_ssreflect all_algebra.
From Verif Require Import Lattice_Model.

Set Implicit Arguments.
Unset Strict Implicit.
Unset Printing Implicit Defensive.

Import Order.TTheory GRing.Theory Num.Theory.
Local Open Scope ring_scope.

(* numpy's rules for shapes, last axis first *)
Fixpoint broadcast_rev (r s : seq nat) : res (seq nat) :=
  match r, s with
  | [::], _ => Ok s
  | _, [::] => Ok r
  | a :: r', b :: s' =>
      rbind (if a == b then Ok a else if a == 1%N then Ok b else if b == 1%N then Ok a
             else Err ValueError) (fun c =>
      rbind (broadcast_rev r' s') (fun t => Ok (c :: t)))
  end.
Definition broadcast (r s : seq nat) : res (seq nat) :=
  rbind (broadcast_rev (rev r) (rev s)) (fun t => Ok (rev t)).

Definition elements (s : seq nat) : nat := foldr muln 1%N s.
Definition reshape_to (s t : seq nat) : res unit :=
  if elements s == elements t then Ok tt else Err ValueError.

(* x[...] = y: y is broadcast to the shape of x; leading axes of length one of y are dropped *)
Fixpoint drop_ones (k : nat) (s : seq nat) : seq nat :=
  match k, s with
  | k'.+1, 1%N :: s' => drop_ones k' s'
  | _, _ => s
  end.
Definition assign (target s : seq nat) : res unit :=
  let s' := drop_ones (size s - size target) s in
  rbind (broadcast target s') (fun t => if t == target then Ok tt else Err ValueError).

Section Kspace.
Variable C : numClosedFieldType.
Variable w : nat -> C.

Definition ccos (n k : nat) : C := (w n ^+ k + w n ^- k) / 2%:R.

(* hubbard.py 370-389, with the k point of 344-366 *)
Definition ek (t : C) (nx ny k l : nat) : C :=
  if ny == 1%N then - 2%:R * t * ccos nx k
  else - 2%:R * t * (ccos nx k + ccos ny l).

(* hubbard.py 344-366: eigs *)
Definition eks (t : C) (nx ny : nat) : seq C :=
  if ny == 1%N then [seq ek t nx ny n 0 | n <- iota 0 nx]
  else [seq ek t nx ny n m | n <- iota 0 nx, m <- iota 0 ny].

(* hubbard.py 153-160: exp(1j * kc*k_i . r_j) *)
Definition transform_matrix (nx ny : nat) (i j : nat) : C :=
  match List.nth i (kp nx ny) List.nil, decode_basis nx ny j with
  | List.cons k List.nil, List.cons x List.nil => w nx ^+ (k * x)
  | List.cons k (List.cons l List.nil), List.cons x (List.cons y List.nil) =>
      w nx ^+ (k * x) * w ny ^+ (l * y)
  | _, _ => 0
  end.

Section Fft.
Variables nx ny : nat.

Definition fft2 (x : nat -> nat -> C) (k l : nat) : C :=
  \sum_(a < nx) \sum_(b < ny) x a b * (w nx ^- (k * a) * w ny ^- (l * b)).
Definition ifft2 (x : nat -> nat -> C) (a b : nat) : C :=
  (\sum_(k < nx) \sum_(l < ny) x k l * (w nx ^+ (k * a) * w ny ^+ (l * b))) / (nx * ny)%:R.

(* utils/fft.py, one column; psi.reshape(nx,ny,ns) has row a*ny+b of psi at [a,b] *)
Definition fft_wavefunction (psi : nat -> C) (i : nat) : C :=
  fft2 (fun a b => psi (a * ny + b)%N) (i %/ ny) (i %% ny).
Definition ifft_wavefunction (psi : nat -> C) (i : nat) : C :=
  ifft2 (fun a b => psi (a * ny + b)%N) (i %/ ny) (i %% ny).

(* The last argument: an array with one factor per k point, or the pair of matrices bt2. *)
Inductive kin_arg : Type :=
| Factors (f : nat -> C)
| Matrices (B : nat -> nat -> nat -> C).
Definition shape (arg : kin_arg) : seq nat :=
  match arg with
  | Factors _ => [:: nx * ny]%N
  | Matrices _ => [:: 2; nx * ny; nx * ny]%N
  end.

(* Shapes in kinetic_kspace, in the order of the statements. *)
Definition shapes (arg : kin_arg) (nup ndown : nat) : res unit :=
  let N := (nx * ny)%N in
  rbind (reshape_to [:: N; nup] [:: nx; ny; nup]) (fun _ =>
  rbind (reshape_to [:: N; ndown] [:: nx; ny; ndown]) (fun _ =>
  rbind (broadcast (shape arg) [:: nup; N]) (fun su =>
  rbind (broadcast (shape arg) [:: ndown; N]) (fun sd =>
  rbind (reshape_to (rev su) [:: nx; ny; nup]) (fun _ =>
  rbind (reshape_to (rev sd) [:: nx; ny; ndown]) (fun _ =>
  rbind (assign [:: N; nup] (rev su)) (fun _ =>
  assign [:: N; ndown] (rev sd)))))))).

(* hubbard.py 800-833; real: phi.dtype is float *)
Definition kinetic_kspace (real : bool) (phi : nat -> nat -> C) (nup ndown : nat) (arg : kin_arg)
  : res (nat -> nat -> C) :=
  rbind (shapes arg nup ndown) (fun _ =>
  match arg with
  | Factors btk =>
      let t c := ifft_wavefunction (fun i => btk i * fft_wavefunction (fun j => phi j c) i) in
      Ok (fun i c => if real then 'Re (t c i) else t c i)
  | Matrices _ => Ok phi
  end).

(* operations.py 29-52 *)
Definition kinetic_real (phi : nat -> nat -> C) (nup ndown : nat) (bt2 : nat -> nat -> nat -> C)
  : nat -> nat -> C :=
  fun i c => \sum_(j < nx * ny) bt2 (if (c < nup)%N then 0%N else 1%N) i j * phi j c.

(* hubbard.py 94-101 and 159: single determinants that are not generalised *)
Definition kinetic_step (ffts real : bool) (phi : nat -> nat -> C) (nup ndown : nat)
    (bt2 : nat -> nat -> nat -> C) : res (nat -> nat -> C) :=
  if ffts then kinetic_kspace real phi nup ndown (Matrices bt2)
  else Ok (kinetic_real phi nup ndown bt2).

(* hubbard.py 46 *)
Definition btk (t : C) (expo : C -> C) (i : nat) : C := expo (nth 0 (eks t nx ny) i).
End Fft.
End Kspace.
