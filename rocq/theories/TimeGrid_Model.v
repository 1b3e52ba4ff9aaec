(* Numbers of imaginary time slices, in double precision.

   Sources (all under /repo/pauxy):
     qmc/thermal_afqmc.py 122                    ntime_slices of the driver
     trial_density_matrices/onebody.py 53-75     num_slices, stack_size, num_bins
     trial_density_matrices/onebody.py 85-86     dtau
     qmc/options.py 111                          neqlb

   Doubles are Flocq's binary_float 53 1024, whose operations are those of
   Coq.Floats.SpecFloat; rounding is to nearest, ties to even, as in python.
   Simplifications: beta and dt are doubles (python converts an integer to a
   double before dividing); the stack size wanted is a natural number, given in
   the input or estimated from the condition number; the number of slices is
   not negative. *)

From Coq Require Import ZArith.
From Flocq Require Import IEEE754.BinarySingleNaN.
From Verif Require Import Base StackSize_Model.
Open Scope Z_scope.

Definition f64 : Type := binary_float 53 1024.
Definition prec_pos : FLX.Prec_gt_0 53 := eq_refl.
Definition prec_max : Prec_lt_emax 53 1024 := eq_refl.

(* Division by zero raises; overflow gives an infinity. *)
Definition fdiv (x y : f64) : res f64 :=
  match y with
  | B754_zero _ => Err ZeroDivisionError
  | _ => Ok (@Bdiv 53 1024 prec_pos prec_max mode_NE x y)
  end.
Definition fmul (x y : f64) : f64 := @Bmult 53 1024 prec_pos prec_max mode_NE x y.
(* Conversion of an integer. *)
Definition of_int (z : Z) : res f64 :=
  let x := @binary_normalize 53 1024 prec_pos prec_max mode_NE z 0 false in
  if is_finite x then Ok x else Err OverflowError.

(* int(x): towards zero. *)
Definition py_int (x : f64) : res Z :=
  match x with
  | B754_nan => Err ValueError
  | B754_infinity _ => Err OverflowError
  | _ => Ok (Btrunc x)
  end.
(* round(x): to the nearest integer, ties to even. *)
Definition py_round (x : f64) : res Z :=
  match x with
  | B754_nan => Err ValueError
  | B754_infinity _ => Err OverflowError
  | _ => Ok (Btrunc (@Bnearbyint 53 1024 prec_max mode_NE x))
  end.

(* thermal_afqmc.py 122 *)
Definition ntime_slices (beta dt : f64) : res Z := rbind (fdiv beta dt) py_round.

(* onebody.py 53 *)
Definition num_slices (beta dt : f64) : res Z := rbind (fdiv beta dt) py_int.
(* onebody.py 75 *)
Definition num_bins (beta dt : f64) (stack_size : Z) : res Z :=
  rbind (of_int stack_size) (fun s => rbind (fdiv beta (fmul s dt)) py_int).
(* onebody.py 53-75: num_slices, stack_size, num_bins *)
Definition trial_grid (beta dt : f64) (want : nat) : res (Z * nat * Z) :=
  rbind (num_slices beta dt) (fun n =>
  rbind (update_stack want (Z.to_nat n)) (fun s =>
  rbind (num_bins beta dt (Z.of_nat s)) (fun b =>
  Ok (n, s, b)))).
(* onebody.py 85: the time step of a bin *)
Definition bin_step (dt : f64) (stack_size : Z) : res f64 :=
  rbind (of_int stack_size) (fun s => Ok (fmul s dt)).

(* options.py 111 *)
Definition neqlb (eqlb_time dt : f64) : res Z := rbind (fdiv eqlb_time dt) py_int.
