(** pauxy/utils/misc.py update_stack (142-159) and the two places that use it:
    pauxy/walkers/thermal.py 31-36 and pauxy/walkers/handler.py 86-100.
    Sizes are natural numbers (the code assumes positive integers); fuel bounds
    the two while loops and running out of it is a distinct error. *)
From Verif Require Import Base.
Open Scope nat_scope.

(** (num_slices//bound) * bound < num_slices *)
Definition misfit (num bound : nat) : res bool :=
  match bound with
  | 0 => Err ZeroDivisionError
  | _ => Ok ((num / bound) * bound <? num)
  end.

Fixpoint search (step : nat -> nat) (fuel num bound : nat) : res nat :=
  match fuel with
  | 0 => Err OutOfFuel
  | S fuel' =>
      rbind (misfit num bound) (fun m =>
      if m then search step fuel' num (step bound) else Ok bound)
  end.

Definition update_stack (stack_size num_slices : nat) : res nat :=
  let start := Nat.min stack_size num_slices in
  rbind (search pred (S num_slices) num_slices start) (fun lower =>
  rbind (search S (S num_slices) num_slices start) (fun upper =>
  Ok (if (Z.of_nat stack_size - Z.of_nat lower <=? Z.of_nat upper - Z.of_nat stack_size)%Z
      then lower else upper))).

(** thermal.py 31-36: the size a walker uses *)
Definition walker_stack_size (stack_size num_slices : nat) : res nat :=
  match stack_size with
  | 0 => Err ZeroDivisionError
  | _ => if (num_slices / stack_size) * stack_size =? num_slices
         then Ok stack_size else update_stack stack_size num_slices
  end.

(** handler.py 86-100: the stabilisation frequency of a Hubbard run *)
Definition fix_nstblz (stack_size nstblz : nat) : res nat :=
  match nstblz with
  | 0 => Err ZeroDivisionError
  | _ => if negb (stack_size mod nstblz =? 0) || (nstblz <? stack_size)
         then if nstblz <? stack_size then Ok stack_size
              else update_stack nstblz stack_size
         else Ok nstblz
  end.
