(* Averages of the energy at one imaginary time over independent calculations.

   Sources (all under /repo/pauxy):
     analysis/blocking.py 199-226   average_tau

   Simplifications: exact real numbers (the columns as real data); one group of the data frame, as a list of rows (groups
   are never empty); columns ENumer, EDenom, ETotal and Weight.  pandas var and cov divide by
   n - 1 and are NaN for one row.  None stands for NaN and infinity. *)

From Coq Require Import Reals List.
From Verif Require Import Base.
Import ListNotations.
Local Open Scope R_scope.

Record row := Row { enumer : R; edenom : R; etotal : R; weight : R }.

Section Group.
Variable l : list row.
Definition size : R := INR (length l).
Definition total (f : row -> R) : R := fold_right (fun x s => f x + s) 0 l.
Definition mean (f : row -> R) : R := total f / size.
Definition cov (f g : row -> R) : option R :=
  if (length l <=? 1)%nat then None else
  Some (total (fun x => (f x - mean f) * (g x - mean g)) / (size - 1)).
Definition div (a b : option R) : option R :=
  match a, b with
  | Some x, Some y => if Req_EM_T y 0 then None else Some (x / y)
  | _, _ => None
  end.
Definition root (a : option R) : option R :=
  match a with Some x => if Rlt_dec x 0 then None else Some (sqrt x) | None => None end.
Definition err (f : row -> R) : option R := root (cov f f).

Record results := Results { r_etotal : option R; r_etotal_error : option R;
  r_eproj : R; r_eproj_error : option R; r_weight : R; r_weight_error : option R;
  r_numerator : R; r_numerator_error : option R }.

Definition square (a : option R) : option R := option_map (fun x => x ^ 2) a.
Definition lift2 (op : R -> R -> R) (a b : option R) : option R :=
  match a, b with Some x, Some y => Some (op x y) | _, _ => None end.

Definition average_tau : results :=
  let mN := mean enumer in let mD := mean edenom in
  let energy := div (Some mN) (Some mD) in
  let radicand :=
    lift2 Rminus
      (lift2 Rplus (square (div (err enumer) (Some mN))) (square (div (err edenom) (Some mD))))
      (div (option_map (Rmult 2) (cov enumer edenom)) (Some (mN * mD))) in
  let scale := option_map Rabs (div energy (Some (sqrt size))) in
  Results energy (lift2 Rmult scale (root radicand))
    (mean etotal) (div (err etotal) (Some (sqrt size)))
    (mean weight) (err weight) mN (err enumer).
End Group.
