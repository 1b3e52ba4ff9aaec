(* Hole and spin densities from sampled Green's functions.

   Source: /repo/pauxy/analysis/blocking.py 189-196, average_correlation.

   Simplifications: gf has the shape (length gf, ns, M, M) and exact real elements, each sample a
   function of spin and two sites.  numpy's mean and std are those of OneBody_Model: NaN is None. *)

From Coq Require Import Reals List.
From Verif Require Import Base OneBody_Model.
Import ListNotations.
Local Open Scope R_scope.

Definition sample : Type := nat -> nat -> nat -> R.

Record correlation := Corr {
  hole_mean : list (option R); hole_err : list (option R);
  spin_mean : list (option R); spin_err : list (option R);
  last_gf : list sample }.

Definition average_correlation (ns M : nat) (gf : list sample) : res correlation :=
  let ni := map (fun g s i => g s i i) gf in
  let hole := map (fun n i => 1 - fold_right Rplus 0 (map (fun s => n s i) (seq 0 ns))) ni in
  if (ns <=? 1)%nat then Err IndexError else (* ni[:,1,:] *)
  let spin := map (fun n i => / 2 * (n 0%nat i - n 1%nat i)) ni in
  let column (a : list (nat -> R)) i := map (fun x => x i) a in
  Ok (Corr (map (fun i => np_mean (column hole i)) (seq 0 M))
           (map (fun i => np_sem (column hole i)) (seq 0 M))
           (map (fun i => np_mean (column spin i)) (seq 0 M))
           (map (fun i => np_sem (column spin i)) (seq 0 M))
           gf). (* not mg, the mean *)
