(** The estimator side of the main loop, pauxy/qmc/afqmc.py:213-248 with
    pauxy/estimators/handler.py:126-162: update and print calls made by a run, over all
    ranks. [data step] gives what each rank's walkers look like to the estimator. *)
From Verif Require Import Base Cplx Mixed_Model.
Open Scope nat_scope.

Definition row := list (option C).

(** estimators.update on every rank. *)
Fixpoint update_ranks (o : opts) (step : nat) (ranks : list (list C)) (ws : list (list meas)) : res (list (list C)) :=
  match ranks, ws with
  | es :: ranks', w :: ws' =>
      rbind (update o step es w) (fun es' => rbind (update_ranks o step ranks' ws') (fun r => Ok (es' :: r)))
  | _, _ => Ok []
  end.

(** Steps [step .. step+n-1]: update then print. *)
Fixpoint est_loop (o : opts) (block : nat) (data : nat -> list (list meas)) (step n : nat)
    (ranks : list (list C)) (outs : list (nat * row)) : res (list (nat * row)) :=
  match n with
  | O => Ok outs
  | S n' =>
      rbind (update_ranks o step ranks (data step)) (fun ranks =>
      rbind (print_step o block step None ranks) (fun '(out, ranks) =>
      est_loop o block data (S step) n' ranks (outs ++ match out with Some r => [(step, r)] | None => [] end)))
  end.

(** afqmc.py:216-221: the zeroth step is always measured but printed (and cleared) only if
    verbose; then total_steps steps. *)
Definition est_run (o : opts) (block : nat) (verbose : bool) (data : nat -> list (list meas)) (nranks total : nat)
  : res (list (nat * row)) :=
  rbind (update_ranks o 0 (repeat (zeros o) nranks) (data 0)) (fun ranks =>
  rbind (if verbose then print_step o block 0 (Some 1) ranks else Ok (None, ranks)) (fun '(out, ranks) =>
  est_loop o block data 1 total ranks (match out with Some r => [(0, r)] | None => [] end))).
