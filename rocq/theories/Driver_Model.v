(** Model of the drivers: walker distribution and seeding (pauxy/qmc/afqmc.py:164-176,
    pauxy/qmc/thermal_afqmc.py:142-154, pauxy/qmc/calc.py:138-150, pauxy/qmc/utils.py:3-16)
    and the main loops (afqmc.py:200-255, thermal_afqmc.py:190-238). *)
From Verif Require Import Base.
From Coq Require Import Qabs.
Open Scope nat_scope.

(** ** Walker distribution. [int(n/size)] is natural division (exact for n < 2^53);
    the result is (walkers per process, reported total). [size = 0] cannot occur. *)
Definition afqmc_walkers (n size : nat) : nat * nat :=       (* afqmc.py:167-176 *)
  let nw := n / size in
  let nw := if nw =? 0 then 1 else nw in
  (nw, nw * size).
Definition thermal_walkers (n size : nat) : nat * nat :=     (* thermal_afqmc.py:142-154 *)
  let nw := n / size in
  let tot := nw * size in
  if nw =? 0 then (1, 1 * size) else (nw, tot).
Definition parallel_walkers (n size : nat) : nat * nat :=    (* calc.py:140-149 *)
  let nw := n / size in
  let tot := nw * size in
  if nw =? 0 then (1, tot) else (nw, tot).

(** Global walker number used for restart files: [i + nwalkers*rank], handler.py:448. *)
Definition global_ix (nw rank i : nat) : nat := i + nw * rank.

(** ** Seeding, qmc/utils.py:3-16. [draw] is the number drawn on rank 0 when no seed is given,
    broadcast to all ranks. numpy.random.seed accepts 0 .. 2^32-1. *)
Definition rank_seed (seed : option Z) (draw : Z) (rank : nat) : res Z :=
  let base := match seed with Some s => s | None => draw end in
  let s := (base + Z.of_nat rank)%Z in
  if ((0 <=? s) && (s <? 4294967296))%Z then Ok s else Err ValueError.

(** ** Main loop *)
Inductive event := EvOrtho (step : nat) | EvPop (step : nat) | EvEst (step : nat) | EvWrite (step : nat)
  | EvProp (step walker : nat).

Section Run.
  Context {W M : Type}.
  Variables (weight total : W -> Q) (set_weight : Q -> W -> W).
  (** External calls: propagate_walker (with its random numbers, by step and walker),
      orthogonalise, pop_control, estimator update + print, energy shift. *)
  Variables (propagate : nat -> nat -> Q -> W -> W) (ortho : list W -> list W)
            (popc : nat -> list W -> res (list W)) (est : nat -> list W -> M -> res M) (shift : bool -> M -> Q).
  Record params := Params { p_steps : nat; p_nstblz : nat; p_npop : nat; p_neqlb : nat;
                            p_hybrid : bool; p_restart : bool; p_wfreq : nat }.
  Variable p : params.

  Record state := State { st_psi : list W; st_est : M; st_shift : Q; st_trace : list event }.

  Definition tiny_weight : Q := 1 # 100000000.
  Definition cap_fac : Q := 1 # 10.

  (** afqmc.py:235-236 / thermal_afqmc.py:220-221. *)
  Definition cap (active : bool) (w : W) : W :=
    if Qltb (total w * cap_fac) (Qabs (weight w)) && active then set_weight (total w * cap_fac) w else w.

  (** afqmc.py:230-236 for the walker at position [i]. *)
  Definition advance (step : nat) (eshift : Q) (i : nat) (w : W) : W :=
    cap (1 <? step) (if Qltb tiny_weight (Qabs (weight w)) then propagate step i eshift w else w).
  Fixpoint advance_all (step : nat) (eshift : Q) (i : nat) (ws : list W) : list W * list event :=
    match ws with
    | [] => ([], [])
    | w :: t =>
        let '(ws', ev) := advance_all step eshift (S i) t in
        (advance step eshift i w :: ws',
         (if Qltb tiny_weight (Qabs (weight w)) then [EvProp step i] else []) ++ ev)
    end.

  (** [step % n] for python ints. *)
  Definition pymod (a n : nat) : res nat := if n =? 0 then Err ZeroDivisionError else Ok (a mod n).

  (** One iteration, afqmc.py:222-255. *)
  Definition run_step (step : nat) (s : state) : res state :=
    rbind (pymod step (p_nstblz p)) (fun r1 =>
    let psi := if r1 =? 0 then ortho (st_psi s) else st_psi s in
    let ev1 := if r1 =? 0 then [EvOrtho step] else [] in
    let '(psi, ev2) := advance_all step (st_shift s) 0 psi in
    rbind (pymod step (p_npop p)) (fun r2 =>
    rbind (if r2 =? 0 then popc step psi else Ok psi) (fun psi =>
    let ev3 := if r2 =? 0 then [EvPop step] else [] in
    rbind (est step psi (st_est s)) (fun m =>
    rbind (if p_restart p then pymod step (p_wfreq p) else Ok 1) (fun r3 =>
    let ev4 := if r3 =? 0 then [EvWrite step] else [] in
    let eshift := if step <? p_neqlb p then shift (p_hybrid p) m
                  else (st_shift s + (shift true m - st_shift s))%Q in
    Ok (State psi m eshift (st_trace s ++ ev1 ++ ev2 ++ ev3 ++ [EvEst step] ++ ev4))))))).

  Fixpoint run_from (step n : nat) (s : state) : res state :=
    match n with
    | O => Ok s
    | S n' => rbind (run_step step s) (run_from (S step) n')
    end.
  (** for step in range(1, total_steps+1). *)
  Definition run (s : state) : res state := run_from 1 (p_steps p) s.

  (** ** Thermal loop over the slices of one path, thermal_afqmc.py:210-228. *)
  Variable tpropagate : nat -> nat -> W -> W.
  Fixpoint thermal_slices (ts n npop : nat) (psi : list W) (tr : list event) : res (list W * list event) :=
    match n with
    | O => Ok (psi, tr)
    | S n' =>
        let psi := map (fun '(i, w) => cap (0 <? ts) (tpropagate ts i w)) (combine (seq 0 (length psi)) psi) in
        rbind (pymod ts npop) (fun r =>
        let doit := (r =? 0) && negb (ts =? 0) in
        rbind (if doit then popc ts psi else Ok psi) (fun psi =>
        thermal_slices (S ts) n' npop psi (tr ++ if doit then [EvPop ts] else [])))
    end.
End Run.
Arguments state : clear implicits.
