(** Stored auxiliary fields, pauxy/walkers/stack.py:5-127 (FieldConfig), and the part of a
    run that drives them: pauxy/qmc/afqmc.py:231-247 with
    pauxy/estimators/back_propagation.py:65-72,145-222 and handler.py:91-92.
    A field is a complex number; cos_fac and weight_fac are columns. *)
From Coq Require Import String.
From Verif Require Import Base Cplx Buffer_Model.
Open Scope nat_scope.

Record fc := mkFC {
  configs : list (list C); cos_fac : list C; weight_fac : list C; tot_wfac : pval;
  step : nat; block : Z; ib : nat;
  nfields : nat; nbp : nat; nprop_tot : nat; nblock : nat }.

(** stack.py:19-32 *)
Definition fc_new (nfields nprop nbp : nat) : res fc :=
  if nbp =? 0 then Err ZeroDivisionError
  else Ok (mkFC (repeat (repeat C0 nfields) nprop) (repeat C0 nprop) (repeat C0 nprop) (PComplex C1)
             0 (-1) 0 nfields nbp nprop (nprop / nbp)).

(** if step % nbp == 0: block = (block + 1) % nblock (python's %, divisor nonnegative) *)
Definition next_block (step nbp nblock : nat) (block : Z) : res Z :=
  if nbp =? 0 then Err ZeroDivisionError
  else if step mod nbp =? 0
  then (if nblock =? 0 then Err ZeroDivisionError else Ok ((block + 1) mod Z.of_nat nblock)%Z)
  else Ok block.

(** stack.py:34-49 *)
Definition push (f : fc) (config : C) : res fc :=
  match nth_error (configs f) (step f) with
  | None => Err IndexError
  | Some row =>
      if length row <=? ib f then Err IndexError
      else
        let configs' := upd (step f) (upd (ib f) config row) (configs f) in
        if nfields f =? 0 then Err ZeroDivisionError
        else
          let ib' := (ib f + 1) mod nfields f in
          if ib' =? 0
          then rbind (next_block (step f + 1) (nbp f) (nblock f) (block f)) (fun b =>
               Ok (mkFC configs' (cos_fac f) (weight_fac f) (tot_wfac f) (step f + 1) b ib'
                     (nfields f) (nbp f) (nprop_tot f) (nblock f)))
          else Ok (mkFC configs' (cos_fac f) (weight_fac f) (tot_wfac f) (step f) (block f) ib'
                     (nfields f) (nbp f) (nprop_tot f) (nblock f))
  end.

(** row assignment configs[step] = config, with numpy's broadcast of a single entry *)
Definition row_of (nfields : nat) (config : list C) : res (list C) :=
  if length config =? nfields then Ok config
  else match config with [c] => Ok (repeat c nfields) | _ => Err ValueError end.

(** abs(wfac[1]) > 1e-16 *)
Definition big (w : C) : bool := Qltb (1 # (10 ^ 32)) (Cabs2 w).

Definition num_val (v : pval) : C := match scalar_of v with Ok c => c | Err _ => C0 end.

(** stack.py:51-76; wfac = (wfac[0], wfac[1]) *)
Definition update (f : fc) (config : list C) (wfac : C * C) : res fc :=
  if nprop_tot f <=? step f then Err IndexError
  else
    rbind (row_of (nfields f) config) (fun row =>
    rbind (next_block (step f + 1) (nbp f) (nblock f) (block f)) (fun b =>
    Ok (mkFC (upd (step f) row (configs f))
             (upd (step f) (Cof (re (snd wfac))) (cos_fac f))
             (upd (step f) (fst wfac) (weight_fac f))
             (if big (snd wfac) then PComplex (num_val (tot_wfac f) * (fst wfac / snd wfac))%C else PInt 0)
             (step f + 1) b (ib f) (nfields f) (nbp f) (nprop_tot f) (nblock f)))).

(** stack.py:78-86 *)
Definition get_block (f : fc) : list (list C) * list C * list C :=
  (firstn (step f) (configs f), firstn (step f) (cos_fac f), firstn (step f) (weight_fac f)).

(** stack.py:118-121 *)
Definition get_wfac (f : fc) : C * C :=
  (Cprod (firstn (step f) (cos_fac f)), Cprod (firstn (step f) (weight_fac f))).

(** stack.py:124-127 *)
Definition reset (f : fc) : res fc :=
  if nprop_tot f =? 0 then Err ZeroDivisionError
  else Ok (mkFC (configs f) (cos_fac f) (weight_fac f) (PComplex C1)
             (if step f mod nprop_tot f =? 0 then 0 else step f) (block f) (ib f)
             (nfields f) (nbp f) (nprop_tot f) (nblock f)).

(** The attributes get_numeric_names finds, in the order of the constructor. *)
Definition fc_obj (f : fc) : obj :=
  new_obj [("configs", PArr true [nprop_tot f; nfields f] (concat (configs f)));
           ("cos_fac", PArr false [nprop_tot f; 1] (cos_fac f));
           ("weight_fac", PArr true [nprop_tot f; 1] (weight_fac f));
           ("tot_wfac", tot_wfac f);
           ("step", PInt (Z.of_nat (step f)));
           ("block", PInt (block f));
           ("ib", PInt (Z.of_nat (ib f)));
           ("nfields", PInt (Z.of_nat (nfields f)));
           ("nbp", PInt (Z.of_nat (nbp f)));
           ("nprop_tot", PInt (Z.of_nat (nprop_tot f)));
           ("nblock", PInt (Z.of_nat (nblock f)))]%string.

(** Fields of one step with their weight factors. *)
Definition entry := (list C * (C * C))%type.

(** Operations seen by one field history. *)
Inductive op := Update (config : list C) (wfac : C * C) | Reset.

Definition apply_op (f : fc) (o : op) : res fc :=
  match o with Update c w => update f c w | Reset => reset f end.

Fixpoint run_ops (f : fc) (ops : list op) : res fc :=
  match ops with
  | [] => Ok f
  | o :: ops' => rbind (apply_op f o) (fun f' => run_ops f' ops')
  end.

Fixpoint pushes (f : fc) (l : list C) : res fc :=
  match l with [] => Ok f | c :: l' => rbind (push f c) (fun f' => pushes f' l') end.

(** back_propagation.py:71-72 *)
Definition splits (nmax nsplit : nat) : list nat := map (fun i => (i + 1) * (nmax / nsplit)) (seq 0 nsplit).

Fixpoint mapr {A B} (g : A -> res B) (l : list A) : res (list B) :=
  match l with
  | [] => Ok []
  | x :: l' => rbind (g x) (fun y => rbind (mapr g l') (fun ys => Ok (y :: ys)))
  end.

(** back_propagation.py:145-225 for the walkers of one process: what is measured (the block
    of every walker) and the walkers afterwards. splits[-1] of an empty array is an error. *)
Definition bp_update (sp : list nat) (ws : list fc) : res (list (list (list C) * list C * list C) * list fc) :=
  match ws with
  | [] => Err IndexError
  | w0 :: _ =>
      if negb (existsb (Nat.eqb (step w0)) sp) then Ok ([], ws)
      else if step w0 =? last sp 0
      then rbind (mapr reset ws) (fun ws' => Ok (map get_block ws, ws'))
      else Ok (map get_block ws, ws)
  end.

(** One time step for the walkers of one process. [sig] gives for each walker the field
    and factors drawn for it, or None for a walker of negligible weight, which afqmc.py:232
    does not propagate. [src]: population control, walker i becomes a copy of src i. *)
Definition bp_step (sp : list nat) (sig : list (option entry)) (src : list nat) (ws : list fc)
  : res (list (list (list C) * list C * list C) * list fc) :=
  rbind (mapr (fun '(w, s) => match s with None => Ok w | Some (c, wf) => update w c wf end) (combine ws sig)) (fun ws =>
  rbind (mapr (fun i => match nth_error ws i with Some w => Ok w | None => Err IndexError end) src) (fun ws =>
  bp_update sp ws)).

(** Steps 1..n; [sig t] and [src t] are given for every step t. Returns the measurements. *)
Fixpoint bp_run (sp : list nat) (sig : nat -> list (option entry)) (src : nat -> list nat) (t n : nat)
    (ws : list fc) : res (list (nat * list (list (list C) * list C * list C)) * list fc) :=
  match n with
  | O => Ok ([], ws)
  | S n' =>
      rbind (bp_step sp (sig t) (src t) ws) (fun '(m, ws) =>
      rbind (bp_run sp sig src (S t) n' ws) (fun '(ms, ws) =>
      Ok ((match m with [] => ms | _ => (t, m) :: ms end), ws)))
  end.
