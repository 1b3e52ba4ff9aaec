(** Model of the mixed estimator, pauxy/estimators/mixed.py:33-289 and 362-366, 460-469.
    Floats are exact (complex) rationals. What a walker's greens_function / local_energy /
    particle_number calls return is given as data (record [meas]). The elapsed-time entry
    is not modelled (its slot exists and is left alone). Printing is not modelled. *)
From Verif Require Import Base Cplx.
From Coq Require Import String.
Open Scope nat_scope.

Inductive key := Kuweight | Kweight | Kenumer | Kedenom | Keproj | Ke1b | Ke2b | Kehyb | Kovlp | Knav | Ktime.
Definition key_eqb (a b : key) : bool :=
  match a, b with
  | Kuweight, Kuweight | Kweight, Kweight | Kenumer, Kenumer | Kedenom, Kedenom | Keproj, Keproj
  | Ke1b, Ke1b | Ke2b, Ke2b | Kehyb, Kehyb | Kovlp, Kovlp | Knav, Knav | Ktime, Ktime => true
  | _, _ => false
  end.

(** get_estimator_enum, mixed.py:460-469. *)
Definition keys (thermal : bool) : list key :=
  [Kuweight; Kweight; Kenumer; Kedenom; Keproj; Ke1b; Ke2b; Kehyb; Kovlp]
    ++ (if thermal then [Knav] else []) ++ [Ktime].
Fixpoint index_of (k : key) (l : list key) : nat :=
  match l with [] => 0 | x :: t => if key_eqb k x then 0 else S (index_of k t) end.
Definition ix (thermal : bool) (k : key) : nat := index_of k (keys thermal).

(** Column headers, mixed.py:84-92. *)
Definition header (thermal : bool) : list string :=
  (["Iteration"; "WeightFactor"; "Weight"; "ENumer"; "EDenom"; "ETotal"; "E1Body"; "E2Body"; "EHybrid"; "Overlap"]%string
    ++ (if thermal then ["Nav"%string] else []) ++ ["Time"%string])%list.
Definition nreg (thermal : bool) : nat := List.length (tl (header thermal)).

Record opts := Opts {
  o_thermal : bool; o_fp : bool; o_avg_gf : bool; o_eval : bool; o_freq : nat;
  o_rdm1 : option nat;  (* Some (G.size) iff one_rdm *)
  o_rdm2 : option nat   (* Some (two_rdm.size) iff two_rdm given *) }.

(** What the estimator reads from one walker. [m_slices] is only read with average_gf. *)
Record meas := Meas {
  m_weight : Q; m_ot : C; m_phase : C; m_absot : Q; m_hyb : C; m_unscaled : Q; m_le : C;
  m_E : C; m_T : C; m_V : C; m_nav : C; m_slices : list (C * C * C * C);
  m_G : list C; m_two_rdm : list C }.

Definition get (i : nat) (es : list C) : C := nth i es C0.
(** [estimates[i] += v]. *)
Definition addat (es : list C) (a : nat * C) : list C := upd (fst a) (get (fst a) es + snd a)%C es.
Definition real (c : C) : C := Cof (re c).

(** Slice update [estimates[start:start+len] += vals]. *)
Definition slice_adds (start : nat) (vals : list C) : list (nat * C) := combine (seq start (List.length vals)) vals.

(** The [+=] statements executed for one walker, mixed.py:151-233, in order. *)
Definition adds_fp (o : opts) (step : nat) (m : meas) : list (nat * C) :=
  let p := ix (o_thermal o) in
  let wfac := (Cof (m_weight m) * m_ot m * m_phase m)%C in
  (if step mod o_freq o =? 0 then
     let '(E, T, V) := if o_eval o then (m_E m, m_T m, m_V m) else (C0, C0, C0) in
     [(p Kenumer, wfac * E); (p Ke1b, wfac * T); (p Ke2b, wfac * V); (p Kedenom, wfac)]%C
   else [])
  ++ (if o_thermal o then [(p Knav, wfac * m_nav m)%C] else [])
  ++ [(p Kuweight, Cof (m_unscaled m)); (p Kweight, wfac); (p Kehyb, (wfac * m_hyb m)%C);
      (p Kovlp, Cof (m_weight m * m_absot m))].

Definition adds_energy (o : opts) (step : nat) (m : meas) : list (nat * C) :=
  let p := ix (o_thermal o) in
  let w := Cof (m_weight m) in
  if o_thermal o then
    if o_avg_gf o then
      let n := Cof (q_of_nat (List.length (m_slices m))) in
      let sE := Csum (map (fun s => fst (fst (fst s))) (m_slices m)) in
      let sT := Csum (map (fun s => snd (fst (fst s))) (m_slices m)) in
      let sV := Csum (map (fun s => snd (fst s)) (m_slices m)) in
      let sN := Csum (map (fun s => snd s) (m_slices m)) in
      [(p Knav, w * sN / n); (p Kenumer, w * real sE / n); (p Ke1b, w * real sT / n); (p Ke2b, w * real sV / n)]%C
    else
      [(p Knav, w * m_nav m); (p Kenumer, w * real (m_E m)); (p Ke1b, w * real (m_T m));
       (p Ke2b, w * real (m_V m)); (p Kedenom, w)]%C
  else
    if step mod o_freq o =? 0 then
      let '(E, T, V) := if o_eval o then (m_E m, m_T m, m_V m) else (C0, C0, C0) in
      [(p Kenumer, w * m_le m * real E); (p Ke1b, w * m_le m * real T);
       (p Ke2b, w * m_le m * real V); (p Kedenom, w * m_le m)]%C
    else [].

Definition adds_common (o : opts) (m : meas) : list (nat * C) :=
  let p := ix (o_thermal o) in
  let w := Cof (m_weight m) in
  [(p Kuweight, Cof (m_unscaled m)); (p Kweight, w); (p Kovlp, Cof (m_weight m * m_absot m)); (p Kehyb, w * m_hyb m)%C].

(** mixed.py:226-233. two_rdm without one_rdm reads the unbound local [end]. *)
Definition adds_rdm (o : opts) (m : meas) : res (list (nat * C)) :=
  let p := ix (o_thermal o) in
  let w := Cof (m_weight m) in
  let start := S (p Ktime) in
  let one := match o_rdm1 o with
             | Some n => slice_adds start (map (fun g => w * real g)%C (m_G m))
             | None => [] end in
  match o_rdm2 o, o_rdm1 o with
  | None, _ => Ok one
  | Some _, Some n => Ok (one ++ slice_adds (start + List.length (m_G m)) (map (fun g => w * real g)%C (m_two_rdm m)))
  | Some _, None => Err UnboundLocalError
  end.

Definition walker_adds (o : opts) (step : nat) (m : meas) : res (list (nat * C)) :=
  if o_fp o then
    if o_freq o =? 0 then Err ZeroDivisionError else Ok (adds_fp o step m)
  else
    if negb (o_thermal o) && (o_freq o =? 0) then Err ZeroDivisionError
    else rbind (adds_rdm o m) (fun r => Ok (adds_energy o step m ++ adds_common o m ++ r)).

Definition update_walker (o : opts) (step : nat) (es : list C) (m : meas) : res (list C) :=
  rbind (walker_adds o step m) (fun a => Ok (fold_left addat a es)).

(** Mixed.update, mixed.py:133-233. *)
Fixpoint update (o : opts) (step : nat) (es : list C) (ws : list meas) : res (list C) :=
  match ws with
  | [] => Ok es
  | m :: t => rbind (update_walker o step es m) (fun es' => update o step es' t)
  end.

(** Size of the estimates array, mixed.py:96-111; Mixed.zero, mixed.py:362-366. *)
Definition size (o : opts) : nat :=
  nreg (o_thermal o) + match o_rdm1 o with Some n => n | None => 0 end
    + match o_rdm2 o with Some n => n | None => 0 end.
Definition zeros (o : opts) : list C := repeat C0 (size o).

(** numpy complex division: nan when the denominator is zero. *)
Definition odiv (a b : C) : option C := if Ceqb b C0 then None else Some (a / b)%C.

(** mixed.py:258-260 on one rank. *)
Definition in_slice (a b i : nat) : bool := (a <=? i) && (i <? b).
Definition scaled (o : opts) (nsteps : nat) (es : list C) : list C :=
  let p := ix (o_thermal o) in
  map (fun i => if in_slice (p Kuweight) (p Kweight + 1) i || in_slice (p Kehyb) (p Ktime + 1) i
                then (get i es / Cof (q_of_nat nsteps))%C else get i es)
      (seq 0 (List.length es)).

(** comm.Reduce with MPI_SUM, mixed.py:261. *)
Definition reduce (n : nat) (ranks : list (list C)) : list C :=
  map (fun i => Csum (map (get i) ranks)) (seq 0 n).

(** mixed.py:262-272 on the root rank, then the pushed energies row (without the step
    and time entries; nan is [None]). *)
Definition finish (o : opts) (gs : list C) : list (option C) :=
  let p := ix (o_thermal o) in
  let gs := upd (p Keproj) (get (p Kenumer) gs) gs in
  map (fun i => if in_slice (p Keproj) (p Ke2b + 1) i then odiv (get i gs) (get (p Kedenom) gs)
                else if (i =? p Kehyb) || (i =? p Kovlp) then odiv (get i gs) (get (p Kweight) gs)
                else if o_thermal o && (i =? p Knav) then odiv (get i gs) (get (p Kweight) gs)
                else Some (get i gs))
      (seq 0 (p Ktime)).

(** The pushed one-body RDM, mixed.py:279-283. *)
Definition finish_rdm (o : opts) (nsteps n : nat) (gs : list C) : list (option C) :=
  map (fun i => odiv (get i gs / Cof (q_of_nat nsteps))%C (get (ix (o_thermal o) Kweight) gs))
      (seq (nreg (o_thermal o)) n).

(** Mixed.print_step, mixed.py:252-289, given the arrays of all ranks: what is pushed and
    the arrays afterwards. [block] is self.nsteps, [nsteps] the optional argument. *)
Definition print_step (o : opts) (block : nat) (step : nat) (nsteps : option nat) (ranks : list (list C))
  : res (option (list (option C)) * list (list C)) :=
  if block =? 0 then Err ZeroDivisionError
  else if negb (step mod block =? 0) then Ok (None, ranks)
  else
    let n := match nsteps with Some n => n | None => block end in
    let gs := reduce (size o) (map (scaled o n) ranks) in
    Ok (Some (finish o gs), map (fun _ => zeros o) ranks).

(** All measurements of one rank since the arrays were zeroed. *)
Fixpoint update_all (o : opts) (es : list C) (steps : list (nat * list meas)) : res (list C) :=
  match steps with
  | [] => Ok es
  | (s, ws) :: t => rbind (update o s es ws) (fun es' => update_all o es' t)
  end.
