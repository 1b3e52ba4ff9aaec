(* The back propagation estimator.

   Sources (all under /repo/pauxy):
     estimators/back_propagation.py 63-106   BackPropagation.__init__
     estimators/back_propagation.py 127-225  update_uhf
     estimators/back_propagation.py 227-267  update_ghf
     estimators/back_propagation.py 269-331  print_step, zero
     analysis/extraction.py 36-62            extract_rdm
     qmc/afqmc.py 240-248                    update and print_step in turn

   Simplifications: numbers are elements of any type with addition,
   multiplication and division.  Arrays are flat lists.  What is measured for
   a walker (weight, energies, Green's functions, two-body density matrix, the
   two Fock matrices) is given; C51, C57 and C45 are about those.  Every process
   has at least one walker and all walkers have pushed the same number of
   fields, so that the decisions to measure and to print are the same
   everywhere. *)

From Verif Require Import Base.

Section BPEst.
Variable K : Type.
Variables (k0 : K) (kadd kmul kdiv : K -> K -> K).

(* 68: the entry two_rdm of the input: missing or None; another value that
   counts as false; the string "structure_factor"; another value. *)
Inductive two_opt : Type := TNone | TFalse | TStructure | TFull.

Record opts : Type := MkOpts
  { o_energy : bool ; o_one : bool ; o_two : two_opt ; o_ekt : bool ;
    o_fp : bool ;                      (* free projection *)
    n_g : nat ;                        (* G.size *)
    n_g0 : nat ;                       (* G[0].size *)
    n_s : nat ;                        (* 4 * len(system.qvecs) *)
    n_b4 : nat ;                       (* nbasis**4 *)
    nmax : nat ; nsplit : nat }.

Variable o : opts.

Definition two_given : bool := match o_two o with TNone => false | _ => true end.
Definition two_true : bool :=
  match o_two o with TNone | TFalse => false | _ => true end.

(* 84-98: shape of self.two_rdm as allocated. *)
Definition n_two : nat :=
  match o_two o with TNone => 0 | TStructure => n_s o | _ => n_b4 o end.

(* 65, 71-72. *)
Definition splits : list nat :=
  map (fun i => (i + 1) * (nmax o / nsplit o))%nat (seq 0 (nsplit o)).

Definition nreg : nat := 3.
Definition size : nat :=
  nreg + 1 + (n_g o + (n_two + if o_ekt o then n_g0 o + n_g0 o else 0)).

(* What is measured for one walker.  w_two is self.two_rdm after 160-168. *)
Record meas : Type := MkMeas
  { w_weight : K ; w_energies : list K ; w_g : list K ; w_two : list K ;
    w_1p : list K ; w_1h : list K }.

(* buf[st:st+len(v)] += v, with the clipping of slices and the broadcasting of
   arrays of length one. *)
Definition add_slice (st : nat) (v : list K) (buf : list K) : res (list K) :=
  let a := firstn st buf in
  let b := firstn (length v) (skipn st buf) in
  let c := skipn (length v) (skipn st buf) in
  if (length b =? length v)%nat then
    Ok (a ++ map (fun '(x, y) => kadd x y) (combine b v) ++ c)
  else match v with
       | [y] => Ok (a ++ map (fun x => kadd x y) b ++ c)
       | _ => Err ValueError
       end.

(* 197-216. *)
Definition accumulate (w : meas) (buf : list K) : res (list K) :=
  let sc := map (kmul (w_weight w)) in
  rbind (add_slice 0 (sc (w_energies w)) buf) (fun buf =>
  rbind (add_slice nreg [w_weight w] buf) (fun buf =>
  let start := (nreg + 1)%nat in
  let fin := (start + length (w_g w))%nat in
  rbind (add_slice start (sc (w_g w)) buf) (fun buf =>
  rbind (if two_given then add_slice fin (sc (w_two w)) buf else Ok buf) (fun buf =>
  let fin := if two_given then (fin + length (w_two w))%nat else fin in
  if o_ekt o then
    rbind (add_slice fin (sc (w_1p w)) buf) (fun buf =>
    add_slice (fin + length (w_1p w)) (sc (w_1h w)) buf)
  else Ok buf)))).

Fixpoint update_walkers (ws : list meas) (buf : list K) : res (list K) :=
  match ws with
  | [] => Ok buf
  | w :: ws' => rbind (accumulate w buf) (update_walkers ws')
  end.

Inductive dataset : Type :=
| Denominator | Energies | OneRdm | TwoRdm | Fock1p | Fock1h.

(* 287-289 comm.Reduce with MPI.SUM. *)
Definition reduce (bufs : list (list K)) : list K :=
  fold_left (fun acc b => map (fun '(x, y) => kadd x y) (combine acc b))
    bufs (repeat k0 size).

Definition slice (st fin : nat) (l : list K) : list K :=
  firstn (fin - st) (skipn st l).

(* slice(st,fin).reshape(shape) where the shape has n elements. *)
Definition reshape (n : nat) (l : list K) : res (list K) :=
  if (length l =? n)%nat then Ok l else Err ValueError.

(* 288-326. *)
Definition print_blocks (g : list K) : res (list (dataset * list K)) :=
  let weight := nth nreg g k0 in
  let d := [(Denominator, [weight])] in
  let e := if o_energy o then
             if o_fp o then [(Energies, firstn nreg g)]
             else [(Energies, map (fun x => kdiv x weight) (firstn nreg g))]
           else [] in
  rbind (if o_one o then
           rbind (reshape (n_g o) (slice (nreg + 1) (nreg + 1 + n_g o) g)) (fun r =>
           Ok [(OneRdm, r)])
         else Ok []) (fun one =>
  rbind (if two_true then
           let start := (nreg + 1 + n_g o)%nat in
           rbind (reshape n_two (slice start (start + n_two) g)) (fun r =>
           Ok [(TwoRdm, r)])
         else Ok []) (fun two =>
  rbind (if o_ekt o then
           let start := (nreg + 1 + (if o_one o then n_g o else 0)
                         + (if two_true then n_two else 0))%nat in
           rbind (reshape (n_g0 o) (slice start (start + n_g0 o) g)) (fun p =>
           let start := (start + n_g0 o)%nat in
           rbind (reshape (n_g0 o) (slice start (start + n_g0 o) g)) (fun h =>
           Ok [(Fock1p, p); (Fock1h, h)]))
         else Ok []) (fun ekt =>
  Ok (d ++ e ++ one ++ two ++ ekt)))).

(* One buffer per process; accumulated and buff_ix. *)
Record state : Type := MkState
  { s_bufs : list (list K) ; s_acc : bool ; s_ix : nat }.

Definition init (nproc : nat) : state :=
  MkState (repeat (repeat k0 size) nproc) false 0.

Fixpoint map2 {A B} (f : A -> B -> res A) (la : list A) (lb : list B)
  : res (list A) :=
  match la, lb with
  | a :: la', b :: lb' =>
      rbind (f a b) (fun x => rbind (map2 f la' lb') (fun l => Ok (x :: l)))
  | _, _ => Ok []
  end.

(* update_uhf: ix is the number of fields stored, ws the walkers of each
   process. *)
Definition update (ix : nat) (ws : list (list meas)) (s : state) : res state :=
  if existsb (Nat.eqb ix) splits then
    rbind (map2 (fun b w => update_walkers w b) (s_bufs s) ws) (fun bufs =>
    Ok (MkState bufs true ix))
  else Ok s.

(* update_ghf 245-248. *)
Definition update_ghf (step : nat) (s : state) : res state :=
  if (nmax o =? 0)%nat then Err ZeroDivisionError
  else if (step mod nmax o =? 0)%nat then Err SystemExit else Ok s.

(* What is written at one call: the label, the data, and whether the output
   counter is incremented (323-324). *)
Definition record : Type := (nat * list (dataset * list K) * bool)%type.

Definition print_step (s : state) : res (state * list record) :=
  if s_acc s then
    rbind (print_blocks (reduce (s_bufs s))) (fun out =>
    Ok (MkState (map (fun _ => repeat k0 size) (s_bufs s)) false (s_ix s),
        [(s_ix s, out, (s_ix s =? last splits 0)%nat)]))
  else Ok (s, []).

(* afqmc.py: after every step, update and print_step. *)
Fixpoint run (steps : list (nat * list (list meas))) (s : state)
  : res (list record) :=
  match steps with
  | [] => Ok []
  | (ix, ws) :: steps' =>
      rbind (update ix ws s) (fun s =>
      rbind (print_step s) (fun '(s, out) =>
      rbind (run steps' s) (fun outs =>
      Ok (out ++ outs))))
  end.

(* extraction.py 42-62: the stored matrices are divided by the stored weight. *)
Definition extract (d : list K) (den : list K) : list K :=
  match den with
  | [w] => map (fun x => kdiv x w) d
  | _ => d
  end.

End BPEst.
