(** Restart files (C18), estimator output (C19) and its file name (C20). *)
From Coq Require Import String Ascii NArith.
From Verif Require Import Base BaseFacts Restart_Model Restart_Spec Restart_Proofs Output_Spec.
From Verif Require H5Names_Model H5Names_Proofs EstName_Model EstName_Proofs.
Open Scope nat_scope.

(** Whatever the order of the writes of the processes, a later run that does not
    write to the same file reads walker number g of its own population, however
    that is spread over processes, from walker number g of the written one; a
    walker with no dataset stays as it was. *)
Theorem C18_roundtrip : forall (V R : Type) (zero : V) size f wf freq1 nw1
    (pop : list (list (walker V R))) l (w0 : walker V R),
  0 < freq1 -> layout nw1 pop -> Forall (shape size) pop -> length (phi w0) = size ->
  Permutation l (all_writes pop) ->
  exists f', write_restart (init_restart zero f freq1 wf (nw1 * length pop) w0) wf nw1 l = Ok f' /\
    forall freq2 wf2 ntot2 nw2 rank (ws : list (walker V R)),
      (freq2 = 0 \/ wf2 <> wf) -> ws <> [] -> shape size ws ->
      exists f'' ws', setup zero f' freq2 wf2 (Some wf) ntot2 nw2 rank ws = Ok (f'', ws') /\
        read_back pop nw2 rank ws ws'.
Proof. exact restart_roundtrip. Qed.
Print Assumptions C18_roundtrip.

(** Reading and writing the same file: it is truncated first and every walker
    becomes zero. *)
Theorem C18_same_file_refuted : forall (V R : Type) (zero : V) f freq wf ntot nw rank (ws : list (walker V R)),
  0 < freq -> ws <> [] -> shape (match ws with w :: _ => length (phi w) | [] => 0 end) ws ->
  exists f' ws', setup zero f freq wf (Some wf) ntot nw rank ws = Ok (f', ws') /\
    forall i w, nth_error ws i = Some w ->
      nth_error ws' i = Some (if i + nw * rank <? ntot
                              then Walker zero zero zero (repeat zero (length (phi w))) (rest w) else w).
Proof. exact same_file_zero. Qed.
Print Assumptions C18_same_file_refuted.

(** A run that stopped between set-up and its first write leaves a file that reads
    as walkers of weight zero with a zero determinant, without an error. *)
Theorem C18_crash_refuted : forall (V R : Type) (zero : V) f freq wf ntot (w0 : walker V R) wf2 nw rank (ws : list (walker V R)),
  0 < freq -> ws <> [] -> shape (length (phi w0)) ws -> wf2 <> wf ->
  exists f' ws', setup zero (init_restart zero f freq wf ntot w0) 0 wf2 (Some wf) ntot nw rank ws = Ok (f', ws') /\
    forall i w, nth_error ws i = Some w ->
      nth_error ws' i = Some (if i + nw * rank <? ntot
                              then Walker zero zero zero (repeat zero (length (phi w))) (rest w) else w).
Proof. exact crash_before_write. Qed.
Print Assumptions C18_crash_refuted.

(** Two processes of two walkers write, the second first; one process of five reads. *)
Example C18_case :
  let w k := Walker (10 * k) (10 * k + 1) (10 * k + 2) [10 * k + 3; 10 * k + 4] tt in
  let pop := [[w 1; w 2]; [w 3; w 4]] in
  let e := Walker 0 0 0 [7; 7] tt in
  rbind (write_restart (init_restart 0 [] 1 5 4 e) 5 2 [(1, 1, w 4); (0, 0, w 1); (1, 0, w 3); (0, 1, w 2)])
    (fun f => rbind (setup 0 f 0 5 (Some 5) 5 5 0 (repeat e 5)) (fun r => Ok (snd r)))
  = Ok [w 1; w 2; w 3; w 4; e].
Proof. vm_compute. reflexivity. Qed.

Open Scope N_scope.

(** With an averaging window of one, up to 10^9 blocks: no push fails, names are
    distinct, and reading in name order gives the series of every estimator. *)
Theorem C19_series_partial : forall (D : Type) (bs : list (list (nat * D))),
  N.of_nat (length bs) <= 10 ^ 9 -> Forall (fun b => NoDup (map fst b)) bs ->
  exists h f, H5Names_Model.run_blocks (H5Names_Model.new_helper 1, []) bs = Ok (h, f) /\
    NoDup (map fst f) /\ forall name, H5Names_Model.extract f name = series name bs.
Proof. exact H5Names_Proofs.read_back. Qed.
Print Assumptions C19_series_partial.

(** With a longer window the index stays at zero and the second block fails. *)
Theorem C19_window_refuted : forall (D : Type) nav (b1 b2 : list (nat * D)) bs name d1 d2,
  2 <= nav -> NoDup (map fst b1) -> In (name, d1) b1 -> In (name, d2) b2 ->
  H5Names_Model.run_blocks (H5Names_Model.new_helper nav, []) (b1 :: b2 :: bs) = Err OSError.
Proof. exact H5Names_Proofs.nav_stuck. Qed.
Print Assumptions C19_window_refuted.

(** Names sort chronologically below 10^9 and the next one sorts too early. *)
Theorem C19_order : forall m n, m < 10 ^ 9 -> n < 10 ^ 9 ->
  H5Names_Model.lexltb (H5Names_Model.padded m) (H5Names_Model.padded n) = (m <? n).
Proof. exact H5Names_Proofs.padded_lex. Qed.
Print Assumptions C19_order.

Theorem C19_order_refuted :
  H5Names_Model.lexltb (H5Names_Model.padded (10 ^ 9)) (H5Names_Model.padded (10 ^ 9 - 1)) = true.
Proof. exact H5Names_Proofs.order_breaks. Qed.
Print Assumptions C19_order_refuted.

(** Twelve blocks of two estimators: 10 and 11 come after 9. *)
Example C19_case :
  let bs := map (fun k => [(0%nat, k); (1%nat, (100 + k)%nat)]) (seq 0 12) in
  match H5Names_Model.run_blocks (H5Names_Model.new_helper 1, []) bs with
  | Ok (_, f) => H5Names_Model.extract f 0 = seq 0 12 /\ H5Names_Model.extract f 1 = seq 100 12
  | Err _ => False
  end.
Proof. vm_compute. split; reflexivity. Qed.

Open Scope nat_scope.
Open Scope string_scope.

(** Base name without a dot, overwrite switched off: the loop ends at the first
    free index, and opening the file keeps every existing one. *)
Theorem C20_fresh_partial : forall files base ix, dotless base = true ->
  forall fuel, List.length files < fuel ->
  exists j, EstName_Model.choose fuel files (EstName_Model.Opts ix None base false)
              = Ok (EstName_Model.fname base (ix + j)) /\
    ~ In (EstName_Model.fname base (ix + j)) files /\
    forall i, i < j -> In (EstName_Model.fname base (ix + i)) files.
Proof. exact EstName_Proofs.choose_fresh. Qed.
Print Assumptions C20_fresh_partial.

Theorem C20_keeps : forall files f, ~ In f files -> EstName_Model.open_w files f = files.
Proof. exact EstName_Proofs.open_w_fresh. Qed.
Print Assumptions C20_keeps.

(** The default options always return estimates.0.h5, whether it exists or not. *)
Theorem C20_default_refuted : forall files fuel, 0 < fuel ->
  EstName_Model.choose fuel files EstName_Model.default_opts = Ok "estimates.0.h5".
Proof. exact EstName_Proofs.default_overwrites. Qed.
Print Assumptions C20_default_refuted.

(** A base name whose second component is a number: the search never ends. *)
Theorem C20_loop_refuted : forall base t v ix files, dotless base = true ->
  In (EstName_Model.fname (base ++ "." ++ EstName_Model.str v ++ t) ix) files ->
  In (EstName_Model.fname (base ++ "." ++ EstName_Model.str v ++ t) (v + 1)) files ->
  (t = "" \/ exists t', t = ("." ++ t')%string) ->
  forall fuel, EstName_Model.choose fuel files
    (EstName_Model.Opts ix None (base ++ "." ++ EstName_Model.str v ++ t) false) = Err OutOfFuel.
Proof. exact EstName_Proofs.dotted_loops. Qed.
Print Assumptions C20_loop_refuted.

(** A second component that is not a number is a ValueError. *)
Theorem C20_value_error_refuted : forall base p t ix files fuel,
  dotless base = true -> dotless p = true -> EstName_Model.py_int p = Err ValueError ->
  (t = "" \/ exists t', t = ("." ++ t')%string) ->
  In (EstName_Model.fname (base ++ "." ++ p ++ t) ix) files -> 0 < fuel ->
  EstName_Model.choose fuel files (EstName_Model.Opts ix None (base ++ "." ++ p ++ t) false) = Err ValueError.
Proof. exact EstName_Proofs.dotted_error. Qed.
Print Assumptions C20_value_error_refuted.

Example C20_case :
  EstName_Model.choose 10 ["est.1.h5"; "est.0.h5"; "est.3.h5"] (EstName_Model.Opts 0 None "est" false) = Ok "est.2.h5"
  /\ EstName_Model.choose 50 ["u.4.0.h5"; "u.4.5.h5"] (EstName_Model.Opts 0 None "u.4" false) = Err OutOfFuel.
Proof. vm_compute. split; reflexivity. Qed.
