(** Communication buffers (C13) and stored fields (C14). *)
From Coq Require Import String.
From Verif Require Import Base BaseFacts Cplx CplxFacts Buffer_Model Buffer_Spec Buffer_Proofs
  FieldConfig_Model FieldConfig_Spec FieldConfig_Proofs.
Open Scope nat_scope.

(** Packing and unpacking succeed for any pair of walkers of the same kind, the buffer has
    the length of the receive buffer, and the copy is faithful exactly when the type of
    every receiving scalar is wide enough. *)
Theorem C13_roundtrip : forall a b, w_rel compatible a b -> one_nested a ->
  exists buf b', get_buffer a = Ok buf /\ List.length buf = handler_size a /\ set_buffer b buf = Ok b' /\
    (w_named wide a b <-> w_transferred a b b').
Proof. exact roundtrip. Qed.
Print Assumptions C13_roundtrip.

(** Objects as constructed satisfy the size requirement. *)
Theorem C13_constructed_sized : forall d, NoDup (map fst d) -> sized (new_obj d).
Proof. exact new_obj_sized. Qed.
Print Assumptions C13_constructed_sized.

Example C13_case :
  let mk (w p : pval) := new_obj [("weight", w); ("phase", p); ("name", POther); ("alive", PInt 1);
     ("phi", PArr true [2; 1] [C1; Ci]); ("inv", PList [PArr true [1] [Ci]; PInt 3; POther])]%string in
  let a := mkWalker (mk (PFloat (1 # 3)) (PComplex Ci)) None None in
  let b := mkWalker (mk (PFloat 1) (PComplex C1)) None None in
  w_rel compatible a b /\ one_nested a /\ w_named wide a b.
Proof.
  cbv zeta. split; [|split].
  - split; [|split; exact I]. split; [apply new_obj_sized; cbn; repeat constructor; cbn; intuition discriminate|].
    split; [reflexivity|]. split; [reflexivity|]. intros k Hk. cbn in Hk.
    repeat (destruct Hk as [<-|Hk]; [eexists _, _; split; [reflexivity|]; split; [reflexivity|];
      first [apply slot_one; first [apply slot_num; reflexivity|apply slot_arr; reflexivity]
            |apply slot_list; repeat constructor] |]); destruct Hk.
  - left; reflexivity.
  - split; [|split; exact I]. intros k Hk. cbn in Hk.
    repeat (destruct Hk as [<-|Hk]; [eexists _, _; split; [reflexivity|]; split; [reflexivity|]; cbn;
      first [exact I | reflexivity | exists 1%Z; split; reflexivity] |]); destruct Hk.
Qed.

(** The accumulated factor of a field history is lost when it arrives at a walker whose own
    factor vanished: that walker holds the integer 0 and truncates. *)
Theorem C13_tot_wfac_refuted : exists s r b r',
  sender_fc = Ok s /\ receiver_fc = Ok r /\ compatible (fc_obj s) (fc_obj r) /\
  obj_get (fc_obj s) = Ok b /\ obj_set (fc_obj r) b = Ok r' /\
  lookup (attrs (fc_obj s)) "tot_wfac" = Some (PComplex (num_val (tot_wfac s))) /\
  num_val (tot_wfac s) =c= mkC 0 1 /\ lookup (attrs r') "tot_wfac" = Some (PInt 0).
Proof. exact tot_wfac_lost. Qed.
Print Assumptions C13_tot_wfac_refuted.

(** Any sequence of stores and resets: the run succeeds exactly when there is room, the
    window returned is what was stored since it was last emptied, and the factors are the
    products of the stored ones. *)
Theorem C14_history : forall nf np nb f0 ops, 0 < nb <= np -> fc_new nf np nb = Ok f0 -> well_formed nf ops ->
  (room np 0 ops ->
     exists f, run_ops f0 ops = Ok f /\
       step f = List.length (hist np [] ops) /\ step f <= np /\
       get_block f = blocks_of (hist np [] ops) /\
       get_wfac f = (Cprod (map (fun e => Cof (re (snd (snd e)))) (hist np [] ops)),
                     Cprod (map (fun e => fst (snd e)) (hist np [] ops))) /\
       num_val (tot_wfac f) = tot_of (since_reset [] ops) C1 /\
       (Forall (fun w => big (snd w) = true) (since_reset [] ops) ->
          num_val (tot_wfac f) =c= Cprod (map ratio (since_reset [] ops)))) /\
  (~ room np 0 ops -> run_ops f0 ops = Err IndexError).
Proof. exact history. Qed.
Print Assumptions C14_history.

Example C14_case : well_formed 1 [Update [Ci] (C1, C1); Update [C1] (Ci, C1); Reset; Update [Ci] (Ci, C1)] /\
  room 2 0 [Update [Ci] (C1, C1); Update [C1] (Ci, C1); Reset; Update [Ci] (Ci, C1)] /\
  hist 2 [] [Update [Ci] (C1, C1); Update [C1] (Ci, C1); Reset; Update [Ci] (Ci, C1)] = [([Ci], (Ci, C1))].
Proof. split; [repeat constructor|]. split; [cbn; repeat split; auto|reflexivity]. Qed.

(** Component-wise pushes give the same window, but never record the factors. *)
Theorem C14_push_history : forall nf np nb f0 cs, 0 < nb <= np -> 0 < nf -> fc_new nf np nb = Ok f0 ->
  Forall (fun c => List.length c = nf) cs -> List.length cs <= np ->
  exists f, pushes f0 (concat cs) = Ok f /\ step f = List.length cs /\ fst (fst (get_block f)) = cs /\
    (cs <> [] -> fst (get_wfac f) =c= C0 /\ snd (get_wfac f) =c= C0).
Proof. exact push_history. Qed.
Print Assumptions C14_push_history.

(** A whole run with every walker propagated at every step: never an error and exactly the
    right windows when the number of splits divides the window; an overrun otherwise. *)
Theorem C14_windows : forall nf nmax nsplit nw f0 sig src n,
  0 < nmax -> 0 < nsplit -> 0 < nw -> fc_new nf nmax nmax = Ok f0 ->
  (forall t, valid_step nf nw (sig t) (src t)) ->
  (Nat.divide nsplit nmax ->
     exists ws, bp_run (splits nmax nsplit) (fun t => map Some (sig t)) src 1 n (repeat f0 nw) =
       Ok (hrun nmax (splits nmax nsplit) sig src 1 n (repeat [] nw), ws)) /\
  (~ Nat.divide nsplit nmax -> nmax < n ->
     bp_run (splits nmax nsplit) (fun t => map Some (sig t)) src 1 n (repeat f0 nw) = Err IndexError).
Proof. exact bp_windows. Qed.
Print Assumptions C14_windows.

Example C14_windows_case :
  valid_step 1 2 [([Ci], (C1, C1)); ([C1], (C1, C1))] [1; 1] /\
  hrun 2 (splits 2 1) (fun _ => [([Ci], (C1, C1)); ([C1], (C1, C1))]) (fun _ => [1; 1]) 1 2 [[]; []] =
  [(2, [([[C1]; [C1]], [C1; C1], [C1; C1]); ([[C1]; [C1]], [C1; C1], [C1; C1])])].
Proof. split; [repeat split; repeat constructor|reflexivity]. Qed.

(** A first walker of negligible weight is not propagated; its lagging counter suppresses the
    measurement for all, and the others overrun their windows. *)
Theorem C14_unpropagated_walker_refuted : forall f0, fc_new 1 2 2 = Ok f0 ->
  bp_run (splits 2 1) dead_front (fun _ => [0; 1]) 1 3 [f0; f0] = Err IndexError.
Proof. exact dead_front_overrun. Qed.
Print Assumptions C14_unpropagated_walker_refuted.
