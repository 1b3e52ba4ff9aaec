(** Thermal propagator stacks (C15, C16), stack sizes (C17) and the weights of
    successive thermal paths (C59). *)
Set Warnings "-notation-overridden,-ambiguous-paths".
From Verif Require Import Base StackSize_Model StackSize_Spec StackSize_Proofs.
From mathcomp Require Import all_ssreflect all_algebra.
From Verif Require Import PropStack_Model PropStack_Spec PropStack_Proofs.

Set Implicit Arguments.
Unset Strict Implicit.
Unset Printing Implicit Defensive.
Import GRing.Theory.
Local Open Scope ring_scope.

(** After any number of updates the bins hold the slices sampled so far followed by trial
    slices, the counters agree with the time slice, and the product that the Green's
    function uses is the path in the cyclic order of that slice. *)
Theorem C15_stack : forall (F : fieldType) n s L diag (BT BTinv : 'M[F]_n) (Bs : seq 'M[F]_n),
  (0 < s)%N -> (s %| L)%N -> good_trial diag BT BTinv -> (size Bs <= L)%N ->
  exists p, run_full diag BT BTinv s L Bs = Ok p /\
    time_slice p = size Bs /\ block p = (size Bs %/ s)%N /\ counter p = (size Bs %% s)%N /\
    stk p = bins s (L %/ s) (slices L BT Bs) /\
    (forall i, (0 < L)%N -> (i <= L)%N ->
       path_product p i = Ok (ordered (cyclic s L i (slices L BT Bs)))).
Proof. exact stack_correct. Qed.
Print Assumptions C15_stack.

(** One update too many raises. *)
Theorem C15_overrun : forall (F : fieldType) n s L diag (BT BTinv : 'M[F]_n) (Bs : seq 'M[F]_n),
  (0 < s)%N -> (s %| L)%N -> good_trial diag BT BTinv -> (L < size Bs)%N ->
  run_full diag BT BTinv s L Bs = Err IndexError.
Proof. exact stack_overrun. Qed.
Print Assumptions C15_overrun.

(** A size that does not divide the number of slices is refused. *)
Theorem C15_indivisible : forall (F : fieldType) n s L,
  is_ok (ps_new F n s L) <-> ((0 < s)%N /\ (s %| L)%N).
Proof. exact ps_new_ok. Qed.
Print Assumptions C15_indivisible.

(** Which slice the product starts from does not change the weight of the path. *)
Theorem C15_weight : forall (F : fieldType) n s L i (l : seq 'M[F]_n),
  weight (cyclic s L i l) = weight l.
Proof. exact weight_cyclic. Qed.
Print Assumptions C15_weight.

(** The update of the discrete constrained propagator: a bin in progress holds only the
    slices put in it. *)
Theorem C15_update : forall (F : fieldType) n s L diag (BT BTinv : 'M[F]_n) (Bs : seq 'M[F]_n),
  (0 < s)%N -> (s %| L)%N -> good_trial diag BT BTinv -> (size Bs <= L)%N ->
  exists p, run_update diag BT s L Bs = Ok p /\
    time_slice p = size Bs /\ block p = (size Bs %/ s)%N /\ counter p = (size Bs %% s)%N /\
    stk p = mkseq (fun b => ordered (started s BT Bs b)) (L %/ s).
Proof. exact update_correct. Qed.
Print Assumptions C15_update.

(** The slices at which that propagator rebuilds the Green's function are ends of bins, for
    every requested frequency, and there the stack does represent the path. *)
Theorem C15_update_when_read : forall (F : fieldType) n s L diag (BT BTinv : 'M[F]_n)
    (Bs : seq 'M[F]_n) request freq,
  (0 < s)%N -> (s %| L)%N -> good_trial diag BT BTinv -> (size Bs <= L)%N ->
  (0 < request)%N -> fix_nstblz s request = Ok freq -> (size Bs %% freq = 0)%N ->
  exists p, run_update diag BT s L Bs = Ok p /\
    stk p = bins s (L %/ s) (slices L BT Bs) /\
    (forall i, (0 < L)%N -> (i <= L)%N ->
       path_product p i = Ok (ordered (cyclic s L i (slices L BT Bs)))).
Proof. exact update_when_read. Qed.
Print Assumptions C15_update_when_read.

(** Inside a bin it does not: one slice of a two-slice path, trial 2, sampled slice 1. *)
Theorem C15_update_refuted :
  exists p, run_update false (sc 2%:Q) 2 2 [:: sc 1] = Ok p
    /\ stk p <> bins 2 1 (slices 2 (sc 2%:Q) [:: sc 1])
    /\ path_product p 2 = Ok (sc 1)
    /\ ordered (slices 2 (sc 2%:Q) [:: sc 1]) = sc 2%:Q.
Proof. exact update_mid_bin. Qed.
Print Assumptions C15_update_refuted.

Example C15_case : good_trial false (sc 2%:Q) (sc 2%:Q^-1) /\ (0 < 2)%N /\ (2 %| 4)%N /\
  (size [:: sc 3%:Q; sc 5%:Q; sc 7%:Q] <= 4)%N.
Proof. by split=> //; exact: sc_trial. Qed.

(** A reset gives the freshly constructed stack exactly at the end of a bin. *)
Theorem C16_reset_iff : forall (F : fieldType) n s L diag (BT BTinv : 'M[F]_n) (Bs : seq 'M[F]_n),
  (0 < s)%N -> (s %| L)%N -> good_trial diag BT BTinv -> (size Bs <= L)%N ->
  exists p q, run_full diag BT BTinv s L Bs = Ok p /\ ps_new F n s L = Ok q /\
    (ps_reset p = q <-> (s %| size Bs)%N).
Proof. exact reset_iff. Qed.
Print Assumptions C16_reset_iff.

(** After any number of complete paths the stack is the freshly constructed one. *)
Theorem C16_paths : forall (F : fieldType) n s L diag (BT BTinv : 'M[F]_n) (paths : seq (seq 'M[F]_n)),
  (0 < s)%N -> (s %| L)%N -> good_trial diag BT BTinv ->
  (forall Bs, Bs \in paths -> size Bs = L) ->
  exists q, ps_new F n s L = Ok q /\ rfold (path diag BT BTinv) q paths = Ok q.
Proof. exact paths_fresh. Qed.
Print Assumptions C16_paths.

(** A reset inside a bin is not a fresh start: the next path loses its first slice. *)
Theorem C16_reset_refuted :
  exists p q q',
    run_full false (sc 2%:Q) (sc 2%:Q^-1) 2 2 [:: sc 1] = Ok p
    /\ rbind (set_all false (sc 2%:Q) (ps_reset p))
         (fun p' => rfold (update_full false (sc 2%:Q^-1)) p' [:: sc 3%:Q; sc 5%:Q])
       = Ok q
    /\ run_full false (sc 2%:Q) (sc 2%:Q^-1) 2 2 [:: sc 3%:Q; sc 5%:Q] = Ok q'
    /\ stk q = [:: sc 5%:Q] /\ stk q' = [:: sc 15%:Q].
Proof. exact mid_path_reset. Qed.
Print Assumptions C16_reset_refuted.

Example C16_case : forall Bs, Bs \in [:: [:: sc 3%:Q; sc 5%:Q]; [:: sc 1; sc 7%:Q]] -> size Bs = 2%N.
Proof. by move=> Bs; rewrite !inE => /orP[] /eqP ->. Qed.

(** The search terminates with the closest divisor, the smaller of two equally close ones. *)
Theorem C17_update_stack : forall want num, Peano.le 1 want -> Peano.le 1 num ->
  exists d, update_stack want num = Ok d /\ closest num want d.
Proof. exact update_stack_closest. Qed.
Print Assumptions C17_update_stack.

Theorem C17_walker_stack_size : forall want num, Peano.le 1 want -> Peano.le 1 num ->
  exists d, walker_stack_size want num = Ok d /\ closest num want d.
Proof. exact walker_stack_size_closest. Qed.
Print Assumptions C17_walker_stack_size.

(** Zero is not a size. *)
Theorem C17_zero : forall want num, want = 0%N \/ num = 0%N ->
  update_stack want num = Err ZeroDivisionError.
Proof. exact update_stack_zero. Qed.
Print Assumptions C17_zero.

(** The stabilisation frequency of a Hubbard run always becomes the stack size. *)
Theorem C17_stabilisation : forall ss request, Peano.le 1 ss -> Peano.le 1 request ->
  fix_nstblz ss request = Ok ss.
Proof. exact fix_nstblz_eq. Qed.
Print Assumptions C17_stabilisation.

Example C17_case : update_stack 7 20 = Ok 5%N /\ update_stack 3 20 = Ok 2%N /\
  update_stack 8 20 = Ok 10%N /\ update_stack 50 20 = Ok 20%N.
Proof. by vm_compute. Qed.

(** The products of overlap ratios of successive paths: each is relative to the path before,
    only the first to the trial. *)
Theorem C59_ratios : forall (F : fieldType) n s L diag (BT BTinv : 'M[F]_n)
    (paths : seq (seq 'M[F]_n)),
  (0 < s)%N -> (0 < L)%N -> (s %| L)%N -> good_trial diag BT BTinv ->
  weight (nseq L BT) != 0 ->
  (forall Bs, Bs \in paths -> size Bs = L /\ nonzero L BT Bs) ->
  exists w w', walker_new diag BT s L = Ok w /\
    walker_run diag BT BTinv w paths = Ok (w', relative (weight (nseq L BT)) paths).
Proof. exact ratios. Qed.
Print Assumptions C59_ratios.

(** So the second path is not reweighted relative to the trial: here the product of its
    overlap ratios is 1/2 instead of 1. *)
Theorem C59_ratios_refuted :
  exists w w', walker_new false (sc 1) 1 1 = Ok w
    /\ walker_run false (sc 1) (sc 1^-1) w [:: [:: sc 3%:Q]; [:: sc 1]]
       = Ok (w', [:: 2%:Q; 1 / 2%:Q])
    /\ weight [:: sc 1] / weight (nseq 1 (sc 1)) = 1.
Proof. exact second_path. Qed.
Print Assumptions C59_ratios_refuted.
