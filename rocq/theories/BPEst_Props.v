(* C52: layout and averaging of the back propagation estimator. *)

From Verif Require Import Base BaseFacts BPEst_Model BPEst_Spec BPEst_Proofs.
Open Scope nat_scope.

(* All runs: every measurement is written once, and every quantity is the
   weighted sum of its own array.  With Fock matrices this needs both one_rdm
   and, if given, two_rdm to be true. *)
Theorem C52_run_partial : forall K k0 (kadd kmul kdiv : K -> K -> K) o steps nproc,
  (forall st, In st steps -> length (snd st) = nproc) ->
  (forall st ws w, In st steps -> In ws (snd st) -> In w ws -> sizes o w) ->
  (o_ekt o = true -> o_one o = true /\ o_two o <> TFalse) ->
  run K k0 kadd kmul kdiv o steps (init K k0 o nproc)
  = Ok (map (fun st => (fst st, expected k0 kadd kmul kdiv o (snd st),
                        fst st =? last (measurements o) 0))
          (filter (fun st => existsb (Nat.eqb (fst st)) (measurements o)) steps)).
Proof. exact run_expected. Qed.

(* Dividing what was written for a matrix by what was written for the weight,
   as the analysis does, gives the weighted average. *)
Theorem C52_average : forall K k0 (kadd kmul kdiv : K -> K -> K) o wss den d n,
  In (Denominator, den) (expected k0 kadd kmul kdiv o wss) ->
  In (n, d) (expected k0 kadd kmul kdiv o wss) ->
  n = OneRdm \/ n = TwoRdm \/ n = Fock1p \/ n = Fock1h ->
  exists W f size, weights k0 kadd wss = [W]
    /\ ((n = OneRdm /\ f = w_g K) \/ (n = TwoRdm /\ f = w_two K)
        \/ (n = Fock1p /\ f = w_1p K) \/ (n = Fock1h /\ f = w_1h K))
    /\ extract K kdiv d den
       = map (fun x => kdiv x W) (weighted k0 kadd kmul size f wss).
Proof.
  intros K k0 kadd kmul kdiv o wss den d n Hd Hn Hc.
  assert (E : den = weights k0 kadd wss).
  { unfold expected in Hd. rewrite !in_app_iff in Hd.
    destruct Hd as [[H|[]]|[H|[H|[H|H]]]].
    - congruence.
    - destruct (o_energy o); simpl in H; [destruct H as [H|[]]; discriminate|contradiction].
    - destruct (o_one o); simpl in H; [destruct H as [H|[]]; discriminate|contradiction].
    - destruct (o_two o); simpl in H; try contradiction;
        destruct H as [H|[]]; discriminate.
    - destruct (o_ekt o); simpl in H; [destruct H as [H|[H|[]]]; discriminate|contradiction]. }
  assert (L : exists W, weights k0 kadd wss = [W]).
  { assert (L1 : length (weights k0 kadd wss) = 1) by (apply vtotal_length; reflexivity).
    destruct (weights k0 kadd wss) as [|W [|]]; try discriminate. eauto. }
  destruct L as [W LW]. exists W.
  assert (X : extract K kdiv d den = map (fun x => kdiv x W) d) by (rewrite E, LW; reflexivity).
  rewrite X. unfold expected in Hn. rewrite !in_app_iff in Hn.
  destruct Hn as [[H|[]]|[H|[H|[H|H]]]].
  - injection H as <- <-. destruct Hc as [?|[?|[?|?]]]; discriminate.
  - destruct (o_energy o); simpl in H; [|contradiction].
    destruct H as [H|[]]; injection H as <- <-.
    destruct Hc as [?|[?|[?|?]]]; discriminate.
  - destruct (o_one o); simpl in H; [|contradiction].
    destruct H as [H|[]]; injection H as <- <-.
    exists (w_g K), (n_g o); repeat split; auto.
  - destruct (o_two o) eqn:T; simpl in H; try contradiction;
      destruct H as [H|[]]; injection H as <- <-;
      exists (w_two K), (two_size o); repeat split; auto.
  - destruct (o_ekt o); simpl in H; [|contradiction].
    destruct H as [H|[H|[]]]; injection H as <- <-.
    + exists (w_1p K), (n_g0 o); repeat split; auto.
    + exists (w_1h K), (n_g0 o); repeat split; auto.
Qed.

(* The measurements are equally spaced, and end at tau_bp only if nsplit
   divides the number of steps. *)
Theorem C52_spacing : forall o i x y,
  nth_error (measurements o) i = Some x -> nth_error (measurements o) (S i) = Some y ->
  y = x + nmax o / nsplit o.
Proof. exact measurements_increasing. Qed.

Theorem C52_last_iff : forall o, 0 < nsplit o ->
  last (measurements o) 0 = nmax o <-> Nat.divide (nsplit o) (nmax o).
Proof.
  intros o H.
  rewrite measurements_last by auto.
  split.
  - intro E; exists (nmax o / nsplit o); lia.
  - intros [z E]; rewrite E, Nat.div_mul by lia. lia.
Qed.

(* The density matrices are written without division by the weight. *)
Theorem C52_division_refuted : exists o (wss : list (list (meas Q))),
  o_fp o = false /\ (forall ws w, In ws wss -> In w ws -> sizes o w) /\
  run Q 0%Q Qplus Qmult Qdiv o [(1, wss)] (init Q 0%Q o 1)
  = Ok [(1, [(Denominator, [(0 + (0 + 2))%Q]);
             (OneRdm, [(0 + (0 + 2 * 1))%Q; (0 + (0 + 2 * 3))%Q])], true)].
Proof.
  exists (MkOpts false true TNone false false 2 1 0 1 1 1),
    [[MkMeas Q 2%Q [0; 0; 0]%Q [1; 3]%Q [] [] []]].
  split; [reflexivity|]. split; [|reflexivity].
  intros ws w [<-|[]] [<-|[]]. repeat split; simpl; auto; try discriminate.
Qed.

(* Fock matrices without one_rdm: what is written as the particle matrix is the
   beginning of the Green's functions. *)
Theorem C52_fock_refuted : forall K k0 (kadd kmul kdiv : K -> K -> K) o ix wss,
  (forall ws w, In ws wss -> In w ws -> sizes o w) ->
  In ix (measurements o) -> o_ekt o = true -> o_one o = false -> o_two o = TNone ->
  n_g0 o <= n_g o ->
  exists rest last_, run K k0 kadd kmul kdiv o [(ix, wss)] (init K k0 o (length wss))
  = Ok [(ix, rest, last_)]
  /\ In (Fock1p, firstn (n_g0 o) (weighted k0 kadd kmul (n_g o) (w_g K) wss)) rest
  /\ forall d, In (Fock1p, d) rest ->
     d = firstn (n_g0 o) (weighted k0 kadd kmul (n_g o) (w_g K) wss).
Proof. exact fock_wrong. Qed.

(* With two_rdm set to False: the beginning of the two-body density matrix. *)
Theorem C52_two_false_refuted : forall K k0 (kadd kmul kdiv : K -> K -> K) o ix wss,
  (forall ws w, In ws wss -> In w ws -> sizes o w) ->
  In ix (measurements o) -> o_ekt o = true -> o_one o = true -> o_two o = TFalse ->
  n_g0 o <= n_b4 o ->
  exists rest last_, run K k0 kadd kmul kdiv o [(ix, wss)] (init K k0 o (length wss))
  = Ok [(ix, rest, last_)]
  /\ In (Fock1p, firstn (n_g0 o) (weighted k0 kadd kmul (n_b4 o) (w_two K) wss)) rest
  /\ forall d, In (Fock1p, d) rest ->
     d = firstn (n_g0 o) (weighted k0 kadd kmul (n_b4 o) (w_two K) wss).
Proof. exact fock_wrong_two. Qed.

(* The structure factor read from an input file is not the same object as the
   literal, so that the full matrix replaces the allocated one. *)
Theorem C52_structure_refuted : forall K k0 (kadd kmul kdiv : K -> K -> K) o
    ix w ws wss steps nproc,
  o_two o = TStructure -> In ix (measurements o) -> 0 < nproc ->
  length (w_energies K w) = 3 -> length (w_g K w) = n_g o ->
  length (w_two K w) = n_b4 o -> n_s o < n_b4 o -> 2 <= n_b4 o ->
  (o_ekt o = true -> 2 <= n_g0 o /\ length (w_1p K w) = n_g0 o
     /\ length (w_1h K w) = n_g0 o) ->
  run K k0 kadd kmul kdiv o ((ix, (w :: ws) :: wss) :: steps) (init K k0 o nproc)
  = Err ValueError.
Proof. exact structure_run. Qed.

Theorem C52_ghf_refuted : forall K o step s, 0 < nmax o ->
  update_ghf K o (step * nmax o) s = Err SystemExit.
Proof.
  intros K o step s H; unfold update_ghf.
  destruct (Nat.eqb_spec (nmax o) 0); [lia|].
  rewrite Nat.mod_mul, Nat.eqb_refl by auto. reflexivity.
Qed.

(* Two processes with two and one walkers, Fock matrices and two steps of which
   one is measured. *)
Example C52_instance :
  let w x := MkMeas Q x [1; 2; 3]%Q [x; 1]%Q [] [5]%Q [7]%Q in
  let o := MkOpts true true TNone true false 2 1 0 1 2 1 in
  run Q 0%Q Qplus Qmult Qdiv o
    [(1, [[w 1%Q; w 2%Q]; [w 3%Q]]); (2, [[w 1%Q; w 2%Q]; [w 3%Q]])] (init Q 0%Q o 2)
  = Ok [(2, expected 0%Q Qplus Qmult Qdiv o [[w 1%Q; w 2%Q]; [w 3%Q]], true)]
  /\ nth 0 (weighted 0%Q Qplus Qmult 2 (w_g Q) [[w 1%Q; w 2%Q]; [w 3%Q]]) 0%Q == 14.
Proof. split; reflexivity. Qed.

Print Assumptions C52_run_partial.
Print Assumptions C52_average.
Print Assumptions C52_spacing.
Print Assumptions C52_last_iff.
Print Assumptions C52_division_refuted.
Print Assumptions C52_fock_refuted.
Print Assumptions C52_two_false_refuted.
Print Assumptions C52_structure_refuted.
Print Assumptions C52_ghf_refuted.
