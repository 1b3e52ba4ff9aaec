(* C68: imaginary time Green's functions. *)

From Verif Require Import Base.
Set Warnings "-notation-overridden,-ambiguous-paths".
From mathcomp Require Import all_ssreflect all_algebra all_field.
From Verif Require Import Rank1_Spec Ortho_Spec Taylor_Spec BackProp_Spec BackProp_Proofs.
From Verif Require Import Ortho_Proofs ITCF_Model ITCF_Spec ITCF_Proofs.

Set Implicit Arguments.
Unset Strict Implicit.
Unset Printing Implicit Defensive.

Import Order.TTheory GRing.Theory Num.Theory.
Local Open Scope ring_scope.

Section C68.
Variable C : numClosedFieldType.

(* Multiplying by the propagators alone gives the time-displaced functions. *)
Theorem C68_unstable n nu nd (Bs : seq ('M[C]_n * 'M[C]_n))
    (psi R : 'M[C]_(n, nu) * 'M[C]_(n, nd)) k :
  invertible Bs -> (k <= size Bs)%N ->
  chain (@increment_uhf_unstable C n) (at_slice 0 Bs psi R) (take k Bs)
  = Ok (displaced k Bs psi R).
Proof. by move=> I lk; apply: unstable_chain. Qed.

(* Multiplying by the propagators and the equal-time functions of the slices
   gives the greater functions and the lesser one of the first spin; the lesser
   one of the second spin is built from that of the first. *)
Theorem C68_stable_partial n nu nd (Bs : seq ('M[C]_n * 'M[C]_n))
    (psi R : 'M[C]_(n, nu) * 'M[C]_(n, nd)) k :
  invertible Bs -> nonorthogonal Bs psi R -> (0 < k <= size Bs)%N ->
  exists G, [/\ chain (fun G p => increment_uhf_stable G p.1 p.2)
      ((1%:M, 1%:M), (1%:M, 1%:M))
      (zip (take k Bs) (mkseq (fun t => at_slice t Bs psi R) k)) = Ok G,
    G.1 = (displaced k Bs psi R).1, G.2.1 = (displaced k Bs psi R).2.1
  & G.2.2 = (displaced k Bs psi R).2.1 *m (at_slice k.-1 Bs psi R).2.2
              *m invmx (nth (1%:M, 1%:M) Bs k.-1).2].
Proof.
move=> I U /andP[k0 lk]; have [G [e [_ h]]] := stable_chain I U lk.
have [[r1 r2 r3] r4] := h k0; exists G; split=> //.
by case: G {e h r3 r4} r1 r2 => -[gu gd] L /= -> ->.
Qed.

Theorem C68_down_refuted :
  exists (Bs : seq ('M[C]_1 * 'M[C]_1)) (psi R : 'M[C]_(1, 1) * 'M[C]_(1, 1)),
  [/\ invertible Bs, nonorthogonal Bs psi R, size Bs = 1%N & exists G,
    chain (fun G p => increment_uhf_stable G p.1 p.2) ((1%:M, 1%:M), (1%:M, 1%:M))
      (zip Bs [:: at_slice 0 Bs psi R]) = Ok G
    /\ G.2.2 <> (displaced 1 Bs psi R).2.2].
Proof.
exists (d_path C), (d_psi C), (d_psi C); split=> //.
- exact: d_inv.
- exact: d_ovl.
- exact: down_refuted.
Qed.

(* One matrix for both spins. *)
Theorem C68_ghf_unstable n m (Bs : seq 'M[C]_n) (psi R : 'M[C]_(n, m)) :
  (forall B, List.In B Bs -> B \in unitmx) ->
  chain (@increment_ghf_unstable C n) (slice1 0 Bs psi R) Bs
  = Ok (path_product id Bs *m (slice1 0 Bs psi R).1,
        (slice1 0 Bs psi R).2 *m invmx (path_product id Bs)).
Proof. exact: ghf_unstable. Qed.

Theorem C68_ghf_greater n m (Bs : seq 'M[C]_n) (psi R : 'M[C]_(n, m)) k :
  (forall B, List.In B Bs -> B \in unitmx) ->
  ovlp_mx (@conjC C) psi (path_product id Bs *m R) \in unitmx ->
  (0 < k <= size Bs)%N ->
  exists G, chain (fun G p => increment_ghf_stable G p.1 p.2) (1%:M, 1%:M)
              (zip (take k Bs) (mkseq (fun t => slice1 t Bs psi R) k)) = Ok G
    /\ G.1 = path_product id (take k Bs) *m (slice1 0 Bs psi R).1.
Proof.
move=> I U /andP[k0 lk]; have [G [e [_ h]]] := ghf_stable I U lk.
by exists G; split; [exact: e | exact: h].
Qed.

Theorem C68_ghf_lesser_refuted :
  exists (Bs : seq 'M[C]_2) (psi R : 'M[C]_(2, 1)),
  [/\ forall B, List.In B Bs -> B \in unitmx,
      ovlp_mx (@conjC C) psi (path_product id Bs *m R) \in unitmx
    & exists G, chain (fun G p => increment_ghf_stable G p.1 p.2) (1%:M, 1%:M)
        (zip Bs (mkseq (fun t => slice1 t Bs psi R) (size Bs))) = Ok G
      /\ G.2 <> (slice1 0 Bs psi R).2 *m invmx (path_product id Bs)].
Proof.
exists (g_path C), (c2 1 0), (c2 0 1); split.
- move=> B [<-|[<-|//]]; last by rewrite unitmx1.
  by have [u _] := m2_inv (1 : C).
- rewrite /g_path /path_product /= !mulmx1 mul1mx b0_c2 ovlpE c2_ovl rmorph0 rmorph1.
  by rewrite mul0r !addr0 mul1r add0r unitmx1.
- exact: ghf_lesser_refuted.
Qed.

(* All walkers of a process. *)
Section Walkers.
Variable qr : forall n m, 'M[C]_(n, m) -> 'M[C]_(n, m) * 'M[C]_m.
Hypothesis Q : qr_works qr.
Variables (n nu nd : nat).
Variables (psi : 'M[C]_(n, nu) * 'M[C]_(n, nd)) (nst ntau : nat) (restore : bool).
Hypothesis n0 : (0 < nst)%N.
Variable ws : seq (itcf_walker C n nu nd).
Hypothesis S : forall w, List.In w ws -> sound psi w.

(* The weights, the functions at equal times, those of the first slice, and the
   determinants the next paths start from. *)
Theorem C68_first_partial e' ws' :
  calculate_spgf qr true restore nst ntau psi ws (0, nseq ntau.+1 0) = Ok (e', ws') ->
  [/\ e'.1 = \sum_(w <- ws) path_weight restore w, size e'.2 = ntau.+1,
      three_right restore ws psi 0 (nth 0 e'.2 0)
      /\ fourth_right restore ws psi 0 (nth 0 e'.2 0),
      (0 < ntau)%N -> three_right restore ws psi 1 (nth 0 e'.2 1)
    & forall i w, List.nth_error ws i = Some w ->
        exists2 w', List.nth_error ws' i = Some w' & w_right w' = w_phi w].
Proof. exact: calc_first. Qed.

(* All slices when the propagators leave the trial's span alone. *)
Theorem C68_eigen :
  (forall w, List.In w ws -> eigen (w_steps w) psi /\ (ntau <= size (w_steps w))%N) ->
  exists e' ws',
    calculate_spgf qr true restore nst ntau psi ws (0, nseq ntau.+1 0) = Ok (e', ws')
    /\ forall k, (k <= ntau)%N -> three_right restore ws psi k (nth 0 e'.2 k).
Proof. exact: calc_eigen. Qed.

(* Without stabilisation nothing is ever returned. *)
Theorem C68_unstable_refuted e :
  (0 < ntau)%N -> (0 < size e.2)%N -> (0 < size ws)%N ->
  calculate_spgf qr false restore nst ntau psi ws e = Err NameError.
Proof. exact: calc_unstable. Qed.

End Walkers.

(* From the second slice on the functions are those of two determinants one
   slice apart. *)
Theorem C68_slices_refuted (qr : forall n m, 'M[C]_(n, m) -> 'M[C]_(n, m) * 'M[C]_m) :
  exists (psi : 'M[C]_(2, 1) * 'M[C]_(2, 1)) (w : itcf_walker C 2 1 1),
  sound psi w /\ size (w_steps w) = 2%N /\
  exists e' ws', calculate_spgf qr true false 5 2 psi [:: w] (0, nseq 3 0) = Ok (e', ws')
    /\ ~ three_right false [:: w] psi 2 (nth 0 e'.2 2).
Proof.
exists (bad_psi C), (bad_walker C); split; first exact: bad_sound.
split=> //; have [s [e h]] := slices_refuted qr.
exists (0 + wfac false (bad_walker C), s), [:: next_walker (bad_walker C)].
split; first by rewrite /calculate_spgf /walkers_loop e; cbn [rbind foldl map].
case=> h1 _ _; apply: h; rewrite h1 /weighted big_seq1 /path_weight /=.
by rewrite !mulr1 scale1r.
Qed.

(* What is written: the sums over all processes, divided by the sum of the
   weights; and every process starts again from zero. *)
Theorem C68_average n ntau step nprop (es : seq (C * seq (('M[C]_n * 'M[C]_n) * ('M[C]_n * 'M[C]_n)))) :
  (forall e, List.In e es -> size e.2 = ntau.+1) ->
  (0 < step)%N -> (0 < nprop)%N -> (step %% nprop = 0)%N ->
  exists out, print_step ntau step nprop es
    = Ok (Some out, nseq (size es) (0, nseq ntau.+1 0))
  /\ size out = ntau.+1
  /\ forall k, (k <= ntau)%N -> nth 0 out k
      = (\sum_(e <- es) e.1)^-1 *: \sum_(e <- es) nth 0 e.2 k.
Proof. exact: print_ok. Qed.

End C68.

(* The hypotheses can hold. *)
Example qr_exists (C : numClosedFieldType) : exists qr, @qr_works C qr.
Proof. by exists (@gs C) => n m A; exact: gs_ok. Qed.

Example walker_exists (C : numClosedFieldType) :
  sound (bad_psi C) (bad_walker C).
Proof. exact: bad_sound. Qed.

Example eigen_exists (C : numClosedFieldType) :
  let w := MkItcf 1 1 1 (d_psi C) (d_psi C) (d_path C) (d_path C) in
  [/\ sound (d_psi C) w, eigen (w_steps w) (d_psi C) & (1 <= size (w_steps w))%N].
Proof.
split=> //; first by split=> //; [exact: d_inv | exact: d_ovl].
have h : same_span (adj (2%:R%:M : 'M[C]_1) *m 1%:M) (1%:M : 'M[C]_1).
  exists (adj 2%:R%:M); first by apply: adj_unit; exact: two_unit.
  by rewrite mul1mx mulmx1.
by move=> B [<-|//].
Qed.

(* A function between slices 0 and 1 that is neither zero nor one. *)
Example d_displaced (C : numClosedFieldType) :
  (displaced 1 (d_path C) (d_psi C) (d_psi C)).2.1 = invmx 2%:R%:M.
Proof.
rewrite /displaced /at_slice /= /prod_u /path_product /= !mulmx1.
by rewrite full_lesser ?adj_unit ?two_unit // mul1mx.
Qed.

Print Assumptions C68_unstable.
Print Assumptions C68_stable_partial.
Print Assumptions C68_down_refuted.
Print Assumptions C68_ghf_unstable.
Print Assumptions C68_ghf_greater.
Print Assumptions C68_ghf_lesser_refuted.
Print Assumptions C68_first_partial.
Print Assumptions C68_eigen.
Print Assumptions C68_unstable_refuted.
Print Assumptions C68_slices_refuted.
Print Assumptions C68_average.
