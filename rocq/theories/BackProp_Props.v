(* C51: back propagation applies the adjoint of the forward propagator in
   reverse order. *)

From Verif Require Import Base.
Set Warnings "-notation-overridden,-ambiguous-paths".
From mathcomp Require Import all_ssreflect all_algebra.
From Verif Require Import Rank1_Spec Ortho_Model Ortho_Spec Ortho_Proofs
  Taylor_Model Taylor_Spec Taylor_Proofs BackProp_Model BackProp_Spec
  BackProp_Proofs.

Set Implicit Arguments.
Unset Strict Implicit.
Unset Printing Implicit Defensive.

Import Order.TTheory GRing.Theory Num.Theory.
Local Open Scope ring_scope.

Notation qr_type C := (forall n m, 'M[C]_(n, m) -> 'M[C]_(n, m) * 'M[C]_m).

(* A QR factorisation of the kind assumed below exists. *)
Theorem C51_qr_exists : forall C : numClosedFieldType,
  exists qr : qr_type C, qr_works qr.
Proof. by move=> C; exists (@gs C) => n m A; exact: gs_ok. Qed.

(* The forward walk multiplies by the ordered product. *)
Theorem C51_forward_generic : forall (C : numClosedFieldType) n nu nd nc nmax
    isq (hs : 'I_nc -> 'M[C]_n) Bu Bd path (phi : 'M[C]_(n, nu) * 'M[C]_(n, nd)),
  forward_path (forward_generic nmax isq hs Bu Bd) path phi
  = (path_product (cont_step (Z.to_nat nmax) Bu
       (fun x : 'rV[C]_nc => isq *: field_sum hs (x 0))) path *m phi.1,
     path_product (cont_step (Z.to_nat nmax) Bd
       (fun x : 'rV[C]_nc => isq *: field_sum hs (x 0))) path *m phi.2).
Proof.
move=> C n nu nd nc nmax isq hs Bu Bd path phi; apply: forward_pathE => x p.
exact: forward_contE.
Qed.

Theorem C51_forward_planewave : forall (C : numClosedFieldType) n nu nd nc nmax
    sq (iA iB : 'I_nc -> 'M[C]_n) Bu Bd path
    (phi : 'M[C]_(n, nu) * 'M[C]_(n, nd)),
  let V (x : 'rV[C]_(nc + nc)) :=
    sq *: (field_sum iA (lsubmx x 0) + field_sum iB (rsubmx x 0)) in
  forward_path (forward_planewave nmax sq iA iB Bu Bd) path phi
  = (path_product (cont_step (Z.to_nat nmax) Bu V) path *m phi.1,
     path_product (cont_step (Z.to_nat nmax) Bd V) path *m phi.2).
Proof.
move=> C n nu nd nc nmax sq iA iB Bu Bd path phi V.
by apply: forward_pathE => x p; exact: forward_contE.
Qed.

(* Back propagation goes through the adjoint of the product of expansion
   order 6, with and without orthogonalisation. *)
Theorem C51_generic_partial : forall (C : numClosedFieldType) (qr : qr_type C)
    n nu nd nc isq (hs : 'I_nc -> 'M[C]_n) Bu Bd nst store path
    (psi : 'M[C]_(n, nu) * 'M[C]_(n, nd)),
  let V (x : 'rV[C]_nc) := isq *: field_sum hs (x 0) in
  qr_works qr -> (0 < nst)%N ->
  full_rank (adj (path_product (cont_step 6 Bu V) path) *m psi.1) ->
  full_rank (adj (path_product (cont_step 6 Bd V) path) *m psi.2) ->
  goes_back (cont_step 6 Bu V) (cont_step 6 Bd V) path nst psi
    (back_propagate_generic qr isq hs Bu Bd nst store path psi).
Proof.
move=> C qr n nu nd nc isq hs Bu Bd nst store path psi V Q n0 fu fd.
apply: goes_back_ok => // x _; exact: construct_contE.
Qed.

Theorem C51_planewave_partial : forall (C : numClosedFieldType) (qr : qr_type C)
    n nu nd nc sq (iA iB : 'I_nc -> 'M[C]_n) Bu Bd nst store path
    (psi : 'M[C]_(n, nu) * 'M[C]_(n, nd)),
  let V (x : 'rV[C]_(nc + nc)) :=
    sq *: (field_sum iA (lsubmx x 0) + field_sum iB (rsubmx x 0)) in
  qr_works qr -> (0 < nst)%N ->
  full_rank (adj (path_product (cont_step 6 Bu V) path) *m psi.1) ->
  full_rank (adj (path_product (cont_step 6 Bd V) path) *m psi.2) ->
  goes_back (cont_step 6 Bu V) (cont_step 6 Bd V) path nst psi
    (back_propagate_planewave qr sq iA iB Bu Bd nst store path psi).
Proof.
move=> C qr n nu nd nc sq iA iB Bu Bd nst store path psi V Q n0 fu fd.
apply: goes_back_ok => // x _; exact: construct_contE.
Qed.

(* With forward steps of that order: the overlap of the back-propagated trial
   with the old walker is that of the trial with the propagated one, up to a
   positive number that is 1 when nothing was orthogonalised. *)
Theorem C51_overlap_partial : forall (C : numClosedFieldType) (qr : qr_type C)
    n nu nd nc isq (hs : 'I_nc -> 'M[C]_n) Bu Bd nst store path
    (psi phi : 'M[C]_(n, nu) * 'M[C]_(n, nd)),
  qr_works qr -> (0 < nst)%N ->
  let new := forward_path (forward_generic (Z.of_nat 6) isq hs Bu Bd) path phi in
  overlap2 psi.1 new.1 psi.2 new.2 != 0 ->
  exists b st d,
    back_propagate_generic qr isq hs Bu Bd nst store path psi = Ok (b, st)
    /\ 0 < d
    /\ overlap2 psi.1 new.1 psi.2 new.2 = d * overlap2 b.1 phi.1 b.2 phi.2
    /\ ((size path <= nst)%N -> d = 1).
Proof.
move=> C qr n nu nd nc isq hs Bu Bd nst store path psi phi Q n0 new.
rewrite /new C51_forward_generic Nat2Z.id /overlap2; cbn [fst snd] => nz.
move: (nz); rewrite mulf_eq0 negb_or => /andP[/back_of_full fu /back_of_full fd].
have [b [st [du [dd [e [[_ pu ou _] [[_ pd od _] s]]]]]]] :=
  C51_generic_partial store Q n0 fu fd.
exists b, st, (du * dd); split=> //; split; first exact: mulr_gt0.
split; first by rewrite ou od mulrACA.
by move=> h; have [-> -> _ _] := s h; rewrite mulr1.
Qed.

(* What is stored along the way: after step j, the result of back propagation
   with the last j fields. *)
Theorem C51_store : forall (C : numClosedFieldType) (qr : qr_type C) F n nu nd
    (B : F -> res ('M[C]_n * 'M[C]_n)) nst path
    (psi b : 'M[C]_(n, nu) * 'M[C]_(n, nd)) st,
  back_propagate qr B nst true path psi = Ok (b, st) ->
  size st = size path /\
  forall j, (j < size path)%N -> exists st',
    back_propagate qr B nst true (drop (size path - j.+1) path) psi
    = Ok (nth psi st j, st').
Proof.
move=> C qr F n nu nd B nst path psi b st; rewrite /back_propagate.
case E: (back_loop _ _ _ _ _ _) => [[b' st']|//] [eb es].
have [s h] := loop_store E; rewrite size_rev in s h.
rewrite -es; split=> // j /h [st'' e]; exists st''; move: e.
by rewrite take_rev => ->.
Qed.

(* nstblz = 0: the remainder is taken at the second step. *)
Theorem C51_zero_refuted : forall (C : numClosedFieldType) (qr : qr_type C)
    n nu nd nc isq (hs : 'I_nc -> 'M[C]_n) Bu Bd store path
    (psi : 'M[C]_(n, nu) * 'M[C]_(n, nd)),
  (1 < size path)%N ->
  back_propagate_generic qr isq hs Bu Bd 0 store path psi
  = Err ZeroDivisionError.
Proof.
move=> C qr n nu nd nc isq hs Bu Bd store path psi h.
apply: (@back_zero C qr _ n nu nd _
   (fun x => trotter Bu (taylor 6 (vhs_generic isq hs x)))
   (fun x => trotter Bd (taylor 6 (vhs_generic isq hs x)))) h.
by move=> x _; exact: construct_contE.
Qed.

(* The order of the expansion can be chosen for the forward steps only: for
   every choice but 6 there are fields for which the overlaps differ. *)
Theorem C51_order_refuted : forall (C : numClosedFieldType) (qr : qr_type C)
    nmax nst store (isq : C),
  Z.to_nat nmax != 6%N -> isq != 0 ->
  exists (hs : 'I_1 -> 'M[C]_1) (x : 'rV[C]_1) b st,
    back_propagate_generic qr isq hs 1%:M 1%:M nst store [:: x]
      ((1%:M : 'M[C]_1), (0 : 'M[C]_(1, 0))) = Ok (b, st)
    /\ let phi := forward_path (forward_generic nmax isq hs 1%:M 1%:M) [:: x]
                    ((1%:M : 'M[C]_1), (0 : 'M[C]_(1, 0))) in
       overlap2 (1%:M : 'M[C]_1) phi.1 (0 : 'M[C]_(1, 0)) phi.2
       <> overlap2 b.1 (1%:M : 'M[C]_1) b.2 (0 : 'M[C]_(1, 0)).
Proof. exact: order_refuted. Qed.

(* Discrete fields, spin decomposition: the adjoint of the product of the
   site matrices; the forward walk has e^(-dt U/2) besides. *)
Theorem C51_hubbard_partial : forall (C : numClosedFieldType) (qr : qr_type C)
    n nu nd ep em (Bu Bd : 'M[C]_n) nst store (path : seq ('I_n -> bool))
    (psi : 'M[C]_(n, nu) * 'M[C]_(n, nd)),
  let Su := site_step Bu (fun x => spin_site ep em x false) in
  let Sd := site_step Bd (fun x => spin_site ep em x true) in
  qr_works qr -> (0 < nst)%N ->
  full_rank (adj (path_product Su path) *m psi.1) ->
  full_rank (adj (path_product Sd path) *m psi.2) ->
  goes_back Su Sd path nst psi
    (back_propagate_hubbard qr ep em Bu Bd nst store
       [seq stored x | x <- path] psi)
  /\ forall f (phi : 'M[C]_(n, nu) * 'M[C]_(n, nd)),
       forward_path (forward_discrete false f ep em Bu Bd) path phi
       = (f ^+ size path *: (path_product Su path *m phi.1),
          f ^+ size path *: (path_product Sd path *m phi.2)).
Proof.
move=> C qr n nu nd ep em Bu Bd nst store path psi Su Sd Q n0 fu fd.
split; last by move=> f phi; exact: forward_spinE.
exact: hubbard_goes_back.
Qed.

Theorem C51_hubbard_overlap : forall (C : numClosedFieldType) (qr : qr_type C)
    n nu nd f ep em (Bu Bd : 'M[C]_n) nst store (path : seq ('I_n -> bool))
    (psi phi : 'M[C]_(n, nu) * 'M[C]_(n, nd)),
  qr_works qr -> (0 < nst)%N ->
  let new := forward_path (forward_discrete false f ep em Bu Bd) path phi in
  overlap2 psi.1 new.1 psi.2 new.2 != 0 ->
  exists b st d,
    back_propagate_hubbard qr ep em Bu Bd nst store
      [seq stored x | x <- path] psi = Ok (b, st)
    /\ 0 < d
    /\ overlap2 psi.1 new.1 psi.2 new.2
       = f ^+ (size path * (nu + nd)) * (d * overlap2 b.1 phi.1 b.2 phi.2)
    /\ ((size path <= nst)%N -> d = 1).
Proof.
move=> C qr n nu nd f ep em Bu Bd nst store path psi phi Q n0 new.
rewrite /new forward_spinE /overlap2; cbn [fst snd].
rewrite !overlap_scale => nz; move: (nz).
rewrite !mulf_eq0 !negb_or => /andP[/andP[_ /back_of_full fu] /andP[_ /back_of_full fd]].
have [[b [st [du [dd [e [[_ pu ou _] [[_ pd od _] s]]]]]]] _] :=
  C51_hubbard_partial store Q n0 fu fd.
exists b, st, (du * dd); split=> //; split; first exact: mulr_gt0.
split; first by rewrite ou od mulrACA -exprM -exprM -exprD -mulnDr (mulrACA du).
by move=> h; have [-> -> _ _] := s h; rewrite mulr1.
Qed.

(* So the overlaps differ whenever that number is not 1. *)
Theorem C51_hubbard_overlap_refuted : forall (C : numClosedFieldType)
    (qr : qr_type C) nst store f (ep em : C),
  f != 1 -> ep != 0 ->
  exists (x : 'I_1 -> bool) (psi : 'M[C]_1) b st,
    back_propagate_hubbard qr ep em 1%:M 1%:M nst store [:: stored x]
      (psi, (0 : 'M[C]_(1, 0))) = Ok (b, st)
    /\ let phi := forward_path (forward_discrete false f ep em 1%:M 1%:M) [:: x]
                    (psi, (0 : 'M[C]_(1, 0))) in
       overlap2 psi phi.1 (0 : 'M[C]_(1, 0)) phi.2
       <> overlap2 b.1 psi b.2 (0 : 'M[C]_(1, 0)).
Proof. exact: hubbard_overlap_refuted. Qed.

(* Charge decomposition: the fields are put into the spin matrices, and not
   even the spans agree. *)
Theorem C51_charge_refuted : forall (C : numClosedFieldType) (qr : qr_type C)
    nst store (f ep ep' : C),
  f != 0 -> ep != 0 -> ep' != 0 -> ep ^+ 4 != 1 ->
  exists (x : 'I_2 -> bool) (psi : 'M[C]_(2, 1) * 'M[C]_(2, 1)) b st,
    back_propagate_hubbard qr ep ep^-1 1%:M 1%:M nst store [:: stored x] psi
      = Ok (b, st)
    /\ forall Pu Pd : 'M[C]_2,
         (forall phi : 'M[C]_2 * 'M[C]_2,
            forward_path (forward_discrete true f ep' ep'^-1 1%:M 1%:M) [:: x] phi
            = (Pu *m phi.1, Pd *m phi.2)) ->
         ~ (same_span (adj Pu *m psi.1) b.1 /\ same_span (adj Pd *m psi.2) b.2).
Proof. exact: charge_refuted. Qed.

(* Continuous fields of the Hubbard propagators: a field whose integer part
   is 2 or more raises. *)
Theorem C51_continuous_refuted : forall (C : numClosedFieldType) (qr : qr_type C)
    n nu nd (ep em : C) (Bu Bd : 'M[C]_n) nst store path (x : 'I_n -> Z)
    (i : 'I_n) (psi : 'M[C]_(n, nu) * 'M[C]_(n, nd)),
  Z.le (Z.of_nat 2) (x i) ->
  back_propagate_hubbard qr ep em Bu Bd nst store (rcons path x) psi
  = Err IndexError.
Proof.
move=> C qr n nu nd ep em Bu Bd nst store path x i psi h.
rewrite /back_propagate_hubbard /back_propagate rev_rcons.
by rewrite /= (@construct_bad C qr n ep em Bu Bd x i); [|left].
Qed.

(* Combinations of GHF determinants: with the determinants of the factors
   kept as weights the overlap is exact at every length, provided the system
   has the table of site factors. *)
Theorem C51_ghf_partial : forall (C : numClosedFieldType) (qr : qr_type C)
    n m (a : bool -> bool -> C) (B : 'M[C]_(n + n)) nst
    (path : seq ('I_n -> bool)) (dets : seq 'M[C]_(n + n, m)),
  let G (x : 'I_n -> bool) :=
    trotter B (block_mx (diag_mx (\row_i a (x i) false)) 0 0
                        (diag_mx (\row_i a (x i) true))) in
  qr_works qr -> (0 < nst)%N ->
  (forall d, d \in dets -> full_rank (adj (path_product G path) *m d)) ->
  exists ds,
    back_propagate_ghf qr (Some a) B nst [seq stored x | x <- path] dets = Ok ds
    /\ forall phi, comb_overlap ds phi
         = comb_overlap [seq (1, d) | d <- dets] (path_product G path *m phi).
Proof. move=> C qr n m a B nst path dets G Q n0 f; exact: (ghf_goes_back Q). Qed.

(* No system has it. *)
Theorem C51_ghf_refuted : forall (C : numClosedFieldType) (qr : qr_type C)
    n m (B : 'M[C]_(n + n)) nst path (dets : seq 'M[C]_(n + n, m)),
  (0 < size path)%N ->
  back_propagate_ghf qr None B nst path dets = Err AttributeError.
Proof. exact: ghf_attr. Qed.

(* A call with an argument missing. *)
Theorem C51_single_refuted : forall (C : numClosedFieldType) n nu nd
    (path : seq ('I_n -> Z)) (psi : 'M[C]_(n, nu) * 'M[C]_(n, nd)),
  (0 < size path)%N -> back_propagate_single path psi = Err TypeError.
Proof. by move=> C n nu nd []. Qed.

(* The hypotheses hold for the unit matrix and no fields at all, or for a
   path of fields that vanish. *)
Example C51_instance : forall (C : numClosedFieldType) (path : seq 'rV[C]_1),
  full_rank (adj (path_product (cont_step 6 1%:M
     (fun x : 'rV[C]_1 => 0 *: field_sum (fun _ : 'I_1 => (1%:M : 'M[C]_2)) (x 0)))
     path) *m (1%:M : 'M[C]_2)).
Proof.
move=> C path; rewrite mulmx1 (_ : path_product _ _ = 1%:M).
  by rewrite adj_one /full_rank mxrank1.
elim/last_ind: path => [//|p x IH]; rewrite path_rcons IH mulmx1.
by rewrite /cont_step /trotter mul1mx mulmx1 scale0r taylor_zero.
Qed.

Print Assumptions C51_qr_exists.
Print Assumptions C51_forward_generic.
Print Assumptions C51_forward_planewave.
Print Assumptions C51_generic_partial.
Print Assumptions C51_planewave_partial.
Print Assumptions C51_overlap_partial.
Print Assumptions C51_store.
Print Assumptions C51_zero_refuted.
Print Assumptions C51_order_refuted.
Print Assumptions C51_hubbard_partial.
Print Assumptions C51_hubbard_overlap.
Print Assumptions C51_hubbard_overlap_refuted.
Print Assumptions C51_charge_refuted.
Print Assumptions C51_continuous_refuted.
Print Assumptions C51_ghf_partial.
Print Assumptions C51_ghf_refuted.
Print Assumptions C51_single_refuted.
