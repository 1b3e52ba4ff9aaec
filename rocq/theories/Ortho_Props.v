(* Property theorems: re-orthogonalisation (C41) and mixed Green's functions
   (C42).  qr stands for the library's QR; the hypotheses say that it returned
   a QR factorisation of the orbitals at hand. *)

From Verif Require Import Base.
Set Warnings "-notation-overridden,-ambiguous-paths".
From mathcomp Require Import all_ssreflect all_algebra.
From Verif Require Import Rank1_Spec Ortho_Model Ortho_Spec Ortho_Proofs.

Set Implicit Arguments.
Unset Strict Implicit.
Unset Printing Implicit Defensive.

Import Order.TTheory GRing.Theory Num.Theory.
Local Open Scope ring_scope.

Notation qr_type C := (forall n m, 'M[C]_(n, m) -> 'M[C]_(n, m) * 'M[C]_m).

(* linalg.reortho: the result is an orthonormal basis of the same space, and
   every overlap is multiplied by a positive number, the one returned. *)
Theorem C41_reortho : forall (C : numClosedFieldType) (qr : qr_type C) n m
    (A : 'M[C]_(n, m)),
  is_qr A (qr n m A).1 (qr n m A).2 -> full_rank A ->
  let (Q, d) := reortho qr A in
  [/\ orthonormal Q, same_span A Q, 0 < d
    & forall psi, overlap (@conjC C) psi A = overlap (@conjC C) psi Q * d].
Proof.
move=> C qr n m A h f; rewrite (reortho_eq h); split.
- exact: qr_orthonormal h f.
- exact: qr_span h f.
- exact: abs_prod_gt0 h f.
- move=> psi; exact: qr_overlap h f psi.
Qed.

(* Single-determinant walkers: orbitals. *)
Theorem C41_single_orbitals : forall (C : numClosedFieldType) (qr : qr_type C)
    n nu nd (s : C) (w : walker C n nu nd),
  is_qr (w_up w) (qr n nu (w_up w)).1 (qr n nu (w_up w)).2 ->
  is_qr (w_dn w) (qr n nd (w_dn w)).1 (qr n nd (w_dn w)).2 ->
  full_rank (w_up w) -> full_rank (w_dn w) ->
  let w' := (reortho_single qr s w).1 in
  [/\ orthonormal (w_up w'), orthonormal (w_dn w'),
      same_span (w_up w) (w_up w') & same_span (w_dn w) (w_dn w')].
Proof. move=> C qr n nu nd s w h1 h2 f1 f2; exact: single_orbitals. Qed.

(* The Green's functions and the half-rotated ones of both spins, and with
   them every energy computed from them, are unchanged. *)
Theorem C41_single_green : forall (C : numClosedFieldType) (qr : qr_type C)
    n nu nd (s : C) (psiu : 'M[C]_(n, nu)) (psid : 'M[C]_(n, nd))
    (w : walker C n nu nd),
  is_qr (w_up w) (qr n nu (w_up w)).1 (qr n nu (w_up w)).2 ->
  is_qr (w_dn w) (qr n nd (w_dn w)).1 (qr n nd (w_dn w)).2 ->
  full_rank (w_up w) -> full_rank (w_dn w) ->
  ovlp_mx (@conjC C) psiu (w_up w) \in unitmx ->
  ovlp_mx (@conjC C) psid (w_dn w) \in unitmx ->
  (green_walker 1 psiu psid (reortho_single qr s w).1).1
  = (green_walker 1 psiu psid w).1.
Proof. move=> C qr n nu nd s pu pd w h1 h2 f1 f2; exact: single_green. Qed.

(* The determinant returned with them is the overlap, times the shift. *)
Theorem C41_green_overlap : forall (C : numClosedFieldType) n nu nd (s : C)
    (psiu : 'M[C]_(n, nu)) (psid : 'M[C]_(n, nd)) (w : walker C n nu nd),
  (green_walker s psiu psid w).2 = overlap2 psiu (w_up w) psid (w_dn w) * s.
Proof. by move=> C n nu nd s pu pd w; exact: green_walker_overlap. Qed.

(* The overlap with every trial is divided by detR (times the shift), and so
   are ot and ovlp. *)
Theorem C41_single_overlap : forall (C : numClosedFieldType) (qr : qr_type C)
    n nu nd (s : C) (psiu : 'M[C]_(n, nu)) (psid : 'M[C]_(n, nd))
    (w : walker C n nu nd),
  s != 0 ->
  is_qr (w_up w) (qr n nu (w_up w)).1 (qr n nu (w_up w)).2 ->
  is_qr (w_dn w) (qr n nd (w_dn w)).1 (qr n nd (w_dn w)).2 ->
  full_rank (w_up w) -> full_rank (w_dn w) ->
  let (w', d) := reortho_single qr s w in
  [/\ d != 0,
      overlap2 psiu (w_up w) psid (w_dn w) * s
      = overlap2 psiu (w_up w') psid (w_dn w') * d,
      w_ot w = w_ot w' * d & w_ovlp w' = w_ot w'].
Proof. move=> C qr n nu nd s pu pd w s0 h1 h2 f1 f2; exact: single_overlap. Qed.

(* If ot was the overlap (times some t, the log_shift factor) it still is, up
   to the shift: with detR_shift = 0 (s = 1) nothing changes. *)
Theorem C41_single_consistent : forall (C : numClosedFieldType)
    (qr : qr_type C) n nu nd (s t : C) (psiu : 'M[C]_(n, nu))
    (psid : 'M[C]_(n, nd)) (w : walker C n nu nd),
  s != 0 ->
  is_qr (w_up w) (qr n nu (w_up w)).1 (qr n nu (w_up w)).2 ->
  is_qr (w_dn w) (qr n nd (w_dn w)).1 (qr n nd (w_dn w)).2 ->
  full_rank (w_up w) -> full_rank (w_dn w) ->
  w_ot w = overlap2 psiu (w_up w) psid (w_dn w) * t ->
  let w' := (reortho_single qr s w).1 in
  w_ot w' = overlap2 psiu (w_up w') psid (w_dn w') * (t / s).
Proof.
move=> C qr n nu nd s t pu pd w s0 h1 h2 f1 f2; exact: single_consistent.
Qed.

(* Multi-determinant walkers. *)
Theorem C41_multi : forall (C : numClosedFieldType) (qr : qr_type C)
    n nu nd (psiu : 'M[C]_(n, nu)) (psid : 'M[C]_(n, nd))
    (w : walker C n nu nd),
  is_qr (w_up w) (qr n nu (w_up w)).1 (qr n nu (w_up w)).2 ->
  is_qr (w_dn w) (qr n nd (w_dn w)).1 (qr n nd (w_dn w)).2 ->
  full_rank (w_up w) -> full_rank (w_dn w) ->
  let (w', d) := reortho_multi qr w in
  [/\ 0 < d,
      overlap2 psiu (w_up w) psid (w_dn w)
      = overlap2 psiu (w_up w') psid (w_dn w') * d,
      w_ot w = w_ot w' * d &
      [/\ orthonormal (w_up w'), orthonormal (w_dn w'),
          same_span (w_up w) (w_up w') & same_span (w_dn w) (w_dn w')]].
Proof. move=> C qr n nu nd pu pd w h1 h2 f1 f2; exact: multi_overlap. Qed.

(* The multi-determinant Green's function: while all overlaps stay above the
   threshold, the Green's function of every determinant is unchanged and all
   weights are divided by the same number. *)
Theorem C41_multi_green_partial : forall (C : numClosedFieldType)
    (qr : qr_type C) n nu nd (eps : C)
    (trial : list (C * 'M[C]_(n, nu) * 'M[C]_(n, nd)))
    (w : walker C n nu nd) (sts sts' : list (detstore C n)),
  is_qr (w_up w) (qr n nu (w_up w)).1 (qr n nu (w_up w)).2 ->
  is_qr (w_dn w) (qr n nd (w_dn w)).1 (qr n nd (w_dn w)).2 ->
  full_rank (w_up w) -> full_rank (w_dn w) -> 0 < eps ->
  length sts = length trial -> length sts' = length trial ->
  let (w', d) := reortho_multi qr w in
  (forall t, List.In t trial ->
     (eps <= `|overlap (@conjC C) t.1.2 (w_up w)| /\
      eps <= `|overlap2 t.1.2 (w_up w) t.2 (w_dn w)|) /\
     (eps <= `|overlap (@conjC C) t.1.2 (w_up w')| /\
      eps <= `|overlap2 t.1.2 (w_up w') t.2 (w_dn w')|)) ->
  let r := green_dets eps trial (w_up w) (w_dn w) sts 0 in
  let r' := green_dets eps trial (w_up w') (w_dn w') sts' 0 in
  r.2 = r'.2 * d /\
  List.Forall2 (fun x y =>
    [/\ d_Gup x = d_Gup y, d_Gdn x = d_Gdn y & d_weight x = d_weight y * d])
    r.1 r'.1.
Proof.
move=> C qr n nu nd eps trial w sts sts' h1 h2 f1 f2; exact: multi_dets.
Qed.

(* ... but the threshold is absolute, so an overlap that is small only because
   the orbitals are not normalised is dropped before re-orthogonalisation and
   seen after it. *)
Theorem C41_multi_green_refuted : forall (C : numClosedFieldType) (eps : C),
  0 < eps -> eps <= 1 ->
  exists (qr : qr_type C) (w : walker C 1 1 1),
  let trial := [:: (1, 1%:M, 1%:M) : C * 'M[C]_1 * 'M[C]_1] in
  let sts := [:: MkDet 0 0 0 0] in
  let w' := (reortho_multi qr w).1 in
  [/\ is_qr (w_up w) (qr 1%N 1%N (w_up w)).1 (qr 1%N 1%N (w_up w)).2 /\
      is_qr (w_dn w) (qr 1%N 1%N (w_dn w)).1 (qr 1%N 1%N (w_dn w)).2,
      full_rank (w_up w) /\ full_rank (w_dn w),
      overlap_sum trial (w_up w) (w_dn w) != 0,
      green_dets eps trial (w_up w) (w_dn w) sts 0 = (sts, 0) &
      green_dets eps trial (w_up w') (w_dn w') sts 0
      = ([:: MkDet 1%:M 1%:M 1 1], 1)].
Proof. exact: threshold. Qed.

(* Free projection: weight, phase and ot change together, so that the product
   of weight, phase and ot, and the product of weight, phase and overlap, are
   those of the walker before (times the shift); weights stay non-negative. *)
Theorem C41_free : forall (C : numClosedFieldType) (qr : qr_type C)
    n nu nd (s : C) (psiu : 'M[C]_(n, nu)) (psid : 'M[C]_(n, nd))
    (ws : list (walker C n nu nd)),
  s != 0 ->
  (forall w, List.In w ws ->
     (is_qr (w_up w) (qr n nu (w_up w)).1 (qr n nu (w_up w)).2 /\
      is_qr (w_dn w) (qr n nd (w_dn w)).1 (qr n nd (w_dn w)).2) /\
     (full_rank (w_up w) /\ full_rank (w_dn w))) ->
  exists2 ws', orthogonalise true (reo_single qr s) ws = Ok ws' &
  List.Forall2 (fun w w' =>
    [/\ w_weight w' * w_phase w' * w_ot w' = w_weight w * w_phase w * w_ot w,
        w_weight w' * w_phase w' * overlap2 psiu (w_up w') psid (w_dn w')
        = w_weight w * w_phase w
          * (overlap2 psiu (w_up w) psid (w_dn w) * s),
        `|w_phase w'| = `|w_phase w| &
        0 <= w_weight w -> 0 <= w_weight w']) ws ws'.
Proof. move=> C qr n nu nd s pu pd ws; exact: free_all. Qed.

(* Constrained runs: only reortho acts; weights and phases are untouched. *)
Theorem C41_constrained : forall (C : numClosedFieldType) n nu nd
    (reo : walker C n nu nd -> walker C n nu nd * option C) ws,
  orthogonalise false reo ws = Ok (List.map (fun w => (reo w).1) ws).
Proof. exact: constrained_all. Qed.

(* GHF walkers: ot is recomputed from the new orbitals ... *)
Theorem C41_ghf : forall (C : numClosedFieldType) (qr : qr_type C)
    n nu nd (psiu : 'M[C]_(n, nu)) (psid : 'M[C]_(n, nd)) otrial
    (w : walker C n nu nd),
  is_qr (w_up w) (qr n nu (w_up w)).1 (qr n nu (w_up w)).2 ->
  is_qr (w_dn w) (qr n nd (w_dn w)).1 (qr n nd (w_dn w)).2 ->
  full_rank (w_up w) -> full_rank (w_dn w) ->
  let w' := (reo_ghf qr otrial w).1 in
  [/\ orthonormal (w_up w'), orthonormal (w_dn w'),
      same_span (w_up w) (w_up w'), same_span (w_dn w) (w_dn w')
    & w_ot w' = otrial (w_up w') (w_dn w')].
Proof. move=> C qr n nu nd pu pd ot w h1 h2 f1 f2; exact: ghf_constrained. Qed.

(* ... but their reortho returns nothing, so free projection fails on the
   first walker. *)
Theorem C41_ghf_free_refuted : forall (C : numClosedFieldType) (qr : qr_type C)
    n nu nd otrial (w : walker C n nu nd) (ws : list (walker C n nu nd)),
  orthogonalise true (reo_ghf qr otrial) (cons w ws) = Err TypeError.
Proof. exact: ghf_free. Qed.

(* The vector (3, 4) with Q = -(3/5, 4/5) and R = -5. *)
Example C41_example : forall C : numClosedFieldType,
  is_qr (v34 C) (q34 C) (- 5%:R)%:M /\ full_rank (v34 C) /\
  signs ((- 5%:R)%:M : 'M[C]_1) = (-1)%:M.
Proof. move=> C; split; [exact: v34_qr|split; [exact: v34_full|exact: v34_new]]. Qed.

(* All routines return the same Green's function, gab its transpose. *)
Theorem C42_forms : forall (C : numClosedFieldType) n m (A B : 'M[C]_(n, m)),
  [/\ gab A B = (green (@conjC C) A B)^T,
      gab_mod A B = (green (@conjC C) A B, green_half A B),
      gab_mod_ovlp A B
      = (green (@conjC C) A B, green_half A B,
         (invmx (ovlp_mx (@conjC C) A B))^T) &
      green_single A B
      = (green (@conjC C) A B, green_half A B, overlap (@conjC C) A B)].
Proof.
move=> C n m A B; split.
- exact: gab_green.
- exact: gab_mod_green.
- exact: gab_mod_ovlp_green.
- exact: green_single_green.
Qed.

(* It is the response of the overlap to c_i^+ c_j: mixing a multiple of row j
   into row i of the walker multiplies the overlap by 1 + e G_ij. *)
Theorem C42_response : forall (C : numClosedFieldType) n m
    (psi phi : 'M[C]_(n, m)) (e : C) i j,
  ovlp_mx (@conjC C) psi phi \in unitmx ->
  overlap (@conjC C) psi ((1%:M + e *: delta_mx i j) *m phi)
  = overlap (@conjC C) psi phi * (1 + e * green (@conjC C) psi phi i j).
Proof. exact: thouless. Qed.

(* It is a projector of trace and rank m onto the walker along the trial. *)
Theorem C42_projector : forall (C : numClosedFieldType) n m
    (A B : 'M[C]_(n, m)),
  ovlp_mx (@conjC C) A B \in unitmx ->
  [/\ (gab_mod A B).1 *m (gab_mod A B).1 = (gab_mod A B).1,
      \tr (gab_mod A B).1 = m%:R,
      \rank (gab A B) = m,
      gab A B *m B = B & adj A *m gab A B = adj A].
Proof.
move=> C n m A B h; rewrite gab_mod_green; split.
- exact: green_proj.
- exact: green_trace.
- exact: gab_rank.
- exact: gab_fix.
- exact: gab_fix_left.
Qed.

(* It does not depend on the bases; the half-rotated form does not depend on
   the basis of the walker and is covariant in that of the trial. *)
Theorem C42_basis : forall (C : numClosedFieldType) n m
    (A B : 'M[C]_(n, m)) (X Y : 'M[C]_m),
  ovlp_mx (@conjC C) A B \in unitmx -> X \in unitmx -> Y \in unitmx ->
  [/\ (gab_mod (A *m X) (B *m Y)).1 = (gab_mod A B).1,
      (gab_mod A (B *m Y)).2 = (gab_mod A B).2 &
      (gab_mod (A *m X) B).2
      = invmx (map_mx (@conjC C) X) *m (gab_mod A B).2].
Proof.
move=> C n m A B X Y h hX hY; rewrite !gab_mod_green; split=> /=.
- by rewrite green_left ?unit_right // green_right.
- exact: half_right.
- exact: half_left.
Qed.

(* Half-rotated and full forms of a one-body expectation value. *)
Theorem C42_half : forall (C : numClosedFieldType) n m (h : 'M[C]_n)
    (A B : 'M[C]_(n, m)),
  dot_mx h (gab_mod A B).1 = dot_mx (adj A *m h) (gab_mod A B).2.
Proof. move=> C n m h A B; rewrite gab_mod_green; exact: half_contract. Qed.

(* gab_spin with down electrons ... *)
Theorem C42_spin : forall (C : numClosedFieldType) n na nb
    (A B : 'M[C]_(n, na + nb)),
  (0 < nb)%N ->
  gab_spin A B
  = Ok (green (@conjC C) (lsubmx A) (lsubmx B),
        green (@conjC C) (rsubmx A) (rsubmx B),
        (green_half (lsubmx A) (lsubmx B), green_half (rsubmx A) (rsubmx B))).
Proof. exact: gab_spin_ok. Qed.

(* ... and without. *)
Theorem C42_spin_refuted : forall (C : numClosedFieldType) n na
    (A B : 'M[C]_(n, na + 0)),
  gab_spin A B = Err UnboundLocalError.
Proof. exact: gab_spin_nb0. Qed.

Example C42_example : forall (C : numClosedFieldType) (d : C), d != 0 ->
  overlap (@conjC C) (1%:M : 'M[C]_1) (d%:M : 'M[C]_1) = d /\
  green (@conjC C) (1%:M : 'M[C]_1) (d%:M : 'M[C]_1) = 1%:M.
Proof. move=> C d h; split; [exact: one_overlap|exact: one_green]. Qed.

Print Assumptions C41_reortho.
Print Assumptions C41_single_orbitals.
Print Assumptions C41_single_green.
Print Assumptions C41_green_overlap.
Print Assumptions C41_single_overlap.
Print Assumptions C41_single_consistent.
Print Assumptions C41_multi.
Print Assumptions C41_multi_green_partial.
Print Assumptions C41_multi_green_refuted.
Print Assumptions C41_free.
Print Assumptions C41_constrained.
Print Assumptions C41_ghf.
Print Assumptions C41_ghf_free_refuted.
Print Assumptions C42_forms.
Print Assumptions C42_response.
Print Assumptions C42_projector.
Print Assumptions C42_basis.
Print Assumptions C42_half.
Print Assumptions C42_spin.
Print Assumptions C42_spin_refuted.
