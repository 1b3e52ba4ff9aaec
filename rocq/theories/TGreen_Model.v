(* Finite-temperature Green's functions from factorisations.

   Sources (all under /repo/pauxy):
     estimators/thermal.py 8-196   greens_function_unstable,
                                   greens_function, inverse_greens_function,
                                   inverse_greens_function_qr, one_rdm,
                                   one_rdm_from_G, particle_number,
                                   one_rdm_stable
     walkers/thermal.py 97-139     greens_function_svd
     walkers/thermal.py 141-184    greens_function_qr
     walkers/thermal.py 186-235    compute_left_right
     walkers/thermal.py 382-392    the Woodbury branch of
                                   greens_function_left_right
     walkers/thermal.py 395-470    greens_function_left_right_no_truncation
     walkers/thermal.py 472-543    greens_function_qr_strat

   Simplifications: matrices over an arbitrary numerically closed field C
   (exact arithmetic, conjugation and modulus those of C).  scipy.linalg.svd
   and qr, with and without pivoting, are arguments.  scipy.linalg.inv and
   1.0/x are total (the theorems say when they are applied to invertible
   arguments).  solve_triangular reads the upper triangle of its matrix only.
   The spin axis is dropped: both spins are treated alike and never mix; a
   pair of matrices appears where the two spins meet (particle_number).  The
   stack of bins is the record of PropStack_Model. *)

From Verif Require Import Base.
Set Warnings "-notation-overridden,-ambiguous-paths".
From mathcomp Require Import all_ssreflect all_fingroup all_algebra.
From Verif Require Import PropStack_Model.
From Verif Require Ortho_Model.

Set Implicit Arguments.
Unset Strict Implicit.
Unset Printing Implicit Defensive.

Import Order.TTheory GRing.Theory Num.Theory.
Local Open Scope ring_scope.

Section TGreen.
Variable C : numClosedFieldType.
Variable n : nat.
Notation M := 'M[C]_n.

Definition dag p m (A : 'M[C]_(p, m)) : 'M[C]_(m, p) :=
  (map_mx (@conjC C) A)^T.

(* (U, S, V) with A = U diag(S) V *)
Variable svd : M -> M * 'rV[C]_n * M.
(* (Q, R) *)
Variable qr : M -> M * M.
(* (Q, R, P) with A[:,P] = Q R *)
Variable qrp : M -> M * M * 'S_n.

(* 1.0/S *)
Definition inv_row m (S : 'rV[C]_m) : 'rV[C]_m := \row_i (S 0 i)^-1.

Definition triu (V : M) : M := \matrix_(i, j) (if (i <= j)%N then V i j else 0).

(* scipy.linalg.solve_triangular(V, identity) *)
Definition tri_inv (V : M) : M := invmx (triu V).

(* estimators/thermal.py 25-26 *)
Definition greens_function_unstable (A : M) : M := invmx (1%:M + A).

(* estimators/thermal.py 47-54; walkers/thermal.py 125-138 given U1, S1, V1 *)
Definition green_of_svd (f : 'rV[C]_n -> 'rV[C]_n) (U1 : M) (S1 : 'rV[C]_n)
    (V1 : M) : M :=
  let T := dag U1 *m dag V1 + diag_mx S1 in
  let '(U2, S2, V2) := svd T in
  let U3 := U1 *m U2 in
  let D3 := diag_mx (f S2) in
  let V3 := V2 *m V1 in
  dag V3 *m D3 *m dag U3.

Definition greens_function (A : M) : M :=
  let '(U1, S1, V1) := svd A in green_of_svd (@inv_row n) U1 S1 V1.

(* estimators/thermal.py 57-68: D3 = diag(S2) *)
Definition inverse_greens_function (A : M) : M :=
  let '(U1, S1, V1) := svd A in green_of_svd id U1 S1 V1.

(* estimators/thermal.py 70-90 *)
Definition inverse_greens_function_qr (A : M) : M :=
  let '(U1, V1) := qr A in
  let V1inv := tri_inv V1 in
  let T := dag U1 *m V1inv + 1%:M in
  let '(U2, V2) := qr T in
  let U3 := U1 *m U2 in
  let V3 := V2 *m V1 in
  U3 *m V3.

(* estimators/thermal.py 111-113 and 130-131, one spin *)
Definition one_rdm_from_G (G : M) : M := 1%:M - G^T.

Definition one_rdm (A : M) : M := one_rdm_from_G (greens_function A).

(* estimators/thermal.py 146 *)
Definition particle_number (P : M * M) : C := \tr P.1 + \tr P.2.

(* The loop over the bins of the stack: the first bin starts the
   factorisation, every later one extends it.  Bin numbers as in
   PropStack_Model.path_product. *)
Definition walk (S : Type) (start : M -> S) (step : M -> S -> S)
    (p : pstack C n) (slice_ix : nat) : res S :=
  if stack_size p == 0%N then Err ZeroDivisionError else
  if nbins p == 0%N then Err ZeroDivisionError else
  let f := first_bin p slice_ix in
  rbind (item (stk p) (f %% nbins p)%N) (fun A0 =>
  rfold (fun s i => rbind (item (stk p) ((f + i) %% nbins p)%N)
                          (fun B => Ok (step B s)))
        (start A0) (iota 1 (nbins p).-1)).

(* walkers/thermal.py 112-122 *)
Definition svd_step (B : M) (s : M * 'rV[C]_n * M) : M * 'rV[C]_n * M :=
  let '(U1, S1, V1) := s in
  let T1 := B *m U1 in
  let T2 := T1 *m diag_mx S1 in
  let '(U1', S1', V) := svd T2 in
  (U1', S1', V *m V1).

Definition greens_function_svd (p : pstack C n) (slice_ix : nat) : res M :=
  rbind (walk svd svd_step p slice_ix) (fun s =>
  let '(U1, S1, V1) := s in
  Ok (green_of_svd (@inv_row n) U1 S1 V1)).

(* walkers/thermal.py 158-183 *)
Definition qr_step (B : M) (s : M * M) : M * M :=
  let '(U1, V1) := s in
  let T1 := B *m U1 in
  let '(U1', V) := qr T1 in
  (U1', V *m V1).

Definition green_of_qr (s : M * M) : M :=
  let '(U1, V1) := s in
  let V1inv := tri_inv V1 in
  let T3 := dag U1 *m V1inv + 1%:M in
  let '(U2, V2) := qr T3 in
  let U3 := U1 *m U2 in
  let V3 := V2 *m V1 in
  let V3inv := tri_inv V3 in
  V3inv *m dag U3.

Definition greens_function_qr (p : pstack C n) (slice_ix : nat) : res M :=
  rbind (walk qr qr_step p slice_ix) (fun s => Ok (green_of_qr s)).

(* Stratification: A = Q diag(D) T. *)
Record strat := MkStrat { sQ : M; sD : 'rV[C]_n; sT : M }.

(* D^-1 R with the columns put back: T[:,P] = T[:,range(n)] *)
Definition unpivot (R : M) (P : 'S_n) : M :=
  \matrix_(i, j) ((R i i)^-1 * R i ((P^-1)%g j)).

(* walkers/thermal.py 492-499 *)
Definition strat_start (B : M) : strat :=
  let '(Q, R, P) := qrp B in
  MkStrat Q (\row_i R i i) (unpivot R P).

(* walkers/thermal.py 501-513 *)
Definition strat_step (B : M) (s : strat) : strat :=
  let C2 := B *m sQ s *m diag_mx (sD s) in
  let '(Q, R, P) := qrp C2 in
  MkStrat Q (\row_i R i i) (unpivot R P *m sT s).

(* walkers/thermal.py 520-527 and 441-449: x is the number whose modulus is
   compared with one, d the scale. *)
Definition split_b (x : C) : C := if 1 < `|x| then 1 / `|x| else 1.
Definition split_s (x d : C) : C :=
  if 1 < `|x| then Ortho_Model.npsign d else d.

(* walkers/thermal.py 529-541: G = T^-1 C^-1 Db Q^+ *)
Definition assemble (s : strat) (Db Ds : 'rV[C]_n) : M :=
  let T1inv := invmx (sT s) in
  let C := diag_mx Db *m dag (sQ s) *m T1inv + diag_mx Ds in
  let Cinv := invmx C in
  T1inv *m Cinv *m (diag_mx Db *m dag (sQ s)).

(* walkers/thermal.py 518-527: Db is an array of zeros when its modulus is
   compared with one. *)
Definition green_of_strat (s : strat) : M :=
  assemble s (\row_i split_b 0) (\row_i split_s 0 (sD s 0 i)).

Definition greens_function_qr_strat (p : pstack C n) (slice_ix : nat)
  : res M :=
  rbind (walk strat_start strat_step p slice_ix) (fun s =>
  Ok (green_of_strat s)).

(* estimators/thermal.py 147-196, one spin: range(0, num_slices-1) passes *)
Definition one_rdm_stable (BT : M) (num_slices : nat) : M :=
  one_rdm_from_G
    (green_of_strat (iter num_slices.-1 (strat_step BT) (strat_start BT))).

(* walkers/thermal.py 190-214: bins 0 .. center-1 *)
Definition compute_right (Bs : list M) : option strat :=
  match Bs with
  | nil => None
  | cons B tl => Some (List.fold_left (fun s B => strat_step B s) tl
                         (strat_start B))
  end.

(* walkers/thermal.py 218-235: the diagonals of bins center+1 .. nbins-1 *)
Definition compute_left (Bs : list M) : option 'rV[C]_n :=
  match Bs with
  | nil => None
  | cons B tl =>
      Some (List.fold_left (fun (D : 'rV[C]_n) (B : M) => \row_i (B i i * D 0 i)) tl
              (\row_i B i i))
  end.

(* walkers/thermal.py 401-470 with the right and left factors stored by
   compute_left_right and the current centre bin *)
Definition left_right (r : option strat) (l : option 'rV[C]_n) (Bc : M) : M :=
  let s :=
    match r with
    | Some r => strat_step Bc r
    | None => strat_start Bc
    end in
  let s :=
    match l with
    | Some Dl => strat_step (diag_mx Dl) s
    | None => s
    end in
  assemble s (\row_i split_b (sD s 0 i))
    (\row_i split_s (sD s 0 i) (sD s 0 i)).

(* walkers/thermal.py 382-392: m of the n scales are kept *)
Definition woodbury m (Q : 'M[C]_(n, m)) (D : 'rV[C]_m) (T : 'M[C]_(m, n))
  : M :=
  let Db := \row_i split_b (D 0 i) in
  let Ds := \row_i split_s (D 0 i) (D 0 i) in
  let TQ := T *m Q in
  let TQinv := invmx TQ in
  let tmp := invmx (TQinv *m diag_mx Db + diag_mx Ds) in
  let A := diag_mx Db *m (tmp *m TQinv) in
  1%:M - Q *m diag_mx D *m A *m T.

End TGreen.
