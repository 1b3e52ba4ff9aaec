(* The low-rank propagator stack.

   Sources (all under /repo/pauxy):
     walkers/stack.py 129-195                 PropagatorStack.__init__, the part with lowrank
     walkers/stack.py 227-284                 set_all, reset, initialize_left with lowrank
     walkers/stack.py 326-489                 update_low_rank
     walkers/thermal.py 49-64                 the constructor of the walker
     walkers/handler.py 424-430               reset of the walkers

   Simplifications: matrices over a numerically closed field C (exact arithmetic, conjugation
   and modulus those of C).  scipy.linalg.qr(pivoting=True) is an argument.  The spin axis
   is dropped: both spins are treated alike and never mix, except that self.mT is that of the second.
   scipy.linalg.inv raises for singular matrices (LinAlgError, here ValueError); 1.0/x is
   total.  The trial matrix BT is diagonal (asserted by the constructor), given by its
   diagonal; BTinv likewise.  Arrays that are only written (Ql, Tl) are left out.  The
   Green's function of the new walker, from greens_function_qr_strat, is the exact one
   (C43). *)

From Verif Require Import Base.
Set Warnings "-notation-overridden,-ambiguous-paths".
From mathcomp Require Import all_ssreflect all_fingroup all_algebra.
From Verif Require Import TGreen_Model.

Set Implicit Arguments.
Unset Strict Implicit.
Unset Printing Implicit Defensive.

Import Order.TTheory GRing.Theory Num.Theory.
Local Open Scope ring_scope.

Section LowRank.
Variable C : numClosedFieldType.

(* Entry of an array; zero outside. *)
Definition ent p q (A : 'M[C]_(p, q)) (i j : nat) : C :=
  match (insub i : option 'I_p), (insub j : option 'I_q) with
  | Some i', Some j' => A i' j'
  | _, _ => 0
  end.
(* A[:m,:k], and an array of zeros with A in its upper left corner *)
Definition sub p q m k (A : 'M[C]_(p, q)) : 'M[C]_(m, k) := \matrix_(i, j) ent A i j.

(* (Q, R, P) with A[:,P] = Q R *)
Variable qrp : forall m k, 'M[C]_(m, k) -> 'M[C]_m * 'M[C]_(m, k) * 'S_k.

Variable n : nat.
Notation M := 'M[C]_n.
Variable thresh : C.

(* len(D[abs(D) > thresh]) *)
Definition above (D : 'rV[C]_n) : nat := count (fun i => thresh < `|ent D 0 i|) (iota 0 n).

Record lowrank := MkLow {
  lslice : nat; lsize : nat; lbins : nat; lcounter : nat; lblock : nat;
  lQr : M; lDr : 'rV[C]_n; lTr : M; lDl : 'rV[C]_n;
  lovlp : C; lG : M; lCT : M; ltheta : M; lmT : nat }.

(* D^-1 R with the columns put back, its first r rows *)
Definition scaled r m k (R : 'M[C]_(m, k)) (P : 'S_k) : 'M[C]_(r, k) :=
  \matrix_(i, j) ((ent R i i)^-1 * ent R i ((P^-1)%g j)).

(* stack.py 347-365: new block *)
Definition right_qr (mR : nat) (B : M) (s : lowrank) : M * 'rV[C]_n * M :=
  let Qr := B *m sub n mR (lQr s) in
  let Ccr := Qr *m diag_mx (sub 1 mR (lDr s)) in
  let '(Q, R, P) := qrp Ccr in
  let Dr := \row_i (if (i < mR)%N then ent R i i else 0) in
  let Tlcr := scaled mR R P *m sub mR n (lTr s) in
  (Q, Dr, \matrix_(i, j) (if (i < mR)%N then ent Tlcr i j else lTr s i j)).

(* stack.py 425-428: within a block *)
Definition right_plain (mR : nat) (B : M) (s : lowrank) : M * 'rV[C]_n * M :=
  let Qr := B *m sub n mR (lQr s) in
  (sub n n Qr, lDr s, lTr s).

(* stack.py 367-419 and 430-478 *)
Definition finish (mL mR : nat) (Qr : M) (Dr : 'rV[C]_n) (Tr : M) (Dl : 'rV[C]_n)
  : res (C * M * M * M * nat) :=
  let Clcr : 'M[C]_(mL, mR) := \matrix_(i, j) (ent Dl 0 i * (ent Qr i j * ent Dr 0 j)) in
  let '(Q, R, P) := qrp Clcr in
  let mT := count (fun i => thresh < `|ent R i i|) (iota 0 (minn mL mR)) in
  let D : 'rV[C]_mT := \row_i ent R i i in
  let T := scaled mT R P *m sub mR n Tr in
  let Db := \row_i split_b (D 0 i) in
  let Ds := \row_i split_s (D 0 i) (D 0 i) in
  let TQ := sub mT mL T *m sub mL mT Q in
  if TQ \notin unitmx then Err ValueError else
  let TQinv := invmx TQ in
  let tmp := TQinv *m diag_mx Db + diag_mx Ds in
  let Mx := tmp *m diag_mx (inv_row Db) *m TQ in
  let ovlp := \det Mx in
  if tmp \notin unitmx then Err ValueError else
  let A := diag_mx Db *m (invmx tmp *m TQinv) in
  let Qpad : 'M[C]_(n, mT) := sub n mT Q in
  let CT : M := sub n n (dag (A *m T)) in
  let theta : M := sub n n (Qpad *m diag_mx D)^T in
  let G := 1%:M - (sub mT n theta)^T *m dag (sub n mT CT) in
  Ok (ovlp, G, CT, theta, mT).

(* stack.py 326-489 *)
Definition update_low_rank (BTinv : 'rV[C]_n) (s : lowrank) (B : M) : res lowrank :=
  if (lcounter s == 0%N) && (lbins s <= lblock s)%N then Err IndexError else
  let next_block := ((lslice s).+1 %/ lsize s)%N in
  let mR := above (lDr s) in
  let Dl := \row_i (lDl s 0 i * BTinv 0 i) in
  let mL := above Dl in
  let '(Qr, Dr, Tr) := if (lblock s < next_block)%N then right_qr mR B s else right_plain mR B s in
  rbind (finish mL mR Qr Dr Tr Dl) (fun r =>
  let '(ovlp, G, CT, theta, mT) := r in
  Ok (MkLow (lslice s).+1 (lsize s) (lbins s) ((lcounter s).+1 %% lsize s) next_block
        Qr Dr Tr Dl ovlp G CT theta mT)).

(* stack.py 227-236 and 267-284: every bin is the product of lsize trial matrices *)
Definition bin_diag (BT : 'rV[C]_n) (size : nat) (i : 'I_n) : C := iter size (fun x => BT 0 i * x) 1.
Definition left_diag (BT : 'rV[C]_n) (size bins : nat) : 'rV[C]_n :=
  \row_i iter bins.-1 (fun x => bin_diag BT size i * x) (bin_diag BT size i).

(* thermal.py 49-64, with the exact Green's function of the trial path *)
Definition low_new (BT : 'rV[C]_n) (size slices : nat) : res lowrank :=
  if size == 0%N then Err ZeroDivisionError else
  let bins := (slices %/ size)%N in
  if (bins * size < slices)%N then Err AssertionError else
  if bins == 0%N then Err IndexError else
  let Dl := left_diag BT size bins in
  let G := invmx (1%:M + diag_mx Dl) in
  Ok (MkLow 0 size bins 0 0 1%:M (const_mx 1) 1%:M Dl (1 / \det G) G 0 0 n).

(* handler.py 426-428: stack.py 245-265 and 227-244; greens_function returns stack.G *)
Definition low_reset (BT : 'rV[C]_n) (s : lowrank) : lowrank :=
  MkLow 0 (lsize s) (lbins s) (lcounter s) 0 1%:M (const_mx 1) 1%:M
        (left_diag BT (lsize s) (lbins s)) (lovlp s) (lG s) (lCT s) (ltheta s) (lmT s).

Fixpoint low_run (BTinv : 'rV[C]_n) (s : lowrank) (Bs : seq M) : res lowrank :=
  match Bs with
  | [::] => Ok s
  | B :: tl => rbind (update_low_rank BTinv s B) (fun s' => low_run BTinv s' tl)
  end.
End LowRank.
