(* Imaginary time Green's functions.

   Sources (all under /repo/pauxy):
     estimators/itcf.py 173-225   calculate_spgf_unstable
     estimators/itcf.py 227-303   calculate_spgf_stable
     estimators/itcf.py 305-338   initial_greens_function_uhf
     estimators/itcf.py 370-391   accumulate_uhf
     estimators/itcf.py 412-514   increment_tau_{ghf,uhf}_{unstable,stable}
     estimators/itcf.py 516-547   print_step (mode 'full')
     estimators/itcf.py 568-572   zero
     propagation/operations.py 4-21  propagate_single for two spins
     walkers/handler.py 216-223   copy_init_wfn

   Simplifications: exact arithmetic in a numerically closed field; the trial
   is stored as complex numbers, so that no imaginary part is lost on
   assignment; the two spins are separate matrices.  Back propagation is that
   of BackProp_Model; the propagators of the stored fields are given (w_steps,
   oldest first) and so is what stack.get returns (w_stack).  A walker carries
   the two factors stack.wfac, of which the second is not zero.  scipy.linalg.inv
   of a singular matrix raises LinAlgError, here ValueError.  The number of
   iterations nmax // stack_size is an argument. *)

From Verif Require Import Base.
Set Warnings "-notation-overridden,-ambiguous-paths".
From mathcomp Require Import all_ssreflect all_algebra.
From Verif Require Import Ortho_Model BackProp_Model.

Set Implicit Arguments.
Unset Strict Implicit.
Unset Printing Implicit Defensive.

Import Order.TTheory GRing.Theory Num.Theory.
Local Open Scope ring_scope.

Section ITCF.
Variable C : numClosedFieldType.
Variable qr : forall n m, 'M[C]_(n, m) -> 'M[C]_(n, m) * 'M[C]_m.

Local Notation "A ^c" := (map_mx (@conjC C) A) (at level 2, format "A ^c").

(* One matrix for each spin; a greater and a lesser one for each spin. *)
Definition two n : Type := ('M[C]_n * 'M[C]_n)%type.
Definition cell n : Type := (two n * two n)%type.

Definition inv n (B : 'M[C]_n) : res 'M[C]_n :=
  if B \in unitmx then Ok (invmx B) else Err ValueError.

(* 334-338 *)
Definition initial_uhf n nu nd (A B : orbs C n nu nd) : res (cell n) :=
  if ((A.1^c)^T *m B.1 \in unitmx) && ((A.2^c)^T *m B.2 \in unitmx) then
    let gu := 1%:M - gab A.1 B.1 in
    let gd := 1%:M - gab A.2 B.2 in
    Ok ((gu, gd), (1%:M - gu, 1%:M - gd))
  else Err ValueError.

(* 459-463 *)
Definition increment_uhf_unstable n (G : cell n) (B : two n) : res (cell n) :=
  let gu := B.1 *m G.1.1 in
  let gd := B.2 *m G.1.2 in
  rbind (inv B.1) (fun iu =>
  let lu := G.2.1 *m iu in
  rbind (inv B.2) (fun id =>
  let ld := G.2.2 *m id in
  Ok ((gu, gd), (lu, ld)))).

(* 434-436 *)
Definition increment_ghf_unstable n (G : two n) (B : 'M[C]_n) : res (two n) :=
  rbind (inv B) (fun i => Ok (B *m G.1, G.2 *m i)).

(* 486-490 *)
Definition increment_uhf_stable n (G : cell n) (B : two n) (Gnn : cell n)
  : res (cell n) :=
  let gu := B.1 *m Gnn.1.1 *m G.1.1 in
  let gd := B.2 *m Gnn.1.2 *m G.1.2 in
  rbind (inv B.1) (fun iu =>
  let lu := G.2.1 *m (Gnn.2.1 *m iu) in
  rbind (inv B.2) (fun id =>
  let ld := lu *m (Gnn.2.2 *m id) in
  Ok ((gu, gd), (lu, ld)))).

(* 512-514 *)
Definition increment_ghf_stable n (G : two n) (B : 'M[C]_n) (Gnn : two n)
  : res (two n) :=
  rbind (inv B) (fun i => Ok (B *m Gnn.1 *m G.1, Gnn.2 *m i *m G.2)).

(* 388-391 *)
Definition re_mx n (A : 'M[C]_n) : 'M[C]_n := map_mx (fun x => 'Re x) A.

Definition accumulate n (ix : nat) (w : C) (G : cell n) (spgf : seq (cell n))
  : res (seq (cell n)) :=
  if (ix < size spgf)%N then
    let c := nth 0 spgf ix in
    Ok (set_nth 0 spgf ix
          ((c.1.1 + w *: re_mx G.1.1, c.1.2 + w *: re_mx G.1.2),
           (c.2.1 + w *: re_mx G.2.1, c.2.2 + w *: re_mx G.2.2)))
  else Err IndexError.

(* psi_Ls[len(psi_Ls)-ic-1] *)
Definition left_at n nu nd (Ls : seq (orbs C n nu nd)) (ic : nat)
  : res (orbs C n nu nd) :=
  let N := size Ls in
  match (if (ic < N)%N then List.nth_error Ls (N - ic - 1)
         else if (ic < N + N)%N then List.nth_error Ls (N + N - ic - 1)
         else None) with
  | Some L => Ok L
  | None => Err IndexError
  end.

Record itcf_walker n nu nd := MkItcf {
  w_weight : C ; w_fac0 : C ; w_fac1 : C ;
  w_phi : orbs C n nu nd ; w_right : orbs C n nu nd ;
  w_steps : seq (two n) ; w_stack : seq (two n) }.

(* 191-192, 209-212, 246-249, 274-277 *)
Definition wfac n nu nd (restore : bool) (w : itcf_walker n nu nd) : C :=
  if restore then w_weight w * w_fac0 w / w_fac1 w else w_weight w.

(* 279-299 *)
Fixpoint stable_loop n nu nd (nst : nat) (w : C) (Bs : seq (two n))
    (Ls : seq (orbs C n nu nd)) (cnt ic : nat) (G Gnn : cell n)
    (right : orbs C n nu nd) (spgf : seq (cell n)) : res (seq (cell n)) :=
  match cnt with
  | O => Ok spgf
  | S cnt' =>
      match List.nth_error Bs ic with
      | None => Err IndexError
      | Some B =>
          rbind (increment_uhf_stable G B Gnn) (fun G =>
          rbind (accumulate ic.+1 w G spgf) (fun spgf =>
          rbind (left_at Ls ic) (fun L =>
          let right := (B.1 *m right.1, B.2 *m right.2) in
          rbind (stabilise qr nst ic right) (fun right =>
          rbind (initial_uhf L right) (fun Gnn =>
          stable_loop nst w Bs Ls cnt' ic.+1 G Gnn right spgf)))))
      end
  end.

(* 251-300 for one walker; the walker's stack and right-hand determinant are
   written to afterwards in any case (300, 303). *)
Definition stable_walker n nu nd (restore : bool) (nst ntau : nat)
    (psi : orbs C n nu nd) (w : itcf_walker n nu nd) (spgf : seq (cell n))
  : res (seq (cell n)) :=
  rbind (back_propagate qr (fun B : two n => Ok B) nst true (w_steps w) psi)
    (fun '(L, Ls) =>
  rbind (initial_uhf L (w_right w)) (fun Gnn =>
  rbind (accumulate 0 (wfac restore w) Gnn spgf) (fun spgf =>
  stable_loop nst (wfac restore w) (w_stack w) Ls ntau 0
    ((1%:M, 1%:M), (1%:M, 1%:M)) Gnn (w_right w) spgf))).

(* 193-222 for one walker; 219 reads a variable that has no value. *)
Definition unstable_walker n nu nd (restore : bool) (nst ntau : nat)
    (psi : orbs C n nu nd) (w : itcf_walker n nu nd) (spgf : seq (cell n))
  : res (seq (cell n)) :=
  rbind (back_propagate qr (fun B : two n => Ok B) nst false (w_steps w) psi)
    (fun '(L, _) =>
  rbind (initial_uhf L (w_right w)) (fun G =>
  rbind (accumulate 0 (wfac restore w) G spgf) (fun spgf =>
  if (ntau == 0)%N then Ok spgf else Err NameError))).

(* The estimator of one process: denom and spgf. *)
Definition estim n : Type := (C * seq (cell n))%type.

Definition zeroed n (ntau : nat) : estim n := (0, nseq ntau.+1 0).

(* stack.reset(); copy_init_wfn *)
Definition next_walker n nu nd (w : itcf_walker n nu nd) : itcf_walker n nu nd :=
  MkItcf (w_weight w) (w_fac0 w) (w_fac1 w) (w_phi w) (w_phi w) (w_steps w)
    (nseq (size (w_stack w)) (1%:M, 1%:M)).

Fixpoint walkers_loop n nu nd
    (one : itcf_walker n nu nd -> seq (cell n) -> res (seq (cell n)))
    (ws : seq (itcf_walker n nu nd)) (spgf : seq (cell n)) : res (seq (cell n)) :=
  match ws with
  | [::] => Ok spgf
  | w :: ws' => rbind (one w spgf) (walkers_loop one ws')
  end.

Definition calculate_spgf n nu nd (stable restore : bool) (nst ntau : nat)
    (psi : orbs C n nu nd) (ws : seq (itcf_walker n nu nd)) (e : estim n)
  : res (estim n * seq (itcf_walker n nu nd)) :=
  let denom := foldl (fun s w => s + wfac restore w) 0 ws in
  rbind (walkers_loop
           (if stable then stable_walker restore nst ntau psi
            else unstable_walker restore nst ntau psi) ws e.2) (fun spgf =>
  Ok ((denom, spgf), map (@next_walker n nu nd) ws)).

(* 530-547: the sum over processes, what the root writes, and the estimators
   left behind. *)
Definition add_spgf n (a b : seq (cell n)) : seq (cell n) :=
  map (fun p => p.1 + p.2) (zip a b).

Definition reduce n (ntau : nat) (es : seq (estim n)) : estim n :=
  foldl (fun a e => (a.1 + e.1, add_spgf a.2 e.2)) (zeroed n ntau) es.

Definition print_step n (ntau step nprop : nat) (es : seq (estim n))
  : res (option (seq (cell n)) * seq (estim n)) :=
  if (step == 0)%N then Ok (None, es)
  else if (nprop == 0)%N then Err ZeroDivisionError
  else if (step %% nprop == 0)%N then
    let g := reduce ntau es in
    Ok (Some (map (fun c => g.1^-1 *: c) g.2), map (fun _ => zeroed n ntau) es)
  else Ok (None, es).

(* 170-171 on every process *)
Definition update n nu nd (stable restore : bool) (nst ntau step nprop : nat)
    (psi : orbs C n nu nd) (ws : seq (itcf_walker n nu nd)) (e : estim n)
  : res (estim n * seq (itcf_walker n nu nd)) :=
  if (nprop == 0)%N then Err ZeroDivisionError
  else if (step %% nprop == 0)%N then
    calculate_spgf stable restore nst ntau psi ws e
  else Ok (e, ws).

End ITCF.
