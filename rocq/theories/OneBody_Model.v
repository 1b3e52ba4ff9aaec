(* Estimates of one-body operators from the sampled density matrices.

   Sources (all under /repo/pauxy):
     analysis/rdm.py 5-9     analyse_split
     analysis/rdm.py 11-31   analyse_one_body

   Simplifications: exact complex numbers as pairs; a density matrix is a function of two orbital
   indices below nb, a sample one for each spin.  The operator has either two indices or, with a
   spin index, three: einsum refuses the latter.  The splits and the time step are arguments, as
   is extract_rdm.  The mean and the deviation of no samples, and the deviation of one, are NaN:
   None. *)

From Coq Require Import Reals List.
From Verif Require Import Base.
Import ListNotations.
Local Open Scope R_scope.

Definition cx : Type := (R * R)%type.
Definition cadd (a b : cx) : cx := (fst a + fst b, snd a + snd b).
Definition cmul (a b : cx) : cx := (fst a * fst b - snd a * snd b, fst a * snd b + snd a * fst b).
Definition mat : Type := nat -> nat -> cx.
Inductive operator := NoSpin (A : mat) | Spin (up down : mat).

Section Split.
Variable nb : nat.

Definition csum (l : list cx) : cx := fold_right cadd (0, 0) l.
(* numpy.einsum('ij,ij->', A, B) *)
Definition einsum (A B : mat) : cx :=
  csum (map (fun i => csum (map (fun j => cmul (A i j) (B i j)) (seq 0 nb))) (seq 0 nb)).

Definition np_mean (vals : list R) : option R :=
  match vals with [] => None | _ => Some (fold_right Rplus 0 vals / INR (length vals)) end.

(* numpy.std(vals, ddof=1) / len(vals)**0.5 *)
Definition np_sem (vals : list R) : option R :=
  if (length vals <=? 1)%nat then None else
  let m := fold_right Rplus 0 vals / INR (length vals) in
  Some (sqrt (fold_right Rplus 0 (map (fun x => Rabs (x - m) ^ 2) vals) / (INR (length vals) - 1))
        / sqrt (INR (length vals))).

Definition analyse_split (A : operator) (Ps : list (mat * mat)) : res (option R * option R) :=
  match A with
  | NoSpin A =>
      let vals := map (fun P => fst (einsum A (fun i j => cadd (fst P i j) (snd P i j)))) Ps in
      Ok (np_mean vals, np_sem vals)
  | Spin _ _ => match Ps with [] => Ok (None, None) | _ => Err ValueError end
  end.

Fixpoint all_splits (A : operator) (rdm : nat -> list (mat * mat)) (splits : list nat)
  : res (list (option R * option R)) :=
  match splits with
  | [] => Ok []
  | s :: ss => rbind (analyse_split A (rdm s)) (fun r =>
               rbind (all_splits A rdm ss) (fun rs => Ok (r :: rs)))
  end.

(* The rows (tau, OneBody, OneBody_error); zip over no results cannot be unpacked. *)
Definition analyse_one_body (one_body : operator) (rdm : nat -> list (mat * mat))
    (splits : list nat) (dt : R) (skip : nat) : res (list (R * option R * option R)) :=
  rbind (all_splits one_body rdm splits) (fun rs =>
  match rs with
  | [] => Err ValueError
  | _ => Ok (map (fun p => (INR (fst p) * dt, fst (snd p), snd (snd p))) (combine splits rs))
  end).
End Split.
