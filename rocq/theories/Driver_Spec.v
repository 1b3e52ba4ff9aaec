(** Specification vocabulary for the drivers. *)
From Verif Require Import Base Driver_Model.
From Coq Require Import Qabs.
Open Scope nat_scope.

(** Multiples of [n] in the half-open range from [a] of length [len]. *)
Definition multiples (n a len : nat) : list nat := filter (fun s => s mod n =? 0) (seq a len).
Definition ortho_steps (tr : list event) : list nat := flat_map (fun e => match e with EvOrtho s => [s] | _ => [] end) tr.
Definition pop_steps (tr : list event) : list nat := flat_map (fun e => match e with EvPop s => [s] | _ => [] end) tr.
Definition est_steps (tr : list event) : list nat := flat_map (fun e => match e with EvEst s => [s] | _ => [] end) tr.
Definition write_steps (tr : list event) : list nat := flat_map (fun e => match e with EvWrite s => [s] | _ => [] end) tr.

(** Walker record used in examples. *)
Definition wk := (Q * Q)%type.
