(** Enumeration of boson occupations (C30). *)
From Coq Require Import Sorted.
From Verif Require Import Base BaseFacts Balls_Model Balls_Spec Balls_Proofs.
Open Scope Z_scope.

(** Every admissible occupation once, nothing else, fullest first box first. *)
Theorem C30_enumeration : forall balls sizes, 0 <= balls -> Forall (fun s => 1 <= s) sizes -> balls <= zsum sizes ->
  exists l, balls_in_boxes balls sizes = Ok l /\ NoDup l /\ StronglySorted before l /\
    forall d, In d l <-> admissible balls sizes d.
Proof. exact balls_ok. Qed.
Print Assumptions C30_enumeration.

(** Everything else is a ValueError. *)
Theorem C30_errors : forall balls sizes, balls < 0 \/ ~ Forall (fun s => 1 <= s) sizes \/ zsum sizes < balls ->
  balls_in_boxes balls sizes = Err ValueError.
Proof. exact balls_err. Qed.
Print Assumptions C30_errors.

Example C30_example : balls_in_boxes 2 [1; 2; 1] = Ok [[1; 1; 0]; [1; 0; 1]; [0; 2; 0]; [0; 1; 1]]%nat.
Proof. reflexivity. Qed.
