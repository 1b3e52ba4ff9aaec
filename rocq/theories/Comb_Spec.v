(** Specification vocabulary for comb resampling, independent of the loop. *)
From Verif Require Import Base Comb_Model.
Open Scope nat_scope.

(** Ideal (real-valued) number of copies of walker [i]: weight * target / total. *)
Definition ideal_copies (weights : list Q) (target : nat) (i : nat) : Q :=
  (nth i weights 0 * q_of_nat target / Qsum weights)%Q.

(** The population drawn by copy counts: walker [i] repeated [counts i] times. *)
Fixpoint drawn {A} (ws : list A) (counts : list nat) : list A :=
  match ws, counts with
  | w :: ws', n :: counts' => repeat w n ++ drawn ws' counts'
  | _, _ => []
  end.

(** An admissible resampling problem: weights non-negative, not all zero. *)
Definition admissible (weights : list Q) : Prop :=
  Forall (fun w => 0 <= w)%Q weights /\ (0 < Qsum weights)%Q.

(** k-th of m equispaced offsets in [0,1), shifted by s/m. *)
Definition offset (m k : nat) (s : Q) : Q := ((q_of_nat k + s) / q_of_nat m)%Q.

(** Copies that walker [i] receives with offset [r]. *)
Definition copies_of (w : list Q) (target i : nat) (r : Q) : Z :=
  match comb_counts w target r with Ok out => Z.of_nat (nth i out 0) | Err _ => (-1)%Z end.
