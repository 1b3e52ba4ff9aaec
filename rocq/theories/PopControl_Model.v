(** Model of Walkers.pop_control, pauxy/walkers/handler.py:225-254 (with set_total_weight,
    handler.py:419-422). The walkers of all ranks are one list (Allgather gives every rank
    the same global weights; ranks hold equal contiguous chunks). Simplifications:
    weights are real rationals, use_log_shift is off (update_log_ovlp not called). *)
From Verif Require Import Base Comb_Model PairBranch_Model.
From Coq Require Import Qabs.
Open Scope nat_scope.

(** Attributes of a walker touched by pop_control besides its weight. *)
Record aux (X : Type) := Aux { unscaled : Q; total_weight : Q; body : X }.
Arguments Aux {X}. Arguments unscaled {X}. Arguments total_weight {X}. Arguments body {X}.

Inductive prep (X : Type) :=
| Untouched (ws : list (Q * aux X))                       (* handler.py:226-227 *)
| Prepared (global_weights : list Q) (ws : list (Q * aux X)).   (* lines 228-249 *)
Arguments Untouched {X}. Arguments Prepared {X}.

Definition tiny : Q := 1 # 100000000.    (* 1e-8 *)

(** handler.py:226-247: gather, scale, rescale. The division by target_weight is done
    before the test on the total weight. *)
Definition pop_prepare {X} (ntot target : nat) (ws : list (Q * aux X)) : res (prep X) :=
  if ntot =? 1 then Ok (Untouched ws)
  else
    let weights := map (fun w => Qabs (fst w)) ws in
    let total := Qsum weights in
    if target =? 0 then Err ZeroDivisionError else
    let scale := (total / q_of_nat target)%Q in
    if Qltb total tiny then Err SystemExit
    else Ok (Prepared (map (fun g => g / scale)%Q weights)
               (map (fun w => ((fst w / scale)%Q, Aux (fst w) total (body (snd w)))) ws)).

(** handler.py:248-250 and 337-338: comb on the rescaled global weights with offset [r],
    then every weight is set to 1. *)
Definition pop_comb {X} (ntot target : nat) (r : Q) (ws : list (Q * aux X)) : res (list (Q * aux X)) :=
  rbind (pop_prepare ntot target ws) (fun pr =>
    match pr with
    | Untouched ws' => Ok ws'
    | Prepared gw ws' =>
        rbind (comb_counts gw target r) (fun counts =>
          Ok (map (fun w => (1%Q, snd w)) (comb_exchange ws' counts)))
    end).
