(** pauxy/estimators/ci.py unlabeled_balls_in_labeled_boxes 314-352 and its recursive
    generator 355-386.  The generator is the list of what it yields, in order; the
    type checks (isinstance) are left out. *)
From Verif Require Import Base.
Open Scope nat_scope.

(** for balls_in_first_box in range(min(balls, box_sizes[0]), -1, -1) *)
Fixpoint down (n : nat) : list nat := match n with 0 => [0] | S n' => n :: down n' end.

Fixpoint gen (balls : nat) (sizes : list nat) : res (list (list nat)) :=
  if balls =? 0 then Ok [repeat 0 (length sizes)]
  else match sizes with
  | [] => Err IndexError
  | [s] => Ok (if balls <=? s then [[balls]] else [])
  | s :: sizes' =>
      (fix go (firsts : list nat) : res (list (list nat)) :=
         match firsts with
         | [] => Ok []
         | b :: firsts' =>
             rbind (gen (balls - b) sizes') (fun others =>
             rbind (go firsts') (fun rest => Ok (map (cons b) others ++ rest)))
         end) (down (min balls s))
  end.

Open Scope Z_scope.
Fixpoint check (sizes : list Z) (capacity : Z) : res Z :=
  match sizes with
  | [] => Ok capacity
  | s :: sizes' => if s <? 1 then Err ValueError else check sizes' (capacity + s)
  end.

Definition balls_in_boxes (balls : Z) (sizes : list Z) : res (list (list nat)) :=
  if balls <? 0 then Err ValueError
  else rbind (check sizes 0) (fun capacity =>
       if capacity <? balls then Err ValueError
       else gen (Z.to_nat balls) (map Z.to_nat sizes)).
