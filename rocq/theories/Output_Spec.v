(** Vocabulary of the output-file theorems (C19, C20). *)
From Coq Require Import String Ascii.
From Verif Require Import Base.

(** the values pushed under a name, in the order of the blocks *)
Definition series {D : Type} (name : nat) (bs : list (list (nat * D))) : list D :=
  flat_map (fun b => map snd (filter (fun p => (fst p =? name)%nat) b)) bs.

(** no '.' in a string *)
Open Scope string_scope.
Fixpoint dotless (s : string) : bool :=
  match s with "" => true | String c s' => negb (Ascii.eqb c ".") && dotless s' end.
