(** pauxy/estimators/utils.py H5EstimatorHelper (279-327) and the reading side,
    pauxy/analysis/extraction.py extract_data (14-18).
    A dataset path base/name/padded is a pair of the estimator name (a number
    stands for the string) and the list of decimal digits of the padded index;
    the base is fixed.  Digits are numbers: comparing them is comparing
    characters.  The file is the list of datasets created so far; creating an
    existing one is h5py's OSError.  keys() lists the members of a group in
    lexicographic order (HDF5 native order). *)
From Verif Require Import Base.
Open Scope N_scope.

(** str(n): decimal digits, most significant first; fuel is the number of digits *)
Fixpoint dec (fuel : nat) (n : N) : list N :=
  match fuel with
  | O => []
  | S fuel' => if n <? 10 then [n] else dec fuel' (n / 10) ++ [n mod 10]
  end.

Definition str (n : N) : list N := dec (S (N.to_nat (N.log2 n))) n.

(** '0'*(nzero-len(ix)) + ix, with nzero = 9; a negative count gives '' *)
Definition padded (ix : N) : list N :=
  repeat 0 (9 - length (str ix)) ++ str ix.

Section Helper.
  Variable D : Type.

  Definition h5file : Type := list (nat * list N * D).

  Record helper := Helper { index : N; nav : N }.

  Definition new_helper (nav : N) : helper := Helper 0 nav.

  Definition same_path (a b : nat * list N) : bool :=
    (fst a =? fst b)%nat && (if list_eq_dec N.eq_dec (snd a) (snd b) then true else false).

  (** utils.py 304-318 *)
  Definition push (h : helper) (f : h5file) (name : nat) (data : D) : res h5file :=
    if existsb (fun e => same_path (fst e) (name, padded (index h))) f
    then Err OSError
    else Ok (f ++ [((name, padded (index h)), data)]).

  (** utils.py 320-321 *)
  Definition increment (h : helper) : res helper :=
    if nav h =? 0 then Err ZeroDivisionError
    else Ok (Helper ((index h + 1) / nav h) (nav h)).

  Fixpoint push_all (h : helper) (f : h5file) (l : list (nat * D)) : res h5file :=
    match l with
    | [] => Ok f
    | (name, d) :: l' => rbind (push h f name d) (fun f' => push_all h f' l')
    end.

  (** one print_step: the pushes of a block, then increment *)
  Definition block_step (s : helper * h5file) (blk : list (nat * D)) : res (helper * h5file) :=
    rbind (push_all (fst s) (snd s) blk) (fun f =>
    rbind (increment (fst s)) (fun h => Ok (h, f))).

  Fixpoint run_blocks (s : helper * h5file) (bs : list (list (nat * D))) : res (helper * h5file) :=
    match bs with
    | [] => Ok s
    | b :: bs' => rbind (block_step s b) (fun s' => run_blocks s' bs')
    end.

  (** lexicographic order of strings *)
  Fixpoint lexltb (a b : list N) : bool :=
    match a, b with
    | _, [] => false
    | [], _ :: _ => true
    | x :: a', y :: b' => if x =? y then lexltb a' b' else x <? y
    end.

  Fixpoint lexinsert (x : list N * D) (l : list (list N * D)) : list (list N * D) :=
    match l with
    | [] => [x]
    | y :: l' => if lexltb (fst x) (fst y) then x :: l else y :: lexinsert x l'
    end.

  (** extraction.py 17-18: the datasets of one estimator in the order of keys() *)
  Definition extract (f : h5file) (name : nat) : list D :=
    map snd (fold_right lexinsert []
      (map (fun e => (snd (fst e), snd e))
           (filter (fun e => (fst (fst e) =? name)%nat) f))).
End Helper.
Arguments push {D} h f name data.
Arguments push_all {D} h f l.
Arguments block_step {D} s blk.
Arguments run_blocks {D} s bs.
Arguments extract {D} f name.
Arguments lexinsert {D} x l.
