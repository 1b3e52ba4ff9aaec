(** pauxy/estimators/ci.py: get_hmatel 184-210, get_perm 212-228, slater_condon0
    230-245, slater_condon1 247-264, slater_condon2 266-279, map_orb 281-289,
    get_one_body_matel 291-311; the determinants of simple_fci 158-168.
    A determinant is the sorted list of its spin orbitals.  Numbers are any
    commutative ring. *)
From Verif Require Import Base.
Set Warnings "-notation-overridden,-ambiguous-paths".
From mathcomp Require Import all_ssreflect all_algebra.
Set Implicit Arguments. Unset Strict Implicit. Unset Printing Implicit Defensive.
Import GRing.Theory.
Local Open Scope ring_scope.

Record system (R : Type) := System {
  nbasis : nat; nelec : nat; ecore : R; H1 : nat -> nat -> R; hijkl : nat -> nat -> nat -> nat -> R }.

Definition map_orb (orb nb : nat) : nat * nat :=
  if (orb %/ nb == 0)%N then (orb, 0%N) else ((orb - nb)%N, 1%N).

(** sorted(set(a) - set(b)) for a sorted *)
Definition only_in (a b : seq nat) : seq nat := [seq x <- a | x \notin b].

(** the loop over from_orb or to_orb: numpy.where(d==o)[0] - nmove *)
Fixpoint moves (os d : seq nat) (nmove perm : Z) : Z :=
  match os with
  | [::] => perm
  | o :: os' => moves os' d (Z.succ nmove) (Z.add perm (Z.sub (Z.of_nat (index o d)) nmove))
  end.

Definition get_perm (from_orb to_orb di dj : seq nat) : bool :=
  Z.eqb (Z.modulo (moves to_orb di Z0 (moves from_orb dj Z0 Z0)) (Zpos 2)) (Zpos 1).

Section CI.
  Variables (R : comRingType) (s : system R).
  Let nb := nbasis s.

  (** the inner loop over j in range(i+1, len(occs)) *)
  Fixpoint condon0_in (ii si : nat) (occs : seq nat) (e2b : R) : R :=
    match occs with
    | [::] => e2b
    | o :: occs' =>
        let: (jj, sj) := map_orb o nb in
        let e := e2b + hijkl s ii jj ii jj in
        condon0_in ii si occs' (if si == sj then e - hijkl s ii jj jj ii else e)
    end.

  Fixpoint condon0_out (occs : seq nat) (e1b e2b : R) : R * R :=
    match occs with
    | [::] => (e1b, e2b)
    | o :: occs' =>
        let: (ii, si) := map_orb o nb in
        condon0_out occs' (e1b + H1 s ii ii) (condon0_in ii si occs' e2b)
    end.

  Definition slater_condon0 (occs : seq nat) : R * R * R :=
    let: (e1b, e2b) := condon0_out occs (ecore s) 0 in (e1b + e2b, e1b, e2b).

  (** for j in range(nel): occs[j] *)
  Fixpoint condon1_loop (ii si aa : nat) (occs : seq nat) (js : seq nat) (e2b : R) : res R :=
    match js with
    | [::] => Ok e2b
    | j :: js' =>
        match nth_error occs j with
        | None => Err IndexError
        | Some o =>
            let: (oj, soj) := map_orb o nb in
            let e := if (2 * oj + soj != 2 * ii + si)%N then
                       let e' := e2b + hijkl s ii oj aa oj in
                       if soj == si then e' - hijkl s ii oj oj aa else e'
                     else e2b in
            condon1_loop ii si aa occs js' e
        end
    end.

  Definition slater_condon1 (i a : nat * nat) (occs : seq nat) (perm : bool) : res (R * R * R) :=
    let: (ii, si) := i in
    let: (aa, sa) := a in
    let e1b := H1 s ii aa in
    rbind (condon1_loop ii si aa occs (iota 0 (nelec s)) 0) (fun e2b =>
    let hmatel := e1b + e2b in
    Ok (if perm then (- hmatel, - e1b, - e2b) else (hmatel, e1b, e2b))).

  Definition slater_condon2 (i j a b : nat * nat) (perm : bool) : R :=
    let: (ii, si) := i in let: (jj, sj) := j in
    let: (aa, sa) := a in let: (bb, sb) := b in
    let h := if si == sa then hijkl s ii jj aa bb else 0 in
    let h' := if si == sb then h - hijkl s ii jj bb aa else h in
    if perm then - h' else h'.

  (** 184-210.  from_orb[1] and to_orb[1] need two entries *)
  Definition get_hmatel (di dj : seq nat) : res (R * R * R) :=
    let from_orb := only_in dj di in
    let to_orb := only_in di dj in
    let perm := get_perm from_orb to_orb di dj in
    match size from_orb with
    | 0%N => Ok (slater_condon0 di)
    | 1%N =>
        match from_orb, to_orb with
        | i :: _, a :: _ => slater_condon1 (map_orb i nb) (map_orb a nb) di perm
        | _, _ => Err IndexError
        end
    | 2%N =>
        match from_orb, to_orb with
        | i :: j :: _, a :: b :: _ =>
            let h := slater_condon2 (map_orb i nb) (map_orb j nb) (map_orb a nb) (map_orb b nb) perm in
            Ok (h, 0, h)
        | _, _ => Err IndexError
        end
    | _ => Ok (0, 0, 0)
    end.

  (** 291-311; ints has the size of the basis *)
  Definition get_one_body_matel (ints : nat -> nat -> R) (di dj : seq nat) : res R :=
    let from_orb := only_in dj di in
    let to_orb := only_in di dj in
    let perm := get_perm from_orb to_orb di dj in
    rbind (match size from_orb with
           | 0%N => Ok (\sum_(o <- di) (let: (ii, _) := map_orb o nb in ints ii ii))
           | 1%N =>
               match from_orb, to_orb with
               | i :: _, a :: _ =>
                   let: (ii, si) := map_orb i nb in
                   let: (aa, sa) := map_orb a nb in
                   if si == sa then Ok (ints ii aa) else Err AssertionError
               | _, _ => Err IndexError
               end
           | _ => Ok 0
           end) (fun matel => Ok (if perm then - matel else matel)).
End CI.

(** itertools.combinations *)
Fixpoint combinations (l : seq nat) (k : nat) : seq (seq nat) :=
  match k, l with
  | 0%N, _ => [:: [::]]
  | _, [::] => [::]
  | k'.+1, x :: l' => [seq x :: c | c <- combinations l' k'] ++ combinations l' k
  end.

(** simple_fci 160-168: unzipping an empty product raises *)
Definition dets (nb nup ndown : nat) : res (seq (seq nat)) :=
  match [seq (a, c) | a <- combinations (iota 0 nb) nup, c <- combinations (iota 0 nb) ndown] with
  | [::] => Err ValueError
  | oab => Ok [seq sort leq (ac.1 ++ [seq (i + nb)%N | i <- ac.2]) | ac <- oab]
  end.
