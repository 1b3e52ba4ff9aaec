(** A rectangular lattice and its bonds, for C31 and C32. *)
From Verif Require Import Base.
Open Scope nat_scope.

(** sites of the lattice *)
Definition site (nx ny : nat) (p : nat * nat) : Prop := fst p < nx /\ snd p < ny.

(** rows after rows: site (x, y) is number x + nx y *)
Definition place (nx : nat) (p : nat * nat) : nat := fst p + nx * snd p.

(** neighbours along one direction of length n *)
Definition next (n : nat) (periodic : bool) (a b : nat) : Prop :=
  b = a + 1 \/ (periodic = true /\ 1 < n /\ a = n - 1 /\ b = 0).
Definition neighbours (nx ny : nat) (px py : bool) (p q : nat * nat) : Prop :=
  (snd p = snd q /\ (next nx px (fst p) (fst q) \/ next nx px (fst q) (fst p))) \/
  (fst p = fst q /\ (next ny py (snd p) (snd q) \/ next ny py (snd q) (snd p))).

Section Bonds.
  Variables (K : Type) (zero one : K) (add mul : K -> K -> K) (opp conj : K -> K).

  (** the bonds leading from a to b in the positive direction, with their phases *)
  Definition forward (n : nat) (periodic : bool) (ph : K) (a b : nat) : list K :=
    (if b =? a + 1 then [one] else []) ++
    (if periodic && (1 <? n) && (a =? n - 1) && (b =? 0) then [ph] else []).

  Definition bonds (nx ny : nat) (px py : bool) (phx phy : K) (p q : nat * nat) : list K :=
    (if snd p =? snd q then forward nx px phx (fst p) (fst q) else []) ++
    (if fst p =? fst q then forward ny py phy (snd p) (snd q) else []).

  (** amplitude of hopping from q to p: -t times the sum over the bonds in both directions *)
  Definition amplitude (t : K) (nx ny : nat) (px py : bool) (phx phy : K) (p q : nat * nat) : K :=
    mul (opp t) (fold_right add zero
      (bonds nx ny px py phx phy q p ++ map conj (bonds nx ny px py phx phy p q))).
End Bonds.

(** the phases of a twist given as None or an array with one entry per direction *)
Section Twist.
  Variables (K Th : Type) (one : K) (expi : Th -> K).
  Definition twist_ok (ny : nat) (ks : option (list Th)) : Prop :=
    match ks with None => True | Some l => length l = if ny =? 1 then 1 else 2 end.
  Definition twist_x (ks : option (list Th)) : K :=
    match ks with Some (a :: _) => expi a | _ => one end.
  Definition twist_y (ks : option (list Th)) : K :=
    match ks with Some (_ :: b :: _) => expi b | _ => one end.
End Twist.

(** staggered pinning fields: on the two edges along y, and on the line x = 0 *)
Definition field_edges {K} (zero : K) (opp : K -> K) (nu : K) (ny s : nat) (p : nat * nat) : K :=
  if (snd p =? 0) || (snd p =? ny - 1) then (if Nat.even (fst p + snd p + s) then nu else opp nu) else zero.
Definition field_line {K} (zero : K) (opp : K -> K) (h : K) (s : nat) (p : nat * nat) : K :=
  if fst p =? 0 then (if Nat.even (snd p + s) then h else opp h) else zero.
