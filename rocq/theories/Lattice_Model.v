(** pauxy/systems/hubbard.py: decode_basis 278-301, encode_basis 303-322, kpoints 344-366 (the order
    of the vectors), kinetic_pinning 176-225, kinetic_pinning_alt 227-276;
    pauxy/systems/hubbard_holstein.py: kinetic 214-268 (the one both systems use);
    pauxy/utils/fft.py: the reshape of fft_wavefunction.
    Numbers are any type with ring operations and a conjugation; cmath.exp(1j*pi*a) is an oracle.
    nbasis is nx*ny, as in the constructors.  A twist is None or a one-dimensional array. *)
From Verif Require Import Base.
Open Scope nat_scope.

Definition decode_basis (nx ny i : nat) : list nat :=
  if ny =? 1 then [i mod nx] else [i mod nx; i / nx].

Definition encode_basis (i j nx : nat) : nat := i + j * nx.

(** kp: for n in range(nx): for m in range(ny): [n, m] *)
Definition kp (nx ny : nat) : list (list nat) :=
  if ny =? 1 then map (fun n => [n]) (seq 0 nx)
  else flat_map (fun n => map (fun m => [n; m]) (seq 0 ny)) (seq 0 nx).

(** psi.reshape(nx, ny, ns): the position of row i *)
Definition fft_site (nx ny i : nat) : nat * nat := (i / ny, i mod ny).

Definition absdiff (a b : nat) : nat := (a - b) + (b - a).

(** abs(xy1 - xy2) *)
Fixpoint dist (a b : list nat) : list nat :=
  match a, b with x :: a', y :: b' => absdiff x y :: dist a' b' | _, _ => [] end.

(** (dij == l).all(): one coordinate is compared with every entry *)
Fixpoint all_eq (d l : list nat) : bool :=
  match d, l with x :: d', y :: l' => (x =? y) && all_eq d' l' | _, _ => true end.
Definition cmp_all (d l : list nat) : bool :=
  match d with [x] => forallb (Nat.eqb x) l | _ => all_eq d l end.

Section Lattice.
  Variables (K Th : Type) (zero : K) (add mul : K -> K -> K) (opp conj : K -> K) (expi : Th -> K).

  Definition put (i j : nat) (v : K) (T : nat -> nat -> K) : nat -> nat -> K :=
    fun a b => if (a =? i) && (b =? j) then v else T a b.

  (** a loop over positions setting each entry *)
  Fixpoint fill (entry : nat -> nat -> res K) (ps : list (nat * nat)) (T : nat -> nat -> K) : res (nat -> nat -> K) :=
    match ps with
    | [] => Ok T
    | (i, j) :: ps' => rbind (entry i j) (fun v => fill entry ps' (put i j v T))
    end.

  (** for i in range(n): for j in range(i+1, n) *)
  Definition upper (n : nat) : list (nat * nat) :=
    flat_map (fun i => map (fun j => (i, j)) (seq (i + 1) (n - (i + 1)))) (seq 0 n).

  (** cmath.exp(1j*numpy.dot(pi*ks, e)): the lengths must agree *)
  Definition phase1 (ks : list Th) : res K := match ks with [a] => Ok (expi a) | _ => Err ValueError end.
  Definition phase2 (first : bool) (ks : list Th) : res K :=
    match ks with [a; b] => Ok (expi (if first then a else b)) | _ => Err ValueError end.

  Definition with_phase (t v : K) (ks : option (list Th)) (p : list Th -> res K) (one : K) : res K :=
    rbind (match ks with Some l => p l | None => Ok one end) (fun ph => Ok (add v (mul (opp t) ph))).

  Definition kin_entry (one t : K) (nx ny : nat) (ks : option (list Th)) (xpbc ypbc : bool) (i j : nat) : res K :=
    let dij := dist (decode_basis nx ny i) (decode_basis nx ny j) in
    let v := if nsum dij =? 1 then opp t else zero in
    if (ny =? 1) && cmp_all dij [nx - 1] && xpbc then with_phase t v ks phase1 one
    else if cmp_all dij [nx - 1; 0] && xpbc then with_phase t v ks (phase2 true) one
    else if cmp_all dij [0; ny - 1] && ypbc then with_phase t v ks (phase2 false) one
    else Ok v.

  (** T + T.conj().T, the same for both spins *)
  Definition kinetic (one t : K) (nx ny : nat) (ks : option (list Th)) (xpbc ypbc : bool) : res (nat -> nat -> K) :=
    rbind (fill (kin_entry one t nx ny ks xpbc ypbc) (upper (nx * ny)) (fun _ _ => zero)) (fun T =>
    Ok (fun i j => add (T i j) (conj (T j i)))).

  (** for i: the diagonal, then for j in range(i+1, n) *)
  Definition upper_diag (n : nat) : list (nat * nat) :=
    flat_map (fun i => map (fun j => (i, j)) (seq i (n - i))) (seq 0 n).

  Definition sign (k : nat) (h : K) : K := if Nat.even k then h else opp h.

  Definition at_ (l : list nat) (k : nat) : res nat :=
    match nth_error l k with Some x => Ok x | None => Err IndexError end.

  (** [s] is 0 for spin up and 1 for spin down; nu0 = 0.25*t *)
  Definition pin_entry (t nu0 : K) (nx ny s : nat) (i j : nat) : res K :=
    let xy1 := decode_basis nx ny i in
    if i =? j then
      rbind (at_ xy1 1) (fun y =>
      if (y =? 0) || (y =? ny - 1) then
        rbind (at_ xy1 0) (fun x => Ok (add zero (sign (x + y + s) nu0)))
      else Ok zero)
    else
      let dij := dist xy1 (decode_basis nx ny j) in
      let v := if nsum dij =? 1 then opp t else zero in
      Ok (if cmp_all dij [nx - 1; 0] then add v (opp t) else v).

  (** h = 0.1*t *)
  Definition alt_entry (t h : K) (nx ny s : nat) (i j : nat) : res K :=
    let xy1 := decode_basis nx ny i in
    if i =? j then
      rbind (at_ xy1 0) (fun x =>
      if x =? 0 then rbind (at_ xy1 1) (fun y => Ok (add zero (sign (y + s) h)))
      else Ok zero)
    else
      let dij := dist xy1 (decode_basis nx ny j) in
      let v := if nsum dij =? 1 then opp t else zero in
      Ok (if cmp_all dij [0; ny - 1] then add v (opp t) else v).

  (** T + triu(T, 1).T for one spin *)
  Definition pinned (entry : nat -> nat -> res K) (n : nat) : res (nat -> nat -> K) :=
    rbind (fill entry (upper_diag n) (fun _ _ => zero)) (fun T =>
    Ok (fun i j => add (T i j) (if j <? i then T j i else zero))).

  Definition kinetic_pinning (t nu0 : K) (nx ny s : nat) := pinned (pin_entry t nu0 nx ny s) (nx * ny).
  Definition kinetic_pinning_alt (t h : K) (nx ny s : nat) := pinned (alt_entry t h nx ny s) (nx * ny).
End Lattice.
