(** pauxy/systems/ueg.py: sp_energies 194-239, the constructor's basis, lookup table and assertion
    100-106, create_lookup_table 241-248, lookup_basis 250-259, map_basis_to_index 261-264, the
    momentum transfers and lists 114-171, scaled_density_operator_incore 336-401.
    Energies are exact rationals in units of (2 pi/L)^2 (the common factor kfac**2 is left out); the two
    parallel lists of indices are one list of pairs; the prefactor of the density operator is an oracle. *)
From Verif Require Import Base.
Open Scope Z_scope.

Definition vec := (Z * Z * Z)%type.
Definition vadd (a b : vec) : vec := let '(x, y, z) := a in let '(p, q, r) := b in (x + p, y + q, z + r).
Definition vsub (a b : vec) : vec := let '(x, y, z) := a in let '(p, q, r) := b in (x - p, y - q, z - r).
Definition dot (a b : vec) : Z := let '(x, y, z) := a in let '(p, q, r) := b in x * p + y * q + z * r.

(** int(math.ceil(numpy.sqrt(2*ecut))): the least n with n*n >= 2*ecut; nan for a negative cutoff *)
Definition get_nmax (ecut : Q) : res Z :=
  if Qltb ecut 0 then Err ValueError else Ok (Z.sqrt_up (Qceiling (2 * ecut))).

(** range(-n, n+1) *)
Definition zrange (n : Z) : list Z := map (fun i => Z.of_nat i - n) (seq 0 (Z.to_nat (2 * n + 1))).

(** 0.5*dot(k + ks, k + ks) *)
Definition energy (ks : Q * Q * Q) (k : vec) : Q :=
  let '(a, b, c) := ks in let '(x, y, z) := k in
  let u := (inject_Z x + a)%Q in let v := (inject_Z y + b)%Q in let w := (inject_Z z + c)%Q in
  ((1 # 2) * (u * u + v * v + w * w))%Q.

Definition all_vecs (nmax : Z) : list vec :=
  flat_map (fun i => flat_map (fun j => map (fun k => (i, j, k)) (zrange nmax)) (zrange nmax)) (zrange nmax).

(** argsort(kind='mergesort'): stable *)
Fixpoint insert (e : vec -> Q) (x : vec) (l : list vec) : list vec :=
  match l with
  | [] => [x]
  | y :: l' => if Qle_bool (e x) (e y) then x :: l else y :: insert e x l'
  end.
Definition sort_by (e : vec -> Q) (l : list vec) : list vec := fold_right (insert e) [] l.

Definition sp_energies (ecut : Q) (ks : Q * Q * Q) : res (list vec * Z) :=
  rbind (get_nmax ecut) (fun nmax =>
  Ok (sort_by (energy ks) (filter (fun k => Qle_bool ((1 # 2) * inject_Z (dot k k)) ecut) (all_vecs nmax)), nmax)).

Definition map_index (nmax : Z) (k : vec) : Z :=
  let '(x, y, z) := k in
  let s := 2 * nmax in (x + nmax) + s * (y + nmax) + s * s * (z + nmax).

(** python indexing of an array of length n *)
Definition norm_ix (n : nat) (i : Z) : res nat :=
  if (0 <=? i) && (i <? Z.of_nat n) then Ok (Z.to_nat i)
  else if (i <? 0) && (0 <=? i + Z.of_nat n) then Ok (Z.to_nat (i + Z.of_nat n)) else Err IndexError.

Fixpoint zmax (l : list Z) (m : Z) : Z := match l with [] => m | x :: l' => zmax l' (Z.max m x) end.

Fixpoint fill_table (i : nat) (bs : list Z) (t : list nat) : res (list nat) :=
  match bs with
  | [] => Ok t
  | b :: bs' => rbind (norm_ix (length t) b) (fun j => fill_table (S i) bs' (upd j i t))
  end.

(** numpy.zeros(max(basis_ix)+1); max of an empty list raises *)
Definition create_table (nmax : Z) (basis : list vec) : res (list nat) :=
  match map (map_index nmax) basis with
  | [] => Err ValueError
  | b :: bs => fill_table 0 (b :: bs) (repeat 0%nat (Z.to_nat (zmax bs b + 1)))
  end.

Record ueg := Ueg { basis : list vec; nmax : Z; imax_sq : Z; table : list nat }.

Definition lookup_basis (u : ueg) (v : vec) : res (option nat) :=
  if dot v v <=? imax_sq u then
    let ix := map_index (nmax u) v in
    if Z.of_nat (length (table u)) <=? ix then Ok None
    else rbind (norm_ix (length (table u)) ix) (fun j =>
         match nth_error (table u) j with Some b => Ok (Some b) | None => Err IndexError end)
  else Ok None.

(** for (i, k) in enumerate(self.basis): assert(i == self.lookup_basis(k)) *)
Fixpoint check_basis (u : ueg) (i : nat) (ks : list vec) : res unit :=
  match ks with
  | [] => Ok tt
  | k :: ks' => rbind (lookup_basis u k) (fun r =>
      match r with
      | Some j => if (i =? j)%nat then check_basis u (S i) ks' else Err AssertionError
      | None => Err AssertionError
      end)
  end.

Definition build (ecut : Q) (ks : Q * Q * Q) : res ueg :=
  rbind (sp_energies ecut ks) (fun bn =>
  match rev (fst bn) with
  | [] => Err IndexError
  | last :: _ =>
      rbind (create_table (snd bn) (fst bn)) (fun t =>
      let u := Ueg (fst bn) (snd bn) (dot last last) t in
      rbind (check_basis u 0 (basis u)) (fun _ => Ok u))
  end).

(** qvecs[1:] at four times the cutoff *)
Definition get_qvecs (ecut : Q) (ks : Q * Q * Q) : res (list vec) :=
  rbind (sp_energies (4 * ecut) ks) (fun bn => Ok (tl (fst bn))).

(** for i, k in enumerate(ks): look up [move k]; [i] counts *)
Fixpoint pairs (u : ueg) (move : vec -> vec) (i : nat) (ks : list vec) : res (list (nat * nat)) :=
  match ks with
  | [] => Ok []
  | k :: ks' => rbind (lookup_basis u (move k)) (fun r => rbind (pairs u move (S i) ks') (fun l =>
      Ok (match r with Some j => (i, j) :: l | None => l end)))
  end.

Definition nlimit (thermal : bool) (nup nbasis : nat) : nat := if thermal then nbasis else nup.

Definition ikpq (u : ueg) (n : nat) (q : vec) := pairs u (fun k => vadd k q) 0 (firstn n (basis u)).
Definition ipmq (u : ueg) (n : nat) (q : vec) := pairs u (fun k => vsub k q) 0 (firstn n (basis u)).

(** (row, column, value) triples; [transpose] exchanges the two orbitals of a row *)
Section Density.
  Variables (K : Type) (factor : vec -> K).
  Fixpoint density (u : ueg) (transpose : bool) (iq : nat) (qs : list vec) : res (list (nat * nat * K)) :=
    match qs with
    | [] => Ok []
    | q :: qs' =>
        rbind (ikpq u (length (basis u)) q) (fun l =>
        rbind (density u transpose (S iq) qs') (fun rest =>
        Ok (map (fun ij => let nb := length (basis u) in
                           (if transpose then (snd ij + fst ij * nb)%nat else (snd ij * nb + fst ij)%nat, iq, factor q)) l ++ rest)))
    end.
End Density.
