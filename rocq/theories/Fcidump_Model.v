(** pauxy/utils/hamiltonian_converter.py: read_fcidump 8-107, check_sym 248-280,
    fmt_integral 282-293, write_fcidump 295-353, fcidump_header 447-460.
    A line of the file is its tokens: the numbers of the integral (one for the real
    format, two for the complex one; with parentheses the two numbers are glued to
    punctuation) and four indices, starting at one.  Printing with eight digits is
    taken as exact.  Numbers are any type K with conjugation; big x is abs(x) > tol,
    imgpos x is abs(x.imag > 1e-12), i.e. imag > 1e-12.
    eris is the reshaped product chol chol^dagger. *)
From Verif Require Import Base.
Open Scope nat_scope.

Section Fcidump.
  Variables (K : Type) (zero : K) (conj re : K -> K) (big imgpos : K -> bool).

  Definition quad : Type := nat * nat * nat * nat.

  (** python's order on tuples *)
  Definition quad_gtb (a b : quad) : bool :=
    match a, b with
    | (a1, a2, a3, a4), (b1, b2, b3, b4) =>
        if a1 =? b1 then
          if a2 =? b2 then
            if a3 =? b3 then b4 <? a4 else b3 <? a3
          else b2 <? a2
        else b1 <? a1
    end.

  Definition check_sym (q : quad) (nmo sym : nat) : bool :=
    if sym =? 1 then true
    else match q with
    | (i, k, j, l) =>
        if sym =? 4 then
          negb (quad_gtb q (j, l, i, k) || quad_gtb q (k, i, l, j) || quad_gtb q (l, j, k, i))
        else (k <=? i) && (l <=? j) && (j + l * nmo <=? i + k * nmo)
    end.

  Inductive fmt := Real | Complex | Paren.
  Record line := Line { lfmt : fmt; value : K; ix : quad }.

  (** fmt_integral: indices are printed plus one *)
  Definition fmt_integral (x : K) (q : quad) (cplx paren : bool) : line :=
    if cplx then Line (if paren then Paren else Complex) x q else Line Real (re x) q.

  (** the four nested loops over range(nmo) *)
  Definition quads (nmo : nat) : list quad :=
    flat_map (fun i => flat_map (fun k => flat_map (fun j =>
      map (fun l => (i, k, j, l)) (seq 0 nmo)) (seq 0 nmo)) (seq 0 nmo)) (seq 0 nmo).

  Fixpoint write_two (eris : nat -> nat -> nat -> nat -> K) (nmo sym : nat) (cplx paren : bool)
      (qs : list quad) : res (list line) :=
    match qs with
    | [] => Ok []
    | (i, k, j, l) :: qs' =>
        let x := eris i k l j in
        if big x && check_sym (i, k, j, l) nmo sym then
          if negb cplx && imgpos x then Err SystemExit
          else rbind (write_two eris nmo sym cplx paren qs') (fun out =>
               Ok (fmt_integral x (i + 1, k + 1, j + 1, l + 1) cplx paren :: out))
        else write_two eris nmo sym cplx paren qs'
    end.

  Definition write_one (hcore : nat -> nat -> K) (nmo : nat) (cplx paren : bool) : list line :=
    flat_map (fun i => flat_map (fun j =>
      if big (hcore i j) then [fmt_integral (hcore i j) (i + 1, j + 1, 0, 0) cplx paren] else [])
      (seq 0 (i + 1))) (seq 0 nmo).

  Record dump := Dump { norb : nat; nel : Z; ms2 : Z; lines : list line }.

  Definition write_fcidump (hcore : nat -> nat -> K) (eris : nat -> nat -> nat -> nat -> K) (enuc : K)
      (nmo : nat) (nelec : Z * Z) (sym : nat) (cplx paren : bool) : res dump :=
    let cplx := if cplx && (4 <? sym) then false else cplx in
    rbind (write_two eris nmo sym cplx paren (quads nmo)) (fun two =>
    Ok (Dump nmo (fst nelec + snd nelec) (fst nelec - snd nelec)
          (two ++ write_one hcore nmo cplx paren ++ [fmt_integral enuc (0, 0, 0, 0) cplx paren]))).

  (** ** Reading *)

  Definition tensor2 : Type := nat -> nat -> K.
  Definition tensor4 : Type := nat -> nat -> nat -> nat -> K.

  Definition set2 (h : tensor2) (i k : nat) (x : K) : tensor2 :=
    fun a b => if (a =? i) && (b =? k) then x else h a b.
  Definition set4 (h : tensor4) (q : quad) (x : K) : tensor4 :=
    fun a b c d => match q with (i, k, j, l) =>
      if (a =? i) && (b =? k) && (c =? j) && (d =? l) then x else h a b c d end.

  (** the positions a line sets, in order, with the values *)
  Definition images (sym : nat) (q : quad) (x : K) : list (quad * K) :=
    match q with
    | (i, k, j, l) =>
        [((i, k, j, l), x)] ++
        (if sym =? 1 then [] else
          [((j, l, i, k), x); ((k, i, l, j), conj x); ((l, j, k, i), conj x)] ++
          (if sym =? 4 then [] else
            [((k, i, j, l), x); ((l, j, i, k), x); ((i, k, l, j), x); ((j, l, k, i), x)]))
    end.

  Record state := State { h1e : tensor2; h2e : tensor4; ecore : option K }.

  (** index n-1: zero wraps to the last, too large raises *)
  Definition pyix (nb n : nat) : res nat :=
    if n =? 0 then (if nb =? 0 then Err IndexError else Ok (nb - 1))
    else if n - 1 <? nb then Ok (n - 1) else Err IndexError.

  Definition read_line (sym nb : nat) (s : state) (l : line) : res state :=
    match lfmt l with
    | Paren => Err NameError
    | _ =>
      match ix l with
      | (i, k, j, m) =>
        if (i =? 0) && (j =? 0) && (k =? 0) && (m =? 0) then Ok (State (h1e s) (h2e s) (Some (value l)))
        else if (j =? 0) && (m =? 0) then
          rbind (pyix nb i) (fun i' => rbind (pyix nb k) (fun k' =>
          Ok (State (set2 (set2 (h1e s) i' k' (value l)) k' i' (conj (value l))) (h2e s) (ecore s))))
        else if (0 <? i) && (0 <? j) && (0 <? k) && (0 <? m) then
          if (i <=? nb) && (k <=? nb) && (j <=? nb) && (m <=? nb) then
            Ok (State (h1e s)
                  (fold_left (fun h p => set4 h (fst p) (snd p)) (images sym (i - 1, k - 1, j - 1, m - 1) (value l)) (h2e s))
                  (ecore s))
          else Err IndexError
        else Ok s
      end
    end.

  Fixpoint read_lines (sym nb : nat) (s : state) (ls : list line) : res state :=
    match ls with
    | [] => Ok s
    | l :: ls' => rbind (read_line sym nb s l) (fun s' => read_lines sym nb s' ls')
    end.

  Definition read_fcidump (d : dump) (sym : nat) : res (tensor2 * tensor4 * K * (Z * Z)) :=
    if (sym =? 1) || (sym =? 4) || (sym =? 8) then
      rbind (read_lines sym (norb d) (State (fun _ _ => zero) (fun _ _ _ _ => zero) None) (lines d)) (fun s =>
      match ecore s with
      | None => Err UnboundLocalError
      | Some e =>
          let nalpha := ((nel d + ms2 d) / 2)%Z in
          Ok (h1e s, h2e s, e, (nalpha, (nalpha - ms2 d)%Z))
      end)
    else Err AssertionError.
End Fcidump.
