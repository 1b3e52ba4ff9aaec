(** pauxy/utils/hamiltonian_converter.py: get_kpoint_chol 409-419,
    write_fcidump_kpoint 462-543, with Fcidump_Model for check_sym, fmt_integral and the
    form of the file.
    chol[iq][ki] is a matrix with rows (i,k) and ncol columns (the documented shape),
    qk_k2 a table; both are total functions of their indices, only nmo_pk is checked.
    L{} of the hdf5 file is a partial function of the number. *)
From Verif Require Import Base Fcidump_Model.
Open Scope nat_scope.

Section Loops.
  Context {A : Type}.

  (** a loop that adds lines and advances a counter *)
  Fixpoint loop (xs : list nat) (c : nat) (body : nat -> nat -> res (nat * list A)) : res (nat * list A) :=
    match xs with
    | [] => Ok (c, [])
    | x :: xs' => rbind (body c x) (fun r1 => rbind (loop xs' (fst r1) body) (fun r2 =>
                  Ok (fst r2, snd r1 ++ snd r2)))
    end.

  Fixpoint gather {B : Type} (xs : list B) (body : B -> res (list A)) : res (list A) :=
    match xs with
    | [] => Ok []
    | x :: xs' => rbind (body x) (fun r1 => rbind (gather xs' body) (fun r2 => Ok (r1 ++ r2)))
    end.
End Loops.

(** offsets[i] = offsets[i-1] + nmo_pk[i-1] *)
Fixpoint offsets_from (acc : nat) (npk : list nat) : list nat :=
  match npk with
  | [] => []
  | n :: npk' => acc :: offsets_from (acc + n) npk'
  end.

Section KPoint.
  Variables (K : Type) (zero : K) (ad mu : K -> K -> K) (conj re : K -> K) (big : K -> bool).
  Variables (npk : list nat) (qk : nat -> nat -> nat).
  Let nkp := length npk.
  Let offs k := nth k (offsets_from 0 npk) 0.

  (** lq: the number of columns and the matrix of each k point *)
  Record cholq := CholQ { ncol : nat; entry : nat -> nat -> nat -> K }.

  (** numpy.dot(lq[ki], lq[kl].conj().T) *)
  Definition eri (lq : cholq) (ki kl r c : nat) : K :=
    fold_right (fun m acc => ad (mu (entry lq ki r m) (conj (entry lq kl c m))) acc) zero (seq 0 (ncol lq)).

  (** 509-532 *)
  Definition block (nmo sym : nat) (cplx paren : bool) (iq ki kl : nat) (e : nat -> nat -> K) : res (list (line K)) :=
    rbind (loop (seq 0 (nth ki npk 0)) 0 (fun ik i =>
      let kk := qk iq ki in
      let I := i + offs ki in
      match nth_error npk kk with
      | None => Err IndexError
      | Some nk =>
        loop (seq 0 nk) ik (fun ik k =>
          let kj := qk iq kl in
          let K' := k + offs kk in
          rbind (loop (seq 0 (nth kl npk 0)) 0 (fun lj l =>
            let L := l + offs kl in
            match nth_error npk kj with
            | None => Err IndexError
            | Some nj =>
              loop (seq 0 nj) lj (fun lj j =>
                let J := j + offs kj in
                Ok (lj + 1,
                    if big (e ik lj) && check_sym (I, K', J, L) nmo sym
                    then [fmt_integral K re (e ik lj) (I + 1, K' + 1, J + 1, L + 1) cplx paren] else []))
            end)) (fun r => Ok (ik + 1, snd r)))
      end)) (fun r => Ok (snd r)).

  (** 500-532.  numpy.where of a matrix gives two arrays, so the length tested is 2 *)
  Definition write_two_k (chol : list cholq) (nmo sym : nat) (cplx paren : bool) : res (list (line K)) :=
    gather (combine (seq 0 (length chol)) chol) (fun p =>
      gather (seq 0 nkp) (fun ki => gather (seq 0 nkp) (fun kl =>
        if negb cplx && (0 <? 2) then Err SystemExit
        else block nmo sym cplx paren (fst p) ki kl (eri (snd p) ki kl)))).

  (** 534-540 *)
  Definition write_one_k (hcore : list (nat -> nat -> K)) (cplx paren : bool) : res (list (line K)) :=
    gather (combine (seq 0 (length hcore)) hcore) (fun p =>
      let ik := fst p in
      match nth_error npk ik with
      | None => Err IndexError
      | Some n => Ok (flat_map (fun i => flat_map (fun j =>
          let I := i + offs ik in let J := j + offs ik in
          if (J <=? I) && big (snd p i j) then [fmt_integral K re (snd p i j) (I + 1, J + 1, 0, 0) cplx paren] else [])
          (seq 0 n)) (seq 0 n))
      end).

  Definition write_fcidump_kpoint (hcore : list (nat -> nat -> K)) (chol : list cholq) (enuc : K)
      (nmo : nat) (nelec : Z * Z) (sym : nat) (cplx paren : bool) : res (dump K) :=
    rbind (write_two_k chol nmo sym cplx paren) (fun two =>
    rbind (write_one_k hcore cplx paren) (fun one =>
    Ok (Dump K nmo (fst nelec + snd nelec) (fst nelec - snd nelec)
          (two ++ one ++ [fmt_integral K re enuc (0, 0, 0, 0) cplx paren])))).

  (** 409-419 *)
  Definition get_kpoint_chol (file : nat -> option cholq) (minus_k : nat -> nat) (i : nat) : res cholq :=
    match file i with
    | Some lk => Ok lk
    | None =>
        match file (minus_k i) with
        | None => Err KeyError
        | Some lk => Ok (CholQ (ncol lk) (fun ki r m => conj (entry lk ki r m)))
        end
    end.
End KPoint.
