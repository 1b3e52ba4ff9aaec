(* Statistical analysis of output files.

   Sources (all under /repo/pauxy):
     analysis/blocking.py 46-66     average_ratio
     analysis/blocking.py 69-96     average_fp (with average_single 26-43)
     analysis/blocking.py 99-136    reblock_mixed (what follows the pyblock part)
     analysis/blocking.py 139       the arguments of reblock_free_projection
     analysis/blocking.py 181-186   average_rdm
     analysis/blocking.py 276-290   analyse_back_prop
     analysis/blocking.py 292-328   analyse_estimates
     analysis/autocorr.py 6-70      next_pow_two, autocorr_func_1d, auto_window,
                                    autocorr_gw2010, reblock_by_autocorr
     analysis/extraction.py 14-34   extract_data, extract_mixed_estimates

   Simplifications: exact rational numbers.  Standard errors are kept as their
   squares; None stands for nan.  numpy.fft of a zero padded series gives the
   sums of products it is used for (autocorr.py 20-22); the factor 4n cancels
   in the normalisation.  A matrix valued series is treated element by element.
   The results of pyblock are left out.  numpy.log2 of a length is exact. *)

From Verif Require Import Base Cplx.
Open Scope Q_scope.

(* numpy.mean, numpy.var(ddof), numpy.cov, and the square of scipy.stats.sem. *)
Definition len {A} (l : list A) : Q := q_of_nat (length l).
Definition mean (l : list Q) : Q := Qsum l / len l.
Definition sq (x : Q) : Q := x * x.
Definition var (ddof : Q) (l : list Q) : Q :=
  Qsum (map (fun x => sq (x - mean l)) l) / (len l - ddof).
Definition cov (l : list (Q * Q)) : Q :=
  Qsum (map (fun p => (fst p - mean (map fst l)) * (snd p - mean (map snd l))) l)
  / (len l - 1).
Definition sem2 (l : list Q) : Q := var 1 l / len l.

(* The square of abs(m) * x**0.5. *)
Definition scaled_root2 (m x : Q) : option Q := if Qltb x 0 then None else Some (sq m * x).

(* blocking.py 46-66 *)
Definition average_ratio (data : list (C * C)) : Q * option Q :=
  let re_num := map (fun p => re (fst p)) data in
  let re_den := map (fun p => re (snd p)) data in
  let im_num := map (fun p => im (fst p)) data in
  let im_den := map (fun p => im (snd p)) data in
  let num_av := mean re_num * mean re_den + mean im_num * mean im_den in
  let den_av := sq (mean re_den) + sq (mean im_den) in
  let m := num_av / den_av in
  let c := cov (combine re_num re_den) in
  let nsmpl := len re_num in
  (m, scaled_root2 m
        (sem2 re_num / sq (mean re_num) + sem2 re_den / sq (mean re_den)
         - 2 * c / (nsmpl * mean re_num * mean re_den))).

(* 69-96.  A row is (iteration, numerator, denominator). *)
Definition row : Type := (nat * C * C)%type.
Fixpoint insert_key (k : nat) (l : list nat) : list nat :=
  match l with
  | [] => [k]
  | k' :: l' => if (k =? k')%nat then l
                else if (k <? k')%nat then k :: l else k' :: insert_key k l'
  end.
Definition keys (rows : list row) : list nat :=
  fold_right (fun r => insert_key (fst (fst r))) [] rows.
Definition group (rows : list row) (k : nat) : list (C * C) :=
  map (fun r => (snd (fst r), snd r)) (filter (fun r => (fst (fst r) =? k)%nat) rows).
Definition average_fp (rows : list row) : list (nat * Q * option Q) :=
  let nsamp := len (keys rows) in
  map (fun k =>
    let data := group rows k in
    let re_num := map (fun p => re (fst p)) data in
    let re_den := map (fun p => re (snd p)) data in
    let im_num := map (fun p => im (fst p)) data in
    let im_den := map (fun p => im (snd p)) data in
    let e := (mean re_num * mean re_den + mean im_num * mean im_den)
             / (sq (mean re_den) + sq (mean im_den)) in
    let c := cov (combine re_num re_den) in
    (k, e, scaled_root2 e
             (sem2 re_num / sq (mean re_num) + sem2 re_den / sq (mean re_den)
              - 2 * c / (nsamp * mean re_num * mean re_den))))
  (keys rows).

(* 181-186, one element *)
Definition average_rdm (series : list Q) (skip : nat) : Q * Q :=
  let kept := skipn skip series in
  (mean kept, var 1 kept / len series).

(* int(x) and l[z:] *)
Definition py_int (x : Q) : Z := if Qltb x 0 then Qceiling x else Qfloor x.
Definition slice_from {A} (z : Z) (l : list A) : list A :=
  if (z <? 0)%Z then skipn (length l - Z.to_nat (- z)) l else skipn (Z.to_nat z) l.
Definition qdiv (x y : Q) : res Q := if Qeq_bool y 0 then Err ZeroDivisionError else Ok (x / y).

(* Data sets of a file, by name (extraction.py 14-28). *)
Inductive dset : Type :=
| Energies | Energies_ix (ix : nat) | Denominator_ix (ix : nat)
| One_rdm_ix (ix : nat) | Two_rdm_ix (ix : nat) | Fock_1p_ix (ix : nat) | Fock_1h_ix (ix : nat).
Definition dset_eq (a b : dset) : bool :=
  match a, b with
  | Energies, Energies => true
  | Energies_ix i, Energies_ix j | Denominator_ix i, Denominator_ix j
  | One_rdm_ix i, One_rdm_ix j | Two_rdm_ix i, Two_rdm_ix j
  | Fock_1p_ix i, Fock_1p_ix j | Fock_1h_ix i, Fock_1h_ix j => (i =? j)%nat
  | _, _ => false
  end.
Definition h5 : Type := list (dset * list Q).
Definition extract_data (f : h5) (name : dset) : res (list Q) :=
  match find (fun p => dset_eq (fst p) name) f with
  | Some p => Ok (snd p)
  | None => Err KeyError
  end.

(* 276-290, one file and one column *)
Definition analyse_back_prop (f : h5) (tbp start_time : Q) : res (Q * Q) :=
  rbind (qdiv start_time tbp) (fun x =>
  let start := Z.min 1 (py_int x + 1) in
  rbind (extract_data f Energies) (fun rows =>
  let data := slice_from start rows in
  Ok (mean data, var 1 data / len data))).

(* autocorr.py 6-10: the loop with fuel *)
Fixpoint pow_two_loop (fuel i n : nat) : res nat :=
  if (i <? n)%nat then
    match fuel with
    | O => Err OutOfFuel
    | S fuel' => pow_two_loop fuel' (2 * i) n
    end
  else Ok i.
Definition next_pow_two (n : nat) : res nat := pow_two_loop n 1 n.

(* 12-27 *)
Definition centred (y : list Q) : list Q := map (fun x => x - mean y) y.
Definition autocov (y : list Q) (k : nat) : Q :=
  let x := centred y in
  Qsum (map (fun p => fst p * snd p) (combine x (skipn k x))).
Definition acf (y : list Q) (k : nat) : Q := autocov y k / autocov y 0.

(* 30-34: m[k] = k < c*taus[k]; argmin gives the first False, or 0. *)
Fixpoint first_false (i : nat) (m : list bool) : option nat :=
  match m with
  | [] => None
  | b :: m' => if b then first_false (S i) m' else Some i
  end.
Definition argmin (m : list bool) : nat :=
  match first_false 0 m with Some i => i | None => 0%nat end.
Definition below (taus : list Q) (c : Q) : list bool :=
  map (fun p => Qltb (q_of_nat (fst p)) (c * snd p)) (combine (seq 0 (length taus)) taus).
Definition auto_window (taus : list Q) (c : Q) : nat :=
  let m := below taus c in
  if existsb (fun b => b) m then argmin m else (length taus - 1)%nat.

(* 37-41.  A constant series has 0/0 everywhere. *)
Definition cumulated (y : list Q) : list Q :=
  map (fun k => 2 * Qsum (map (acf y) (seq 0 (S k))) - 1) (seq 0 (length y)).
Definition autocorr_gw2010 (y : list Q) (c : Q) : option Q :=
  if Qeq_bool (autocov y 0) 0 then None
  else Some (nth (auto_window (cumulated y) c) (cumulated y) 0).

(* numpy.max with nan; ValueError when empty *)
Definition qmax (x y : Q) : Q := if Qltb x y then y else x.
Definition nanmax (l : list (option Q)) : res (option Q) :=
  match l with
  | [] => Err ValueError
  | x :: l' =>
      Ok (fold_left (fun a b => match a, b with
                                | Some u, Some v => Some (qmax u v)
                                | _, _ => None
                                end) l' x)
  end.
(* numpy.round: ties to even *)
Definition round_even (x : Q) : Z :=
  let f := Qfloor x in
  let d := x - inject_Z f in
  if Qltb d (1 # 2) then f
  else if Qltb (1 # 2) d then (f + 1)%Z
  else if Z.even f then f else (f + 1)%Z.

Record reblocked : Type := Reblocked
  { r_mean : Q ; r_err2 : Q ; r_nblocks : Z ; r_size : Z }.

(* 44-70.  For a negative block size there are no blocks and the mean is nan,
   which is not distinguished from an error here (it cannot happen). *)
Definition reblock_by_autocorr (y : list Q) : res reblocked :=
  if (length y =? 0)%nat then Err OverflowError
  else
    let ns := map (fun i => (length y / 2 ^ i)%nat) (seq 0 (Nat.log2 (length y))) in
    let tacs := map (fun n => autocorr_gw2010 (firstn n y) 5) ns in
    rbind (nanmax tacs) (fun mx =>
    match mx with
    | None => Err ValueError
    | Some t =>
        let block_size := round_even t in
        if (block_size =? 0)%Z then Err ZeroDivisionError
        else if (block_size <? 0)%Z then Err ValueError
        else
          let b := Z.to_nat block_size in
          let nblocks := (length y / b)%nat in
          let yblocked := map (fun i => mean (firstn b (skipn (i * b) y))) (seq 0 nblocks) in
          Ok (Reblocked (mean yblocked) (var 0 yblocked / q_of_nat nblocks)
                (Z.of_nat nblocks) block_size)
    end).

(* blocking.py 292-328 for the mixed estimates.  A file has parameters, as added
   by set_info, of some type with equality, and its energies. *)
Section Estimates.
Variable Par : Type.
Variable par_eq : Par -> Par -> bool.
Record out : Type := MkOut
  { o_par : Par ; o_nsteps : Q ; o_dt : Q ; o_read_rs : bool ; o_rows : list Q }.

(* 310-313 *)
Definition retained (start_time : Q) (f : out) : res (list Q) :=
  rbind (qdiv start_time (o_nsteps f * o_dt f)) (fun x =>
  let start := if o_read_rs f then 0%Z else (py_int x + 1)%Z in
  Ok (slice_from start (o_rows f))).

Fixpoint retained_all (start_time : Q) (files : list out) : res (list (Par * list Q)) :=
  match files with
  | [] => Ok []
  | f :: files' =>
      rbind (retained start_time f) (fun d =>
      rbind (retained_all start_time files') (fun r => Ok ((o_par f, d) :: r)))
  end.

(* 325-328 and 127-134: one group of parameters, or one value for a column of
   several rows. *)
Definition analyse_estimates (fp : bool) (start_time : Q) (files : list out)
  : res reblocked :=
  rbind (retained_all start_time files) (fun data =>
  match data with
  | [] => Err UnboundLocalError
  | (p, _) :: _ =>
      if fp then Err TypeError
      else if forallb (fun q => par_eq p (fst q)) data
      then reblock_by_autocorr (concat (map snd data))
      else Err ValueError
  end).
End Estimates.
