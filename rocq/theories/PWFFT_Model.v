(* The plane wave system on a grid and its energy by fast Fourier transforms.

   Sources (all under /repo/pauxy):
     systems/pw_fft.py 21-25        fill_up_range
     systems/pw_fft.py 115-134      basis, mesh, momentum transfers, vqvec
     systems/pw_fft.py 184-227      sp_energies
     systems/pw_fft.py 249-275      create_lookup_table, lookup_basis, map_basis_to_index
     estimators/ueg_kernels.pyx 11-17     vq
     estimators/ueg_kernels.pyx 77-133    exchange_greens_function_fft
     estimators/utils.py 261-277    convolve
     estimators/pw_fft.py 18-111    local_energy_pw_fft
     estimators/pw_fft.py 113-213   local_energy_pw_fft_no_cython
     estimators/mixed.py 405-410    local_energy, for this system

   Simplifications: exact arithmetic in a numerically closed field; the cutoff is a
   rational number.  numpy.fft is the discrete Fourier transform by definition, w n is
   the root of unity exp(2 pi i / n), and next_fast_len an argument.  Arrays with one
   axis are lists.  Rows of matrices have the length of the matrix by their type.
   Lists of arrays of different shapes: ragged says if numpy.array accepts them (it
   raises ValueError since numpy 1.24).  two_rdm is not returned.  += on zeros is a
   sum. *)

From Verif Require Import Base.
Set Warnings "-notation-overridden,-ambiguous-paths".
From mathcomp Require Import all_ssreflect all_algebra.

Set Implicit Arguments.
Unset Strict Implicit.
Unset Printing Implicit Defensive.

Import Order.TTheory GRing.Theory Num.Theory.
Local Open Scope ring_scope.

Notation vec := (int * int * int)%type.

(* k.k *)
Definition dot2 (k : vec) : int := k.1.1 * k.1.1 + k.1.2 * k.1.2 + k.2 * k.2.

(* systems/pw_fft.py 21-25, for odd nmesh *)
Definition fill_up_range (nmesh : nat) : seq int :=
  [seq i%:Z - (nmesh %/ 2)%N%:Z | i <- iota 0 nmesh].

(* int(ceil(sqrt(x))) for x >= 0: the first n with x <= n^2 *)
Definition ceil_sqrt (x : rat) : nat :=
  find (fun n => x <= (n ^ 2)%N%:R) (iota 0 (`|numq x|.+1)).

(* itertools.product of three ranges *)
Definition product3 (g : seq int) : seq vec :=
  [seq (xy.1, xy.2, z) | xy <- [seq (x, y) | x <- g, y <- g], z <- g].

Section System.
Variable C : numClosedFieldType.

(* systems/pw_fft.py 184-227.  numpy.squeeze makes an array without axes of a single
   index, and the sum over the second axis raises. *)
Definition sp_energies (kfac : C) (ktwist : C * C * C) (ecut : rat) (nmax : option nat)
  : res (seq C * seq vec * nat * seq nat) :=
  if (nmax == None) && (ecut < 0) then Err ValueError else
  let nmax := if nmax is Some n then n else ceil_sqrt (2%:R * ecut) in
  let kall := product3 (fill_up_range (2 * nmax + 1)) in
  let Gmap := [seq i <- iota 0 (size kall) | 2%:R^-1 * (dot2 (nth 0 kall i))%:~R <= ecut] in
  if size Gmap == 1%N then Err ValueError else
  let kval := [seq nth 0 kall i | i <- Gmap] in
  let spval := [seq kfac ^+ 2 * (2%:R^-1 * ((k.1.1%:~R + ktwist.1.1) ^+ 2
                  + (k.1.2%:~R + ktwist.1.2) ^+ 2 + (k.2%:~R + ktwist.2) ^+ 2)) | k <- kval] in
  Ok (spval, kval, nmax, Gmap).

Record system := System {
  sp_eigv : seq C; basis : seq vec; nmax : nat; gmap : seq nat;
  qvecs : seq vec; qnmax : nat; qmap : seq nat; vqvec : seq C }.

(* ueg_kernels.pyx 11-17, of kfac q *)
Definition vq (pi kfac : C) (q : vec) : C :=
  let q2 := kfac ^+ 2 * (dot2 q)%:~R in
  if q2 < (10%:R ^+ 10)^-1 then 0 else 4%:R * pi / q2.

(* systems/pw_fft.py 249-275 *)
Definition map_basis_to_index (nmax : nat) (k : vec) : int :=
  let shifted := (2 * nmax)%N%:Z in
  (k.1.1 + nmax%:Z) + shifted * (k.1.2 + nmax%:Z) + shifted * shifted * (k.2 + nmax%:Z).

Definition max_int (s : seq int) : int := foldr Num.max (head 0 s) s.

Definition create_lookup_table (nmax : nat) (basis : seq vec) : seq nat :=
  let basis_ix := [seq map_basis_to_index nmax k | k <- basis] in
  let lookup := nseq (`|max_int basis_ix|.+1) 0%N in
  foldl (fun l bi => set_nth 0%N l bi.1 bi.2) lookup
    (zip [seq `|b|%N | b <- basis_ix] (iota 0 (size basis))).

Definition imax_sq (basis : seq vec) : int := max_int [seq dot2 k | k <- basis].

(* a negative index counts from the end *)
Definition lookup_basis (nmax : nat) (basis : seq vec) (v : vec) : option nat :=
  let lookup := create_lookup_table nmax basis in
  if dot2 v <= imax_sq basis then
    let ix := map_basis_to_index nmax v in
    if (size lookup)%:Z <= ix then None
    else Some (nth 0%N lookup (if ix < 0 then `|((size lookup)%:Z + ix)%R|%N else `|ix|%N))
  else None.

(* systems/pw_fft.py 115-134 *)
Definition pw_system (pi kfac : C) (ktwist : C * C * C) (ecut : rat) : res system :=
  rbind (sp_energies kfac ktwist ecut None) (fun '(spval, kval, n, Gmap) =>
  if all (fun i => lookup_basis n kval (nth 0 kval i) == Some i) (iota 0 (size kval)) then
    rbind (sp_energies kfac ktwist (4%:R * ecut) (Some (n * 2)%N)) (fun '(_, q, qn, Qmap) =>
    Ok (System spval kval n Gmap q qn Qmap [seq vq pi kfac k | k <- q]))
  else Err AssertionError).
End System.

Section FFT.
Variable C : numClosedFieldType.
Variable w : nat -> C.
Variable next_fast_len : nat -> nat.

Notation cube L := ('I_L * 'I_L * 'I_L)%type.

(* the flat index of an entry of an array of shape (n, n, n) *)
Definition entry (n : nat) (x y z : nat) : nat := ((x * n + y) * n + z)%N.

(* the kernel of the transform *)
Definition phase L (x p : cube L) : C :=
  w L ^+ (p.1.1 * x.1.1) * w L ^+ (p.1.2 * x.1.2) * w L ^+ (p.2 * x.2).

(* f.reshape(n, n, n) with zeros up to length L along each axis *)
Definition padded (n L : nat) (f : seq C) (x : cube L) : C :=
  if (x.1.1 < n)%N && (x.1.2 < n)%N && (x.2 < n)%N
  then nth 0 f (entry n x.1.1 x.1.2 x.2) else 0.

Definition ifftn L (f : cube L -> C) (p : cube L) : C :=
  (L ^ 3)%N%:R^-1 * \sum_(x : cube L) f x * phase x p.
Definition fftn L (f : cube L -> C) (p : cube L) : C :=
  \sum_(x : cube L) f x * (phase x p)^-1.

(* the flat list of the entries below m along each axis of an array of shape (L, L, L) *)
Definition at3 L (f : cube L -> C) (x y z : nat) : C :=
  if insub x is Some x' then if insub y is Some y' then if insub z is Some z' then
    f (x', y', z') else 0 else 0 else 0.
Definition crop (m L : nat) (f : cube L -> C) : seq C :=
  [seq at3 f (i %/ m %/ m) (i %/ m %% m) (i %% m) | i <- iota 0 (m ^ 3)].

(* estimators/utils.py 261-277, mesh = [n, n, n]; reshape raises *)
Definition convolve (f g : seq C) (n : nat) : res (seq C) :=
  if (size f == n ^ 3)%N && (size g == n ^ 3)%N then
    let min_shape := (n + n - 1)%N in
    let fshape := next_fast_len min_shape in
    let finv := ifftn (@padded n fshape f) in
    let ginv := ifftn (@padded n fshape g) in
    let fq := fftn (fun p => finv p * ginv p) in
    Ok [seq x * (fshape ^ 3)%N%:R | x <- crop min_shape fq]
  else Err ValueError.

(* a[idx] = vals for a list a of zeros: the lengths have to agree, or vals is one
   number; an index out of range raises *)
Definition scatter (n : nat) (idx : seq nat) (vals : seq C) : res (seq C) :=
  if (size vals != size idx) && (size vals != 1%N) then Err ValueError else
  if all (fun i => (i < n)%N) idx then
    Ok (foldl (fun a iv => set_nth 0 a iv.1 iv.2) (nseq n 0)
         (zip idx (if size vals == size idx then vals else nseq (size idx) (head 0 vals))))
  else Err IndexError.

(* a[idx] *)
Definition gather (a : seq C) (idx : seq nat) : res (seq C) :=
  if all (fun i => (i < size a)%N) idx then Ok [seq nth 0 a i | i <- idx] else Err IndexError.

Section Energy.
Variable M : nat.
Notation mat2 := ('M[C]_M * 'M[C]_M)%type.
Variable sys : system C.
Variable vol : C.

(* a row of a matrix *)
Definition arow m (A : 'M[C]_(m, M)) (i : 'I_m) : seq C := [seq A i a | a <- enum 'I_M].

(* one of the two convolutions: cubes of two lists, convolved, flipped, restricted to
   the momentum transfers *)
Definition transfers (f g : seq C) : res (seq C) :=
  let n := (nmax sys * 2 + 1)%N in
  rbind (scatter (n ^ 3) (gmap sys) f) (fun fc =>
  rbind (scatter (n ^ 3) (gmap sys) g) (fun gc =>
  rbind (convolve fc gc n) (fun lQ => gather (rev lQ) (qmap sys)))).

(* += of lists, for each of s, from zeros *)
Fixpoint accumulate (T : Type) (f : T -> res (seq C)) (s : seq T) (acc : seq C) : res (seq C) :=
  match s with
  | [::] => Ok acc
  | x :: s' => rbind (f x) (fun v => accumulate f s' [seq p.1 + p.2 | p <- zip acc v])
  end.
Definition zeros : seq C := nseq (size (qvecs sys)) 0.

(* estimators/pw_fft.py 63-93 *)
Definition Gpmq m (CT Gh : 'M[C]_(m, M)) : res (seq C) :=
  accumulate (fun i => transfers (arow CT i) (rev (arow Gh i))) (enum 'I_m) zeros.
Definition Gkpq m (CT Gh : 'M[C]_(m, M)) : res (seq C) :=
  accumulate (fun i => transfers (arow Gh i) (rev (arow CT i))) (enum 'I_m) zeros.

(* ueg_kernels.pyx 77-133 *)
Definition exchange_fft m (CT Gh : 'M[C]_(m, M)) : res (seq C) :=
  accumulate (fun ij : 'I_m * 'I_m =>
    rbind (transfers (arow CT ij.2) (rev (arow Gh ij.1))) (fun lQ_ji =>
    rbind (transfers (arow Gh ij.2) (rev (arow CT ij.1))) (fun lQ_ij =>
    Ok [seq p.1 * p.2 | p <- zip lQ_ji lQ_ij]))) [seq (i, j) | i <- enum 'I_m, j <- enum 'I_m] zeros.

(* vqvec.dot(a) *)
Definition vdot (a : seq C) : C := \sum_(p <- zip (vqvec sys) a) p.1 * p.2.
Definition times (a b : seq C) : seq C := [seq p.1 * p.2 | p <- zip a b].
Definition minus (a b : seq C) : seq C := [seq p.1 - p.2 | p <- zip a b].

(* columns lo, ..., lo + m - 1 of the trial wavefunction, conjugate transposed *)
Definition CTdagger nt (trial : 'M[C]_(M, nt)) (lo m : nat) : 'M[C]_(m, M) :=
  \matrix_(i, a) (if insub (lo + i)%N is Some k then (trial a k)^* else 0).

Definition kinetic (diagH1 : bool) (H1 G : mat2) : C :=
  if diagH1 then \sum_i H1.1 i i * G.1 i i + \sum_i H1.2 i i * G.2 i i
  else \sum_i \sum_j H1.1 i j * G.1 i j + \sum_i \sum_j H1.2 i j * G.2 i j.

(* estimators/pw_fft.py 58-111 *)
Definition energy_of ma mb (ke : C) (CTa Ga : 'M[C]_(ma, M)) (CTb Gb : 'M[C]_(mb, M))
  : res (C * C * C) :=
  rbind (Gpmq CTa Ga) (fun pma => rbind (Gkpq CTa Ga) (fun kpa =>
  rbind (Gpmq CTb Gb) (fun pmb => rbind (Gkpq CTb Gb) (fun kpb =>
  rbind (exchange_fft CTa Ga) (fun xa => rbind (exchange_fft CTb Gb) (fun xb =>
  let fac := 1 / (2%:R * vol) in
  let essa := fac * vdot (minus (times kpa pma) xa) in
  let essb := fac * vdot (minus (times kpb pmb) xb) in
  let eos := fac * vdot (times kpa pmb) + fac * vdot (times kpb pma) in
  let pe := essa + essb + eos in
  Ok (ke + pe, ke, pe))))))).

(* estimators/pw_fft.py 18-111 *)
Definition local_energy_pw_fft (ragged diagH1 : bool) ma mb nt (H1 G : mat2)
    (Ga : 'M[C]_(ma, M)) (Gb : 'M[C]_(mb, M)) (trial : 'M[C]_(M, nt)) : res (C * C * C) :=
  if (ma + mb)%N != nt then Err AssertionError else
  if (ma != mb) && ~~ ragged then Err ValueError else
  energy_of (kinetic diagH1 H1 G) (CTdagger trial 0 ma) Ga (CTdagger trial ma mb) Gb.

(* estimators/pw_fft.py 113-213: the number of electrons and the trial wavefunction of
   the system *)
Definition local_energy_no_cython (ragged : bool) nup ndown (H1 G : mat2)
    (Ga : 'M[C]_(nup, M)) (Gb : 'M[C]_(ndown, M)) (trial : 'M[C]_(M, nup + ndown))
  : res (C * C * C) :=
  if (nup != ndown) && ~~ ragged then Err ValueError else
  energy_of (kinetic false H1 G) (CTdagger trial 0 nup) Ga (CTdagger trial nup ndown) Gb.
End Energy.
End FFT.

(* estimators/mixed.py 405-410: the call has no argument for trial, which has no default *)
Inductive argument := Given | Missing.
Definition call_pw_fft (trial : argument) (A : Type) (value : res A) : res A :=
  if trial is Missing then Err TypeError else value.
Definition local_energy_dispatch (A : Type) (value : res A) : res A := call_pw_fft Missing value.
