(* Local energies of the Hubbard-Holstein model and energies of coherent states.

   Sources (all under /repo/pauxy):
     estimators/hubbard.py 2-49          local_energy_hubbard_holstein_momentum
     estimators/hubbard.py 51-91         local_energy_hubbard_holstein
     systems/hubbard_holstein.py 104-111 gamma_lf, Ueff
     trial_wavefunction/coherent_state.py 47-78    gab
     trial_wavefunction/coherent_state.py 80-115   local_energy_hubbard_holstein_jax
     trial_wavefunction/coherent_state.py 404-406  the first shift
     trial_wavefunction/coherent_state.py 850-957  CoherentState.calculate_energy
     trial_wavefunction/harmonic_oscillator.py 34-37  laplacian

   Simplifications: exact complex numbers.  exp is an oracle.  numpy.linalg.inv is the
   inverse; it raises for singular overlaps, which theorems exclude.  The sums over
   coherent states are big sums in place of loops with +=.  numpy.sqrt is sqrtC; masses and
   frequencies are positive. *)

From Verif Require Import Base.
Set Warnings "-notation-overridden,-ambiguous-paths".
From mathcomp Require Import all_ssreflect all_fingroup all_algebra.
From Verif Require Import LEnergy_Model.

Set Implicit Arguments.
Unset Strict Implicit.
Unset Printing Implicit Defensive.

Import Order.TTheory GRing.Theory Num.Theory.
Local Open Scope ring_scope.

Section HH.
Variable C : numClosedFieldType.
Variable M : nat.
Notation mat2 := ('M[C]_M * 'M[C]_M)%type.

Record hh := HH { hT : mat2; hU : C; hg : C; hm : C; hw : C; hsym : bool }.

Definition sqrttwomw (y : hh) : C := sqrtC (2%:R * hm y * hw y).

(* hubbard_holstein.py 104-111 *)
Definition gamma_lf (y : hh) (lang_firsov : bool) : C :=
  if lang_firsov then hg y * sqrtC (2%:R / (hm y * hw y ^+ 3)) else 0.
Definition Ueff (y : hh) : C :=
  let gm := gamma_lf y true in
  hU y + gm ^+ 2 * hm y * hw y ^+ 2 - 2%:R * hg y * gm * sqrtC (2%:R * hm y * hw y).

(* coherent_state.py 80-115 *)
Definition hh_jax (T : mat2) (U g m w : C) (G : mat2) (X Lap : 'I_M -> C) : energy C :=
  let nbasis := M%:R in
  let ke := \sum_i \sum_j (T.1 i j * G.1 i j + T.2 i j * G.2 i j) in
  let pe := U * \sum_i G.1 i i * G.2 i i in
  let pe_ph := half C * w ^+ 2 * m * \sum_i X i * X i in
  let ke_ph := - half C * (\sum_i Lap i) / m - half C * w * nbasis in
  let e_eph := - g * sqrtC (m * w * 2%:R) * \sum_i (G.1 i i + G.2 i i) * X i in
  (ke + pe + pe_ph + ke_ph + e_eph, ke + pe, ke_ph + pe_ph + e_eph).

(* estimators/hubbard.py 51-91; pe is assigned twice *)
Definition hh_position (y : hh) (G : mat2) (X Lap : 'I_M -> C) : energy C :=
  let ke := \sum_i \sum_j ((hT y).1 i j * G.1 i j + (hT y).2 i j * G.2 i j) in
  let pe0 := if hsym y then Some (- half C * hU y * (\tr G.1 + \tr G.2)) else None in
  let pe := hU y * \sum_i G.1 i i * G.2 i i in
  let pe_ph := half C * hw y ^+ 2 * hm y * \sum_i X i * X i in
  let ke_ph := - half C * (\sum_i Lap i) / hm y - half C * hw y * M%:R in
  let e_eph := - hg y * sqrtC (hm y * hw y * 2%:R) * \sum_i (G.1 i i + G.2 i i) * X i in
  (ke + pe + pe_ph + ke_ph + e_eph, ke + pe, ke_ph + pe_ph + e_eph).

(* estimators/hubbard.py 2-49; expi x stands for exp(1j*x) *)
Section Momentum.
Variable expi : C -> C.
Definition phases (gm : C) (P : 'I_M -> C) : 'M[C]_M :=
  diag_mx (\row_i expi (gm * P i)).
Definition phases_conj (gm : C) (P : 'I_M -> C) : 'M[C]_M :=
  diag_mx (\row_i (expi (gm * P i))^*).
Definition hh_momentum (y : hh) (lang_firsov : bool) (G : mat2) (P Lap : 'I_M -> C)
  : res (energy C) :=
  let gm := gamma_lf y lang_firsov in
  let Ta := phases gm P *m (hT y).1 *m phases_conj gm P in
  let Tb := phases gm P *m (hT y).2 *m phases_conj gm P in
  let ke := \sum_i \sum_j (Ta i j * G.1 i j + Tb i j * G.2 i j) in
  let s := sqrttwomw y in
  if gm * hw y == hg y * s then
    let Ue := hU y + gm ^+ 2 * hw y - 2%:R * hg y * gm * s in
    let pe := Ue * \sum_i G.1 i i * G.2 i i in
    let pe_ph := - half C * hw y ^+ 2 * hm y * \sum_i Lap i in
    let ke_ph := half C * (\sum_i P i * P i) / hm y - half C * hw y * M%:R in
    let e_eph := (gm ^+ 2 * hw y / 2%:R - hg y * gm * s) * \sum_i (G.1 i i + G.2 i i) in
    Ok (ke + pe + pe_ph + ke_ph + e_eph, ke + pe, ke_ph + pe_ph + e_eph)
  else Err AssertionError.
End Momentum.

(* coherent_state.py 404-406 *)
Definition first_shift (y : hh) (G : mat2) (i : 'I_M) : C :=
  'Re (sqrtC (hw y * 2%:R * hm y) * hg y * (G.1 i i + G.2 i i) / (hm y * hw y ^+ 2)).

(* harmonic_oscillator.py 34-37 *)
Definition hh_laplacian (m w : C) (shift X : 'I_M -> C) (i : 'I_M) : C :=
  m * m * w * w * (X i - shift i) * (X i - shift i) - w * m.

(* coherent_state.py 945-947 *)
Definition coherent_energy (y : hh) (G : mat2) (shift : 'I_M -> C) : energy C :=
  hh_jax (hT y) (hU y) (hg y) (hm y) (hw y) G shift
    (hh_laplacian (hm y) (hw y) shift shift).

(* coherent_state.py 47-78 *)
Definition gab n (A B : 'M[C]_(M, n)) : 'M[C]_M :=
  B *m (invmx ((map_mx conjC A)^T *m B) *m (map_mx conjC A)^T).

Section Many.
Variables na nb : nat.
Variable expo : C -> C.
Record coherent := Coherent {
  oa : 'M[C]_(M, na); ob : 'M[C]_(M, nb); sh : 'I_M -> C; co : C }.
Definition beta (y : hh) (s : coherent) (i : 'I_M) : C := sh s i * sqrtC (hm y * hw y / 2%:R).

Definition greens (s t : coherent) : mat2 := (gab (oa s) (oa t), gab (ob s) (ob t)).

(* 873, 892 and 936: the overlap, without conjugation *)
Definition overlap (y : hh) (s t : coherent) : C :=
  \det ((oa s)^T *m oa t) * \det ((ob s)^T *m ob t)
  * \prod_i expo (- half C * (beta y s i ^+ 2 + beta y t i ^+ 2) + beta y s i * beta y t i).

(* 886-890 and 931-934 *)
Definition pair_energy (y : hh) (s t : coherent) : C * C :=
  let G := greens s t in
  let ke := \sum_i \sum_j ((hT y).1 i j * G.1 i j + (hT y).2 i j * G.2 i j) in
  let pe := hU y * \sum_i G.1 i i * G.2 i i in
  let e_ph := hw y * \sum_i beta y s i * beta y t i in
  let e_eph := - hg y * \sum_i (G.1 i i + G.2 i i) * (beta y s i + beta y t i) in
  (ke + pe, e_ph + e_eph).

(* 861-898; energy, e1b and e2b are each a sum divided by denom *)
Section Loop.
Variables (n : nat) (y : hh) (st : 'I_n -> coherent).
Definition twice (f : coherent -> coherent -> C) : C :=
  \sum_(i < n) \sum_(j < n | (i < j)%N)
    f (st i) (st j) * overlap y (st i) (st j) * co (st i) * co (st j) * 2%:R.
Definition multi_energy : energy C :=
  let sq i := `|co (st i)| ^+ 2 in
  let e i := coherent_energy y (greens (st i) (st i)) (sh (st i)) in
  let ov i := overlap y (st i) (st i) in
  let num_energy := \sum_i (e i).1.1 * sq i * ov i
                    + twice (fun s t => (pair_energy y s t).1 + (pair_energy y s t).2) in
  let num_e1b := \sum_i (e i).1.2 * sq i * ov i + twice (fun s t => (pair_energy y s t).1) in
  let num_e2b := \sum_i (e i).2 * sq i * ov i + twice (fun s t => (pair_energy y s t).2) in
  let denom := \sum_i ov i * sq i + twice (fun _ _ => 1) in
  (num_energy / denom, num_e1b / denom, num_e2b / denom).

(* 900-943: states that are permutations of one *)
Definition perm_energy (s : coherent) : energy C :=
  let sq i := co (st i) ^+ 2 in
  let e := coherent_energy y ((gab (oa s) (oa s))^T, (gab (ob s) (ob s))^T) (sh s) in
  let num_energy := \sum_i e.1.1 * sq i
                    + twice (fun s t => (pair_energy y s t).1 + (pair_energy y s t).2) in
  let num_e1b := \sum_i e.1.2 * sq i + twice (fun s t => (pair_energy y s t).1) in
  let num_e2b := \sum_i e.2 * sq i + twice (fun s t => (pair_energy y s t).2) in
  let denom := \sum_i sq i + twice (fun _ _ => 1) in
  (num_energy / denom, num_e1b / denom, num_e2b / denom).
End Loop.

(* 911-914: psi[perm, :] and beta[perm] *)
Definition permuted (s : coherent) (c : C) (p : 'S_M) : coherent :=
  Coherent (\matrix_(i, j) oa s (p i) j) (\matrix_(i, j) ob s (p i) j) (fun i => sh s (p i)) c.
End Many.
End HH.
