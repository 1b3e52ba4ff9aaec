(* Back propagation of the trial along a stored path of auxiliary fields, and
   the forward steps that store the path.

   Sources (all under /repo/pauxy):
     propagation/continuous.py 126-159, 230-260   two_body_propagator,
                                                  propagate_walker_phaseless
     propagation/operations.py 30-60              kinetic_real
     propagation/generic.py 177-211, 253-290      construct_VHS,
                                                  construct_propagator_matrix_generic,
                                                  back_propagate_generic
     propagation/planewave.py 74-178              the same for plane waves
     propagation/hubbard.py 60-85, 166-218,
       280-300                                    discrete forward step
     propagation/hubbard.py 568-711               construct_propagator_matrix(_ghf),
                                                  back_propagate(_ghf)
     propagation/hubbard.py 714-752               back_propagate_single

   Simplifications: exact arithmetic in a numerically closed field; the two
   spins are separate matrices; QR is an argument (Ortho_Model); a path is the
   list of the fields stored, oldest first, which is what get_block()[0] holds
   (C14); the fields drawn by a forward step are given.  A discrete field is
   given by the integer int(xi.real) used as an index.  e^gamma, e^-gamma and
   e^(-dt U/2) are arguments.  Weights and overlaps of the forward steps are
   left out (C06, C40).  nstblz is a natural number. *)

From Verif Require Import Base.
Set Warnings "-notation-overridden,-ambiguous-paths".
From mathcomp Require Import all_ssreflect all_algebra.
From Verif Require Import Ortho_Model Taylor_Model.

Set Implicit Arguments.
Unset Strict Implicit.
Unset Printing Implicit Defensive.

Import Order.TTheory GRing.Theory Num.Theory.
Local Open Scope ring_scope.

Section BackProp.
Variable C : numClosedFieldType.
Variable qr : forall n m, 'M[C]_(n, m) -> 'M[C]_(n, m) * 'M[C]_m.

Local Notation "A ^c" := (map_mx (@conjC C) A) (at level 2, format "A ^c").

(* The orbitals of the two spins. *)
Definition orbs n nu nd : Type := ('M[C]_(n, nu) * 'M[C]_(n, nd))%type.

(* kinetic_real *)
Definition kinetic n nu nd (Bu Bd : 'M[C]_n) (phi : orbs n nu nd)
  : orbs n nu nd := (Bu *m phi.1, Bd *m phi.2).

(* continuous.py: one forward step with the potential V *)
Definition forward_cont n nu nd (nmax : Z) (Bu Bd : 'M[C]_n) (V : 'M[C]_n)
    (phi : orbs n nu nd) : orbs n nu nd :=
  let phi := kinetic Bu Bd phi in
  let phiu := apply_exponential nmax phi.1 V in
  let phid := if (0 < nd)%N then apply_exponential nmax phi.2 V else phi.2 in
  kinetic Bu Bd (phiu, phid).

(* generic.py 177-179 *)
Definition vhs_generic n nc (isqrt_dt : C) (hs_pot : 'I_nc -> 'M[C]_n)
    (x : 'rV[C]_nc) : 'M[C]_n :=
  isqrt_dt *: \sum_g x 0 g *: hs_pot g.

(* planewave.py 87-91 *)
Definition vhs_planewave n nc (sqrt_dt : C) (iA iB : 'I_nc -> 'M[C]_n)
    (x : 'rV[C]_(nc + nc)) : 'M[C]_n :=
  sqrt_dt *: (\sum_g lsubmx x 0 g *: iA g + \sum_g rsubmx x 0 g *: iB g).

(* generic.py 202-211, planewave.py 113-117: the order of the expansion is
   always the default one. *)
Definition construct_propagator_matrix_cont n (Bu Bd V : 'M[C]_n)
  : res ('M[C]_n * 'M[C]_n) :=
  let E := exponentiate_matrix V (Z.of_nat 6) in
  Ok (Bu *m E *m Bu, Bd *m E *m Bd).

(* A forward walk: one step per field. *)
Definition forward_path F n nu nd (step : F -> orbs n nu nd -> orbs n nu nd)
    (path : seq F) (phi : orbs n nu nd) : orbs n nu nd :=
  foldl (fun p c => step c p) phi path.

(* if i != 0 and i % nstblz == 0: reortho *)
Definition stabilise n nu nd (nst i : nat) (phi : orbs n nu nd)
  : res (orbs n nu nd) :=
  if (i == 0)%N then Ok phi
  else if (nst == 0)%N then Err ZeroDivisionError
  else if (i %% nst == 0)%N then Ok ((reortho qr phi.1).1, (reortho qr phi.2).1)
  else Ok phi.

(* generic.py 277-288, planewave.py 143-154, hubbard.py 660-671: B gives the
   propagator of a field; its adjoint is applied.  The second component holds
   the copies made after every step. *)
Fixpoint back_loop F n nu nd (B : F -> res ('M[C]_n * 'M[C]_n)) (nst i : nat)
    (cs : seq F) (phi : orbs n nu nd) : res (orbs n nu nd * seq (orbs n nu nd)) :=
  match cs with
  | [::] => Ok (phi, [::])
  | c :: cs' =>
      rbind (B c) (fun M =>
      let phi := ((M.1^c)^T *m phi.1, (M.2^c)^T *m phi.2) in
      rbind (stabilise nst i phi) (fun phi =>
      rbind (back_loop B nst i.+1 cs' phi) (fun r =>
      Ok (r.1, phi :: r.2))))
  end.

Definition back_propagate F n nu nd (B : F -> res ('M[C]_n * 'M[C]_n))
    (nst : nat) (store : bool) (path : seq F) (phi : orbs n nu nd)
  : res (orbs n nu nd * seq (orbs n nu nd)) :=
  rbind (back_loop B nst 0 (rev path) phi) (fun r =>
  Ok (r.1, if store then r.2 else [::])).

Definition back_propagate_generic n nu nd nc (isqrt_dt : C)
    (hs_pot : 'I_nc -> 'M[C]_n) (Bu Bd : 'M[C]_n) nst store
    (path : seq 'rV[C]_nc) (phi : orbs n nu nd) :=
  back_propagate
    (fun x => construct_propagator_matrix_cont Bu Bd (vhs_generic isqrt_dt hs_pot x))
    nst store path phi.

Definition forward_generic n nu nd nc nmax (isqrt_dt : C)
    (hs_pot : 'I_nc -> 'M[C]_n) (Bu Bd : 'M[C]_n) (x : 'rV[C]_nc)
    (phi : orbs n nu nd) : orbs n nu nd :=
  forward_cont nmax Bu Bd (vhs_generic isqrt_dt hs_pot x) phi.

Definition back_propagate_planewave n nu nd nc (sqrt_dt : C)
    (iA iB : 'I_nc -> 'M[C]_n) (Bu Bd : 'M[C]_n) nst store
    (path : seq 'rV[C]_(nc + nc)) (phi : orbs n nu nd) :=
  back_propagate
    (fun x => construct_propagator_matrix_cont Bu Bd (vhs_planewave sqrt_dt iA iB x))
    nst store path phi.

Definition forward_planewave n nu nd nc nmax (sqrt_dt : C)
    (iA iB : 'I_nc -> 'M[C]_n) (Bu Bd : 'M[C]_n) (x : 'rV[C]_(nc + nc))
    (phi : orbs n nu nd) : orbs n nu nd :=
  forward_cont nmax Bu Bd (vhs_planewave sqrt_dt iA iB x) phi.

(* hubbard.py 66-80: auxf[field, spin]; false is field 0 and spin up. *)
Definition auxf_forward (charge : bool) (f ep em : C) (x s : bool) : C :=
  (if charge then (if x then em else ep) else (if x == s then ep else em)) * f.

(* hubbard.py 195-208: phi[i] = phi[i] + phi[i] * delta[xi, s] *)
Definition two_body_rows n m (auxf : bool -> C) (x : 'I_n -> bool)
    (phi : 'M[C]_(n, m)) : 'M[C]_(n, m) :=
  \matrix_(i, j) (phi i j + phi i j * (auxf (x i) - 1)).

Definition forward_discrete n nu nd charge (f ep em : C) (Bu Bd : 'M[C]_n)
    (x : 'I_n -> bool) (phi : orbs n nu nd) : orbs n nu nd :=
  let phi := kinetic Bu Bd phi in
  let phi := (two_body_rows (fun xi => auxf_forward charge f ep em xi false) x phi.1,
              two_body_rows (fun xi => auxf_forward charge f ep em xi true) x phi.2) in
  kinetic Bu Bd phi.

(* The field as stored by push. *)
Definition stored n (x : 'I_n -> bool) (i : 'I_n) : Z :=
  if x i then Z.of_nat 1 else Z.of_nat 0.

(* indexing an axis of length two *)
Definition index2 (k : Z) : res bool :=
  if Z.eqb k (Z.of_nat 0) || Z.eqb k (Z.opp (Z.of_nat 2)) then Ok false
  else if Z.eqb k (Z.of_nat 1) || Z.eqb k (Z.opp (Z.of_nat 1)) then Ok true
  else Err IndexError.

Definition in_range (k : Z) : bool := is_ok (index2 k).
Definition bit_of (k : Z) : bool := if index2 k is Ok b then b else false.

(* hubbard.py 588-600 *)
Definition construct_propagator_matrix n (ep em : C) (Bu Bd : 'M[C]_n)
    (config : 'I_n -> Z) : res ('M[C]_n * 'M[C]_n) :=
  if [forall i, in_range (config i)] then
    let auxf (x s : bool) := if x == s then ep else em in
    let bv s := diag_mx (\row_i auxf (bit_of (config i)) s) in
    Ok (Bu *m (bv false *m Bu), Bd *m (bv true *m Bd))
  else Err IndexError.

Definition back_propagate_hubbard n nu nd (ep em : C) (Bu Bd : 'M[C]_n) nst
    store (path : seq ('I_n -> Z)) (phi : orbs n nu nd) :=
  back_propagate (construct_propagator_matrix ep em Bu Bd) nst store path phi.

(* hubbard.py 743: construct_propagator_matrix called without dt *)
Definition back_propagate_single n nu nd (path : seq ('I_n -> Z))
    (phi : orbs n nu nd) : res (orbs n nu nd) :=
  match path with [::] => Ok phi | _ => Err TypeError end.

(* hubbard.py 623-632: system.auxf, if the system has that attribute *)
Definition construct_propagator_matrix_ghf n (auxf : option (bool -> bool -> C))
    (B : 'M[C]_(n + n)) (config : 'I_n -> Z) : res 'M[C]_(n + n) :=
  match auxf with
  | None => Err AttributeError
  | Some a =>
      if [forall i, in_range (config i)] then
        let bv s := diag_mx (\row_i a (bit_of (config i)) s) in
        Ok (B *m block_mx (bv false) 0 0 (bv true) *m B)
      else Err IndexError
  end.

(* hubbard.py 704-710: one determinant with its weight; psi_i is a view of
   the determinant just propagated. *)
Definition ghf_det n m (nst i : nat) (B : 'M[C]_n) (d : C * 'M[C]_(n, m))
  : res (C * 'M[C]_(n, m)) :=
  let phi := (B^c)^T *m d.2 in
  if (i == 0)%N then Ok (d.1, phi)
  else if (nst == 0)%N then Err ZeroDivisionError
  else if (i %% nst == 0)%N then
    let (Q, detR) := reortho qr phi in Ok (d.1 * detR^*, Q)
  else Ok (d.1, phi).

Fixpoint ghf_dets n m (nst i : nat) (B : 'M[C]_n) (ds : seq (C * 'M[C]_(n, m)))
  : res (seq (C * 'M[C]_(n, m))) :=
  match ds with
  | [::] => Ok [::]
  | d :: ds' =>
      rbind (ghf_det nst i B d) (fun d' =>
      rbind (ghf_dets nst i B ds') (fun r => Ok (d' :: r)))
  end.

Fixpoint ghf_loop n m auxf (B : 'M[C]_(n + n)) (nst i : nat)
    (cs : seq ('I_n -> Z)) (ds : seq (C * 'M[C]_(n + n, m)))
  : res (seq (C * 'M[C]_(n + n, m))) :=
  match cs with
  | [::] => Ok ds
  | c :: cs' =>
      rbind (construct_propagator_matrix_ghf auxf B c) (fun M =>
      rbind (ghf_dets nst i M ds) (fun ds => ghf_loop auxf B nst i.+1 cs' ds))
  end.

(* hubbard.py 675-711, one walker; its weights start at one *)
Definition back_propagate_ghf n m auxf (B : 'M[C]_(n + n)) nst
    (path : seq ('I_n -> Z)) (dets : seq 'M[C]_(n + n, m))
  : res (seq (C * 'M[C]_(n + n, m))) :=
  ghf_loop auxf B nst 0 (rev path) [seq (1, d) | d <- dets].

End BackProp.
