(* Contractions with multi-determinant trial wavefunctions.

   Sources (all under /repo/pauxy):
     trial_wavefunction/multi_slater.py 41-46    the local energy trial
     trial_wavefunction/multi_slater.py 234-257  contract_one_body
     walkers/multi_det.py 92-102                 overlap_direct
     walkers/multi_det.py 131-162                calc_otrial, calc_overlap
     walkers/multi_det.py 194-257                greens_function
     walkers/multi_det.py 259-291                local_energy, contract_one_body
     walkers/multi_ghf.py 99-117                 calc_otrial
     estimators/mixed.py 439-448                 local_energy_multi_det
     estimators/mixed.py 511-572                 variational_energy_multi_det,
                                                 variational_energy_ortho_det

   Simplifications: as in Ortho_Model, whose green_dets is the loop of
   greens_function over the determinants.  None stands for the nan of a division by zero.
   scipy.linalg.inv of a singular matrix raises LinAlgError, here ValueError.
   The loops over pairs of determinants are double sums.  local_energy, get_hmatel and
   get_one_body_matel are arguments; one component of the energy is followed. *)

From Verif Require Import Base.
Set Warnings "-notation-overridden,-ambiguous-paths".
From mathcomp Require Import all_ssreflect all_algebra.
From Verif Require Import Ortho_Model.

Set Implicit Arguments.
Unset Strict Implicit.
Unset Printing Implicit Defensive.

Import Order.TTheory GRing.Theory Num.Theory.
Local Open Scope ring_scope.

Section MultiDet.
Variable C : numClosedFieldType.
Local Notation "A ^c" := (map_mx (@conjC C) A) (at level 2, format "A ^c").

Definition quotient (numer denom : C) : option C :=
  if denom == 0 then None else Some (numer / denom).

(* numpy.dot(A.ravel(), B.ravel()) *)
Definition ravel_dot n (A B : 'M[C]_n) : C := \sum_i \sum_j A i j * B i j.

(** The walker. *)
Section Walker.
Variables n nu nd : nat.
Definition det_t : Type := (C * 'M[C]_(n, nu) * 'M[C]_(n, nd))%type.

(* multi_det.py 92-102, and the zeros of 54-55: the stores at construction *)
Definition det_overlap (t : det_t) (phiu : 'M[C]_(n, nu)) (phid : 'M[C]_(n, nd)) : C :=
  \det ((t.1.2^c)^T *m phiu) * \det ((t.2^c)^T *m phid).

Definition overlap_direct (trial : list det_t) phiu phid : list (detstore C n) * C :=
  let sts := List.map (fun t =>
    let o := det_overlap t phiu phid in MkDet 0 0 o ((t.1.1)^* * o)) trial in
  (sts, \sum_(s <- sts) d_weight s).

(* multi_det.py 144-162: calc_overlap, which leaves Gi alone *)
Definition calc_overlap (trial : list det_t) phiu phid (sts : list (detstore C n))
  : list (detstore C n) * C :=
  let sts' := List.map (fun p =>
    let o := det_overlap p.1 phiu phid in
    MkDet (d_Gup p.2) (d_Gdn p.2) o ((p.1.1.1)^* * o)) (List.combine trial sts) in
  (sts', \sum_(s <- sts') d_weight s).

(* 283-291 *)
Definition contract_walker (ints : 'M[C]_n) (trial : list det_t) (sts : list (detstore C n))
  : option C :=
  let l := List.combine trial sts in
  let ofac p := (p.1.1.1)^* * d_ovlp p.2 in
  quotient (\sum_(p <- l) ofac p * ravel_dot (d_Gup p.2 + d_Gdn p.2) ints)
           (\sum_(p <- l) ofac p).

(* mixed.py 439-448 *)
Variable le : 'M[C]_n -> 'M[C]_n -> C.
Definition multi_energy (l : list (C * ('M[C]_n * 'M[C]_n))) : option C :=
  quotient (\sum_(p <- l) p.1 * le p.2.1 p.2.2) (\sum_(p <- l) p.1).

(* multi_slater.py 44: numpy.argmax(numpy.abs(coeffs)), the first maximum *)
Fixpoint argmax_from (i best : nat) (x : C) (l : list C) : nat :=
  match l with
  | nil => best
  | cons y l' => if x < y then argmax_from i.+1 i y l' else argmax_from i.+1 best x l'
  end.
Definition argmax (l : list C) : nat :=
  match l with nil => 0%N | cons x l' => argmax_from 1 0 x l' end.

(* 41-46, and multi_det.py 228-256, 259-276: one determinant for the energy,
   with the weight conj(le_coeffs[0]) * ovlps[0] and the Green's functions of
   the determinant imax.  None when the overlap is under eps: le_Gi and
   le_weights are then what they were. *)
Definition split_energy (eps : C) (trial : list det_t) phiu phid
    (sts : list (detstore C n)) : res (option (C * option C)) :=
  let imax := argmax (List.map (fun t : det_t => `|t.1.1|) trial) in
  match List.nth_error trial imax, sts with
  | Some (c, psiu, psid), cons s0 _ =>
      let Oup := phiu^T *m psiu^c in
      let Odn := phid^T *m psid^c in
      if `|\det Oup| < eps then Ok None
      else if `|\det Oup * \det Odn| < eps then Ok None
      else
        let Gup := psiu^c *m (invmx Oup *m phiu^T) in
        let Gdn := psid^c *m (invmx Odn *m phid^T) in
        let w := c^* * d_ovlp s0 in
        Ok (Some (w, multi_energy (cons (w, (Gup, Gdn)) nil)))
  | _, _ => Err IndexError
  end.
End Walker.

(* multi_ghf.py 99-117, from the inverses of the overlap matrices *)
Definition ghf_otrial n m N (coeffs : 'I_N -> C) (psi : 'I_N -> 'M[C]_(n, m))
    (phi : 'M[C]_(n, m)) : C :=
  \sum_i coeffs i * (1 / \det (invmx ((psi i)^c^T *m phi))).

(** The trial with itself. *)
Section Trial.
Variable N : nat.
Variable coeffs : 'I_N -> C.

(* multi_slater.py 234-250: orthogonal expansions *)
Definition contract_ortho (Det : Type) (matel : Det -> Det -> C) (occs : 'I_N -> Det)
  : option C :=
  let cfac i j := (coeffs i)^* * (coeffs j)^* in
  quotient (\sum_i \sum_j cfac i j * matel (occs i) (occs j))
           (\sum_i \sum_j (if i == j then (coeffs i)^* * (coeffs i)^* else 0)).

Variables n nu nd : nat.
Variable psiu : 'I_N -> 'M[C]_(n, nu).
Variable psid : 'I_N -> 'M[C]_(n, nd).

(* gab_mod_ovlp does not raise *)
Definition invertible : bool :=
  [forall i, forall j, ((psiu j)^T *m (psiu i)^c \in unitmx) &&
                       ((psid j)^T *m (psid i)^c \in unitmx)].

Definition pair_ovlp (i j : 'I_N) : C :=
  1 / (\det (gab_mod_ovlp (psiu i) (psiu j)).2 * \det (gab_mod_ovlp (psid i) (psid j)).2).

(* 251-258: other expansions *)
Definition contract_general (ints : 'M[C]_n) : res (option C) :=
  if invertible then
    let cfac i j := (coeffs i)^* * (coeffs j)^* in
    let tij i j := ravel_dot ints ((gab_mod_ovlp (psiu i) (psiu j)).1.1
                                   + (gab_mod_ovlp (psid i) (psid j)).1.1) in
    Ok (quotient (\sum_i \sum_j cfac i j * pair_ovlp i j * tij i j)
                 (\sum_i \sum_j cfac i j * pair_ovlp i j))
  else Err ValueError.

(* mixed.py 511-535 *)
Definition variational_multi (le : 'M[C]_n -> 'M[C]_n -> C) : res (option C) :=
  if invertible then
    let weight i j := (coeffs i)^* * coeffs j * pair_ovlp i j in
    let e i j := le (gab_mod_ovlp (psiu i) (psiu j)).1.1 (gab_mod_ovlp (psid i) (psid j)).1.1 in
    Ok (quotient (\sum_i \sum_j weight i j * e i j) (\sum_i \sum_j weight i j))
  else Err ValueError.

(* mixed.py 537-572 *)
Definition variational_ortho (Det : Type) (hmatel : Det -> Det -> C) (occs : 'I_N -> Det)
  : option C :=
  let etot i j := (coeffs i)^* * coeffs j * hmatel (occs i) (occs j) in
  quotient (\sum_(i < N) \sum_(j < N | (j <= i)%N) (etot i j + (if (j < i)%N then etot i j else 0)))
           (\sum_i (coeffs i)^* * coeffs i).
End Trial.

End MultiDet.
