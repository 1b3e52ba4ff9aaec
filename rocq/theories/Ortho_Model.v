(* Re-orthogonalisation of walkers and mixed Green's functions.

   Sources (all under /repo/pauxy):
     utils/linalg.py 81-105              reortho
     walkers/single_det.py 215-255       reortho
     walkers/single_det.py 292-321       greens_function
     walkers/multi_det.py 106-129,
       164-192, 194-226                  inverse_overlap .. calc_overlap,
                                         reortho, greens_function
     walkers/multi_ghf.py 99-117,
       137-167, 169-184                  calc_otrial, reortho,
                                         greens_function
     walkers/handler.py 166-181          orthogonalise
     estimators/greens_function.py 5-124 gab, gab_mod, gab_spin,
                                         gab_mod_ovlp

   Simplifications: numbers are elements of an arbitrary numerically closed
   field C (exact arithmetic; conjugation and modulus are those of C).  QR is
   an argument of every definition: the theorems quantify over all functions
   that return an economic QR factorisation with a real diagonal of R, which
   is what LAPACK's Householder QR produces.  scipy.linalg.inv of a singular
   matrix raises; invmx is total, and the theorems assume invertibility.  The
   exponential of a sum of logarithms less detR_shift is the product times
   s = exp(-detR_shift); log_detR is not kept.  The two spins are separate
   matrices, so the column slices at nup disappear; a walker without down
   electrons has nd = 0.  Bosonic factors of the overlap are not touched by
   reortho and are not kept. *)

From Verif Require Import Base.
Set Warnings "-notation-overridden,-ambiguous-paths".
From mathcomp Require Import all_ssreflect all_algebra.

Set Implicit Arguments.
Unset Strict Implicit.
Unset Printing Implicit Defensive.

Import Order.TTheory GRing.Theory Num.Theory.
Local Open Scope ring_scope.

Section Ortho.
Variable C : numClosedFieldType.

Local Notation "A ^c" := (map_mx (@conjC C) A) (at level 2, format "A ^c").

(* scipy.linalg.qr(A, mode='economic') *)
Variable qr : forall n m, 'M[C]_(n, m) -> 'M[C]_(n, m) * 'M[C]_m.

(* numpy.sign of a complex number: the sign of the real part, or of the
   imaginary part when the real part vanishes. *)
Definition npsign (x : C) : C :=
  if 'Re x != 0 then Num.sg ('Re x) else Num.sg ('Im x).

Definition diagonal m (R : 'M[C]_m) : 'rV[C]_m := \row_i R i i.

(* numpy.diag(numpy.sign(numpy.diag(R))) *)
Definition signs m (R : 'M[C]_m) : 'M[C]_m :=
  diag_mx (map_mx npsign (diagonal R)).

(* linalg.py 101-105 *)
Definition reortho n m (A : 'M[C]_(n, m)) : 'M[C]_(n, m) * C :=
  let (Q, R) := qr A in
  let sg := signs R in
  let Q := Q *m sg in
  let detR := \det (sg *m R) in
  (Q, detR).

(* A single-determinant walker. *)
Record walker n nu nd := MkWalker {
  w_up : 'M[C]_(n, nu);
  w_dn : 'M[C]_(n, nd);
  w_ot : C;
  w_ovlp : C;
  w_weight : C;
  w_phase : C;
  w_detR : C
}.

(* numpy.exp of the sum of the logarithms of the moduli *)
Definition abs_prod m (R : 'M[C]_m) : C := \prod_i `|R i i|.

(* single_det.py 223-255 *)
Definition reortho_single n nu nd (s : C) (w : walker n nu nd)
  : walker n nu nd * C :=
  let (Qu, Ru) := qr (w_up w) in
  let (phid, detd) :=
    if (nd == 0)%N then (w_dn w, 1)
    else let (Qd, Rd) := qr (w_dn w) in (Qd *m signs Rd, abs_prod Rd) in
  let phiu := Qu *m signs Ru in
  let detR := abs_prod Ru * detd * s in
  let ot := w_ot w / detR in
  (MkWalker phiu phid ot ot (w_weight w) (w_phase w) detR, detR).

(* multi_det.py 172-192: det(signs R) instead of the product of the moduli,
   no shift, ovlp and detR left alone. *)
Definition reortho_multi n nu nd (w : walker n nu nd)
  : walker n nu nd * C :=
  let (phiu, drup) := reortho (w_up w) in
  let (phid, drdn) :=
    if (nd == 0)%N then (w_dn w, 1) else reortho (w_dn w) in
  let detR := drup * drdn in
  (MkWalker phiu phid (w_ot w / detR) (w_ovlp w) (w_weight w) (w_phase w)
     (w_detR w), detR).

(* cmath.polar, with exp(1j*dtheta) in place of the angle; cmath.polar(0)
   is (0, 0). *)
Definition polar (z : C) : C * C := (`|z|, if z == 0 then 1 else z / `|z|).

(* handler.py 176-181 for one walker; d is what reortho returned: multi_ghf's
   reortho has no return statement. *)
Definition orthogonalise1 n nu nd (free : bool)
    (r : walker n nu nd * option C) : res (walker n nu nd) :=
  let (w, d) := r in
  if free then
    match d with
    | None => Err TypeError
    | Some detR =>
        let (magn, ph) := polar detR in
        Ok (MkWalker (w_up w) (w_dn w) (w_ot w) (w_ovlp w)
              (w_weight w * magn) (w_phase w * ph) (w_detR w))
    end
  else Ok w.

Fixpoint orthogonalise n nu nd (free : bool)
    (reo : walker n nu nd -> walker n nu nd * option C)
    (ws : list (walker n nu nd)) : res (list (walker n nu nd)) :=
  match ws with
  | nil => Ok nil
  | cons w tl =>
      match orthogonalise1 free (reo w) with
      | Err e => Err e
      | Ok w' =>
          match orthogonalise free reo tl with
          | Err e => Err e
          | Ok tl' => Ok (cons w' tl')
          end
      end
  end.

Definition reo_single n nu nd s (w : walker n nu nd)
  : walker n nu nd * option C :=
  let (w', d) := reortho_single s w in (w', Some d).

Definition reo_multi n nu nd (w : walker n nu nd)
  : walker n nu nd * option C :=
  let (w', d) := reortho_multi w in (w', Some d).

(* multi_ghf.py 149-167.  The walker is block diagonal in the spin, so the
   two blocks are the two matrices; ot is recomputed from the trial by
   inverse_overlap and calc_otrial, here the argument otrial; detR is computed
   and dropped. *)
Definition reo_ghf n nu nd (otrial : 'M[C]_(n, nu) -> 'M[C]_(n, nd) -> C)
    (w : walker n nu nd) : walker n nu nd * option C :=
  let (phiu, drup) := reortho (w_up w) in
  let (phid, drdn) := reortho (w_dn w) in
  (MkWalker phiu phid (otrial phiu phid) (w_ovlp w) (w_weight w) (w_phase w)
     (w_detR w), None).

(* greens_function.py 36-38 *)
Definition gab n m (A B : 'M[C]_(n, m)) : 'M[C]_n :=
  let inv_O := invmx ((A^c)^T *m B) in
  B *m (inv_O *m (A^c)^T).

(* greens_function.py 69-72 *)
Definition gab_mod n m (A B : 'M[C]_(n, m)) : 'M[C]_n * 'M[C]_(m, n) :=
  let O := B^T *m A^c in
  let GHalf := invmx O *m B^T in
  let G := A^c *m GHalf in
  (G, GHalf).

(* greens_function.py 109-112 *)
Definition gab_mod_ovlp n m (A B : 'M[C]_(n, m))
  : 'M[C]_n * 'M[C]_(m, n) * 'M[C]_m :=
  let inv_O := invmx (B^T *m A^c) in
  let GHalf := inv_O *m B^T in
  let G := A^c *m GHalf in
  (G, GHalf, inv_O).

(* greens_function.py 74-78: the names of the second spin are not bound when
   nb = 0. *)
Definition gab_spin n na nb (A B : 'M[C]_(n, na + nb))
  : res ('M[C]_n * 'M[C]_n * ('M[C]_(na, n) * 'M[C]_(nb, n))) :=
  let (GA, GAH) := gab_mod (lsubmx A) (lsubmx B) in
  if (0 < nb)%N then
    let (GB, GBH) := gab_mod (rsubmx A) (rsubmx B) in
    Ok (GA, GB, (GAH, GBH))
  else Err UnboundLocalError.

(* single_det.py 304-321 for one spin: (G, Gmod, det); the second spin is
   skipped when ndown = 0, and the determinants are combined with
   exp(-log_shift) = s by greens_function_walker. *)
Definition green_single n m (psi phi : 'M[C]_(n, m))
  : 'M[C]_n * 'M[C]_(m, n) * C :=
  let ovlp := phi^T *m psi^c in
  let Gmod := invmx ovlp *m phi^T in
  (psi^c *m Gmod, Gmod, \det ovlp).

Definition green_walker n nu nd (s : C) (psiu : 'M[C]_(n, nu))
    (psid : 'M[C]_(n, nd)) (w : walker n nu nd)
  : ('M[C]_n * 'M[C]_(nu, n)) * option ('M[C]_n * 'M[C]_(nd, n)) * C :=
  let: (Gu, Hu, du) := green_single psiu (w_up w) in
  if (nd == 0)%N then ((Gu, Hu), None, du * s)
  else
    let: (Gd, Hd, dd) := green_single psid (w_dn w) in
    ((Gu, Hu), Some (Gd, Hd), du * dd * s).

(* multi_det.py 194-226, one pass of the loop for the determinant ix.  Gi, the
   overlaps and the weights are arrays that keep their old value where the
   loop continues early; 1e-16 is the argument eps. *)
Record detstore n := MkDet {
  d_Gup : 'M[C]_n;
  d_Gdn : 'M[C]_n;
  d_ovlp : C;
  d_weight : C
}.

Definition green_det n nu nd (eps c : C) (psiu phiu : 'M[C]_(n, nu))
    (psid phid : 'M[C]_(n, nd)) (st : detstore n) (tot : C)
  : detstore n * C :=
  let Oup := phiu^T *m psiu^c in
  let ovlp := \det Oup in
  if `|ovlp| < eps then (st, tot)
  else
    let Gup := psiu^c *m (invmx Oup *m phiu^T) in
    let Odn := phid^T *m psid^c in
    let ovlp := ovlp * \det Odn in
    if `|ovlp| < eps then
      (MkDet Gup (d_Gdn st) (d_ovlp st) (d_weight st), tot)
    else
      let tot := tot + c^* * ovlp in
      let Gdn := psid^c *m (invmx Odn *m phid^T) in
      (MkDet Gup Gdn ovlp (c^* * ovlp), tot).

Fixpoint green_dets n nu nd (eps : C)
    (trial : list (C * 'M[C]_(n, nu) * 'M[C]_(n, nd)))
    (phiu : 'M[C]_(n, nu)) (phid : 'M[C]_(n, nd)) (sts : list (detstore n))
    (tot : C) : list (detstore n) * C :=
  match trial, sts with
  | cons (c, psiu, psid) tl, cons st stl =>
      let (st', tot') := green_det eps c psiu phiu psid phid st tot in
      let (sts', tot'') := green_dets eps tl phiu phid stl tot' in
      (cons st' sts', tot'')
  | _, _ => (nil, tot)
  end.

End Ortho.
