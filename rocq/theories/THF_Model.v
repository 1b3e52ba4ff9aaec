(* Trial density matrices: one-body and thermal Hartree-Fock.

   Sources (all under /repo/pauxy):
     trial_density_matrices/onebody.py 46-49, 79-113   the part of OneBody.__init__ after the
                                                       choice of the stack size
     trial_density_matrices/mean_field.py 16-93        MeanField
     trial_density_matrices/chem_pot.py 65-68          compute_rho
     estimators/thermal.py 198-199                     the assertion in entropy

   Simplifications: matrices over a numerically closed field (exact arithmetic).  Arguments:
   scipy.linalg.expm (expm), numpy.exp (expo), fock_matrix (fock, see C62), one_rdm_stable
   and greens_function for one spin (rdm1, green1, see C43), find_chemical_potential as a
   function of rho and of the target (find, see C50; None when it is not found).  The
   choice of the stack size is in StackSize_Model and TimeGrid_Model: dtau and num_bins are
   given here.  Of the verbose output only the assertion is kept. *)

From Verif Require Import Base.
Set Warnings "-notation-overridden,-ambiguous-paths".
From mathcomp Require Import all_ssreflect all_algebra.

Set Implicit Arguments.
Unset Strict Implicit.
Unset Printing Implicit Defensive.

Import Order.TTheory GRing.Theory Num.Theory.
Local Open Scope ring_scope.

Section THF.
Variable C : numClosedFieldType.
Variable n : nat.
Notation M := 'M[C]_n.
Notation mat2 := (M * M)%type.

Variable expm : M -> M.
Variable expo : C -> C.
Variable fock : mat2 -> mat2.
Variable rdm1 : M -> nat -> M.
Variable green1 : M -> M.
Variable find : mat2 -> C -> res (option C).

Record thf_opts := MkOpts {
  oalt : bool;             (* system._alt_convention *)
  odt : C; odtau : C; obins : nat;
  oalpha : C; odeps : C; oscf : nat; omacro : nat; ofind : bool;
  overbose : bool }.
Variable o : thf_opts.

Definition both (f : M -> M) (A : mat2) : mat2 := (f A.1, f A.2).
Definition one_rdm_stable2 (rho : mat2) : mat2 := both (fun A => rdm1 A (obins o)) rho.

(* numpy.linalg.norm of an array with three axes *)
Definition norm2 (A : mat2) : C :=
  sqrtC (\sum_i \sum_j (`|A.1 i j| ^+ 2 + `|A.2 i j| ^+ 2)).

(* chem_pot.py 65-68 *)
Definition compute_rho (rho : mat2) (mu beta sign : C) : mat2 :=
  both (fun A => \matrix_(j, k) (A j k * expo (sign * beta * mu))) rho.

(* numpy.array([expm(-dt*(H[0]-muN)), expm(-dt*(H[1]-muN))]) *)
Definition slice (dt : C) (H : mat2) (mu : C) : mat2 :=
  both (fun A => expm (- dt *: (A - mu%:M))) H.

(* mean_field.py 64-93.  Norms below one part in 10^12 pass the assertion. *)
Definition entropy_ok (H : mat2) : bool := norm2 (H.1 - H.2, 0) < (10%:R ^+ 12)^-1.

Fixpoint scf_loop (it : nat) (mu : C) (HMF Pold : mat2) : res mat2 :=
  match it with
  | 0%N => Ok HMF
  | it'.+1 =>
      let HMF := fock Pold in
      let rho := slice (odtau o) HMF mu in
      let R := one_rdm_stable2 rho in
      let Pnew := ((1 - oalpha o) *: R.1 + oalpha o *: Pold.1,
                   (1 - oalpha o) *: R.2 + oalpha o *: Pold.2) in
      let change := norm2 (Pnew.1 - Pold.1, Pnew.2 - Pold.2) in
      if change < odeps o then Ok HMF
      else if overbose o && ~~ entropy_ok HMF then Err AssertionError
      else scf_loop it' mu HMF Pnew
  end.

Definition scf (mu : C) (P : mat2) : res mat2 :=
  let HMF := fock P in
  let rho := slice (odtau o) HMF mu in
  let Pold := one_rdm_stable2 rho in
  scf_loop (oscf o) mu HMF Pold.

(* mean_field.py 34-62; last: what P, HMF and mu are bound to *)
Fixpoint macro (it : nat) (mu0 nav mu_old : C) (P : mat2) (last : option (mat2 * mat2 * C))
  : res (mat2 * mat2 * C) :=
  match it with
  | 0%N => match last with None => Err UnboundLocalError | Some r => Ok r end
  | it'.+1 =>
      rbind (scf mu_old P) (fun HMF =>
      let rho := both (fun A => expm (- odtau o *: A)) HMF in
      rbind (if ofind o then find rho nav else Ok (Some mu0)) (fun m =>
      let rho_mu := compute_rho rho mu_old (odtau o) 1 in
      let P := one_rdm_stable2 rho_mu in
      match m with
      | None => Err TypeError          (* abs(None - mu_old) *)
      | Some mu =>
          if `|mu - mu_old| < odeps o then Ok (P, HMF, mu)
          else macro it' mu0 nav mu P (Some (P, HMF, mu))
      end))
  end.

Definition thermal_hartree_fock (mu0 nav : C) (P : mat2) : res (mat2 * mat2 * C) :=
  macro (omacro o) mu0 nav mu0 P None.

Record trial := MkTrial { tP : mat2; tmu : C; tnav : C; tdmat : mat2; tG : mat2 }.

(* onebody.py 46-49, 79-111; target: nav as given or nup + ndown *)
Definition one_body (H1 : mat2) (target : C) (mu : option C) : res trial :=
  let sign := if oalt o then -1 else 1 in
  let dmat := both (fun A => expm (- odt o *: A)) H1 in
  let rho := both (fun A => expm (- odtau o *: A)) H1 in
  rbind (match mu with
         | Some m => Ok m
         | None => rbind (find rho target) (fun m =>
             match m with Some m => Ok m | None => Err TypeError end)
         end) (fun mu =>
  let P := one_rdm_stable2 (compute_rho rho mu (odtau o) sign) in
  let dmat := compute_rho dmat mu (odt o) sign in
  Ok (MkTrial P mu ('Re (\tr P.1 + \tr P.2)) dmat (both green1 dmat))).

(* mean_field.py 16-32 *)
Definition mean_field (H1 : mat2) (target : C) (mu : option C) : res trial :=
  rbind (one_body H1 target mu) (fun t =>
  rbind (thermal_hartree_fock (tmu t) (tnav t) (tP t)) (fun r =>
  let '(P, HMF, mu) := r in
  let dmat := slice (odt o) HMF mu in
  Ok (MkTrial P mu ('Re (\tr P.1 + \tr P.2)) dmat (both green1 dmat)))).
End THF.
