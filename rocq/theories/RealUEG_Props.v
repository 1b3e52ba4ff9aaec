(* C82: real orbitals for the uniform electron gas. *)

From Verif Require Import Base.
Set Warnings "-notation-overridden,-ambiguous-paths".
From mathcomp Require Import all_ssreflect all_algebra.
From Verif Require Import RealUEG_Model RealUEG_Spec RealUEG_Proofs RealUEG_Sym.

Set Implicit Arguments.
Unset Strict Implicit.
Unset Printing Implicit Defensive.

Import Order.TTheory GRing.Theory Num.Theory.
Local Open Scope ring_scope.

Section Props.
Variables (C : numClosedFieldType) (n : nat) (basis : 'I_n -> 'rV[int]_3).

(* The transformation is unitary and its orbitals are real. *)
Theorem C82_transformation : injective basis -> inversion_closed basis ->
  exists U : 'M[C]_n, compute_real_transformation C basis = Ok U /\ unitary U /\ real_orbitals basis U.
Proof.
move=> inj /fin_all_exists [sg sgE]; eexists; split; first exact: (transformE C inj sgE).
by split; [exact: (W_unitary C inj sgE)|exact: (W_real C inj sgE)].
Qed.

(* So are the integrals over them: nothing is lost when eri_8 takes the real part. *)
Theorem C82_integrals (eri : 'I_n -> 'I_n -> 'I_n -> 'I_n -> C) :
  injective basis -> inversion_closed basis -> inversion_symmetric basis eri ->
  exists (U : 'M[C]_n) f, compute_real_transformation C basis = Ok U /\ eri_8 basis eri = Ok f /\
    forall p q r t, f p q r t = in_basis U eri p q r t.
Proof.
move=> inj cl sy; have [U [E [_ RU]]] := C82_transformation inj cl.
have [sg sgE] := fin_all_exists cl.
exists U, (fun p q r t => 'Re (eri_transformed U eri p q r t)); rewrite /eri_8 E.
split; [by []|split; [by []|]] => p q r t.
rewrite /= transformed_basis; apply/Creal_ReP/CrealP.
exact: (basis_real inj sgE).
Qed.

(* For the integrals of a real and even potential eri_8 has the eightfold symmetry it is made
   for. *)
Theorem C82_eightfold (v : 'rV[int]_3 -> C) : injective basis -> inversion_closed basis ->
  (forall q, v (- q) = v q) -> (forall q, (v q)^* = v q) ->
  exists f, eri_8 basis (plane_wave_eri basis v) = Ok f /\ eightfold f.
Proof.
move=> inj cl ev re; have [sg sgE] := fin_all_exists cl.
have [U [f [E [Ef fE]]]] := C82_integrals inj cl (plane_wave_symmetric basis ev re).
exists f; split=> // p q r t; rewrite !fE.
have [U' [E' [_ RU]]] := C82_transformation inj cl.
move: RU; rewrite E in E'; case: E' => <- RU.
exact: (symmetric inj sgE ev RU).
Qed.

(* A wave vector without its opposite fails the assertion. *)
Theorem C82_raises i : (forall j, basis j <> - basis i) ->
  compute_real_transformation C basis = Err AssertionError.
Proof. by move=> no; rewrite /compute_real_transformation (lone_raises (i := i)) ?mem_enum. Qed.
End Props.

Print Assumptions C82_transformation.
Print Assumptions C82_integrals.
Print Assumptions C82_eightfold.
Print Assumptions C82_raises.

(* Wave vectors -1, 0 and 1 along the diagonal. *)
Definition line (i : 'I_3) : 'rV[int]_3 := const_mx ((i : nat)%:Z - 1).
Example C82_example : injective line /\ inversion_closed line.
Proof.
split.
  move=> i j /rowP /(_ 0); rewrite !mxE => /addIr [] e; exact: val_inj.
move=> i; exists (rev_ord i); apply/rowP => c; rewrite !mxE.
by case: i => [[|[|[|]]]].
Qed.
