(* Energies of electrons coupled to oscillators, and matrix elements of coherent states.
   Nothing here refers to the model. *)

From Verif Require Import Base.
Set Warnings "-notation-overridden,-ambiguous-paths".
From mathcomp Require Import all_ssreflect all_fingroup all_algebra.
From Verif Require Import LEnergy_Spec.

Set Implicit Arguments.
Unset Strict Implicit.
Unset Printing Implicit Defensive.

Import Order.TTheory GRing.Theory Num.Theory.
Local Open Scope ring_scope.

Section Spec.
Variable C : numClosedFieldType.
Variable M : nat.
Notation mat2 := ('M[C]_M * 'M[C]_M)%type.

Definition on_both (T : mat2) (d : 'I_M -> C) : mat2 :=
  (T.1 + diag_mx (\row_i d i), T.2 + diag_mx (\row_i d i)).

(* H = T + U sum n_up n_down - g sqrt(2 m w) sum n_i x_i
       + sum (p_i^2/2m + m w^2/2 x_i^2 - w/2) at positions X with psi''/psi = lap. *)
Definition holstein (T : mat2) (U g m w : C) (G : mat2) (X lap : 'I_M -> C) : C :=
  wick1 (on_both T (fun i => - (g * sqrtC (2%:R * m * w) * X i))) G
  + wick2 (fun p r q u => onsite U p r q u) G
  + (m * w ^+ 2 / 2%:R * (\sum_i X i ^+ 2) - (\sum_i lap i) / (2%:R * m) - M%:R * w / 2%:R).

(* The transformed Hamiltonian: electrons carry the displacement gm of their site.
   x_i -> x_i + gm n_i turns the hopping i-j into exp(i gm (p_i - p_j)). *)
Definition dressed (T : mat2) (ph : 'I_M -> C) : mat2 :=
  (\matrix_(i, j) (ph i * T.1 i j * (ph j)^*), \matrix_(i, j) (ph i * T.2 i j * (ph j)^*)).
Definition lang_firsov (T : mat2) (ph : 'I_M -> C) (U e1 m w : C) (G : mat2)
    (P lap : 'I_M -> C) : C :=
  wick1 (on_both (dressed T ph) (fun _ => e1)) G
  + wick2 (fun p r q u => onsite U p r q u) G
  + ((\sum_i P i ^+ 2) / (2%:R * m) - m * w ^+ 2 / 2%:R * (\sum_i lap i) - M%:R * w / 2%:R).

(* Coherent states: matrix elements between (A, B, b) and (A', B', b'). *)
Section Elements.
Variables (na nb : nat) (expo : C -> C).
Definition adjoint m n (A : 'M[C]_(m, n)) : 'M[C]_(n, m) := (map_mx conjC A)^T.
Definition one_rdm n (A A' : 'M[C]_(M, n)) : 'M[C]_M :=
  (A' *m invmx (adjoint A *m A') *m adjoint A)^T.
Definition coherent_overlap (A A' : 'M[C]_(M, na)) (B B' : 'M[C]_(M, nb)) (b b' : 'I_M -> C) : C :=
  \det (adjoint A *m A') * \det (adjoint B *m B')
  * \prod_i expo (- (1 / 2%:R) * (`|b i| ^+ 2 + `|b' i| ^+ 2) + (b i)^* * b' i).
Definition electron_part (T : mat2) (U : C) (A A' : 'M[C]_(M, na)) (B B' : 'M[C]_(M, nb)) : C :=
  let G := (one_rdm A A', one_rdm B B') in
  wick1 T G + wick2 (fun p r q u => onsite U p r q u) G.
Definition phonon_part (g w : C) (A A' : 'M[C]_(M, na)) (B B' : 'M[C]_(M, nb)) (b b' : 'I_M -> C) : C :=
  \sum_i (w * (b i)^* * b' i
          - g * (one_rdm A A' i i + one_rdm B B' i i) * ((b i)^* + b' i)).
End Elements.
End Spec.

(* <f>/<1> for a combination with coefficients c. *)
Definition expectation (C : numClosedFieldType) n (c : 'I_n -> C) (f o : 'I_n -> 'I_n -> C) : C :=
  (\sum_i \sum_j (c i)^* * c j * (f i j * o i j)) / (\sum_i \sum_j (c i)^* * c j * o i j).
