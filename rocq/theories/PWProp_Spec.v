(* Density fluctuations of plane waves.  Nothing here refers to the model. *)

From Verif Require Import Base.
Set Warnings "-notation-overridden,-ambiguous-paths".
From mathcomp Require Import all_ssreflect all_algebra.
From Verif Require Import PWFFT_Spec.

Set Implicit Arguments.
Unset Strict Implicit.
Unset Printing Implicit Defensive.

Import Order.TTheory GRing.Theory Num.Theory.
Local Open Scope ring_scope.

Section Spec.
Variable C : numClosedFieldType.
Variables pi vol kfac : C.
Variable M : nat.
Variable k : 'I_M -> wave.

(* sum_G |G + Q> <G| on the plane waves k *)
Definition density (Q : wave) : 'M[C]_M := \matrix_(a, b) (k a == k b + Q)%:R.

(* sqrt(v(Q) / (4 vol)), v(Q) = 4 pi / |kfac Q|^2 *)
Definition strength (Q : wave) : C :=
  if Q == 0 then 0 else sqrtC (pi / (vol * (kfac ^+ 2 * (len2 Q)%:~R))).

Definition vplus (Q : wave) : 'M[C]_M := (strength Q * 'i) *: (density Q + density (- Q)).
Definition vminus (Q : wave) : 'M[C]_M := - strength Q *: (density Q - density (- Q)).

(* sqrt(dt) sum_b (x_b vplus(q_b) + x_(nq + b) vminus(q_b)) *)
Definition field_operator (sqrt_dt : C) (q : seq wave) (x : seq C) : 'M[C]_M :=
  sqrt_dt *: \sum_(b < size q) (nth 0 x b *: vplus (nth 0 q b)
                                + nth 0 x (size q + b) *: vminus (nth 0 q b)).

(* sum_pq A_pq G_pq *)
Definition expectation (A G : 'M[C]_M) : C := \sum_p \sum_q A p q * G p q.

(* x, or its direction if it is longer than 1 *)
Definition capped (x : C) : C := if 1 < `|x| then x / `|x| else x.
End Spec.

(* c has the shape (n1-n2+1)^3, and c_r = sum of f_i g_j for i + j = r + (n2 - 1) along each
   axis: those entries of the convolution for which g lies within f. *)
Definition valid_convolution_of (C : numClosedFieldType) (n1 n2 : nat) (f g c : seq C) : Prop :=
  let v := (n1 - n2 + 1)%N in
  size c = (v ^ 3)%N /\
  forall r, (r < v ^ 3)%N -> nth 0 c r = \sum_(i < n1 ^ 3) \sum_(j < n2 ^ 3)
    (if ((coords n1 i).1.1 + (coords n2 j).1.1, (coords n1 i).1.2 + (coords n2 j).1.2,
         (coords n1 i).2 + (coords n2 j).2)%N
        == ((coords v r).1.1 + (n2 - 1), (coords v r).1.2 + (n2 - 1), (coords v r).2 + (n2 - 1))%N
     then nth 0 f i * nth 0 g j else 0).
