(* Sums over walkers and processes of weighted vectors, and what the estimator
   should write. *)

From Verif Require Import Base BPEst_Model.
Open Scope nat_scope.

Section Spec.
Variable K : Type.
Variables (k0 : K) (kadd kmul kdiv : K -> K -> K).

Fixpoint vadd (a b : list K) : list K :=
  match a, b with
  | x :: a', y :: b' => kadd x y :: vadd a' b'
  | _, _ => []
  end.
Definition vsum (n : nat) (vs : list (list K)) : list K :=
  fold_left vadd vs (repeat k0 n).

(* f w summed over the walkers of each process, then over processes. *)
Definition vtotal {W} (n : nat) (f : W -> list K) (wss : list (list W)) : list K :=
  vsum n (map (fun ws => vsum n (map f ws)) wss).

Variable o : opts.

(* The sum of weight times f, of the weights. *)
Definition weighted (n : nat) (f : meas K -> list K) (wss : list (list (meas K)))
  : list K :=
  vtotal n (fun w => map (kmul (w_weight K w)) (f w)) wss.
Definition weights (wss : list (list (meas K))) : list K :=
  vtotal 1 (fun w => [w_weight K w]) wss.

(* Number of elements of the two-body density matrix. *)
Definition two_size : nat :=
  match o_two o with TNone => 0 | TStructure => n_s o | TFalse | TFull => n_b4 o end.

(* Arrays of the expected sizes. *)
Definition sizes (w : meas K) : Prop :=
  length (w_energies K w) = 3 /\ length (w_g K w) = n_g o
  /\ (o_two o <> TNone -> length (w_two K w) = two_size)
  /\ (o_ekt o = true -> length (w_1p K w) = n_g0 o /\ length (w_1h K w) = n_g0 o).

(* Every quantity under its own name. *)
Definition expected (wss : list (list (meas K))) : list (dataset * list K) :=
  [(Denominator, weights wss)]
  ++ (if o_energy o then
        [(Energies,
          if o_fp o then weighted 3 (w_energies K) wss
          else map (fun x => kdiv x (hd k0 (weights wss)))
                 (weighted 3 (w_energies K) wss))]
      else [])
  ++ (if o_one o then [(OneRdm, weighted (n_g o) (w_g K) wss)] else [])
  ++ (match o_two o with
      | TNone | TFalse => []
      | TStructure | TFull => [(TwoRdm, weighted two_size (w_two K) wss)]
      end)
  ++ (if o_ekt o then
        [(Fock1p, weighted (n_g0 o) (w_1p K) wss);
         (Fock1h, weighted (n_g0 o) (w_1h K) wss)]
      else []).

(* The numbers of fields after which there is a measurement. *)
Definition measurements : list nat :=
  map (fun i => i * (nmax o / nsplit o)) (seq 1 (nsplit o)).

End Spec.
Arguments vtotal {K} k0 kadd {W}.
Arguments weighted {K} k0 kadd kmul n f wss.
Arguments weights {K} k0 kadd wss.
Arguments sizes {K} o w.
Arguments expected {K} k0 kadd kmul kdiv o wss.
