(* C38: what importance sampling of the fields estimates. *)

From Coq Require Import Reals List Lra.
From Verif Require Import Sample_Model Sample_Spec Sample_Proofs.
Import ListNotations.
Open Scope R_scope.

(* Single-site sampling, all ratios positive: the mean of weight times F over
   overlap is the uniform sum over fields. *)
Theorem C38_single_site :
  forall (S : Type) (apply : S -> nat -> bool -> S) (ratio : S -> nat -> bool -> R)
         (wfac : bool -> R) (ov F : S -> R) (sites : list nat) (w : R) (s : S),
  (forall s i x, ratio s i x = ov (apply s i x) / ov s) ->
  ov s <> 0 ->
  positive apply ratio wfac s sites ->
  mean (length sites) (fun rs => value (fun s' => F s' / ov s')
                                       (single_site S apply ratio wfac sites rs w s))
  = w * (uniform_sum apply wfac F s sites / ov s).
Proof. intros; now apply single_site_uniform. Qed.
Print Assumptions C38_single_site.

Example C38_single_site_case :
  positive ex_apply (fun s i x => exp (ex_apply s i x) / exp s) (fun _ => 1) 0 [1; 2; 0]%nat.
Proof. apply ex_positive. Qed.

(* Without positivity: negative ratios are dropped path by path. *)
Theorem C38_single_site_constrained :
  forall (S : Type) (apply : S -> nat -> bool -> S) (ratio : S -> nat -> bool -> R)
         (wfac : bool -> R) (F : S -> R) (sites : list nat) (w : R) (s : S),
  mean (length sites) (fun rs => value F (single_site S apply ratio wfac sites rs w s))
  = w * constrained_sum apply ratio wfac F sites s.
Proof. intros; apply single_site_tree. Qed.
Print Assumptions C38_single_site_constrained.

(* Free projection. *)
Theorem C38_free :
  forall (S : Type) (apply : S -> nat -> bool -> S) (wfac : bool -> R)
         (F : S -> R) (sites : list nat) (wf : R) (s : S),
  mean (length sites) (fun rs => value F (free S apply wfac sites rs wf s))
  = wf * uniform_sum apply wfac F s sites.
Proof. intros; apply free_uniform. Qed.
Print Assumptions C38_free.

(* All fields at once: a factor for every site is left over. *)
Theorem C38_direct_general :
  forall (S : Type) (apply : S -> nat -> bool -> S) (wfac : bool -> R)
         (ov : S -> R) (ep em : nat -> R) (F : S -> R) (sites : list nat) (w : R) (s : S),
  (forall i, In i sites -> 0 < ep i + em i /\ 0 <= ep i /\ 0 <= em i) ->
  0 < ov s -> (forall xs, 0 < ov (act apply s sites xs)) -> (forall x, 0 < wfac x) ->
  mean (length sites) (fun rs => value (fun s' => F s' / ov s')
          (direct S apply wfac ep em ov sites rs w s))
  = rprod (map (fun i => / 2 * (ep i * em i)) sites)
    * (w * (uniform_sum apply wfac F s sites / ov s)).
Proof. intros; now apply direct_general. Qed.
Print Assumptions C38_direct_general.

(* A real coupling: the mean is too small by a factor of two for every site. *)
Theorem C38_direct_partial :
  forall (S : Type) (apply : S -> nat -> bool -> S) (wfac : bool -> R)
         (ov : S -> R) (g : R) (n : nat -> R) (F : S -> R) (sites : list nat) (w : R) (s : S),
  0 < ov s -> (forall xs, 0 < ov (act apply s sites xs)) -> (forall x, 0 < wfac x) ->
  mean (length sites) (fun rs => value (fun s' => F s' / ov s')
          (direct S apply wfac (fun i => exp (g * n i)) (fun i => exp (- g * n i)) ov sites rs w s))
  = (/ 2) ^ length sites * (w * (uniform_sum apply wfac F s sites / ov s)).
Proof. intros; now apply direct_real. Qed.
Print Assumptions C38_direct_partial.

(* An imaginary coupling (charge decomposition, U > 0): the factor depends on
   the density as well. *)
Theorem C38_direct_imaginary :
  forall (S : Type) (apply : S -> nat -> bool -> S) (wfac : bool -> R)
         (ov : S -> R) (g : R) (n : nat -> R) (F : S -> R) (sites : list nat) (w : R) (s : S),
  (forall i, In i sites -> 0 < cos (g * n i)) ->
  0 < ov s -> (forall xs, 0 < ov (act apply s sites xs)) -> (forall x, 0 < wfac x) ->
  mean (length sites) (fun rs => value (fun s' => F s' / ov s')
          (direct S apply wfac (fun i => cos (g * n i)) (fun i => cos (- g * n i)) ov sites rs w s))
  = rprod (map (fun i => / 2 * (cos (g * n i) * cos (g * n i))) sites)
    * (w * (uniform_sum apply wfac F s sites / ov s)).
Proof. intros; now apply direct_imaginary. Qed.
Print Assumptions C38_direct_imaginary.

Theorem C38_direct_refuted :
  ~ (forall (S : Type) (apply : S -> nat -> bool -> S) (wfac : bool -> R)
         (ov : S -> R) (g : R) (n : nat -> R) (F : S -> R) (sites : list nat) (w : R) (s : S),
  0 < ov s -> (forall xs, 0 < ov (act apply s sites xs)) -> (forall x, 0 < wfac x) ->
  mean (length sites) (fun rs => value (fun s' => F s' / ov s')
          (direct S apply wfac (fun i => exp (g * n i)) (fun i => exp (- g * n i)) ov sites rs w s))
  = w * (uniform_sum apply wfac F s sites / ov s)).
Proof. exact direct_refuted. Qed.
Print Assumptions C38_direct_refuted.

Example C38_direct_case : forall xs, 0 < exp (act ex_apply 0 [1; 2]%nat xs).
Proof. intros; apply exp_pos. Qed.

(* Continuous fields, real force bias: sampling the unshifted normal
   distribution, evaluating at the shifted field and multiplying with
   exp(cfb) leaves every integral as it was. *)
Theorem C38_force_bias :
  forall (xbar : list R) (F : list R -> R) (l : R),
  gauss_int (length xbar) F l ->
  gauss_int (length xbar) (fun xi => exp (cfb xi xbar) * F (xshifted xi xbar)) l.
Proof. exact gauss_int_shift. Qed.
Print Assumptions C38_force_bias.

Example C38_force_bias_case : exists l, gauss_int 1 (fun xs => match xs with
    | [x] => if Rlt_dec x 0 then 0 else if Rlt_dec 1 x then 0 else / gauss x | _ => 0 end) l /\ l <> 0.
Proof. exact gauss_int_example. Qed.
