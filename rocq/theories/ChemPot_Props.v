(* C50: the chemical potential search. *)

From Coq Require Import Reals.
From Verif Require Import Base BaseFacts ChemPot_Model ChemPot_Spec ChemPot_Proofs.
From Coq Require Import Lra.
Open Scope R_scope.

(* Whatever is returned meets the tolerance. *)
Theorem C50_tolerance : forall dn deps max_it fuel mu out,
  find_chemical_potential dn deps max_it fuel = Ok (Some mu, out) ->
  Rabs (dn mu) < deps.
Proof.
  intros dn deps max_it fuel mu out E. unfold find_chemical_potential in E.
  destruct (widen dn fuel (-1) 1 1 1) as [[[[a b] c] d]|]; [|discriminate].
  injection E as E. exact (bisect_found _ _ _ _ _ _ _ _ _ E).
Qed.

(* If the signs differ on the k-th interval tried and agree on those before,
   every line printed has a sign change nearby, and the distance halves. *)
Theorem C50_bracket_partial : forall dn deps max_it fuel k r out i mu d,
  0 < deps -> first_change dn k -> (k < fuel)%nat ->
  find_chemical_potential dn deps max_it fuel = Ok (r, out) ->
  nth_error out i = Some (mu, d) ->
  d = dn mu /\ change_near dn mu (2 * edge k / 2 ^ (i + 1)).
Proof.
  intros dn deps max_it fuel k r out i mu d Hd F L E N.
  rewrite (find_first _ _ _ _ _ F L) in E. injection E as E.
  replace (2 * edge k) with (edge k - - edge k) by ring.
  exact (bisect_trace _ _ _ _ _ _ _ _ _ _ _ _ Hd (first_inv _ _ (proj1 F)) E N).
Qed.

(* Continuous functions: found after enough iterations. *)
Theorem C50_converges_partial : forall dn deps, 0 < deps -> continuity dn ->
  increasing dn \/ decreasing dn -> (exists a b, dn a < 0 /\ 0 < dn b) ->
  (forall k, ~ touches dn k) ->
  exists it fl, forall max_it fuel, (it <= max_it)%nat -> (fl <= fuel)%nat ->
  exists mu out, find_chemical_potential dn deps max_it fuel = Ok (Some mu, out).
Proof.
  intros dn deps Hd Ct M S T.
  destruct (first_exists _ T (change_edge _ M S)) as [k F].
  destruct (find_continuous _ _ _ Hd Ct F) as [it H].
  exists it, (Datatypes.S k); intros max_it fuel L1 L2.
  destruct (H max_it fuel L1 L2) as (mu & out & E & _). eauto.
Qed.

(* How many iterations are enough. *)
Theorem C50_iterations_partial : forall dn deps k L max_it fuel,
  0 < deps -> 0 <= L ->
  (forall x y, Rabs (dn x - dn y) <= L * Rabs (x - y)) ->
  first_change dn k -> (k < fuel)%nat -> (0 < max_it)%nat ->
  L * (2 * edge k) < deps * 2 ^ max_it ->
  exists mu out, find_chemical_potential dn deps max_it fuel = Ok (Some mu, out).
Proof. exact find_lipschitz. Qed.

(* Independent fermions. *)
Theorem C50_fermi_partial : forall s beta xs N deps,
  Forall (fun x => 0 < x) xs -> s * beta <> 0 -> 0 < N < INR (length xs) ->
  0 < deps -> (forall k, ~ touches (fun mu => fermi s beta xs mu - N) k) ->
  exists it fl, forall max_it fuel, (it <= max_it)%nat -> (fl <= fuel)%nat ->
  exists mu out,
    find_chemical_potential (fun mu => fermi s beta xs mu - N) deps max_it fuel
      = Ok (Some mu, out)
    /\ Rabs (fermi s beta xs mu - N) < deps.
Proof. exact fermi_found. Qed.

(* A root at an end of an interval tried is lost: one orbital at energy -1
   with one electron on average, any number of iterations. *)
Theorem C50_zero_refuted : forall deps max_it fuel, deps <= / 5 -> (0 < fuel)%nat ->
  increasing (fun mu => fermi 1 1 [exp 1; exp 1] mu - 1)
  /\ continuity (fermi 1 1 [exp 1; exp 1])
  /\ fermi 1 1 [exp 1; exp 1] (-1) - 1 = 0
  /\ exists out,
     find_chemical_potential (fun mu => fermi 1 1 [exp 1; exp 1] mu - 1)
       deps max_it fuel = Ok (None, out).
Proof.
  intros deps max_it fuel D F. split; [exact level_increasing|]. split; [|split].
  - apply fermi_continuous. repeat constructor; apply exp_pos.
  - rewrite level_value. replace (1 + -1) with 0 by ring. rewrite exp_0. field.
  - exact (level_stuck _ _ _ D F).
Qed.

(* A target that cannot be reached: the widening never ends. *)
Theorem C50_unreachable_refuted : forall s beta xs N deps max_it fuel,
  Forall (fun x => 0 < x) xs -> xs <> [] ->
  N <= 0 \/ INR (length xs) <= N ->
  find_chemical_potential (fun mu => fermi s beta xs mu - N) deps max_it fuel
  = Err OutOfFuel.
Proof. exact fermi_never. Qed.

(* Fits to data: the result is the root of the fit to one of the windows; its
   residual is that of the first window with a root, or smaller, and no later
   window has one that is smaller than the first. *)
Theorem C50_fit : forall Coef order
    (polyfit : list (R * R * R) -> Coef * list R) brentq data m,
  find_chem_pot order polyfit brentq data = Ok (Some m) ->
  exists i j c, (i <= j)%nat /\ wide order data j
    /\ root polyfit brentq data j = Some (m, c)
    /\ (forall h, (h < i)%nat -> root polyfit brentq data h = None)
    /\ root polyfit brentq data i <> None
    /\ (j = i \/ resid polyfit data j < resid polyfit data i)
    /\ (forall h, (j < h)%nat -> wide order data h ->
          root polyfit brentq data h <> None ->
          resid polyfit data i <= resid polyfit data h).
Proof. exact fit_result. Qed.

(* It need not be the best fit. *)
Theorem C50_fit_refuted : exists Coef order
    (polyfit : list (R * R * R) -> Coef * list R) brentq data j h m,
  find_chem_pot order polyfit brentq data = Ok (Some m)
  /\ wide order data j /\ wide order data h
  /\ root polyfit brentq data j = Some (m, true)
  /\ (exists m', m' <> m /\ root polyfit brentq data h = Some (m', true))
  /\ resid polyfit data h < resid polyfit data j.
Proof.
  exists nat, 2%nat, fits, roots, (points 8), 2%nat, 1%nat, (INR 4).
  split; [exact not_the_best|].
  split; [vm_compute; lia|]. split; [vm_compute; lia|].
  split; [reflexivity|]. split.
  - exists (INR 6). split; [simpl; lra | reflexivity].
  - unfold resid; cbn. lra.
Qed.

(* Roots are forgotten when the narrowest window has none. *)
Theorem C50_fit_last_refuted : forall Coef order
    (polyfit : list (R * R * R) -> Coef * list R) brentq data k,
  wide order data k -> ~ wide order data (S k) ->
  root polyfit brentq data k = None ->
  forall m, find_chem_pot order polyfit brentq data <> Ok (Some m).
Proof. exact fit_last. Qed.

Theorem C50_fit_short_refuted : forall Coef order
    (polyfit : list (R * R * R) -> Coef * list R) brentq data,
  (length data <= order + 1)%nat ->
  find_chem_pot order polyfit brentq data = Err UnboundLocalError.
Proof. exact fit_short. Qed.

(* x - 1/2 changes sign on the first interval, touches none, and is found. *)
Example C50_instance :
  (exists k, first_change (fun x => x - / 2) k)
  /\ (forall k, ~ touches (fun x => x - / 2) k)
  /\ increasing (fun x => x - / 2).
Proof.
  split; [|split].
  - exists 0%nat; split; [|intros; lia]. unfold crosses; rewrite edge_0; lra.
  - intros k T. unfold touches in T. pose proof (edge_pos k). nra.
  - intros x y L; lra.
Qed.

Example C50_fit_instance : find_chem_pot 2 fits roots_but_last (points 8) = Ok None
  /\ root fits roots_but_last (points 8) 1 = Some (INR 6, true).
Proof. split; [exact forgotten | reflexivity]. Qed.

Print Assumptions C50_tolerance.
Print Assumptions C50_bracket_partial.
Print Assumptions C50_converges_partial.
Print Assumptions C50_iterations_partial.
Print Assumptions C50_fermi_partial.
Print Assumptions C50_zero_refuted.
Print Assumptions C50_unreachable_refuted.
Print Assumptions C50_fit.
Print Assumptions C50_fit_refuted.
Print Assumptions C50_fit_last_refuted.
Print Assumptions C50_fit_short_refuted.
