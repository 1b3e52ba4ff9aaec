(** Specification vocabulary for the mixed estimator. *)
From Coq Require Import String.
From Verif Require Import Base Cplx Mixed_Model.
Open Scope nat_scope.

(** A run of measurements on one rank: (step, walkers) in order; one per rank. *)
Definition history := list (nat * list meas).
(** All (step, walker) measurements of all ranks. *)
Definition flat (h : history) : list (nat * meas) := flat_map (fun sw => map (pair (fst sw)) (snd sw)) h.
Definition all_meas (hs : list history) : list (nat * meas) := flat_map flat hs.

(** Is the energy measured at this step? *)
Definition measured (o : opts) (step : nat) : bool :=
  if o_thermal o && negb (o_fp o) then true else step mod o_freq o =? 0.
Definition energy_meas (o : opts) (hs : list history) : list meas :=
  map snd (filter (fun sm => measured o (fst sm)) (all_meas hs)).
Definition every_meas (hs : list history) : list meas := map snd (all_meas hs).

(** Complex weight of a walker in averages, and in the energy. *)
Definition wt (o : opts) (m : meas) : C :=
  if o_fp o then (Cof (m_weight m) * m_ot m * m_phase m)%C else Cof (m_weight m).
Definition ewt (o : opts) (m : meas) : C :=
  if o_fp o then wt o m else if o_thermal o then wt o m else (Cof (m_weight m) * m_le m)%C.
(** Energy of a walker as averaged: complex in free projection, its real part otherwise. *)
Definition en (o : opts) (f : meas -> C) (m : meas) : C :=
  if o_fp o then f m else real (f m).

(** Weighted sum and weighted average. *)
Definition wsum (w f : meas -> C) (ms : list meas) : C := Csum (map (fun m => w m * f m)%C ms).
Definition wtot (w : meas -> C) (ms : list meas) : C := Csum (map w ms).

(** The reduced array for measurements [hs] (one history per rank) since the arrays were
    zeroed, and what is printed. *)
Definition reduced (o : opts) (nsteps : nat) (hs : list history) : res (list C) :=
  (fix go (hs : list history) (acc : list (list C)) : res (list C) :=
     match hs with
     | [] => Ok (reduce (size o) (map (scaled o nsteps) (rev acc)))
     | h :: t => rbind (update_all o (zeros o) h) (fun es => go t (es :: acc))
     end) hs [].
Definition printed (o : opts) (nsteps : nat) (hs : list history) : res (list (option C)) :=
  rbind (reduced o nsteps hs) (fun gs => Ok (finish o gs)).
Definition printed_rdm (o : opts) (nsteps n : nat) (hs : list history) : res (list (option C)) :=
  rbind (reduced o nsteps hs) (fun gs => Ok (finish_rdm o nsteps n gs)).

(** Multiply every weight by [c]. *)
Definition rescale (c : Q) (m : meas) : meas :=
  Meas (c * m_weight m) (m_ot m) (m_phase m) (m_absot m) (m_hyb m) (m_unscaled m) (m_le m)
       (m_E m) (m_T m) (m_V m) (m_nav m) (m_slices m) (m_G m) (m_two_rdm m).
Definition rescale_hist (c : Q) (h : history) : history := map (fun sw => (fst sw, map (rescale c) (snd sw))) h.

(** Meaning of the header titles. *)
Definition title (k : key) : string :=
  match k with
  | Kuweight => "WeightFactor" | Kweight => "Weight" | Kenumer => "ENumer" | Kedenom => "EDenom"
  | Keproj => "ETotal" | Ke1b => "E1Body" | Ke2b => "E2Body" | Kehyb => "EHybrid" | Kovlp => "Overlap"
  | Knav => "Nav" | Ktime => "Time" end%string.

(** Options under which update raises nothing, and walkers of the declared array sizes. *)
Definition good (o : opts) : Prop := 0 < o_freq o /\ (o_rdm2 o <> None -> o_rdm1 o <> None).
Definition shaped (o : opts) (m : meas) : Prop :=
  (forall n, o_rdm1 o = Some n -> List.length (m_G m) = n) /\
  (forall n, o_rdm2 o = Some n -> List.length (m_two_rdm m) = n).
(** Entry of a printed row named by its key. *)
Definition column (o : opts) (row : list (option C)) (k : key) : option C := nth (ix (o_thermal o) k) row None.
Definition is_value (x : option C) (y : C) : Prop := exists z, x = Some z /\ z =c= y.
(** Energies are averaged with the weights accumulated next to them. *)
Definition averages_energy (o : opts) : Prop := o_fp o = true \/ o_thermal o = false \/ o_avg_gf o = false.
Definition all_shaped (o : opts) (hs : list history) : Prop := Forall (Forall (fun sw => Forall (shaped o) (snd sw))) hs.
(** Same printed entry (nan equal to nan). *)
Definition same_entry (x y : option C) : Prop :=
  match x, y with Some a, Some b => a =c= b | None, None => True | _, _ => False end.
