(** Lattice numbering and hopping matrices (C31, C32). *)
From Coq Require Import Ring_theory.
From Verif Require Import Base BaseFacts Lattice_Model Lattice_Spec Lattice_Proofs.
Open Scope nat_scope.

(** Coordinates and numbers are inverse to each other. *)
Theorem C31_decode_encode : forall nx ny x y, x < nx -> y < ny ->
  decode_basis nx ny (encode_basis x y nx) = if ny =? 1 then [x] else [x; y].
Proof. exact decode_encode. Qed.
Print Assumptions C31_decode_encode.

Theorem C31_encode_decode : forall nx ny i, i < nx * ny ->
  exists x y, site nx ny (x, y) /\ encode_basis x y nx = i /\ decode_basis nx ny i = if ny =? 1 then [x] else [x; y].
Proof. exact encode_decode. Qed.
Print Assumptions C31_encode_decode.

Theorem C31_injective : forall nx ny i j, i < nx * ny -> j < nx * ny ->
  decode_basis nx ny i = decode_basis nx ny j -> i = j.
Proof. exact decode_inj. Qed.
Print Assumptions C31_injective.

(** The k vectors (and so the energies eks) come in the order of the FFT. *)
Theorem C31_kpoints : forall nx ny, kp nx ny = map (fun i => if ny =? 1 then [fst (fft_site nx ny i)]
                                               else [fst (fft_site nx ny i); snd (fft_site nx ny i)]) (seq 0 (nx * ny)).
Proof. exact kp_order. Qed.
Print Assumptions C31_kpoints.

(** The FFT sees the neighbours of the periodic lattice exactly for square lattices and chains. *)
Theorem C31_fft : forall nx ny, 0 < nx -> 0 < ny ->
  ((forall p q, site nx ny p -> site nx ny q ->
      (neighbours nx ny true true (fft_site nx ny (place nx p)) (fft_site nx ny (place nx q)) <->
       neighbours nx ny true true p q)) <-> nx = ny \/ nx = 1 \/ ny = 1).
Proof. exact fft_iff_sites. Qed.
Print Assumptions C31_fft.

Theorem C31_same_order_refuted : ~ (forall nx ny p q, 0 < nx -> 0 < ny -> site nx ny p -> site nx ny q ->
  (neighbours nx ny true true (fft_site nx ny (place nx p)) (fft_site nx ny (place nx q)) <-> neighbours nx ny true true p q)).
Proof. exact fft_refuted. Qed.
Print Assumptions C31_same_order_refuted.

Example C31_example : map (decode_basis 3 2) (seq 0 6) = [[0; 0]; [1; 0]; [2; 0]; [0; 1]; [1; 1]; [2; 1]] /\
  map (fft_site 3 2) (seq 0 6) = [(0, 0); (0, 1); (1, 0); (1, 1); (2, 0); (2, 1)].
Proof. split; reflexivity. Qed.

(** kinetic: Hermitian, -t times the sum of the phases of the bonds, and for lengths other than two
    exactly one bond between neighbours. *)
Theorem C32_kinetic : forall (K Th : Type) (zero one : K) (add mul sub : K -> K -> K) (opp conj : K -> K) (expi : Th -> K),
  ring_theory zero one add mul sub opp (@eq K) ->
  (forall a b, conj (add a b) = add (conj a) (conj b)) -> (forall a b, conj (mul a b) = mul (conj a) (conj b)) ->
  (forall a, conj (opp a) = opp (conj a)) -> (forall a, conj (conj a) = a) -> conj one = one ->
  forall t nx ny ks bx bb, conj t = t -> twist_ok Th ny ks ->
    exists T, kinetic K Th zero add mul opp conj expi one t nx ny ks bx bb = Ok T /\
    (forall i j, T i j = conj (T j i)) /\
    (forall p q, site nx ny p -> site nx ny q -> T (place nx p) (place nx q) =
       amplitude K zero one add mul opp conj t nx ny bx bb (twist_x K Th one expi ks) (twist_y K Th one expi ks) p q) /\
    (nx <> 2 -> ny <> 2 -> forall p q, site nx ny p -> site nx ny q ->
      (neighbours nx ny bx bb p q -> exists a,
         In a [one; twist_x K Th one expi ks; twist_y K Th one expi ks; conj (twist_x K Th one expi ks); conj (twist_y K Th one expi ks)] /\
         T (place nx p) (place nx q) = mul (opp t) a) /\
      (~ neighbours nx ny bx bb p q -> T (place nx p) (place nx q) = zero)).
Proof. exact kinetic_sites. Qed.
Print Assumptions C32_kinetic.

(** Around a ring of two sites the bond is counted twice, and an antiperiodic one cancels. *)
Theorem C32_two_sites_refuted : exists T,
  kinetic Z unit 0%Z Z.add Z.mul Z.opp (fun x => x) (fun _ => (-1)%Z) 1%Z 1%Z 2 1 None true true = Ok T /\ T 0 1 = (-2)%Z.
Proof. exact ring_of_two. Qed.
Print Assumptions C32_two_sites_refuted.

Theorem C32_two_sites_antiperiodic_refuted : exists T,
  kinetic Z unit 0%Z Z.add Z.mul Z.opp (fun x => x) (fun _ => (-1)%Z) 1%Z 1%Z 2 1 (Some [tt]) true true = Ok T /\
  neighbours 2 1 true true (0, 0) (1, 0) /\ T 0 1 = 0%Z.
Proof. exact ring_of_two_antiperiodic. Qed.
Print Assumptions C32_two_sites_antiperiodic_refuted.

(** Pinning fields: symmetric, the same bonds (periodic along x, open along y), the staggered field. *)
Theorem C32_pinning : forall (K : Type) (zero one : K) (add mul sub : K -> K -> K) (opp : K -> K),
  ring_theory zero one add mul sub opp (@eq K) -> forall t nu nx ny s, ny <> 1 ->
    exists T, kinetic_pinning K zero add opp t nu nx ny s = Ok T /\
    (forall p q, site nx ny p -> site nx ny q -> T (place nx p) (place nx q) = T (place nx q) (place nx p) /\
       (p <> q -> T (place nx p) (place nx q) = amplitude K zero one add mul opp (fun x => x) t nx ny true false one one p q)) /\
    (forall p, site nx ny p -> T (place nx p) (place nx p) = field_edges zero opp nu ny s p).
Proof. exact pinning_sites. Qed.
Print Assumptions C32_pinning.

(** The variant in use is periodic along y and open along x. *)
Theorem C32_pinning_alt : forall (K : Type) (zero one : K) (add mul sub : K -> K -> K) (opp : K -> K),
  ring_theory zero one add mul sub opp (@eq K) -> forall t h nx ny s, ny <> 1 ->
    exists T, kinetic_pinning_alt K zero add opp t h nx ny s = Ok T /\
    (forall p q, site nx ny p -> site nx ny q -> T (place nx p) (place nx q) = T (place nx q) (place nx p) /\
       (p <> q -> T (place nx p) (place nx q) = amplitude K zero one add mul opp (fun x => x) t nx ny false true one one p q)) /\
    (forall p, site nx ny p -> T (place nx p) (place nx p) = field_line zero opp h s p).
Proof. exact alt_sites. Qed.
Print Assumptions C32_pinning_alt.

(** Pinning fields on a chain stop with an IndexError. *)
Theorem C32_pinning_chain : forall (K : Type) (zero : K) (add : K -> K -> K) (opp : K -> K) t nu nx s, 0 < nx ->
  kinetic_pinning K zero add opp t nu nx 1 s = Err IndexError /\ kinetic_pinning_alt K zero add opp t nu nx 1 s = Err IndexError.
Proof. exact chain_stops. Qed.
Print Assumptions C32_pinning_chain.

(** A 3 x 3 lattice with an antiperiodic x direction. *)
Example C32_example : exists T,
  kinetic Z bool 0%Z Z.add Z.mul Z.opp (fun x => x) (fun b => if b then (-1)%Z else 1%Z) 1%Z 1%Z 3 3 (Some [true; false]) true true = Ok T /\
  map (T 0) (seq 0 9) = [0; -1; 1; -1; 0; 0; -1; 0; 0]%Z.
Proof. eexists. split; [reflexivity|]. reflexivity. Qed.
