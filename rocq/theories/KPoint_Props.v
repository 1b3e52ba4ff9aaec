(** FCIDUMP files of Hamiltonians with k points (C74). *)
From Verif Require Import Base BaseFacts Fcidump_Model Fcidump_Spec KPoint_Model KPoint_Spec KPoint_Proofs KPoint_More.
Open Scope nat_scope.

Section Vocabulary.
  Context {K : Type} (zero : K) (chol : list (cholq K)).
  (** the Cholesky vectors in the list *)
  Definition vectors (q k r m : nat) : K := entry K (nth q chol (CholQ K 0 (fun _ _ _ => zero))) k r m.
  Definition columns (q : nat) : nat := ncol K (nth q chol (CholQ K 0 (fun _ _ _ => zero))).
End Vocabulary.

(** write_fcidump_kpoint writes, in another order, exactly the lines that write_fcidump writes for
    the integrals between all Bloch orbitals. *)
Theorem C74_lines : forall (K : Type) (zero : K) (ad mu : K -> K -> K) (conj re : K -> K) (big imgpos : K -> bool)
  (npk : list nat) (qk : nat -> nat -> nat) (chol : list (cholq K)) (hcore : list (nat -> nat -> K)) enuc nelec sym paren,
  transfers_ok npk (length chol) qk -> big zero = false -> length hcore = length npk -> sym <= 4 ->
  let v := bloch_integral zero npk (length chol) qk
             (cholesky_integral zero npk qk ad mu conj (columns zero chol) (vectors zero chol)) in
  let h := bloch_one_body zero npk (fun k => nth k hcore (fun _ _ => zero)) in
  exists d d', write_fcidump_kpoint K zero ad mu conj re big npk qk hcore chol enuc (list_sum npk) nelec sym true paren = Ok d /\
    write_fcidump K re big imgpos h (fun I K' L J => v I K' J L) enuc (list_sum npk) nelec sym true paren = Ok d' /\
    norb K d = norb K d' /\ nel K d = nel K d' /\ ms2 K d = ms2 K d' /\ Permutation (lines K d) (lines K d').
Proof. intros; apply same_lines; assumption. Qed.
Print Assumptions C74_lines.

(** When the vectors of opposite transfers belong together the integrals have the symmetry sym=4
    uses. *)
Theorem C74_symmetry : forall (K : Type) (zero : K) (ad mu : K -> K -> K) (conj : K -> K),
  (forall a b, conj (ad a b) = ad (conj a) (conj b)) -> (forall a b, conj (mu a b) = mu (conj a) (conj b)) ->
  conj zero = zero -> (forall a, conj (conj a) = a) -> (forall a b, mu a b = mu b a) ->
  forall (npk : list nat) (qk : nat -> nat -> nat) (chol : list (cholq K)),
  transfers_ok npk (length chol) qk ->
  opposite_pairs npk (length chol) qk conj (columns zero chol) (vectors zero chol) ->
  has_sym conj 4 (bloch_integral zero npk (length chol) qk
    (cholesky_integral zero npk qk ad mu conj (columns zero chol) (vectors zero chol))).
Proof. intros. apply (v_sym K zero ad mu conj (fun x => x) (fun _ => false)); try assumption; reflexivity. Qed.
Print Assumptions C74_symmetry.

(** Reading the file gives every integral above the threshold, the one-body matrix, the core energy
    and the numbers of electrons. *)
Theorem C74_roundtrip : forall (K : Type) (zero : K) (ad mu : K -> K -> K) (conj re : K -> K) (big : K -> bool),
  conj zero = zero -> big zero = false -> (forall x, big (conj x) = big x) ->
  forall (npk : list nat) (qk : nat -> nat -> nat) (chol : list (cholq K)) (hcore : list (nat -> nat -> K)),
  transfers_ok npk (length chol) qk -> length hcore = length npk ->
  (forall k i j, k < length npk -> nth k hcore (fun _ _ => zero) j i = conj (nth k hcore (fun _ _ => zero) i j)) ->
  let v := bloch_integral zero npk (length chol) qk
             (cholesky_integral zero npk qk ad mu conj (columns zero chol) (vectors zero chol)) in
  let h := bloch_one_body zero npk (fun k => nth k hcore (fun _ _ => zero)) in
  forall sym enuc na nb, sym = 1 \/ sym = 4 -> has_sym conj sym v ->
  exists d h1 h2, write_fcidump_kpoint K zero ad mu conj re big npk qk hcore chol enuc (list_sum npk) (na, nb) sym true false = Ok d /\
    read_fcidump K zero conj d sym = Ok (h1, h2, enuc, (na, nb)) /\
    (forall i k j l, in_range (list_sum npk) (i, k, j, l) -> h2 i k j l = if big (v i k j l) then v i k j l else zero) /\
    (forall i j, i < list_sum npk -> j < list_sum npk -> h1 i j = if big (h i j) then h i j else zero).
Proof. intros; apply kp_roundtrip; assumption. Qed.
Print Assumptions C74_roundtrip.

(** The real format is never written: the test for imaginary parts counts the arrays of
    numpy.where. *)
Theorem C74_real_refuted : forall (K : Type) zero ad mu conj re big npk qk hcore (chol : list (cholq K)) enuc nmo nelec sym paren,
  npk <> [] -> chol <> [] ->
  write_fcidump_kpoint K zero ad mu conj re big npk qk hcore chol enuc nmo nelec sym false paren = Err SystemExit.
Proof. exact real_exits. Qed.
Print Assumptions C74_real_refuted.

(** get_kpoint_chol: the stored vectors of a transfer, or the conjugate ones of the opposite
    transfer with the same k points and rows, or KeyError. *)
Theorem C74_missing : forall (K : Type) (conj : K -> K) (file : nat -> option (cholq K)) (minus : nat -> nat) (q : nat),
  (forall l, file q = Some l -> get_kpoint_chol K conj file minus q = Ok l) /\
  (file q = None -> forall l, file (minus q) = Some l -> exists l', get_kpoint_chol K conj file minus q = Ok l' /\
     ncol K l' = ncol K l /\ forall k r m, entry K l' k r m = conj (entry K l k r m)) /\
  (file q = None -> file (minus q) = None -> get_kpoint_chol K conj file minus q = Err KeyError).
Proof.
  intros. unfold get_kpoint_chol. repeat split.
  - intros l ->. reflexivity.
  - intros -> l ->. eexists. split; [reflexivity|]. split; reflexivity.
  - intros -> ->. reflexivity.
Qed.
Print Assumptions C74_missing.

(** These are the vectors that belong to the stored ones exactly when the stored ones do not change
    under the exchange of the two orbitals together with their k points. *)
Theorem C74_minus_partial : forall (K : Type) (conj : K -> K), (forall a, conj (conj a) = a) ->
  forall (npk : list nat) (qk : nat -> nat -> nat) (file : nat -> option (cholq K)) (minus : nat -> nat) (q : nat) l l',
  file q = None -> file (minus q) = Some l -> get_kpoint_chol K conj file minus q = Ok l' ->
  forall k i k' m,
  entry K l (qk q k) (k' * nth k npk 0 + i) m = conj (entry K l' k (i * nth (qk q k) npk 0 + k') m) <->
  entry K l (qk q k) (k' * nth k npk 0 + i) m = entry K l k (i * nth (qk q k) npk 0 + k') m.
Proof.
  intros K conj inv npk qk file minus q l l' N F. unfold get_kpoint_chol. rewrite N, F. intros [= <-] k i k' m.
  cbn [entry]. rewrite inv. reflexivity.
Qed.
Print Assumptions C74_minus_partial.

(** Three k points with one orbital each, transfer q takes k to k - q. *)
Definition z3 (q k : nat) : nat := (k + 3 - q) mod 3.
(** a file with the vectors of transfers 0 and 1 only *)
Definition z3_file (q : nat) : option (cholq Z) :=
  if q <? 2 then Some (CholQ Z 1 (fun k _ _ => if q =? 0 then 1%Z else (Z.of_nat k + 1)%Z)) else None.
(** the same with the vectors that transfer 2 has by symmetry *)
Definition z3_vectors (q : nat) : cholq Z :=
  CholQ Z 1 (fun k _ _ => if q =? 0 then 1%Z else if q =? 1 then (Z.of_nat k + 1)%Z else (Z.of_nat ((k + 1) mod 3) + 1)%Z).

Lemma z3_ok : transfers_ok [1; 1; 1] 3 z3.
Proof.
  split.
  - intros q k _ _. apply Nat.mod_upper_bound. discriminate.
  - intros q q' k Hq Hq' Hk. cbn in Hk. unfold z3.
    destruct q as [|[|[|]]], q' as [|[|[|]]], k as [|[|[|]]]; try lia; cbn; discriminate.
Qed.

(** get_kpoint_chol conjugates the vectors of the opposite transfer but keeps their k points: the
    integrals lose the symmetry, and (01|10) and (10|01) differ. *)
Theorem C74_minus_refuted : transfers_ok [1; 1; 1] 3 z3 /\
  exists l0 l1 l2, let minus q := (3 - q) mod 3 in
  get_kpoint_chol Z (fun x => x) z3_file minus 0 = Ok l0 /\
  get_kpoint_chol Z (fun x => x) z3_file minus 1 = Ok l1 /\
  get_kpoint_chol Z (fun x => x) z3_file minus 2 = Ok l2 /\
  let v := bloch_integral 0%Z [1; 1; 1] 3 z3 (cholesky_integral 0%Z [1; 1; 1] z3 Z.add Z.mul (fun x => x)
             (columns 0%Z [l0; l1; l2]) (vectors 0%Z [l0; l1; l2])) in
  v 1 0 0 1 = 4%Z /\ v 0 1 1 0 = 1%Z.
Proof. split; [exact z3_ok|]. do 3 eexists. repeat split. Qed.
Print Assumptions C74_minus_refuted.

(** The hypotheses of the theorems hold for vectors that belong together. *)
Example C74_case : opposite_pairs [1; 1; 1] 3 z3 (fun x => x) (columns 0%Z (map z3_vectors [0; 1; 2])) (vectors 0%Z (map z3_vectors [0; 1; 2])) /\
  bloch_integral 0%Z [1; 1; 1] 3 z3 (cholesky_integral 0%Z [1; 1; 1] z3 Z.add Z.mul (fun x => x)
     (columns 0%Z (map z3_vectors [0; 1; 2])) (vectors 0%Z (map z3_vectors [0; 1; 2]))) 1 0 1 2 = 6%Z.
Proof.
  split; [|reflexivity]. intros q Hq. exists ((3 - q) mod 3).
  destruct q as [|[|[|]]]; try lia; (split; [cbn; lia|]); (split; [reflexivity|]);
    intros k Hk; cbn in Hk; destruct k as [|[|[|]]]; try lia; (split; [reflexivity|]); intros i k' m Hi Hk'; cbn in *; reflexivity.
Qed.
