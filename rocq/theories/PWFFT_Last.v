(* Proofs about the plane wave system in terms of the specification. *)

From Verif Require Import Base BaseFacts.
Set Warnings "-notation-overridden,-ambiguous-paths".
From mathcomp Require Import all_ssreflect all_algebra zify.
From Verif Require Import LEnergy_Model LEnergy_Spec LEnergy_Proofs.
From Verif Require Import UEGEnergy_Spec UEGEnergy_Proofs Kspace_Spec PWFFT_Spec.
From Verif Require Import PWFFT_Model PWFFT_Proofs PWGrid_Proofs PWEnergy_Proofs PWSystem_Proofs PWLookup_Proofs.

Set Implicit Arguments.
Unset Strict Implicit.
Unset Printing Implicit Defensive.

Import Order.TTheory GRing.Theory Num.Theory.
Local Open Scope ring_scope.

Lemma dot2_len2 k : dot2 k = len2 k.
Proof. by rewrite /dot2 /len2 !expr2. Qed.

Lemma inside_len2 ecut k : inside ecut k = ((len2 k)%:~R <= 2%:R * ecut).
Proof. by rewrite inside2 dot2_len2. Qed.

Section Last.
Variable C : numClosedFieldType.
Variables (pi kfac : C) (kt : C * C * C).

Lemma right_sphere ecut sys : right pi kfac kt ecut sys -> sphere ecut (basis sys).
Proof. by move=> r; split=> [|k]; [exact: r_uniq r|rewrite (r_mem _ r) inside_len2]. Qed.

Lemma right_qsphere ecut sys : right pi kfac kt ecut sys -> sphere (4%:R * ecut) (qvecs sys).
Proof. by move=> r; split=> [|k]; [exact: r_quniq r|rewrite (r_qmem _ r) inside_len2]. Qed.

Lemma right_eigv ecut sys : right pi kfac kt ecut sys ->
  sp_eigv sys = [seq kinetic_energy kfac kt k | k <- basis sys].
Proof.
move=> r; rewrite (r_sp r); apply: eq_map => k; rewrite /kinetic_energy !exprMn -!mulrDr.
by rewrite [_ / 2%:R]mulrC mulrCA.
Qed.

Lemma system_spec ecut : 2%:R^-1 <= ecut ->
  exists sys, pw_system pi kfac kt ecut = Ok sys /\
    sphere ecut (basis sys) /\ sphere (4%:R * ecut) (qvecs sys) /\
    sp_eigv sys = [seq kinetic_energy kfac kt k | k <- basis sys].
Proof.
move=> h; have [sys E] := system_ok pi kfac kt h; exists sys; split=> //.
have [_ r] := system_inv E; split; first exact: right_sphere r.
by split; [exact: right_qsphere r|exact: right_eigv r].
Qed.

Lemma transfers_spec ecut sys : pw_system pi kfac kt ecut = Ok sys ->
  forall k k', k \in basis sys -> k' \in basis sys -> k - k' \in qvecs sys.
Proof.
move=> /system_inv [h r] k k'; rewrite !(r_mem _ r) (r_qmem _ r) => hk hk'.
exact: inside_sub.
Qed.

Variable w : nat -> C.
Hypothesis wP : roots w.
Variable nfl : nat -> nat.
Hypothesis nflP : forall n, (n <= nfl n)%N.

Lemma convolve_spec n (f g : seq C) : (0 < n)%N -> size f = (n ^ 3)%N -> size g = (n ^ 3)%N ->
  exists c, convolve w nfl f g n = Ok c /\ convolution_of n f g c.
Proof.
move=> n0 sf sg; have [c [E s h]] := convolveE wP n0 (nflP _) sf sg.
exists c; split=> //; split=> // r hr; rewrite h //.
apply: eq_bigr => i _; apply: eq_bigr => j _.
rewrite /adds /coords /= !xpair_eqE.
by case: (_ && _); rewrite ?mul1r ?mul0r.
Qed.

Lemma convolve_raises n (f g : seq C) : size f <> (n ^ 3)%N \/ size g <> (n ^ 3)%N ->
  convolve w nfl f g n = Err ValueError.
Proof.
move=> h; rewrite /convolve ifN //; apply/negP => /andP [/eqP a /eqP b].
by case: h.
Qed.

Variable vol : C.
Hypothesis kfacP : (10%:R ^+ 10)^-1 <= kfac ^+ 2.

Section Energy.
Variables (ecut : rat) (sys : system C).
Hypothesis sysP : pw_system pi kfac kt ecut = Ok sys.
Local Notation M := (size (basis sys)).
Local Notation v := (coulomb (fun a : 'I_M => nth 0 (basis sys) a : wave)
                      (bare pi vol (fun Q : wave => kfac ^+ 2 * (len2 Q)%:~R))).

Lemma vE p r q u : coulomb (fun a : 'I_M => nth 0 (basis sys) a : wave)
    (bare pi vol (fun Q : vec => kfac ^+ 2 * (dot2 Q)%:~R)) p r q u = v p r q u.
Proof. rewrite /coulomb /bare dot2_len2 //. Qed.

Lemma wick2_eq4 (v1 v2 : 'I_M -> 'I_M -> 'I_M -> 'I_M -> C) G :
  (forall p r q u, v1 p r q u = v2 p r q u) -> wick2 v1 G = wick2 v2 G.
Proof.
move=> h; rewrite /wick2; congr (_ * _); do 6 (apply: eq_bigr => ? _).
by rewrite h.
Qed.

Lemma energy_spec ma mb (ragged diagH1 : bool) (H1 : 'M[C]_M * 'M[C]_M)
    (A : 'M[C]_(M, ma)) (B : 'M[C]_(M, mb)) (Ga : 'M[C]_(ma, M)) (Gb : 'M[C]_(mb, M)) :
  ma = mb \/ ragged ->
  (diagH1 -> diagonal H1.1 /\ diagonal H1.2) ->
  let G := (map_mx conjC A *m Ga, map_mx conjC B *m Gb) in
  local_energy_pw_fft w nfl sys vol ragged diagH1 H1 G Ga Gb (row_mx A B) = Ok (energies H1 v 0 G).
Proof.
move=> hr d G; rewrite /local_energy_pw_fft eqxx /=.
rewrite ifN; last by rewrite negb_and negbK; case: hr => ->; rewrite ?eqxx ?orbT.
rewrite (system_energy wP nflP vol kfacP sysP) kineticE // /energies !addr0.
by rewrite (wick2_eq4 _ vE).
Qed.

Lemma no_cython_spec ma mb (ragged : bool) (H1 : 'M[C]_M * 'M[C]_M)
    (A : 'M[C]_(M, ma)) (B : 'M[C]_(M, mb)) (Ga : 'M[C]_(ma, M)) (Gb : 'M[C]_(mb, M)) :
  ma = mb \/ ragged ->
  let G := (map_mx conjC A *m Ga, map_mx conjC B *m Gb) in
  local_energy_no_cython w nfl sys vol ragged H1 G Ga Gb (row_mx A B) = Ok (energies H1 v 0 G).
Proof.
move=> hr G; rewrite /local_energy_no_cython.
rewrite ifN; last by rewrite negb_and negbK; case: hr => ->; rewrite ?eqxx ?orbT.
rewrite (system_energy wP nflP vol kfacP sysP) kineticE // /energies !addr0.
by rewrite (wick2_eq4 _ vE).
Qed.

Lemma ragged_raises ma mb (diagH1 : bool) (H1 G : 'M[C]_M * 'M[C]_M)
    (Ga : 'M[C]_(ma, M)) (Gb : 'M[C]_(mb, M)) (T : 'M[C]_(M, ma + mb)) :
  ma <> mb -> local_energy_pw_fft w nfl sys vol false diagH1 H1 G Ga Gb T = Err ValueError
    /\ local_energy_no_cython w nfl sys vol false H1 G Ga Gb T = Err ValueError.
Proof.
move=> /eqP ne; rewrite /local_energy_pw_fft eqxx /local_energy_no_cython.
by split; rewrite ne.
Qed.

Lemma assert_raises ma mb nt (ragged diagH1 : bool) (H1 G : 'M[C]_M * 'M[C]_M)
    (Ga : 'M[C]_(ma, M)) (Gb : 'M[C]_(mb, M)) (T : 'M[C]_(M, nt)) :
  (ma + mb)%N <> nt -> local_energy_pw_fft w nfl sys vol ragged diagH1 H1 G Ga Gb T = Err AssertionError.
Proof. by move=> /eqP ne; rewrite /local_energy_pw_fft ne. Qed.
End Energy.

(* without a lower bound on the box *)
Lemma vq_tiny (Q : vec) : kfac ^+ 2 * (len2 Q)%:~R < (10%:R ^+ 10)^-1 -> vq pi kfac Q = 0.
Proof. by move=> h; rewrite /vq dot2_len2 h. Qed.
End Last.

(* a case: seven plane waves *)
Definition seven : seq wave := [:: (-1, 0, 0); (0, -1, 0); (0, 0, -1); (0, 0, 0); (0, 0, 1); (0, 1, 0); (1, 0, 0)].
Lemma len2_one k : (len2 k <= 1) = (k \in seven).
Proof.
case: k => [[x y] z]; rewrite /len2 /=; apply/idP/idP => [h|]; last first.
  by rewrite !inE !xpair_eqE => /or4P [||| /or4P []] /andP [/andP []] /eqP -> /eqP -> /eqP ->.
have hx : -1 <= x <= 1 by nia.
have hy : -1 <= y <= 1 by nia.
have hz : -1 <= z <= 1 by nia.
have : x = -1 \/ x = 0 \/ x = 1 by lia.
have : y = -1 \/ y = 0 \/ y = 1 by lia.
have : z = -1 \/ z = 0 \/ z = 1 by lia.
by move=> [?|[?|?]] [?|[?|?]] [?|[?|?]]; subst.
Qed.

Lemma sphere_seven s : sphere 2%:R^-1 s -> perm_eq s seven.
Proof.
move=> [u h]; apply: uniq_perm => // k; rewrite -len2_one.
have e : ((len2 k)%:~R <= 2%:R * 2%:R^-1 :> rat) = (len2 k <= 1).
  by rewrite mulfV // -[1]/(1%:~R) ler_int.
by rewrite -e; apply/idP/idP; case: (h k).
Qed.
