(* Proofs about the lookup table of the plane waves, the system, and its energy. *)

From Verif Require Import Base BaseFacts.
Set Warnings "-notation-overridden,-ambiguous-paths".
From mathcomp Require Import all_ssreflect all_algebra zify.
From Verif Require Import LEnergy_Model LEnergy_Spec LEnergy_Proofs.
From Verif Require Import UEGEnergy_Spec UEGEnergy_Proofs Kspace_Spec.
From Verif Require Import PWFFT_Model PWFFT_Proofs PWGrid_Proofs PWEnergy_Proofs PWSystem_Proofs.

Set Implicit Arguments.
Unset Strict Implicit.
Unset Printing Implicit Defensive.

Import Order.TTheory GRing.Theory Num.Theory.
Local Open Scope ring_scope.

Lemma max_int_ge (s : seq int) x : x \in s -> x <= max_int s.
Proof.
rewrite /max_int; move: (head 0 s) => d; elim: s => //= a s IH.
by rewrite inE le_maxr => /orP [/eqP ->|/IH ->]; rewrite ?lexx ?orbT.
Qed.
Lemma max_int_in (s : seq int) : s != [::] -> max_int s \in s.
Proof.
rewrite /max_int => ne; have : head 0 s \in s by case: s ne => //= a s _; rewrite inE eqxx.
suff H (t : seq int) (d : int) : foldr Num.max d t = d \/ foldr Num.max d t \in t.
  by case: (H s (head 0 s)) => [->|].
elim: t => [|a t [e|h]] /=; first by left.
  rewrite e; case: (leP a d) => _; [by left|by right; rewrite inE eqxx].
by right; case: (leP a (foldr Num.max d t)) => _; rewrite inE ?h ?eqxx ?orbT.
Qed.

Section Lookup.
Variable ecut : rat.
Variable nm : nat.
Hypothesis e1 : 2%:R^-1 <= ecut.
Hypothesis box : 2%:R * ecut <= (nm ^ 2)%N%:R.
Variable b : seq vec.
Hypothesis bu : uniq b.
Hypothesis bP : forall k, (k \in b) = inside ecut k.

Lemma nm_pos : (0 < nm)%N.
Proof.
rewrite lt0n; apply/eqP => z; move: box; rewrite z expnS mul0n.
rewrite leNgt pmulr_rgt0 //; rewrite (lt_le_trans _ e1) //.
Qed.

Lemma ball k : k \in b -> dot2 k <= nm%:Z * nm%:Z.
Proof.
rewrite bP inside2 => h; have := le_trans h box.
by rewrite pmulrn ler_int expnS expn1 PoszM.
Qed.

Lemma radix (N d t : int) : 0 < N -> - (2 * N) <= d <= 2 * N -> d + 2 * N * t = 0 ->
  (t = 0 /\ d = 0) \/ (t = 1 /\ d = - (2 * N)) \/ (t = -1 /\ d = 2 * N).
Proof.
move=> N0 hd e.
have t1 : t <= 1 by nia.
have t2 : -1 <= t by nia.
have [t0|[t0|t0]] : t = -1 \/ t = 0 \/ t = 1 by lia.
- by right; right; subst t; lia.
- by left; subst t; lia.
- by right; left; subst t; lia.
Qed.

Lemma sq_bound (N x r : int) : 0 < N -> 0 <= r -> x * x + r <= N * N -> - N <= x <= N.
Proof. by move=> N0 r0 h; apply/andP; split; nia. Qed.

Lemma sq_edge (N x r : int) : x * x = N * N -> 0 <= r -> x * x + r <= N * N -> r = 0.
Proof. by move=> e r0 h; lia. Qed.

Lemma sq0 (a b' : int) : a * a + b' * b' = 0 -> a = 0 /\ b' = 0.
Proof. by move=> h; split; nia. Qed.

Lemma index_inj k k' : k \in b -> k' \in b ->
  map_basis_to_index nm k = map_basis_to_index nm k' -> k = k'.
Proof.
move=> /ball h /ball h'; have n0 := nm_pos; move: h h'.
case: k k' => [[x y] z] [[x' y'] z']; rewrite /dot2 /map_basis_to_index /= PoszM.
have N0 : 0 < nm%:Z by lia.
move: (nm%:Z) N0 => N N0 h h' e {n0}.
have sx (u : int) : 0 <= u * u by rewrite -expr2 sqr_ge0.
have bx : - N <= x <= N by apply: (@sq_bound _ _ (y * y + z * z)) => //; rewrite ?addr_ge0 ?addrA.
have bx' : - N <= x' <= N by apply: (@sq_bound _ _ (y' * y' + z' * z')) => //; rewrite ?addr_ge0 ?addrA.
have by_ : - N <= y <= N.
  by apply: (@sq_bound _ _ (x * x + z * z)); rewrite ?addr_ge0 //; move: h; rewrite addrA [y * y + _]addrC.
have by' : - N <= y' <= N.
  by apply: (@sq_bound _ _ (x' * x' + z' * z')); rewrite ?addr_ge0 //; move: h'; rewrite addrA [y' * y' + _]addrC.
have edge (u p q : int) : u = N \/ u = - N -> u * u + p * p + q * q <= N * N -> p = 0 /\ q = 0.
  move=> hu hs; apply: sq0; apply: (@sq_edge N u); first by case: hu => ->; rewrite ?mulrNN.
    by rewrite addr_ge0.
  by rewrite addrA.
have edgey (u p q : int) : p = N \/ p = - N -> u * u + p * p + q * q <= N * N -> q = 0.
  move=> hu hs; have [] // := @edge p u q hu; by rewrite [p * p + _]addrC.
have e2 : (x - x') + 2 * N * ((y - y') + 2 * N * (z - z')) = 0.
  have E (u v w u' v' w' T : int) : u + T * v + T * T * w = u' + T * v' + T * T * w' ->
    (u - u') + T * ((v - v') + T * (w - w')) = 0.
    move=> hh; transitivity ((u + T * v + T * T * w) - (u' + T * v' + T * T * w')).
      by rewrite !mulrDr !mulrN !mulrA; lia.
    by rewrite hh subrr.
  rewrite (_ : x - x' = x + N - (x' + N)); last by lia.
  rewrite (_ : y - y' = y + N - (y' + N)); last by lia.
  rewrite (_ : z - z' = z + N - (z' + N)); last by lia.
  exact: E _ _ _ _ _ _ _ e.
have dx : - (2 * N) <= x - x' <= 2 * N by lia.
have dy : - (2 * N) <= y - y' <= 2 * N by lia.
have [[t0 d]|far] := radix N0 dx e2; last first.
  have hx : x = N \/ x = - N by lia.
  have hx' : x' = N \/ x' = - N by lia.
  have [p0 r0] := edge x y z hx h; have [p0' r0'] := edge x' y' z' hx' h'.
  by subst y z y' z'; lia.
have [[t1 d1]|far] := radix N0 dy t0; last first.
  have hy : y = N \/ y = - N by lia.
  have hy' : y' = N \/ y' = - N by lia.
  have r0 := edgey x y z hy h; have r0' := edgey x' y' z' hy' h'.
  by subst z z'; lia.
by congr (_, _, _); lia.
Qed.

Lemma index_ge0 k : k \in b -> 0 <= map_basis_to_index nm k.
Proof.
move=> /ball; case: k => [[x y] z]; rewrite /dot2 /map_basis_to_index /= PoszM.
have N0 : 0 < nm%:Z by have := nm_pos; lia.
move: (nm%:Z) N0 => N N0 h.
have sx (u : int) : 0 <= u * u by rewrite -expr2 sqr_ge0.
have bx : - N <= x <= N by apply: (@sq_bound _ _ (y * y + z * z)) => //; rewrite ?addr_ge0 ?addrA.
have by_ : - N <= y <= N.
  by apply: (@sq_bound _ _ (x * x + z * z)); rewrite ?addr_ge0 //; move: h; rewrite addrA [y * y + _]addrC.
have bz : - N <= z <= N.
  by apply: (@sq_bound _ _ (x * x + y * y)); rewrite ?addr_ge0 //; move: h; rewrite [z * z + _]addrC.
have b1 : 0 <= x + N by lia.
have b2 : 0 <= y + N by lia.
have b3 : 0 <= z + N by lia.
have T0 : 0 <= 2%:Z * N by lia.
apply: addr_ge0; first by apply: addr_ge0 => //; apply: mulr_ge0.
by apply: mulr_ge0 => //; apply: mulr_ge0.
Qed.

Lemma lookupP k i : lookup_basis nm b k = Some i <-> (i < size b)%N /\ nth 0 b i = k.
Proof.
have nb : b != [::].
  apply/eqP => z; have : (0 : vec) \in b; last by rewrite z.
  by rewrite bP /inside mulr0 (le_trans _ e1).
have mE : (dot2 k <= imax_sq b) = (k \in b).
  apply/idP/idP => [h|h]; last by apply: max_int_ge; apply: map_f.
  have /max_int_in /mapP [k' hk' e] : [seq dot2 k | k <- b] != [::] by case: (b) nb.
  rewrite bP inside2; move: hk'; rewrite bP inside2 => /(le_trans _); apply.
  by rewrite ler_int -e.
rewrite /lookup_basis mE.
set ix := [seq map_basis_to_index nm k | k <- b].
have inE : uniq [seq `|j|%N | j <- ix].
  rewrite /ix -map_comp map_inj_in_uniq // => u v hu hv /= e.
  by apply: index_inj => //; have := index_ge0 hu; have := index_ge0 hv; lia.
set idx := [seq `|j|%N | j <- ix] in inE.
have al : all (fun i => (i < `|max_int ix|.+1)%N) idx.
  apply/allP => i' /mapP [j /mapP [u hu ->] ->]; rewrite ltnS.
  have h0 := index_ge0 hu.
  have h1 : map_basis_to_index nm u <= max_int ix by apply: max_int_ge; apply: map_f.
  lia.
have sidx : size idx = size b by rewrite !size_map.
have [sz nt] := @foldl_set _ 0%N idx (iota 0 (size b)) (nseq (`|max_int ix|.+1) 0%N)
  (`|max_int ix|.+1) (etrans (size_iota _ _) (esym sidx)) inE al (size_nseq _ _).
rewrite -/(create_lookup_table nm b) in sz nt.
case: ifP => hk; last first.
  split=> // [[hi e]]; by rewrite -e mem_nth in hk.
have h0 := index_ge0 hk.
have h1 : map_basis_to_index nm k <= max_int ix by apply: max_int_ge; apply: map_f.
rewrite sz ifF; last by lia.
rewrite ifF; last by lia.
have hidx : (index k b < size b)%N by rewrite index_mem.
have ek : `|map_basis_to_index nm k|%N = nth 0%N idx (index k b).
  rewrite /idx /ix -map_comp (nth_map 0) //= nth_index //.
rewrite nt ek mem_nth ?sidx // index_uniq ?sidx // nth_iota // add0n.
split=> [[<-]|[hi e]]; first by rewrite nth_index.
by rewrite -e index_uniq.
Qed.
End Lookup.

Section System.
Variable C : numClosedFieldType.
Variables (pi kfac : C) (kt : C * C * C).

Lemma qbox ecut nm : 2%:R * ecut <= (nm ^ 2)%N%:R ->
  2%:R * (4%:R * ecut) <= ((nm * 2) ^ 2)%N%:R :> rat.
Proof.
move=> h; rewrite mulrCA expnMn mulnC natrM -[(2 ^ 2)%N]/4%N.
by rewrite ler_pmul2l.
Qed.

Lemma sp_some ecut nm :
  if size [seq i <- iota 0 ((2 * nm + 1) ^ 3) | inside ecut (kvec nm i)] == 1%N
  then sp_energies kfac kt ecut (Some nm) = Err ValueError
  else exists sp kv gm, sp_energies kfac kt ecut (Some nm) = Ok (sp, kv, nm, gm).
Proof.
rewrite /sp_energies (_ : (Some nm == None) && (ecut < 0) = false) //.
rewrite (_ : [seq i <- iota 0 (size _) | _] = [seq i <- iota 0 ((2 * nm + 1) ^ 3) | inside ecut (kvec nm i)]).
  case E: (size _ == 1%N); rewrite ?E //.
  by eexists; eexists; eexists; reflexivity.
rewrite size_product3 size_range; apply: eq_in_filter => i.
by rewrite mem_iota add0n => /andP [_ hi]; rewrite nth_product3.
Qed.

Lemma sp_none ecut : 0 <= ecut ->
  sp_energies kfac kt ecut None = sp_energies kfac kt ecut (Some (ceil_sqrt (2%:R * ecut))).
Proof.
move=> h; by rewrite /sp_energies ltNge h !andbF.
Qed.

Lemma system_raises ecut : ecut < 2%:R^-1 -> pw_system pi kfac kt ecut = Err ValueError.
Proof.
move=> h; rewrite /pw_system; have [e0|e1] := ltP ecut 0.
  have -> : sp_energies kfac kt ecut None = Err ValueError by rewrite /sp_energies e0.
  by [].
have bx := ceil_sqrtP (mulr_ge0 (ler0n _ 2) e1).
by rewrite sp_none //; have := sp_some ecut (ceil_sqrt (2%:R * ecut)); rewrite half_box // h => ->.
Qed.

Lemma sp_ok ecut nm : 2%:R^-1 <= ecut -> 2%:R * ecut <= (nm ^ 2)%N%:R ->
  exists sp kv gm, sp_energies kfac kt ecut (Some nm) = Ok (sp, kv, nm, gm).
Proof.
move=> h bx; have e0 : 0 <= ecut by apply: le_trans h.
by have := sp_some ecut nm; rewrite half_box // ltNge h.
Qed.

(* the system as found *)
Record right (ecut : rat) (sys : system C) : Prop := Right {
  r_nm : nmax sys = ceil_sqrt (2%:R * ecut);
  r_box : 2%:R * ecut <= (nmax sys ^ 2)%N%:R;
  r_gmap : gmap sys = [seq i <- iota 0 ((2 * nmax sys + 1) ^ 3) | inside ecut (kvec (nmax sys) i)];
  r_basis : basis sys = [seq kvec (nmax sys) i | i <- gmap sys];
  r_qmap : qmap sys = [seq i <- iota 0 ((2 * (nmax sys * 2) + 1) ^ 3)
                        | inside (4%:R * ecut) (kvec (nmax sys * 2) i)];
  r_qvecs : qvecs sys = [seq kvec (nmax sys * 2) i | i <- qmap sys];
  r_vq : vqvec sys = [seq vq pi kfac Q | Q <- qvecs sys];
  r_sp : sp_eigv sys = [seq kfac ^+ 2 * (2%:R^-1 * ((k.1.1%:~R + kt.1.1) ^+ 2
           + (k.1.2%:~R + kt.1.2) ^+ 2 + (k.2%:~R + kt.2) ^+ 2)) | k <- basis sys] }.

Lemma r_mem ecut sys k : right ecut sys -> (k \in basis sys) = inside ecut k.
Proof. by move=> r; rewrite (r_basis r) (r_gmap r) mem_plane // (r_box r). Qed.
Lemma r_uniq ecut sys : right ecut sys -> uniq (basis sys).
Proof. by move=> r; rewrite (r_basis r) (r_gmap r) uniq_plane. Qed.
Lemma r_qmem ecut sys k : right ecut sys -> (k \in qvecs sys) = inside (4%:R * ecut) k.
Proof. by move=> r; rewrite (r_qvecs r) (r_qmap r) mem_plane // qbox // (r_box r). Qed.
Lemma r_quniq ecut sys : right ecut sys -> uniq (qvecs sys).
Proof. by move=> r; rewrite (r_qvecs r) (r_qmap r) uniq_plane. Qed.

Lemma system_inv ecut sys : pw_system pi kfac kt ecut = Ok sys ->
  2%:R^-1 <= ecut /\ right ecut sys.
Proof.
have [h|h] := ltP ecut 2%:R^-1; first by rewrite system_raises.
move=> E; split=> //; move: E; rewrite /pw_system.
have e0 : 0 <= ecut by apply: le_trans h.
case E : (sp_energies kfac kt ecut None) => [[[[sp kv] nm] gm]|] //; cbn [rbind].
case: ifP => // _.
case F : (sp_energies kfac kt (4%:R * ecut) (Some (nm * 2)%N)) => [[[[sp' q] qn] qm]|] //; cbn [rbind].
move=> [<-].
have [g1 k1 n1 s1] := sp_energiesE E; have [g2 k2 n2 s2] := sp_energiesE F.
split=> //=; rewrite -?n1 //.
- by rewrite n1; apply: ceil_sqrtP; rewrite mulr_ge0.
- by rewrite g2 n2.
- by rewrite k2 n2.
Qed.

Lemma system_ok ecut : 2%:R^-1 <= ecut -> exists sys, pw_system pi kfac kt ecut = Ok sys.
Proof.
move=> h; have e0 : 0 <= ecut by apply: le_trans h.
rewrite /pw_system sp_none //.
have bx := ceil_sqrtP (mulr_ge0 (ler0n _ 2) e0); set nm := ceil_sqrt _ in bx *.
have [sp [kv [gm E]]] := sp_ok h bx; rewrite E; cbn [rbind].
have [g1 k1 n1 s1] := sp_energiesE E.
have mm k : (k \in kv) = inside ecut k by rewrite k1 g1 mem_plane.
have uu : uniq kv by rewrite k1 g1 uniq_plane.
rewrite ifT; last first.
  by apply/allP => i; rewrite mem_iota add0n => /andP [_ hi]; apply/eqP/(lookupP h bx uu mm).
have h4 : 2%:R^-1 <= 4%:R * ecut.
  by apply: le_trans h _; rewrite ler_pemull // ler1n.
have [sp' [q [qm F]]] := sp_ok h4 (qbox bx).
by rewrite F; cbn [rbind]; eexists.
Qed.

Lemma lookup_right ecut sys k i : pw_system pi kfac kt ecut = Ok sys ->
  lookup_basis (nmax sys) (basis sys) k = Some i <-> (i < size (basis sys))%N /\ nth 0 (basis sys) i = k.
Proof.
move=> /system_inv [h r]; apply: (lookupP h (r_box r) (r_uniq r)) => k'; exact: r_mem.
Qed.

(* ------------------------------------------------------------ the energy *)
Variable w : nat -> C.
Hypothesis wP : roots w.
Variable nfl : nat -> nat.
Hypothesis nflP : forall n, (n <= nfl n)%N.
Variable vol : C.
Hypothesis kfacP : (10%:R ^+ 10)^-1 <= kfac ^+ 2.

Lemma CTdagger_up M ma mb (A : 'M[C]_(M, ma)) (B : 'M[C]_(M, mb)) :
  (CTdagger (row_mx A B) 0 ma)^T = map_mx conjC A.
Proof.
apply/matrixP => a i; rewrite !mxE add0n; case: insubP => [k hk e|]; last first.
  by rewrite (leq_trans (ltn_ord i)) ?leq_addr.
have -> : k = lshift mb i by apply: val_inj.
by rewrite row_mxEl.
Qed.
Lemma CTdagger_dn M ma mb (A : 'M[C]_(M, ma)) (B : 'M[C]_(M, mb)) :
  (CTdagger (row_mx A B) ma mb)^T = map_mx conjC B.
Proof.
apply/matrixP => a i; rewrite !mxE; case: insubP => [k hk e|]; last first.
  by rewrite ltn_add2l ltn_ord.
have -> : k = rshift ma i by apply: val_inj.
by rewrite row_mxEr.
Qed.

Lemma kineticE M (diagH1 : bool) (H1 G : 'M[C]_M * 'M[C]_M) :
  (diagH1 -> diagonal H1.1 /\ diagonal H1.2) -> kinetic diagH1 H1 G = wick1 H1 G.
Proof.
rewrite wick1E /kinetic; case: diagH1 => // /(_ isT) [d1 d2].
have D (A B : 'M[C]_M) : diagonal A -> \sum_i A i i * B i i = sum_prod A B.
  move=> dA; rewrite /sum_prod; apply: eq_bigr => i _.
  rewrite (bigD1 i) //= big1 ?addr0 // => j ne.
  by rewrite dA ?mul0r // eq_sym.
by rewrite !D.
Qed.

Lemma system_energy ecut sys : pw_system pi kfac kt ecut = Ok sys ->
  let M := size (basis sys) in
  let k (a : 'I_M) : vec := nth 0 (basis sys) a in
  let v := coulomb k (bare pi vol (fun Q : vec => kfac ^+ 2 * (dot2 Q)%:~R)) in
  forall ma mb (ke : C) (A : 'M[C]_(M, ma)) (B : 'M[C]_(M, mb)) (Ga : 'M[C]_(ma, M)) (Gb : 'M[C]_(mb, M)),
  let pe := wick2 v (map_mx conjC A *m Ga, map_mx conjC B *m Gb) in
  energy_of w nfl sys vol ke (CTdagger (row_mx A B) 0 ma) Ga (CTdagger (row_mx A B) ma mb) Gb
  = Ok (ke + pe, ke, pe).
Proof.
move=> /system_inv [h r] M k v ma mb ke A B Ga Gb.
have sy i : (i < (2 * nmax sys + 1) ^ 3)%N ->
    inside ecut (kvec (nmax sys) ((2 * nmax sys + 1) ^ 3 - 1 - i)) = inside ecut (kvec (nmax sys) i).
  by move=> hi; rewrite gm_sym.
have fl (a a' : 'I_M) : k a - k a' \in qvecs sys.
  by rewrite (r_qmem _ r); apply: inside_sub; rewrite -(r_mem _ r); exact: mem_nth.
rewrite -(CTdagger_up A B) -(CTdagger_dn A B).
exact: (energy_ofE wP nflP sy (r_gmap r) (r_basis r) (r_qmap r) (r_qvecs r) vol kfacP (r_vq r) fl).
Qed.
End System.
