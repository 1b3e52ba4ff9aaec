(* Proofs for C51. *)

From Verif Require Import Base.
Set Warnings "-notation-overridden,-ambiguous-paths".
From mathcomp Require Import all_ssreflect all_algebra zify.
From Verif Require Import Rank1_Spec Ortho_Model Ortho_Spec Ortho_Proofs
  Taylor_Model Taylor_Spec Taylor_Proofs BackProp_Model BackProp_Spec.

Set Implicit Arguments.
Unset Strict Implicit.
Unset Printing Implicit Defensive.

Import Order.TTheory GRing.Theory Num.Theory.
Local Open Scope ring_scope.

Section BP.
Variable C : numClosedFieldType.
Variable qr : forall n m, 'M[C]_(n, m) -> 'M[C]_(n, m) * 'M[C]_m.
Local Notation cj := (@conjC C).

Implicit Types n m : nat.

Lemma adjD n m (A B : 'M[C]_(n, m)) : adj (A + B) = adj A + adj B.
Proof. by rewrite /adj map_mxD linearD. Qed.

Lemma adjKK n m (A : 'M[C]_(n, m)) : adj (adj A) = A.
Proof. by apply/matrixP => i j; rewrite !mxE conjCK. Qed.

Lemma adj_scale n m a (A : 'M[C]_(n, m)) : adj (a *: A) = a^* *: adj A.
Proof. by apply/matrixP => i j; rewrite !mxE rmorphM. Qed.

Lemma adj_det n (A : 'M[C]_n) : \det (adj A) = (\det A)^*.
Proof. by rewrite /adj det_tr det_map_mx. Qed.

Lemma overlap_adj n m (P : 'M[C]_n) (psi phi : 'M[C]_(n, m)) :
  overlap cj psi (P *m phi) = overlap cj (adj P *m psi) phi.
Proof. by rewrite !overlapE adjM adjKK mulmxA. Qed.

Lemma ovlp_adj n m (P : 'M[C]_n) (psi phi : 'M[C]_(n, m)) :
  ovlp_mx cj psi (P *m phi) = ovlp_mx cj (adj P *m psi) phi.
Proof. by rewrite !ovlpE adjM adjKK mulmxA. Qed.

(* One spin. *)
Section Spin.
Variables (F : Type) (n m : nat) (B : F -> 'M[C]_n).
Hypothesis QR : forall A : 'M[C]_(n, m), full_rank A ->
  is_qr A (qr A).1 (qr A).2.

Definition stab1 nst i (phi : 'M[C]_(n, m)) : 'M[C]_(n, m) :=
  if (i == 0)%N then phi
  else if (i %% nst == 0)%N then (reortho qr phi).1 else phi.

Fixpoint bl nst i (cs : seq F) (psi : 'M[C]_(n, m)) : 'M[C]_(n, m) :=
  match cs with
  | [::] => psi
  | c :: cs' => bl nst i.+1 cs' (stab1 nst i (adj (B c) *m psi))
  end.

Fixpoint app (cs : seq F) (psi : 'M[C]_(n, m)) : 'M[C]_(n, m) :=
  match cs with [::] => psi | c :: cs' => app cs' (adj (B c) *m psi) end.

Lemma app_mul cs psi (X : 'M[C]_m) : app cs (psi *m X) = app cs psi *m X.
Proof. by elim: cs psi => [//|c cs IH] psi /=; rewrite mulmxA IH. Qed.

Lemma app_rank cs psi : (\rank (app cs psi) <= \rank psi)%N.
Proof.
elim: cs psi => [//|c cs IH] psi /=.
exact: leq_trans (IH _) (mxrankM_maxr _ _).
Qed.

Lemma full_from cs psi : full_rank (app cs psi) -> full_rank psi.
Proof.
move=> h; apply/eqP; rewrite eqn_leq rank_leq_col /=.
by rewrite -{1}h app_rank.
Qed.

Lemma full_unit (psi : 'M[C]_(n, m)) (X : 'M[C]_m) : X \in unitmx -> full_rank (psi *m X) ->
  full_rank psi.
Proof. by move=> u; rewrite /full_rank mxrankMfree // row_free_unit. Qed.

Lemma stab1_span nst i (phi : 'M[C]_(n, m)) : full_rank phi ->
  exists2 U : 'M[C]_m, 0 < \det U & phi = stab1 nst i phi *m U.
Proof.
move=> f; rewrite /stab1; case: (i == 0)%N; last case: (_ == 0)%N.
- by exists 1%:M; rewrite ?det1 ?mulmx1 ?ltr01.
- have h := QR f; rewrite (reortho_eq h) /=.
  exists (signs (qr phi).2 *m (qr phi).2); last exact: qr_new h f.
  by rewrite (signs_det h); exact: abs_prod_gt0 h f.
- by exists 1%:M; rewrite ?det1 ?mulmx1 ?ltr01.
Qed.

Lemma bl_span nst i cs psi : full_rank (app cs psi) ->
  exists2 U : 'M[C]_m, 0 < \det U & app cs psi = bl nst i cs psi *m U.
Proof.
elim: cs i psi => [|c cs IH] i psi /= f.
  by exists 1%:M; rewrite ?det1 ?mulmx1 ?ltr01.
have [U dU e] := stab1_span nst i (full_from f).
have uU : U \in unitmx by rewrite unitmxE unitfE (gt_eqF dU).
move: f; rewrite e app_mul => /(full_unit uU) f.
rewrite -e.
have [W dW eW] := IH i.+1 _ f.
exists (W *m U); first by rewrite det_mulmx mulr_gt0.
by rewrite eW mulmxA.
Qed.

Lemma bl_short nst i cs psi : (i + size cs <= nst)%N ->
  bl nst i cs psi = app cs psi.
Proof.
elim: cs i psi => [//|c cs IH] i psi /= h.
rewrite IH; last by lia.
rewrite /stab1; case: (eqVneq i 0%N) => [//|i0].
by rewrite modn_small ?(negbTE i0) //; lia.
Qed.

Lemma path_rcons p x : path_product B (rcons p x) = B x *m path_product B p.
Proof. by rewrite /path_product -cats1 foldl_cat. Qed.

Lemma app_path path psi : app (rev path) psi = adj (path_product B path) *m psi.
Proof.
elim/last_ind: path psi => [|p x IH] psi; first by rewrite /= adj_one mul1mx.
by rewrite rev_rcons /= IH path_rcons adjM mulmxA.
Qed.

Lemma back_of_span (P : 'M[C]_n) (psi b : 'M[C]_(n, m)) (U : 'M[C]_m) :
  0 < \det U -> adj P *m psi = b *m U -> back_of P psi b (\det U).
Proof.
move=> dU e.
have uU : U \in unitmx by rewrite unitmxE unitfE (gt_eqF dU).
have ov phi : ovlp_mx cj psi (P *m phi) = adj U *m ovlp_mx cj b phi.
  by rewrite ovlp_adj e ovlp_left.
split=> // [|phi|phi h].
- by exists U.
- by rewrite /overlap ov det_mulmx adj_det (CrealP (ger0_real (ltW dU))).
- rewrite e green_left //; move: h; rewrite ov unitmx_mul.
  by case/andP.
Qed.

Lemma bl_back nst path psi :
  full_rank (adj (path_product B path) *m psi) ->
  exists d, back_of (path_product B path) psi (bl nst 0 (rev path) psi) d
    /\ ((size path <= nst)%N -> d = 1
         /\ bl nst 0 (rev path) psi = adj (path_product B path) *m psi).
Proof.
rewrite -app_path => f.
case: (leqP (size path) nst) => h.
  exists 1; have e : bl nst 0 (rev path) psi = app (rev path) psi.
    by rewrite bl_short // add0n size_rev.
  split=> //.
  rewrite -(det1 _ m); apply: back_of_span; first by rewrite det1 ltr01.
  by rewrite mulmx1 e app_path.
have [U dU e] := bl_span nst 0 f.
exists (\det U); split=> //; apply: back_of_span => //.
by rewrite -e app_path.
Qed.

Lemma back_of_full (P : 'M[C]_n) (psi phi : 'M[C]_(n, m)) :
  overlap cj psi (P *m phi) != 0 -> full_rank (adj P *m psi).
Proof.
rewrite overlap_adj overlapE => h; apply/eqP.
have u : adj (adj P *m psi) *m phi \in unitmx by rewrite unitmxE unitfE.
rewrite eqn_leq rank_leq_col /= -{1}(mxrank_unit u).
apply: leq_trans (mxrankM_maxl _ _) _.
by rewrite /adj mxrank_tr mxrank_map.
Qed.

End Spin.

(* Two spins. *)
Lemma stabilise_ok n nu nd nst i (phi : orbs C n nu nd) : (0 < nst)%N ->
  stabilise qr nst i phi = Ok (stab1 nst i phi.1, stab1 nst i phi.2).
Proof.
move=> h; rewrite /stabilise /stab1; case: phi => [a b] /=.
by case: (i == 0)%N => //; rewrite gtn_eqF //; case: (_ == 0)%N.
Qed.

Section Two.
Variables (F : Type) (n nu nd : nat).
Variable B : F -> res ('M[C]_n * 'M[C]_n).
Variables Bu Bd : F -> 'M[C]_n.

Definition good cs := forall c, List.In c cs -> B c = Ok (Bu c, Bd c).

Lemma back_loop_ok nst i cs (phi : orbs C n nu nd) : (0 < nst)%N -> good cs ->
  exists st, back_loop qr B nst i cs phi
    = Ok ((bl Bu nst i cs phi.1, bl Bd nst i cs phi.2), st).
Proof.
move=> n0; elim: cs i phi => [|c cs IH] i phi g /=.
  by exists [::]; case: phi.
rewrite (g c) /=; last by left.
rewrite stabilise_ok //=.
have [|st ->] := IH i.+1 (stab1 nst i (adj (Bu c) *m phi.1),
                        stab1 nst i (adj (Bd c) *m phi.2)).
  by move=> c' h; apply: g; right.
by eexists; rewrite /=.
Qed.

Lemma back_loop_zero i cs (phi : orbs C n nu nd) c : good (c :: cs) -> i != 0%N ->
  back_loop qr B 0 i (c :: cs) phi = Err ZeroDivisionError.
Proof.
move=> g i0 /=; rewrite (g c) /=; last by left.
by rewrite /stabilise (negbTE i0).
Qed.

Lemma good_rev path : good path -> good (rev path).
Proof.
move=> g c; move: (g c); rewrite /good.
have -> : rev path = List.rev path.
  elim: path {g} => [//|x p IH] /=; by rewrite rev_cons IH -cats1.
by move=> h i; apply: h; apply/List.in_rev.
Qed.

Lemma back_zero store path (phi : orbs C n nu nd) : good path -> (1 < size path)%N ->
  back_propagate qr B 0 store path phi = Err ZeroDivisionError.
Proof.
move=> /good_rev g; rewrite -size_rev /back_propagate.
case: (rev path) g => [//|c [//|c' cs]] g _.
have g' : good (c' :: cs) by move=> x h; apply: g; right.
rewrite /back_loop -/(back_loop qr B 0 1 (c' :: cs)).
rewrite (g c) /rbind; last by left.
by rewrite /stabilise /= (g c') /=; last by right; left.
Qed.

Lemma back_ok nst store path (phi : orbs C n nu nd) : (0 < nst)%N -> good path ->
  exists st, back_propagate qr B nst store path phi
    = Ok ((bl Bu nst 0 (rev path) phi.1, bl Bd nst 0 (rev path) phi.2), st).
Proof.
move=> n0 /good_rev g; have [st e] := back_loop_ok 0 phi n0 g.
rewrite /back_propagate e /=; by eexists.
Qed.

Lemma back_one nst store x (phi : orbs C n nu nd) : good [:: x] ->
  exists st, back_propagate qr B nst store [:: x] phi
    = Ok ((adj (Bu x) *m phi.1, adj (Bd x) *m phi.2), st).
Proof.
move=> g; rewrite /back_propagate /= (g x) /=; last by left.
by eexists.
Qed.

Lemma loop_store nst i cs (phi : orbs C n nu nd) b st :
  back_loop qr B nst i cs phi = Ok (b, st) ->
  size st = size cs /\
  forall j, (j < size cs)%N -> exists st',
    back_loop qr B nst i (take j.+1 cs) phi = Ok (nth phi st j, st').
Proof.
elim: cs i phi b st => [|c cs IH] i phi b st /=.
  by case=> _ <-.
case: (B c) => [[Mu Md]|e] //=.
case E: (stabilise _ _ _ _) => [phi'|e] //=.
case E': (back_loop _ _ _ _ _ _) => [[b' st']|e] //= [eb es].
have [s h] := IH _ _ _ _ E'; rewrite -es /= s; split => // j.
case: j => [_|j]; first by exists [:: phi']; rewrite take0.
rewrite ltnS => lj; have [st'' ->] := h _ lj.
exists (phi' :: st''); rewrite /=; congr (Ok (_, _)).
by apply: set_nth_default; rewrite s.
Qed.

End Two.
End BP.

Section Instances.
Variable C : numClosedFieldType.
Variable qr : forall n m, 'M[C]_(n, m) -> 'M[C]_(n, m) * 'M[C]_m.
Local Notation cj := (@conjC C).

Lemma goes_back_ok F n nu nd B (Bu Bd : F -> 'M[C]_n) nst store path
    (psi : orbs C n nu nd) :
  (forall n m (A : 'M[C]_(n, m)), full_rank A -> is_qr A (qr A).1 (qr A).2) ->
  (0 < nst)%N -> good B Bu Bd path ->
  full_rank (adj (path_product Bu path) *m psi.1) ->
  full_rank (adj (path_product Bd path) *m psi.2) ->
  goes_back Bu Bd path nst psi (back_propagate qr B nst store path psi).
Proof.
move=> QR n0 g fu fd.
have [st e] := back_ok qr store psi n0 g.
have [du [bu su]] := bl_back (QR n nu) nst fu.
have [dd [bd sd]] := bl_back (QR n nd) nst fd.
exists (bl qr Bu nst 0 (rev path) psi.1, bl qr Bd nst 0 (rev path) psi.2).
exists st, du, dd; split; first exact: e.
split; first exact: bu.
split; first exact: bd.
by move=> h; have [-> ->] := su h; have [-> ->] := sd h.
Qed.

(* Overlaps along the whole walk. *)
Lemma forward_pathE F n nu nd (step : F -> orbs C n nu nd -> orbs C n nu nd)
    (Bu Bd : F -> 'M[C]_n) path phi :
  (forall x p, step x p = (Bu x *m p.1, Bd x *m p.2)) ->
  forward_path step path phi
  = (path_product Bu path *m phi.1, path_product Bd path *m phi.2).
Proof.
move=> h; elim/last_ind: path => [|p x IH].
  by rewrite /= !mul1mx; case: phi.
by rewrite /forward_path -cats1 foldl_cat /= -/(forward_path step p phi) IH h
  /= cats1 !path_rcons !mulmxA.
Qed.

Lemma forward_contE n nu nd nmax (Bu Bd V : 'M[C]_n) (phi : orbs C n nu nd) :
  forward_cont nmax Bu Bd V phi
  = (trotter Bu (taylor (Z.to_nat nmax) V) *m phi.1,
     trotter Bd (taylor (Z.to_nat nmax) V) *m phi.2).
Proof.
rewrite /forward_cont /kinetic /= !apply_exponentialE /trotter -!mulmxA.
congr (_, _); case: ltnP => //; rewrite leqn0 => /eqP e.
by move: phi; rewrite e => phi; apply/matrixP => i [].
Qed.

Lemma construct_contE n (Bu Bd V : 'M[C]_n) :
  construct_propagator_matrix_cont Bu Bd V
  = Ok (trotter Bu (taylor 6 V), trotter Bd (taylor 6 V)).
Proof. by rewrite /construct_propagator_matrix_cont exponentiate_matrixE Nat2Z.id. Qed.

(* Discrete fields. *)
Lemma two_body_rowsE n m a (x : 'I_n -> bool) (phi : 'M[C]_(n, m)) :
  two_body_rows a x phi = diag_mx (\row_i a (x i)) *m phi.
Proof.
apply/matrixP => i j; rewrite mul_diag_mx !mxE.
by rewrite mulrBr mulr1 addrCA subrr addr0 mulrC.
Qed.

Lemma forward_discreteE n nu nd charge f ep em (Bu Bd : 'M[C]_n) x
    (phi : orbs C n nu nd) :
  forward_discrete charge f ep em Bu Bd x phi
  = (site_step Bu (fun b => auxf_forward charge f ep em b false) x *m phi.1,
     site_step Bd (fun b => auxf_forward charge f ep em b true) x *m phi.2).
Proof.
by rewrite /forward_discrete /kinetic /= !two_body_rowsE /site_step /trotter
  -!mulmxA.
Qed.

Lemma site_step_scale n (B : 'M[C]_n) (a : bool -> C) f x :
  site_step B (fun b => a b * f) x = f *: site_step B a x.
Proof.
rewrite /site_step /trotter.
have -> : diag_mx (\row_i (a (x i) * f)) = f *: diag_mx (\row_i a (x i)).
  by rewrite -linearZ; congr diag_mx; apply/matrixP => i j; rewrite !mxE mulrC.
by rewrite -scalemxAr -scalemxAl.
Qed.

Lemma path_scale F n (B : F -> 'M[C]_n) f path :
  path_product (fun x => f *: B x) path
  = f ^+ size path *: path_product B path.
Proof.
elim/last_ind: path => [|p x IH]; first by rewrite scale1r.
rewrite !path_rcons IH size_rcons exprSr -scalemxAl -scalemxAr scalerA.
by rewrite mulrC.
Qed.

Lemma path_eq F n (B B' : F -> 'M[C]_n) path :
  (forall x, B x = B' x) -> path_product B path = path_product B' path.
Proof.
move=> h; elim/last_ind: path => [//|p x IH].
by rewrite !path_rcons IH h.
Qed.

Lemma path_map F G n (g : F -> G) (B : G -> 'M[C]_n) path :
  path_product B (map g path) = path_product (fun x => B (g x)) path.
Proof.
elim/last_ind: path => [//|p x IH].
by rewrite map_rcons !path_rcons IH.
Qed.

Lemma forward_spinE n nu nd f ep em (Bu Bd : 'M[C]_n) path
    (phi : orbs C n nu nd) :
  forward_path (forward_discrete false f ep em Bu Bd) path phi
  = (f ^+ size path *: (path_product
       (site_step Bu (fun x => spin_site ep em x false)) path *m phi.1),
     f ^+ size path *: (path_product
       (site_step Bd (fun x => spin_site ep em x true)) path *m phi.2)).
Proof.
rewrite (forward_pathE path phi (forward_discreteE false f ep em Bu Bd)).
by congr (_, _); rewrite scalemxAl -path_scale; congr (_ *m _);
  apply: path_eq => x; rewrite -site_step_scale.
Qed.

Lemma index_stored n (x : 'I_n -> bool) i : index2 (stored x i) = Ok (x i).
Proof. by rewrite /stored; case: (x i). Qed.

Lemma construct_storedE n ep em (Bu Bd : 'M[C]_n) (x : 'I_n -> bool) :
  construct_propagator_matrix ep em Bu Bd (stored x)
  = Ok (site_step Bu (fun b => spin_site ep em b false) x,
        site_step Bd (fun b => spin_site ep em b true) x).
Proof.
rewrite /construct_propagator_matrix ifT; last first.
  by apply/forallP => i; rewrite /in_range index_stored.
have E s : diag_mx (\row_i (if bit_of (stored x i) == s then ep else em))
    = diag_mx (\row_i spin_site ep em (x i) s).
  by congr diag_mx; apply/matrixP => a b; rewrite !mxE /bit_of index_stored.
by rewrite /= !E /site_step /trotter !mulmxA.
Qed.

Lemma overlap_scale n m a (psi phi : 'M[C]_(n, m)) :
  overlap cj psi (a *: phi) = a ^+ m * overlap cj psi phi.
Proof. by rewrite /overlap /ovlp_mx -scalemxAr detZ. Qed.

Lemma construct_bad n ep em (Bu Bd : 'M[C]_n) c (i : 'I_n) :
  (Z.le (Z.of_nat 2) (c i) \/ Z.lt (c i) (Z.opp (Z.of_nat 2))) ->
  construct_propagator_matrix ep em Bu Bd c = Err IndexError.
Proof.
move=> h; rewrite /construct_propagator_matrix ifF //.
apply/negbTE/forallPn; exists i; rewrite /in_range /index2.
have -> : Z.eqb (c i) (Z.of_nat 0) = false by apply/Z.eqb_neq; lia.
have -> : Z.eqb (c i) (Z.opp (Z.of_nat 2)) = false by apply/Z.eqb_neq; lia.
have -> : Z.eqb (c i) (Z.of_nat 1) = false by apply/Z.eqb_neq; lia.
by have -> : Z.eqb (c i) (Z.opp (Z.of_nat 1)) = false by apply/Z.eqb_neq; lia.
Qed.

(* The stored path. *)
Lemma map_in T U (f : T -> U) s y : List.In y (map f s) ->
  exists2 x, List.In x s & y = f x.
Proof.
elim: s => [//|a s IH] /= [<-|/IH[x h e]]; first by exists a => //; left.
by exists x => //; right.
Qed.

Lemma hubbard_goes_back n nu nd ep em (Bu Bd : 'M[C]_n) nst store
    (path : seq ('I_n -> bool)) (psi : orbs C n nu nd) :
  let Su := site_step Bu (fun x => spin_site ep em x false) in
  let Sd := site_step Bd (fun x => spin_site ep em x true) in
  qr_works qr -> (0 < nst)%N ->
  full_rank (adj (path_product Su path) *m psi.1) ->
  full_rank (adj (path_product Sd path) *m psi.2) ->
  goes_back Su Sd path nst psi
    (back_propagate_hubbard qr ep em Bu Bd nst store
       [seq stored x | x <- path] psi).
Proof.
move=> Su Sd Q n0.
pose Tu (c : 'I_n -> Z) := Su (fun i => bit_of (c i)).
pose Td (c : 'I_n -> Z) := Sd (fun i => bit_of (c i)).
have row (B : 'M[C]_n) (a : bool -> C) (x : 'I_n -> bool) :
    site_step B a (fun i => bit_of (stored x i)) = site_step B a x.
  rewrite /site_step; congr (trotter _ (diag_mx _)).
  by apply/matrixP => p q; rewrite !mxE /bit_of index_stored.
have eu : path_product Su path = path_product Tu [seq stored x | x <- path].
  by rewrite path_map; apply: path_eq => x; rewrite /Tu /Su row.
have ed : path_product Sd path = path_product Td [seq stored x | x <- path].
  by rewrite path_map; apply: path_eq => x; rewrite /Td /Sd row.
have g : good (construct_propagator_matrix ep em Bu Bd) Tu Td
    [seq stored x | x <- path].
  move=> c hc; have [x _ ->] := map_in hc; rewrite construct_storedE.
  by rewrite /Tu /Td /Su /Sd !row.
rewrite eu ed => fu fd; have := goes_back_ok store Q n0 g fu fd.
by rewrite /goes_back size_map eu ed.
Qed.

End Instances.

(* Gram-Schmidt: a factorisation of the kind assumed exists for every matrix
   of full rank. *)
Section GramSchmidt.
Variable C : numClosedFieldType.

Definition norm2 n (v : 'cV[C]_n) : C := (adj v *m v) 0 0.

Lemma norm2E n (v : 'cV[C]_n) : norm2 v = \sum_i `|v i 0| ^+ 2.
Proof.
rewrite /norm2 mxE; apply: eq_bigr => i _.
by rewrite !mxE mulrC -normCK.
Qed.

Lemma norm2_ge0 n (v : 'cV[C]_n) : 0 <= norm2 v.
Proof. by rewrite norm2E sumr_ge0 // => i _; rewrite exprn_ge0. Qed.

Lemma norm2_eq0 n (v : 'cV[C]_n) : norm2 v = 0 -> v = 0.
Proof.
rewrite norm2E => /eqP; rewrite psumr_eq0; last by move=> i _; rewrite exprn_ge0.
move/allP => h; apply/matrixP => i j; rewrite (ord1 j) mxE.
have := h i (mem_index_enum _); rewrite /= expf_eq0 /= normr_eq0.
by move/eqP.
Qed.

Fixpoint gs n m : 'M[C]_(n, m) -> 'M[C]_(n, m) * 'M[C]_m :=
  match m return 'M[C]_(n, m) -> 'M[C]_(n, m) * 'M[C]_m with
  | 0%N => fun A => (A, 0)
  | m'.+1 => fun A =>
      let a := lsubmx (A : 'M[C]_(n, 1 + m')) in
      let A' := rsubmx (A : 'M[C]_(n, 1 + m')) in
      let r := sqrtC (norm2 a) in
      let q := r^-1 *: a in
      let t := adj q *m A' in
      let (Q, R) := gs (A' - q *m t) in
      ((row_mx q Q : 'M[C]_(n, 1 + m')),
       (block_mx (r%:M : 'M[C]_1) t 0 R : 'M[C]_(1 + m')))
  end.

Lemma full_inj n m (A : 'M[C]_(n, m)) :
  full_rank A <-> (forall x : 'cV[C]_m, A *m x = 0 -> x = 0).
Proof.
have -> : full_rank A <-> row_free A^T.
  by rewrite /row_free mxrank_tr; split => [->|/eqP].
rewrite -kermx_eq0; split.
  move/eqP => k x e; have : (x^T <= kermx A^T)%MS.
    by apply/sub_kermxP; rewrite -trmx_mul e trmx0.
  by rewrite k submx0 => /eqP h; rewrite -(trmxK x) h trmx0.
move=> h; apply/eqP/row_matrixP => i; rewrite row0.
apply: trmx_inj; rewrite trmx0; apply: h.
apply: trmx_inj; rewrite trmx_mul trmxK trmx0.
by apply/sub_kermxP; rewrite row_sub.
Qed.

Lemma upper_block m (r : C) t (R : 'M[C]_m) : upper R ->
  upper (block_mx (r%:M : 'M[C]_1) t 0 R).
Proof.
move=> u i j; rewrite -(splitK i) -(splitK j).
case: (split i) => i'; case: (split j) => j' /=.
- by rewrite (ord1 i') (ord1 j').
- by rewrite (ord1 i').
- by rewrite block_mxEdl mxE.
- by rewrite block_mxEdr ltn_add2l; apply: u.
Qed.

Lemma real_block m (r : C) t (R : 'M[C]_m) : r \is Num.real ->
  (forall i, R i i \is Num.real) ->
  forall i, (block_mx (r%:M : 'M[C]_1) t 0 R) i i \is Num.real.
Proof.
move=> h d i; rewrite -(splitK i); case: (split i) => i' /=.
  by rewrite block_mxEul mxE (ord1 i') eqxx mulr1n.
by rewrite block_mxEdr; apply: d.
Qed.

Lemma gs_ok n m (A : 'M[C]_(n, m)) : full_rank A -> is_qr A (gs A).1 (gs A).2.
Proof.
elim: m A => [|m IH] A f.
  split; [by apply/matrixP => i []|by apply/matrixP => [[]]|by case|by case].
rewrite /=; set a := lsubmx _; set A' := rsubmx _; set r := sqrtC _.
set q := _ *: a; set t := _ *m A'.
have Ae : (A : 'M_(n, 1 + m)) = row_mx a A' by rewrite hsubmxK.
have inj (x : 'cV[C]_(1 + m)) : row_mx a A' *m x = 0 -> x = 0.
  by rewrite -Ae; exact: (full_inj A).1 f x.
have a0 : a != 0.
  apply/eqP => a0.
  have := inj (col_mx 1%:M 0 : 'cV_(1 + m)).
  rewrite mul_row_col a0 mul0mx mulmx0 addr0 => /(_ erefl).
  move/matrixP => /(_ (lshift m 0) 0); rewrite col_mxEu !mxE eqxx.
  by move/eqP; rewrite oner_eq0.
have r0 : 0 < r.
  rewrite sqrtC_gt0 lt_neqAle norm2_ge0 andbT eq_sym.
  by apply/eqP => /norm2_eq0 e; rewrite e eqxx in a0.
have rn : r != 0 by rewrite gt_eqF.
have rr : r^* = r by apply/CrealP/ger0_real/ltW.
have rsq : r * r = norm2 a by rewrite -expr2 sqrtCK.
have aq : a = q *m r%:M.
  by rewrite /q mul_mx_scalar scalerA mulfV // scale1r.
have qq : adj q *m q = 1%:M.
  apply/matrixP => i j; rewrite (ord1 i) (ord1 j) /q adj_scale -scalemxAl.
  rewrite -scalemxAr scalerA mxE -/(norm2 a) -rsq fmorphV rr !mxE eqxx.
  by rewrite mulrACA !mulVf // mul1r.
have qA : adj q *m (A' - q *m t) = 0.
  by rewrite mulmxBr mulmxA qq mul1mx subrr.
have f' : full_rank (A' - q *m t).
  apply/full_inj => x e.
  have := inj (col_mx (- (r^-1 *: (t *m x))) x : 'cV_(1 + m)).
  rewrite mul_row_col aq mulmxN -mulmxA mul_scalar_mx scalerA.
  rewrite mulfV // scale1r addrC.
  move: e; rewrite mulmxBl -mulmxA => -> /(_ erefl) e.
  apply/matrixP => i j; have := congr1 (fun M : 'cV_(1 + m) => M (rshift 1 i) j) e.
  by rewrite /= col_mxEd mxE => ->; rewrite mxE.
have [e o u d] := IH _ f'; move: e o u d.
case: (gs _) => [Q R] /= e o u d.
have uR : R \in unitmx.
  rewrite unitmxE unitfE; apply: contraTneq (introT eqP f') => h0.
  rewrite e neq_ltn; apply/orP; left.
  apply: leq_ltn_trans (mxrankM_maxr _ _) _.
  rewrite ltn_neqAle rank_leq_row andbT -/(row_free R) row_free_unit.
  by rewrite unitmxE unitfE h0 eqxx.
have qQ : adj q *m Q = 0.
  apply: (can_inj (mulmxK uR)); rewrite mul0mx -mulmxA -e; exact: qA.
have Qq : adj Q *m q = 0.
  by rewrite -[LHS]adjKK adjM adjKK qQ /adj map_mx0 trmx0.
split; rewrite ?/orthonormal.
- apply: (etrans Ae); apply: esym.
  apply: (etrans (mul_row_block q Q (r%:M) t 0 R)).
  by rewrite mulmx0 addr0 -aq -e addrCA subrr addr0.
- have -> : adj (row_mx q Q) = col_mx (adj q) (adj Q).
    by rewrite /adj map_row_mx tr_row_mx.
  apply: (etrans (mul_col_row (adj q) (adj Q) q Q)).
  by rewrite qq qQ Qq o -scalar_mx_block.
- exact: (upper_block r t u).
- by apply: (real_block t _ d); apply/ger0_real/ltW.
Qed.

End GramSchmidt.

Section Ghf.
Variable C : numClosedFieldType.
Variable qr : forall n m, 'M[C]_(n, m) -> 'M[C]_(n, m) * 'M[C]_m.
Local Notation cj := (@conjC C).
Hypothesis QR : forall n m (A : 'M[C]_(n, m)), full_rank A ->
  is_qr A (qr A).1 (qr A).2.

Section N.
Variables (n m : nat).
Implicit Types (M : 'M[C]_n) (d : C * 'M[C]_(n, m)).

Definition g1 nst i M d : C * 'M[C]_(n, m) :=
  let phi := adj M *m d.2 in
  if (i == 0)%N then (d.1, phi)
  else if (i %% nst == 0)%N
  then (d.1 * ((reortho qr phi).2)^*, (reortho qr phi).1)
  else (d.1, phi).

Lemma ghf_det_ok nst i M d : (0 < nst)%N ->
  ghf_det qr nst i M d = Ok (g1 nst i M d).
Proof.
move=> h; rewrite /ghf_det /g1 -/(adj M); case: (i == 0)%N => //.
by rewrite gtn_eqF //; case: (_ == 0)%N => //; case: (reortho _ _).
Qed.

Lemma ghf_dets_ok nst i M (ds : seq (C * 'M[C]_(n, m))) : (0 < nst)%N ->
  ghf_dets qr nst i M ds = Ok [seq g1 nst i M d | d <- ds].
Proof.
by move=> h; elim: ds => [//|d ds IH] /=; rewrite ghf_det_ok //= IH.
Qed.

Lemma g1_span nst i M d : full_rank (adj M *m d.2) ->
  exists2 U : 'M[C]_m, 0 < \det U
    & adj M *m d.2 = (g1 nst i M d).2 *m U
      /\ (g1 nst i M d).1 = d.1 * \det U.
Proof.
move=> f; rewrite /g1; case: (i == 0)%N; last case: (_ == 0)%N => /=.
- by exists 1%:M; rewrite ?det1 ?mulmx1 ?mulr1 ?ltr01.
- have h := QR f; rewrite (reortho_eq h) /=.
  exists (signs (qr (adj M *m d.2)).2 *m (qr (adj M *m d.2)).2).
    by rewrite (signs_det h); exact: abs_prod_gt0 h f.
  split; first exact: qr_new h f.
  rewrite (signs_det h); congr (_ * _); apply/CrealP/ger0_real/ltW.
  exact: abs_prod_gt0 h f.
- by exists 1%:M; rewrite ?det1 ?mulmx1 ?mulr1 ?ltr01.
Qed.

Variables (F : Type) (B : F -> 'M[C]_n).

Fixpoint gl nst i (cs : seq F) d : C * 'M[C]_(n, m) :=
  match cs with [::] => d | c :: cs' => gl nst i.+1 cs' (g1 nst i (B c) d) end.

Lemma gl_overlap nst i cs d phi : full_rank (app B cs d.2) ->
  ((gl nst i cs d).1)^* * overlap cj (gl nst i cs d).2 phi
  = (d.1)^* * overlap cj (app B cs d.2) phi.
Proof.
elim: cs i d => [//|c cs IH] i d /= f.
have [U dU [e ew]] := g1_span nst i (full_from f).
have uU : U \in unitmx by rewrite unitmxE unitfE (gt_eqF dU).
move: f; rewrite e app_mul => /(full_unit uU) f.
rewrite IH // ew rmorphM -mulrA; congr (_ * _).
by rewrite /overlap ovlp_left det_mulmx adj_det.
Qed.

End N.

Lemma ghf_loop_ok n m auxf (B : 'M[C]_(n + n)) (G : ('I_n -> Z) -> 'M[C]_(n + n))
    nst i cs (ds : seq (C * 'M[C]_(n + n, m))) : (0 < nst)%N ->
  (forall c, List.In c cs ->
     construct_propagator_matrix_ghf auxf B c = Ok (G c)) ->
  ghf_loop qr auxf B nst i cs ds = Ok [seq gl G nst i cs d | d <- ds].
Proof.
move=> h; elim: cs i ds => [|c cs IH] i ds g /=; first by rewrite map_id.
rewrite g /=; last by left.
rewrite ghf_dets_ok //= IH; last by move=> c' hc; apply: g; right.
by rewrite -map_comp.
Qed.

Lemma in_rev_seq T (x : T) s : List.In x (rev s) <-> List.In x s.
Proof.
have -> : rev s = List.rev s.
  by elim: s => [//|y p IH] /=; rewrite rev_cons IH -cats1.
by split=> h; apply/List.in_rev; rewrite ?List.rev_involutive.
Qed.

Lemma ghf_ok n m auxf (B : 'M[C]_(n + n)) (G : ('I_n -> Z) -> 'M[C]_(n + n))
    nst path (dets : seq 'M[C]_(n + n, m)) : (0 < nst)%N ->
  (forall c, List.In c path ->
     construct_propagator_matrix_ghf auxf B c = Ok (G c)) ->
  (forall d, d \in dets -> full_rank (adj (path_product G path) *m d)) ->
  exists ds, back_propagate_ghf qr auxf B nst path dets = Ok ds
    /\ forall phi, comb_overlap ds phi
         = comb_overlap [seq (1, d) | d <- dets] (path_product G path *m phi).
Proof.
move=> h g f; rewrite /back_propagate_ghf (@ghf_loop_ok _ _ _ _ G) //; last first.
  by move=> c /in_rev_seq; apply: g.
eexists; split; first by [].
move=> phi; rewrite /comb_overlap !big_map !big_seq; apply: eq_bigr => d hd.
rewrite gl_overlap /= ?app_path; last exact: f.
by rewrite overlap_adj.
Qed.

Lemma ghf_matrix n a (B : 'M[C]_(n + n)) (x : 'I_n -> bool) :
  construct_propagator_matrix_ghf (Some a) B (stored x)
  = Ok (trotter B (block_mx (diag_mx (\row_i a (x i) false)) 0 0
                            (diag_mx (\row_i a (x i) true)))).
Proof.
rewrite /construct_propagator_matrix_ghf ifT; last first.
  by apply/forallP => i; rewrite /in_range index_stored.
have E s : diag_mx (\row_i a (bit_of (stored x i)) s)
    = diag_mx (\row_i a (x i) s).
  by congr diag_mx; apply/matrixP => p q; rewrite !mxE /bit_of index_stored.
by rewrite /= !E.
Qed.

Lemma ghf_goes_back n m (a : bool -> bool -> C) (B : 'M[C]_(n + n)) nst
    (path : seq ('I_n -> bool)) (dets : seq 'M[C]_(n + n, m)) :
  let G (x : 'I_n -> bool) :=
    trotter B (block_mx (diag_mx (\row_i a (x i) false)) 0 0
                        (diag_mx (\row_i a (x i) true))) in
  (0 < nst)%N ->
  (forall d, d \in dets -> full_rank (adj (path_product G path) *m d)) ->
  exists ds,
    back_propagate_ghf qr (Some a) B nst [seq stored x | x <- path] dets = Ok ds
    /\ forall phi, comb_overlap ds phi
         = comb_overlap [seq (1, d) | d <- dets] (path_product G path *m phi).
Proof.
move=> G n0 f.
pose T (c : 'I_n -> Z) := G (fun i => bit_of (c i)).
have row x : G (fun i => bit_of (stored x i)) = G x.
  have E s : \row_i a (bit_of (stored x i)) s = \row_i a (x i) s.
    by apply/matrixP => p q; rewrite !mxE /bit_of index_stored.
  by rewrite /G !E.
have e : path_product G path = path_product T [seq stored x | x <- path].
  by rewrite path_map; apply: path_eq => x; rewrite /T row.
rewrite e in f *; apply: ghf_ok => // c hc; have [x _ ->] := map_in hc.
by rewrite ghf_matrix /T row.
Qed.

Lemma ghf_attr n m (B : 'M[C]_(n + n)) nst path (dets : seq 'M[C]_(n + n, m)) :
  (0 < size path)%N ->
  back_propagate_ghf qr None B nst path dets = Err AttributeError.
Proof. by rewrite -size_rev /back_propagate_ghf; case: (rev path). Qed.

End Ghf.

Section Refute.
Variable C : numClosedFieldType.
Variable qr : forall n m, 'M[C]_(n, m) -> 'M[C]_(n, m) * 'M[C]_m.
Local Notation cj := (@conjC C).

Lemma poly_nz (p : {poly C}) : p != 0 -> exists k : nat, p.[k%:R] != 0.
Proof.
move=> nz; pose rs := [seq (k%:R : C) | k <- iota 0 (size p)].
have u : uniq rs.
  rewrite map_inj_uniq ?iota_uniq //; move=> a b /eqP; by rewrite eqr_nat => /eqP.
case: (boolP (all (root p) rs)) => h.
  by have := max_poly_roots nz h u; rewrite size_map size_iota ltnn.
by case/allPn: h => x /mapP[k _ ->] h; exists k; rewrite -rootE.
Qed.

Lemma taylor_differ N : N != 6%N ->
  exists k : nat, taylor1 N (k%:R : C) != taylor1 6 k%:R.
Proof.
move=> h; have [|k hk] := @poly_nz (tp N 1 - tp 6 1).
  rewrite subr_eq0; apply: contra_neq h => e.
  by have := congr1 (fun p : {poly C} => size p) e; rewrite !size_tp ?oner_neq0 // => [[]].
by exists k; move: hk; rewrite !hornerE !tpE !mul1r subr_eq0.
Qed.

Lemma taylor_1 N (x : C) : taylor N (x%:M : 'M_1) = (taylor1 N x)%:M.
Proof. by rewrite -diag_const_mx taylor_diag map_const_mx diag_const_mx. Qed.

Lemma overlap_1 (x y : C) : overlap cj (x%:M : 'M_1) y%:M = x^* * y.
Proof.
have -> : overlap cj (x%:M : 'M_1) y%:M = \det ((x^* * y)%:M : 'M[C]_1).
  congr (\det _); rewrite /ovlp_mx; apply/matrixP => i j.
  by rewrite (ord1 i) (ord1 j) mxE big_ord1 !mxE eqxx !mulr1n.
by rewrite det_scalar expr1.
Qed.

Lemma overlap_0 n (a b : 'M[C]_(n, 0)) : overlap cj a b = 1.
Proof. by rewrite /overlap det_mx00. Qed.

Lemma order_refuted nmax nst store isq : Z.to_nat nmax != 6%N -> isq != 0 ->
  exists (hs : 'I_1 -> 'M[C]_1) (x : 'rV[C]_1) b st,
    back_propagate_generic qr isq hs 1%:M 1%:M nst store [:: x]
      ((1%:M : 'M[C]_1), (0 : 'M[C]_(1, 0))) = Ok (b, st)
    /\ let phi := forward_path (forward_generic nmax isq hs 1%:M 1%:M) [:: x]
                    ((1%:M : 'M[C]_1), (0 : 'M[C]_(1, 0))) in
       overlap2 (1%:M : 'M[C]_1) phi.1 (0 : 'M[C]_(1, 0)) phi.2
       <> overlap2 b.1 (1%:M : 'M[C]_1) b.2 (0 : 'M[C]_(1, 0)).
Proof.
move=> h i0; have [k hk] := taylor_differ h.
pose x : 'rV[C]_1 := (k%:R / isq)%:M.
have v : vhs_generic isq (fun _ : 'I_1 => 1%:M) x = (k%:R)%:M :> 'M[C]_1.
  rewrite /vhs_generic big_ord1 !mxE eqxx mulr1n scalerA mulrC divfK //.
  by rewrite scalemx1.
have g : good (fun x => @construct_propagator_matrix_cont C 1 1%:M 1%:M
    (vhs_generic isq (fun _ : 'I_1 => 1%:M) x))
    (fun x => trotter 1%:M (taylor 6 (vhs_generic isq (fun _ => 1%:M) x)))
    (fun x => trotter 1%:M (taylor 6 (vhs_generic isq (fun _ => 1%:M) x)))
    [:: x].
  by move=> c hc; exact: construct_contE.
have [st e] := back_one qr nst store ((1%:M : 'M[C]_1), (0 : 'M[C]_(1, 0))) g.
exists (fun _ => 1%:M), x; do 2 eexists; split; first exact: e.
have F : forward_path (forward_generic nmax isq (fun=> 1%:M) 1%:M 1%:M) [:: x]
    ((1%:M : 'M[C]_1), (0 : 'M[C]_(1, 0)))
  = forward_cont nmax 1%:M 1%:M (vhs_generic isq (fun=> 1%:M) x) (1%:M, 0).
  by [].
rewrite F forward_contE !v /overlap2; cbn [fst snd].
rewrite /trotter !taylor_1 !mul1mx !mulmx1 !overlap_0 !mulr1.
have -> : adj ((taylor1 6 k%:R)%:M : 'M[C]_1) = ((taylor1 6 (k%:R : C))^*)%:M.
  by apply/matrixP => i j; rewrite !mxE (ord1 i) (ord1 j) eqxx !mulr1n.
rewrite !overlap_1 conjCK rmorph1 mul1r mulr1 => E.
by rewrite E eqxx in hk.
Qed.

Lemma col_scale_eq n (D : 'rV[C]_n) : adj (diag_mx D) = diag_mx (map_mx cj D).
Proof. by rewrite /adj map_diag_mx tr_diag_mx. Qed.

Definition ones : 'M[C]_(2, 1) := const_mx 1.
Definition mixed (i : 'I_2) : bool := (i != 0).

Lemma diag_ones (D : 'rV[C]_2) i : (diag_mx D *m ones) i 0 = D 0 i.
Proof. by rewrite mul_diag_mx !mxE mulr1. Qed.

Lemma span_cross (a b : 'rV[C]_2) :
  same_span (adj (diag_mx a) *m ones) (adj (diag_mx b) *m ones) ->
  a 0 0 * b 0 1 = a 0 1 * b 0 0.
Proof.
case=> X _ e.
have E i : (a 0 i)^* = (b 0 i)^* * X 0 0.
  have := congr1 (fun M : 'M[C]_(2, 1) => M i 0) e.
  by rewrite /= !col_scale_eq diag_ones [in RHS]mxE big_ord1 diag_ones !mxE.
apply: (can_inj (@conjCK C)); rewrite !rmorphM !E.
by rewrite mulrAC [RHS]mulrAC (mulrC (b 0 0)^*).
Qed.

Lemma charge_refuted nst store f ep ep' : f != 0 -> ep != 0 -> ep' != 0 ->
  ep ^+ 4 != 1 ->
  exists (x : 'I_2 -> bool) (psi : orbs C 2 1 1) b st,
    back_propagate_hubbard qr ep ep^-1 1%:M 1%:M nst store [:: stored x] psi
      = Ok (b, st)
    /\ forall Pu Pd : 'M[C]_2,
         (forall phi : orbs C 2 2 2,
            forward_path (forward_discrete true f ep' ep'^-1 1%:M 1%:M) [:: x] phi
            = (Pu *m phi.1, Pd *m phi.2)) ->
         ~ (same_span (adj Pu *m psi.1) b.1 /\ same_span (adj Pd *m psi.2) b.2).
Proof.
move=> f0 e0 e'0 e4.
have g : good (construct_propagator_matrix ep ep^-1 1%:M 1%:M)
    (fun _ => site_step 1%:M (fun b => spin_site ep ep^-1 b false) mixed)
    (fun _ => site_step 1%:M (fun b => spin_site ep ep^-1 b true) mixed)
    [:: stored mixed].
  by move=> c [<-|[]]; exact: construct_storedE.
have [st e] := back_one qr nst store ((ones, ones) : orbs C 2 1 1) g.
exists mixed, (ones, ones); do 2 eexists; split; first exact: e.
move=> Pu Pd hP; have := hP (1%:M, 1%:M).
rewrite /forward_path /= forward_discreteE !mulmx1 /= => -[<- <-] [].
rewrite /site_step /trotter !mul1mx !mulmx1 => /span_cross.
rewrite !mxE /mixed /= /auxf_forward /spin_site /= => h1 /span_cross.
rewrite !mxE /mixed /= /auxf_forward /spin_site /= => h2.
have {}h1 : ep' ^+ 2 = ep ^+ 2.
  apply: (mulfI f0); apply/eqP; rewrite !expr2 !mulrA -eqr_div // .
  by rewrite -[f * ep']mulrC h1 -mulrA mulrC.
have {}h2 : ep' ^+ 2 * ep ^+ 2 = 1.
  move: h2; rewrite (mulrC ep'^-1) -!mulrA => /eqP.
  rewrite (mulrCA ep') (inj_eq (mulfI f0)) => /eqP h2.
  by rewrite mulrA expr2 mulrACA {1}h2 mulrACA !mulVf ?mulr1.
by move: e4; rewrite (exprM _ 2 2) expr2 -{1}h1 h2 eqxx.
Qed.

Lemma hubbard_overlap_refuted nst store f (ep em : C) : f != 1 -> ep != 0 ->
  exists (x : 'I_1 -> bool) (psi : 'M[C]_1) b st,
    back_propagate_hubbard qr ep em 1%:M 1%:M nst store [:: stored x]
      (psi, (0 : 'M[C]_(1, 0))) = Ok (b, st)
    /\ let phi := forward_path (forward_discrete false f ep em 1%:M 1%:M) [:: x]
                    (psi, (0 : 'M[C]_(1, 0))) in
       overlap2 psi phi.1 (0 : 'M[C]_(1, 0)) phi.2
       <> overlap2 b.1 psi b.2 (0 : 'M[C]_(1, 0)).
Proof.
move=> f1 e0; pose x (_ : 'I_1) := false.
have g : good (construct_propagator_matrix ep em 1%:M 1%:M)
    (fun _ => site_step 1%:M (fun b => spin_site ep em b false) x)
    (fun _ => site_step 1%:M (fun b => spin_site ep em b true) x)
    [:: stored x].
  by move=> c [<-|[]]; exact: construct_storedE.
have [st e] := back_one qr nst store ((1%:M : 'M[C]_1), (0 : 'M[C]_(1, 0))) g.
exists x, 1%:M; do 2 eexists; split; first exact: e.
rewrite /forward_path [foldl _ _ _]/= forward_discreteE /overlap2; cbn [fst snd].
rewrite !overlap_0 !mulr1 /site_step /trotter !mul1mx !mulmx1.
have D (z : C) : diag_mx (\row_(i < 1) z) = z%:M.
  by rewrite -diag_const_mx; congr diag_mx; apply/matrixP => i j; rewrite !mxE.
rewrite !D (D (ep * f)).
have -> : adj ((spin_site ep em (x 0) false)%:M : 'M[C]_1) = (ep^*)%:M.
  by apply/matrixP => i j; rewrite !mxE (ord1 i) (ord1 j) eqxx !mulr1n.
rewrite !overlap_1 conjCK conjC1 mul1r mulr1 => /eqP.
by rewrite -{2}[ep]mulr1 (inj_eq (mulfI e0)) (negbTE f1).
Qed.

Lemma taylor_zero n N : taylor N (0 : 'M[C]_n) = 1%:M.
Proof.
elim: N => [|N IH]; first exact: taylor0.
by rewrite taylorS IH mxpowS mul0mx scaler0 addr0.
Qed.

End Refute.
