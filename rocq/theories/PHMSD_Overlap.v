(* The overlap of two Slater determinants is the determinant of the overlaps of their orbitals. *)

From Verif Require Import Base.
Set Warnings "-notation-overridden,-ambiguous-paths".
From mathcomp Require Import all_ssreflect all_fingroup all_algebra zify.
From Verif Require Import Rank1_Spec Ortho_Spec MultiDet_Spec Fock_Spec Fock_Proofs CI_Proofs
  Rediag_Spec PHMSD_Spec.

Set Implicit Arguments.
Unset Strict Implicit.
Unset Printing Implicit Defensive.

Import Order.TTheory GRing.Theory Num.Theory.
Local Open Scope ring_scope.

Section Overlap.
Variable C : numClosedFieldType.
Variable M : nat.
Implicit Types (S : {set 'I_M}) (f g : state C M) (u v : 'I_M -> C).

Definition cr v f : state C M := fun S => \sum_p v p * create p f S.
Definition an u f : state C M := fun S => \sum_p (u p)^* * annihilate p f S.
Definition inn u v : C := \sum_p (u p)^* * v p.

Lemma create_ext p f g S : f =1 g -> create p f S = create p g S.
Proof. by rewrite /create => ->. Qed.
Lemma annihilate_ext p f g S : f =1 g -> annihilate p f S = annihilate p g S.
Proof. by rewrite /annihilate => ->. Qed.
Lemma cr_ext v f g S : f =1 g -> cr v f S = cr v g S.
Proof. by move=> e; apply: eq_bigr => p _; rewrite (create_ext _ _ e). Qed.

Lemma create_sum (I : finType) p (x : I -> C) (h : I -> state C M) S :
  create p (fun T => \sum_i x i * h i T) S = \sum_i x i * create p (h i) S.
Proof.
rewrite /create; case: (p \in S); last by rewrite big1 // => i _; rewrite mulr0.
by rewrite mulr_sumr; apply: eq_bigr => i _; rewrite mulrCA.
Qed.
Lemma annihilate_sum (I : finType) p (x : I -> C) (h : I -> state C M) S :
  annihilate p (fun T => \sum_i x i * h i T) S = \sum_i x i * annihilate p (h i) S.
Proof.
rewrite /annihilate; case: (p \in S); first by rewrite big1 // => i _; rewrite mulr0.
by rewrite mulr_sumr; apply: eq_bigr => i _; rewrite mulrCA.
Qed.
Lemma cr_sum (I : finType) v (x : I -> C) (h : I -> state C M) S :
  cr v (fun T => \sum_i x i * h i T) S = \sum_i x i * cr v (h i) S.
Proof.
rewrite /cr; under eq_bigr => p _ do rewrite create_sum mulr_sumr.
rewrite exchange_big; apply: eq_bigr => i _; rewrite mulr_sumr; apply: eq_bigr => p _.
by rewrite mulrCA.
Qed.

Lemma an_cr u v f S : an u (cr v f) S = inn u v * f S - cr v (an u f) S.
Proof.
apply/eqP; rewrite eq_sym subr_eq eq_sym; apply/eqP.
rewrite /an /inn mulr_suml.
under eq_bigr => p _ do rewrite /cr annihilate_sum mulr_sumr.
rewrite /cr; under [X in _ + X]eq_bigr => q _ do rewrite create_sum mulr_sumr.
rewrite [X in _ + X]exchange_big -big_split; apply: eq_bigr => p _ /=.
rewrite -big_split /= (bigD1 p) //= big1 ?addr0 => [|q ne].
  by rewrite mulrCA -mulrDr -mulrDr car_mixed eqxx mul1r mulrA [v p * _]mulrC.
by rewrite [v q * (_ * _)]mulrCA -mulrDr -mulrDr car_mixed eq_sym (negbTE ne) mul0r !mulr0.
Qed.

Definition sl k (v : 'I_k -> 'I_M -> C) : state C M := slater [seq v j | j <- enum 'I_k].

Lemma sl_ext k (v w : 'I_k -> 'I_M -> C) S : (forall j, v j =1 w j) -> sl v S = sl w S.
Proof.
rewrite /sl => e; elim: (enum 'I_k) S => [|j s IH] S //=; apply: eq_bigr => p _; rewrite e.
by rewrite /create IH.
Qed.

Lemma slS k (v : 'I_k.+1 -> 'I_M -> C) : sl v = cr (v ord0) (sl (fun j => v (lift ord0 j))).
Proof. by rewrite /sl enum_ordSl /= -map_comp. Qed.

Lemma sl0 (v : 'I_0 -> 'I_M -> C) : sl v = ket C set0.
Proof. by rewrite /sl (size0nil (size_enum_ord 0)). Qed.

Lemma an_vacuum u S : an u (ket C set0) S = 0.
Proof.
rewrite /an big1 // => p _; rewrite /annihilate; case: ifP => [_|_]; first by rewrite mulr0.
by rewrite /ket setU_eq0 -subset0 sub1set inE /= !mulr0.
Qed.

Lemma an_sl u k (v : 'I_k.+1 -> 'I_M -> C) S :
  an u (sl v) S = \sum_(j < k.+1) (-1) ^+ (val j) * inn u (v j) * sl (fun i => v (lift j i)) S.
Proof.
elim: k v S => [|k IH] v S; rewrite slS an_cr big_ord_recl expr0 mul1r; congr (_ + _).
  rewrite big_ord0; apply/eqP; rewrite oppr_eq0; apply/eqP.
  rewrite sl0 (@cr_ext _ _ (fun=> 0)) => [|T]; last exact: an_vacuum.
  by rewrite /cr big1 // => p _; rewrite /create; case: ifP; rewrite ?mulr0.
rewrite (cr_ext _ _ (IH _)) cr_sum -sumrN; apply: eq_bigr => j _.
rewrite /= /bump /= add1n exprS mulN1r !mulNr; congr (- (_ * _)).
rewrite slS; have -> : lift (lift ord0 j) ord0 = ord0 :> 'I_k.+2 by apply: val_inj.
apply: cr_ext => T; apply: sl_ext => i p; congr (v _ p); apply: val_inj => /=.
by rewrite /bump /=; lia.
Qed.

Lemma create_adj p f g : \sum_S (create p f S)^* * g S = \sum_S (f S)^* * annihilate p g S.
Proof.
rewrite (bigID (fun S => p \in S)) /= [X in _ + X]big1 ?addr0 => [|S /negbTE nS]; last first.
  by rewrite /create nS rmorph0 mul0r.
rewrite (reindex_onto (fun S => p |: S) (fun S => S :\ p)) /=; last first.
  by move=> S pS; rewrite setD1K.
rewrite [RHS](bigID (fun S => p \in S)) /= [X in _ = X + _]big1 ?add0r => [|S pS]; last first.
  by rewrite /annihilate pS mulr0.
apply: eq_big => S.
  rewrite setU11 /=; apply/eqP/idP => [<-|nS]; first by rewrite !inE eqxx.
  by rewrite setU1K.
rewrite setU11 /= => /eqP e; have nS : p \notin S by rewrite -e !inE eqxx.
rewrite /create /annihilate setU11 (negbTE nS) setU1K // sgnU1 rmorphM.
by rewrite /sgn rmorphX rmorphN1 mulrAC mulrC mulrCA.
Qed.

Lemma cr_adj u f g : inner (cr u f) g = inner f (an u g).
Proof.
rewrite /inner /cr /an.
under eq_bigr => S _ do rewrite rmorph_sum mulr_suml.
under [RHS]eq_bigr => S _ do rewrite mulr_sumr.
rewrite exchange_big [RHS]exchange_big; apply: eq_bigr => p _ /=.
under eq_bigr => S _ do rewrite rmorphM -mulrA.
under [RHS]eq_bigr => S _ do rewrite mulrCA.
by rewrite -!mulr_sumr create_adj.
Qed.

Lemma inner_sum (I : finType) f (x : I -> C) (h : I -> state C M) :
  inner f (fun S => \sum_i x i * h i S) = \sum_i x i * inner f (h i).
Proof.
rewrite /inner; under eq_bigr => S _ do rewrite mulr_sumr.
rewrite exchange_big; apply: eq_bigr => i _; rewrite mulr_sumr; apply: eq_bigr => S _.
by rewrite mulrCA.
Qed.

Lemma inner_ext f g h : f =1 g -> inner h f = inner h g.
Proof. by move=> e; apply: eq_bigr => S _; rewrite e. Qed.

Lemma lowdin k (u v : 'I_k -> 'I_M -> C) : inner (sl u) (sl v) = \det (\matrix_(i, j) inn (u i) (v j)).
Proof.
elim: k u v => [|k IH] u v.
  rewrite det_mx00 !sl0 /inner (bigD1 set0) //= big1 ?addr0 => [|S ne].
    by rewrite /ket eqxx rmorph1 mulr1.
  by rewrite /ket (negbTE ne) mulr0.
rewrite slS cr_adj (inner_ext _ (an_sl _ _)) inner_sum (expand_det_row _ ord0).
apply: eq_bigr => j _; rewrite mxE mulrAC mulrC; congr (_ * _).
rewrite /cofactor add0n IH; congr (_ * \det _); apply/matrixP => a b.
by rewrite !mxE.
Qed.
End Overlap.

Section Spins.
Variable C : numClosedFieldType.
Variables n nu nd : nat.

Lemma enum_split : enum 'I_(nu + nd)
  = [seq lshift nd j | j <- enum 'I_nu] ++ [seq rshift nu j | j <- enum 'I_nd].
Proof.
apply: (inj_map val_inj); rewrite val_enum_ord map_cat iotaD; congr (_ ++ _).
  by rewrite -(val_enum_ord nu); elim: (enum 'I_nu) => //= j s ->.
rewrite add0n -[X in iota X]addn0 iotaDl -(val_enum_ord nd).
by elim: (enum 'I_nd) => //= j s ->.
Qed.

Definition orbital (U : 'M[C]_(n, nu)) (D : 'M[C]_(n, nd)) (j : 'I_(nu + nd)) : 'I_(n + n) -> C :=
  fun p => match split j with
  | inl j => if split p is inl i then U i j else 0
  | inr j => if split p is inr i then D i j else 0 end.

Lemma spin_orbitalsE U D S : slater (spin_orbitals U D) S = sl (orbital U D) S.
Proof.
rewrite /sl enum_split map_cat /spin_orbitals.
congr (slater (_ ++ _) S).
  by elim: (enum 'I_nu) => //= j s ->; congr (_ :: _); rewrite /orbital (unsplitK (inl j)).
by elim: (enum 'I_nd) => //= j s ->; congr (_ :: _); rewrite /orbital (unsplitK (inr j)).
Qed.

Lemma overlap_spins U D (Pu : 'M[C]_(n, nu)) (Pd : 'M[C]_(n, nd)) :
  inner (slater (spin_orbitals U D)) (slater (spin_orbitals Pu Pd))
  = \det (adj U *m Pu) * \det (adj D *m Pd).
Proof.
transitivity (inner (sl (orbital U D)) (sl (orbital Pu Pd))).
  by apply: eq_bigr => S _; rewrite !spin_orbitalsE.
rewrite lowdin -(det_ublock (adj U *m Pu) 0); congr (\det _); apply/matrixP => i j.
rewrite mxE /inn big_split_ord /= -(splitK i) -(splitK j).
case: (split i) => a; case: (split j) => b /=.
- rewrite block_mxEul mxE [X in _ + X]big1 ?addr0 => [|p _]; last first.
    by rewrite /orbital (unsplitK (inl a)) (unsplitK (inr p)) rmorph0 mul0r.
  by apply: eq_bigr => p _; rewrite /orbital (unsplitK (inl a)) (unsplitK (inl b)) (unsplitK (inl p)) !mxE.
- rewrite block_mxEur mxE !big1 ?addr0 => // p _.
    by rewrite /orbital (unsplitK (inl a)) (unsplitK (inr p)) rmorph0 mul0r.
  by rewrite /orbital (unsplitK (inr b)) (unsplitK (inl p)) mulr0.
- rewrite block_mxEdl mxE !big1 ?addr0 => // p _.
    by rewrite /orbital (unsplitK (inl b)) (unsplitK (inr p)) mulr0.
  by rewrite /orbital (unsplitK (inr a)) (unsplitK (inl p)) rmorph0 mul0r.
- rewrite block_mxEdr mxE [X in X + _]big1 ?add0r => [|p _]; last first.
    by rewrite /orbital (unsplitK (inr a)) (unsplitK (inl p)) rmorph0 mul0r.
  by apply: eq_bigr => p _; rewrite /orbital (unsplitK (inr a)) (unsplitK (inr b)) (unsplitK (inr p)) !mxE.
Qed.
End Spins.
