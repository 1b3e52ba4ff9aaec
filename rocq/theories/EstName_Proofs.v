From Coq Require Import String Ascii DecimalString DecimalNat.
From Verif Require Import Base BaseFacts EstName_Model Output_Spec.
Open Scope nat_scope.
Open Scope string_scope.

Lemma int_str n : py_int (str n) = Ok n.
Proof.
  unfold py_int, str. rewrite NilZero.usu.
  - rewrite DecimalNat.Unsigned.of_to. reflexivity.
  - intros E. assert (H : Nat.of_uint (Nat.to_uint n) = n) by apply DecimalNat.Unsigned.of_to.
    assert (N0 : n = 0). { rewrite E in H. cbn in H. lia. }
    subst n. cbn in E. discriminate.
Qed.

Lemma dotless_uint u : dotless (NilEmpty.string_of_uint u) = true.
Proof. induction u; cbn; auto. Qed.

Lemma dotless_str n : dotless (str n) = true.
Proof.
  unfold str, NilZero.string_of_uint. destruct (Nat.to_uint n) eqn:E; try reflexivity; apply dotless_uint.
Qed.

Lemma split_nonnil s : split s <> [].
Proof. destruct s as [|c s]; cbn; [discriminate|]. destruct (split s); [discriminate|]. destruct (Ascii.eqb c "."); discriminate. Qed.

Lemma split_dotless s t : dotless s = true -> split (s ++ "." ++ t) = s :: split t.
Proof.
  induction s as [|c s IH]; intros H.
  - cbn. destruct (split t) eqn:E; [exfalso; exact (split_nonnil t E)|]. reflexivity.
  - cbn in H. apply andb_true_iff in H. destruct H as [Hc Hs]. specialize (IH Hs).
    change (split (String c s ++ "." ++ t)) with
      (match split (s ++ "." ++ t) with
       | [] => [""]
       | p :: ps => if Ascii.eqb c "." then "" :: p :: ps else String c p :: ps
       end).
    rewrite IH. apply negb_true_iff in Hc. rewrite Hc. reflexivity.
Qed.

(** every string is its first piece, or its first piece, a dot and the rest *)
Lemma split_first s : exists p, dotless p = true /\ (s = p \/ exists t, s = (p ++ "." ++ t)%string).
Proof.
  induction s as [|c s (p & Hp & H)].
  - exists "". split; [reflexivity|]. left; reflexivity.
  - destruct (Ascii.eqb_spec c ".") as [->|Hc].
    + exists "". split; [reflexivity|]. right. exists s. reflexivity.
    + exists (String c p). split.
      * cbn. rewrite Hp. destruct (Ascii.eqb_spec c "."); [contradiction|reflexivity].
      * destruct H as [->|(t & ->)]; [left; reflexivity|right; exists t; reflexivity].
Qed.

Lemma fname_split base ix : dotless base = true -> split (fname base ix) = [base; str ix; "h5"].
Proof.
  intros H. unfold fname. rewrite split_dotless by exact H.
  change (".h5") with ("." ++ "h5"). rewrite split_dotless by apply dotless_str. reflexivity.
Qed.

Lemma str_inj a b : str a = str b -> a = b.
Proof. intros E. apply (f_equal py_int) in E. rewrite !int_str in E. congruence. Qed.

Lemma append_inj_l a b c : (a ++ b)%string = (a ++ c)%string -> b = c.
Proof. induction a as [|x a IH]; cbn; intros E; [exact E|]. inversion E. auto. Qed.

Lemma fname_inj base a b : fname base a = fname base b -> a = b.
Proof.
  unfold fname. intros E. apply append_inj_l in E. apply append_inj_l in E.
  apply (f_equal split) in E.
  change (".h5") with ("." ++ "h5") in E.
  rewrite !split_dotless in E by apply dotless_str. inversion E. apply str_inj. assumption.
Qed.

Lemma isfile_spec files f : isfile files f = true <-> In f files.
Proof.
  unfold isfile. rewrite existsb_exists. split.
  - intros (g & Hg & E). apply String.eqb_eq in E. subst. exact Hg.
  - intros H. exists f. split; [exact H|apply String.eqb_refl].
Qed.

(** one more existing file among the candidates from ix on *)
Lemma find_name_ok base files : dotless base = true -> forall fuel ix,
  (exists j, j < fuel /\ ~ In (fname base (ix + j)) files) ->
  exists j, find_name fuel files base false (fname base ix) = Ok (fname base (ix + j)) /\
    ~ In (fname base (ix + j)) files /\ forall i, i < j -> In (fname base (ix + i)) files.
Proof.
  intros Hd. induction fuel as [|fuel IH]; intros ix (j & Hj & Hn); [lia|].
  cbn [find_name]. destruct (isfile files (fname base ix)) eqn:E; cbn [andb negb].
  - apply isfile_spec in E. rewrite fname_split by exact Hd. rewrite int_str. cbn [rbind].
    destruct j as [|j]; [rewrite Nat.add_0_r in Hn; contradiction|].
    destruct (IH (ix + 1)) as (k & H1 & H2 & H3).
    { exists j. split; [lia|]. replace (ix + 1 + j) with (ix + S j) by lia. exact Hn. }
    exists (S k). replace (ix + S k) with (ix + 1 + k) by lia. split; [exact H1|]. split; [exact H2|].
    intros i Hi. destruct i as [|i]; [rewrite Nat.add_0_r; exact E|].
    replace (ix + S i) with (ix + 1 + i) by lia. apply H3. lia.
  - exists 0. rewrite Nat.add_0_r. split; [reflexivity|]. split; [|lia].
    intros H. apply isfile_spec in H. congruence.
Qed.

(** a list cannot contain more than its length many distinct candidates *)
Lemma free_candidate base files ix : exists j, j < S (List.length files) /\ ~ In (fname base (ix + j)) files.
Proof.
  destruct (existsb (fun j => negb (isfile files (fname base (ix + j)))) (seq 0 (S (List.length files)))) eqn:E.
  - apply existsb_exists in E. destruct E as (j & Hj & H). apply in_seq in Hj. exists j. split; [lia|].
    intros Hin. apply isfile_spec in Hin. rewrite Hin in H. discriminate.
  - exfalso.
    assert (Hall : forall j, j < S (List.length files) -> In (fname base (ix + j)) files).
    { intros j Hj. apply isfile_spec. destruct (isfile files (fname base (ix + j))) eqn:F; [reflexivity|].
      assert (existsb (fun j => negb (isfile files (fname base (ix + j)))) (seq 0 (S (List.length files))) = true).
      { apply existsb_exists. exists j. split; [apply in_seq; lia|]. rewrite F. reflexivity. }
      congruence. }
    pose (l := map (fun j => fname base (ix + j)) (seq 0 (S (List.length files)))).
    assert (Hnd : NoDup l).
    { unfold l. apply FinFun.Injective_map_NoDup; [|apply seq_NoDup]. intros a b Hab. apply fname_inj in Hab. lia. }
    assert (Hin : incl l files).
    { intros f Hf. unfold l in Hf. apply in_map_iff in Hf. destruct Hf as (j & <- & Hj). apply in_seq in Hj. apply Hall. lia. }
    apply NoDup_incl_length in Hin; [|exact Hnd]. unfold l in Hin. rewrite map_length, seq_length in Hin. lia.
Qed.

Lemma choose_fresh files base ix : dotless base = true -> forall fuel, List.length files < fuel ->
  exists j, choose fuel files (Opts ix None base false) = Ok (fname base (ix + j)) /\
    ~ In (fname base (ix + j)) files /\ forall i, i < j -> In (fname base (ix + i)) files.
Proof.
  intros Hd fuel Hf. unfold choose. cbn [o_filename o_basename o_overwrite o_index].
  destruct (free_candidate base files ix) as (j & Hj & Hn).
  apply find_name_ok; [exact Hd|]. exists j. split; [lia|exact Hn].
Qed.

Lemma open_w_fresh files f : ~ In f files -> open_w files f = files.
Proof.
  intros H. unfold open_w. apply filter_all. intros g Hg. apply negb_true_iff. apply String.eqb_neq.
  intros <-. contradiction.
Qed.

(** the defaults overwrite *)
Lemma default_overwrites files fuel : 0 < fuel -> choose fuel files default_opts = Ok (fname "estimates" 0).
Proof.
  intros H. destruct fuel as [|fuel]; [lia|]. unfold choose, default_opts. cbn [o_filename o_basename o_overwrite o_index].
  cbn [find_name]. rewrite andb_false_r. reflexivity.
Qed.

(** a base name with a dot and a number: the loop asks for the same name for ever *)
Lemma dotted_loops base t v ix files : dotless base = true ->
  In (fname (base ++ "." ++ str v ++ t) ix) files ->
  In (fname (base ++ "." ++ str v ++ t) (v + 1)) files ->
  (t = "" \/ exists t', t = ("." ++ t')%string) ->
  forall fuel, choose fuel files (Opts ix None (base ++ "." ++ str v ++ t) false) = Err OutOfFuel.
Proof.
  intros Hd Hi Hv Ht fuel. unfold choose. cbn [o_filename o_basename o_overwrite o_index].
  set (b := (base ++ "." ++ str v ++ t)%string) in *.
  assert (assoc : forall x y z : string, ((x ++ y) ++ z = x ++ (y ++ z))%string).
  { induction x as [|c x IH]; intros; cbn; [reflexivity|]. rewrite IH. reflexivity. }
  assert (Hs : forall k, exists r, split (fname b k) = base :: str v :: r).
  { intros k. unfold fname, b. rewrite !assoc. rewrite split_dotless by exact Hd.
    destruct Ht as [->|(t' & ->)]; cbn [append].
    - change (String "." (str k ++ ".h5"))%string with ("." ++ (str k ++ ".h5"))%string.
      rewrite (split_dotless (str v)) by apply dotless_str. eexists; reflexivity.
    - cbn [append].
      change (String "." (t' ++ String "." (str k ++ ".h5")))%string with ("." ++ (t' ++ String "." (str k ++ ".h5")))%string.
      rewrite (split_dotless (str v)) by apply dotless_str. eexists; reflexivity. }
  assert (G : forall fuel, find_name fuel files b false (fname b (v + 1)) = Err OutOfFuel).
  { induction fuel0 as [|f IH]; [reflexivity|]. cbn [find_name].
    assert (E : isfile files (fname b (v + 1)) = true) by (apply isfile_spec; exact Hv). rewrite E. cbn [andb negb].
    destruct (Hs (v + 1)) as (r & ->). rewrite int_str. cbn [rbind]. exact IH. }
  destruct fuel as [|fuel]; [reflexivity|]. cbn [find_name].
  assert (E : isfile files (fname b ix) = true) by (apply isfile_spec; exact Hi). rewrite E. cbn [andb negb].
  destruct (Hs ix) as (r & ->). rewrite int_str. cbn [rbind]. apply G.
Qed.

(** a base name with a dot and no number: an error as soon as the first name exists *)
Lemma dotted_error base p t ix files fuel : dotless base = true -> dotless p = true -> py_int p = Err ValueError ->
  (t = "" \/ exists t', t = ("." ++ t')%string) ->
  In (fname (base ++ "." ++ p ++ t) ix) files -> 0 < fuel ->
  choose fuel files (Opts ix None (base ++ "." ++ p ++ t) false) = Err ValueError.
Proof.
  intros Hd Hp He Ht Hi Hf. unfold choose. cbn [o_filename o_basename o_overwrite o_index].
  destruct fuel as [|fuel]; [lia|]. cbn [find_name].
  assert (E : isfile files (fname (base ++ "." ++ p ++ t) ix) = true) by (apply isfile_spec; exact Hi).
  rewrite E. cbn [andb negb].
  assert (assoc : forall x y z : string, ((x ++ y) ++ z = x ++ (y ++ z))%string).
  { induction x as [|c x IH]; intros; cbn; [reflexivity|]. rewrite IH. reflexivity. }
  unfold fname at 1. rewrite !assoc. rewrite split_dotless by exact Hd.
  destruct Ht as [->|(t' & ->)]; cbn [append].
  - change (String "." (str ix ++ ".h5"))%string with ("." ++ (str ix ++ ".h5"))%string.
    rewrite (split_dotless p) by exact Hp. rewrite He. reflexivity.
  - cbn [append].
    change (String "." (t' ++ String "." (str ix ++ ".h5")))%string with ("." ++ (t' ++ String "." (str ix ++ ".h5")))%string.
    rewrite (split_dotless p) by exact Hp. rewrite He. reflexivity.
Qed.
