(** pauxy/utils/io.py: write_phmsd 517-544 and read_qmcpack_phmsd_hdf5 376-405,
    write_nomsd 454-495, write_nomsd_single 497-515, orbs_from_dset 546-560 and
    read_qmcpack_nomsd_hdf5 339-374, write_phfmol_wavefunction 288-302 and
    read_phfmol 251-286.
    Numbers are any type K with zero, addition and conjugation; an orbital matrix is a
    function of orbital and column with its dimensions kept beside it.  Printing is
    exact, coefficients and the initial walker (Psi0) are left out. *)
From Verif Require Import Base.
Open Scope nat_scope.

(** ** PHMSD: occupations *)

Record phmsd := Phmsd { p_norb : nat; p_na : nat; p_nb : nat; p_nci : nat; p_occs : list nat }.

(** occs[:,:na] = occa; occs[:,na:] = norb + occb; ravel.  Rows of another length raise *)
Fixpoint occ_rows (na nb norb : nat) (occa occb : list (list nat)) : res (list nat) :=
  match occa, occb with
  | [], [] => Ok []
  | a :: occa', b :: occb' =>
      if (length a =? na) && (length b =? nb) then
        rbind (occ_rows na nb norb occa' occb') (fun l => Ok (a ++ map (fun i => norb + i) b ++ l))
      else Err ValueError
  | _, _ => Err ValueError
  end.

Definition write_phmsd (nelec : nat * nat) (norb nci : nat) (occa occb : list (list nat)) : res phmsd :=
  rbind (occ_rows (fst nelec) (snd nelec) norb occa occb) (fun l =>
  Ok (Phmsd norb (fst nelec) (snd nelec) nci l)).

(** reshape((n, w)) *)
Fixpoint rows {A} (n w : nat) (l : list A) : list (list A) :=
  match n with 0 => [] | S n' => firstn w l :: rows n' w (skipn w l) end.
Definition reshape {A} (n w : nat) (l : list A) : res (list (list A)) :=
  if length l =? n * w then Ok (rows n w l) else Err ValueError.

(** the two assertions, 346-349: both compare with nelec[0] *)
Definition check_nelec (na nb : nat) (nelec : option (nat * nat)) : res unit :=
  match nelec with
  | None => Ok tt
  | Some e => if (na =? fst e) && (nb =? fst e) then Ok tt else Err AssertionError
  end.

(** occs - nmo is on integers of either sign: Z *)
Definition read_phmsd (f : phmsd) (nelec : option (nat * nat)) : res (list (list nat) * list (list Z)) :=
  rbind (check_nelec (p_na f) (p_nb f) nelec) (fun _ =>
  rbind (reshape (p_nci f) (p_na f + p_nb f) (p_occs f)) (fun occs =>
  Ok (map (firstn (p_na f)) occs,
      map (fun o => map (fun x => (Z.of_nat x - Z.of_nat (p_norb f))%Z) (skipn (p_na f) o)) occs))).

(** ** NOMSD: orbitals *)
Section Nomsd.
  Variables (K : Type) (zero : K) (add : K -> K -> K) (conj : K -> K) (small : K -> bool) (isz : K -> bool).

  Definition mat : Type := nat -> nat -> K.

  (** csr_matrix(dense): the nonzero entries of each row *)
  Definition csr_rows (m n : nat) (g : mat) : list (list (nat * K)) :=
    map (fun r => filter (fun e => negb (isz (snd e))) (map (fun c => (c, g r c)) (seq 0 n))) (seq 0 m).

  Definition indptr (rs : list (list (nat * K))) : list nat :=
    map (fun k => nsum (map (@length _) (firstn k rs))) (seq 0 (S (length rs))).

  Record dset := Dset { ds_m : nat; ds_n : nat; ds_data : list K; ds_j : list nat;
                        ds_begin : list nat; ds_end : list nat }.

  Definition write_single (m n : nat) (g : mat) : dset :=
    let rs := csr_rows m n g in
    Dset m n (map snd (concat rs)) (map fst (concat rs)) (removelast (indptr rs)) (tl (indptr rs)).

  Definition slice {A} (a b : nat) (l : list A) : list A := firstn (b - a) (skipn a l).

  Fixpoint row_entry (idx : list nat) (data : list K) (c : nat) : K :=
    match idx, data with
    | i :: idx', x :: data' => if i =? c then add x (row_entry idx' data' c) else row_entry idx' data' c
    | _, _ => zero
    end.

  (** indptr[:-1] = begin (numpy needs the same size), indptr[-1] = end[-1] *)
  Definition orbs_from_dset (d : dset) : res (nat * nat * mat) :=
    match rev (ds_end d) with
    | [] => Err IndexError
    | e :: _ =>
        if length (ds_begin d) =? ds_m d then
          let ip := ds_begin d ++ [e] in
          let dense r c := row_entry (slice (nth r ip 0) (nth (r + 1) ip 0) (ds_j d))
                                     (slice (nth r ip 0) (nth (r + 1) ip 0) (ds_data d)) c in
          Ok (ds_n d, ds_m d, fun i j => conj (dense j i))
        else Err ValueError
    end.

  Record nomsd := Nomsd { n_nmo : nat; n_na : nat; n_nb : nat; n_uhf : bool; n_nci : nat; n_psi : list (nat * dset) }.

  Definition keep (w : mat) : mat := fun i j => if small (w i j) then zero else w i j.

  (** w[:,:nalpha].conj().T and w[:,nalpha:].conj().T *)
  Definition alpha_h (w : mat) : mat := fun j i => conj (w i j).
  Definition beta_h (na : nat) (w : mat) : mat := fun j i => conj (w i (na + j)).

  Fixpoint write_dets (nmo na nb : nat) (uhf : bool) (idet : nat) (ws : list mat) : list (nat * dset) :=
    match ws with
    | [] => []
    | w :: ws' =>
        let k := keep w in
        (if uhf
         then [(2 * idet, write_single na nmo (alpha_h k)); (2 * idet + 1, write_single nb nmo (beta_h na k))]
         else [(idet, write_single na nmo (alpha_h k))])
        ++ write_dets nmo na nb uhf (S idet) ws'
    end.

  Definition write_nomsd (nmo na nb : nat) (uhf : bool) (ws : list mat) : nomsd :=
    Nomsd nmo na nb uhf (length ws) (write_dets nmo na nb uhf 0 ws).

  Fixpoint find (k : nat) (l : list (nat * dset)) : option dset :=
    match l with [] => None | (j, d) :: l' => if j =? k then Some d else find k l' end.

  (** wfn[idet,:,block] = p: shapes must agree, a size of one is repeated *)
  Definition bcast (m n : nat) (p : nat * nat * mat) : res mat :=
    let '(pm, pn, g) := p in
    if ((pm =? m) || (pm =? 1)) && ((pn =? n) || (pn =? 1))
    then Ok (fun i j => g (if pm =? m then i else 0) (if pn =? n then j else 0)) else Err ValueError.

  Definition get (k : nat) (f : nomsd) : res (nat * nat * mat) :=
    match find k (n_psi f) with None => Err KeyError | Some d => orbs_from_dset d end.

  (** pa[:,:nb] *)
  Definition first_cols (nb : nat) (p : nat * nat * mat) : nat * nat * mat :=
    let '(pm, pn, g) := p in (pm, min nb pn, g).

  (** 363-373; the alpha orbitals are read from PsiT_idet, not PsiT_ix *)
  Definition read_det (f : nomsd) (idet : nat) : res mat :=
    rbind (get idet f) (fun pa =>
    rbind (bcast (n_nmo f) (n_na f) pa) (fun a =>
    rbind (if n_uhf f then get (2 * idet + 1) f else Ok (first_cols (n_nb f) pa)) (fun pb =>
    rbind (bcast (n_nmo f) (n_nb f) pb) (fun b =>
    Ok (fun i j => if j <? n_na f then a i j else b i (j - n_na f)))))).

  Fixpoint read_dets (f : nomsd) (idets : list nat) : res (list mat) :=
    match idets with
    | [] => Ok []
    | i :: l => rbind (read_det f i) (fun m => rbind (read_dets f l) (fun ms => Ok (m :: ms)))
    end.

  Definition read_nomsd (f : nomsd) (nelec : option (nat * nat)) : res (list mat) :=
    rbind (check_nelec (n_na f) (n_nb f) nelec) (fun _ => read_dets f (seq 0 (n_nci f))).

  (** ** phfmol text: for each determinant the padded square matrix column by column *)
  Definition ravel_f (n : nat) (c : mat) : list K :=
    flat_map (fun j => map (fun i => c i j) (seq 0 n)) (seq 0 n).

  (** numpy.pad on the right and below *)
  Definition pad (n : nat) (c : mat) : mat := fun i j => if (i <? n) && (j <? n) then c i j else zero.

  (** the number tokens only; "Determinant:" and its number are the two skipped tokens *)
  Definition write_phfmol (nmo padding : nat) (dets : list mat) : list (list K) :=
    map (fun c => ravel_f (nmo + padding) (pad nmo c)) dets.

  (** reshape(nmo,nmo).T then the first na and the first nb columns *)
  Definition read_phfmol_det (nmo na : nat) (data : list K) : res mat :=
    if length data =? nmo * nmo then
      let c i j := nth (j * nmo + i) data zero in
      Ok (fun i j => if j <? na then c i j else c i (j - na))
    else Err ValueError.
End Nomsd.
