(** pauxy/walkers/handler.py: restart files.  __init__ 147-161, get_write_buffer
    432-435, set_walker_from_buffer 437-442, write_walkers 444-454,
    read_walkers 477-485.
    Numbers are an arbitrary type V with a zero (a fresh HDF5 dataset is filled
    with zeros); a shape is only its size; "rest" is everything of a walker that
    is not in the buffer.  A file system maps names (numbers) to files, a file
    maps dataset numbers to their content. *)
From Verif Require Import Base.
Open Scope nat_scope.

Section Restart.
  Variables (V R : Type) (zero : V).

  Record walker := Walker { weight : V; phase : V; ot : V; phi : list V; rest : R }.

  Definition file : Type := list (nat * list V).
  Definition fs : Type := list (nat * file).

  Fixpoint find {A} (k : nat) (l : list (nat * A)) : option A :=
    match l with [] => None | (j, a) :: l' => if j =? k then Some a else find k l' end.

  Fixpoint store {A} (k : nat) (a : A) (l : list (nat * A)) : list (nat * A) :=
    match l with
    | [] => [(k, a)]
    | (j, b) :: l' => if j =? k then (k, a) :: l' else (j, b) :: store k a l'
    end.

  Definition write_buffer (w : walker) : list V := weight w :: phase w :: ot w :: phi w.

  (** buff[3:].reshape(phi.shape) *)
  Definition set_walker (w : walker) (buff : list V) : res walker :=
    match buff with
    | a :: b :: c :: p =>
        if length p =? length (phi w) then Ok (Walker a b c p (rest w)) else Err ValueError
    | _ => Err IndexError
    end.

  (** 148-154: mode 'w' truncates the file, then empty datasets are made *)
  Definition init_file (ntot size : nat) : file :=
    map (fun i => (i, repeat zero size)) (seq 0 ntot).

  Definition init_restart (f : fs) (write_freq write_file ntot : nat) (w0 : walker) : fs :=
    if 0 <? write_freq then store write_file (init_file ntot (3 + length (phi w0))) f else f.

  (** fh5['walker_%d'%ix][:] = buff *)
  Definition write_one (d : file) (ix : nat) (buff : list V) : res file :=
    match find ix d with
    | None => Err KeyError
    | Some old => if length old =? length buff then Ok (store ix buff d) else Err TypeError
    end.

  (** one process writing walker i *)
  Definition write_walker (nw rank : nat) (d : file) (i : nat) (w : walker) : res file :=
    write_one d (i + nw * rank) (write_buffer w).

  (** the writes of all processes in some order: (rank, i, walker) *)
  Fixpoint write_walkers (nw : nat) (d : file) (l : list (nat * nat * walker)) : res file :=
    match l with
    | [] => Ok d
    | (rank, i, w) :: l' => rbind (write_walker nw rank d i w) (fun d' => write_walkers nw d' l')
    end.

  (** opening for r+ / r needs the file *)
  Definition write_restart (f : fs) (write_file nw : nat) (l : list (nat * nat * walker)) : res fs :=
    match find write_file f with
    | None => Err OSError
    | Some d => rbind (write_walkers nw d l) (fun d' => Ok (store write_file d' f))
    end.

  (** read_walkers: a missing dataset only prints *)
  Fixpoint read_list (nw rank : nat) (d : file) (i : nat) (ws : list walker) : res (list walker) :=
    match ws with
    | [] => Ok []
    | w :: ws' =>
        rbind (match find (i + nw * rank) d with
               | Some buff => set_walker w buff
               | None => Ok w
               end) (fun w' =>
        rbind (read_list nw rank d (S i) ws') (fun l => Ok (w' :: l)))
    end.

  Definition read_walkers (f : fs) (read_file nw rank : nat) (ws : list walker) : res (list walker) :=
    match find read_file f with
    | None => Err OSError
    | Some d => read_list nw rank d 0 ws
    end.

  (** __init__ 147-161: the write file is created before the read file is read *)
  Definition setup (f : fs) (write_freq write_file : nat) (read_file : option nat)
      (ntot nw rank : nat) (ws : list walker) : res (fs * list walker) :=
    match ws with
    | [] => Err IndexError
    | w0 :: _ =>
        let f' := init_restart f write_freq write_file ntot w0 in
        match read_file with
        | None => Ok (f', ws)
        | Some r => rbind (read_walkers f' r nw rank ws) (fun ws' => Ok (f', ws'))
        end
    end.
End Restart.
Arguments Walker {V R}. Arguments weight {V R}. Arguments phase {V R}. Arguments ot {V R}. Arguments phi {V R}.
Arguments rest {V R}. Arguments write_buffer {V R}. Arguments set_walker {V R}. Arguments write_walker {V R}.
Arguments write_walkers {V R}. Arguments write_restart {V R}. Arguments read_list {V R}. Arguments read_walkers {V R}.
Arguments setup {V R}. Arguments init_restart {V R}. Arguments init_file {V}. Arguments write_one {V}. Arguments file V : clear implicits.
