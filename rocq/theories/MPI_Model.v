(** Small-step model of the point-to-point MPI calls used by population control
    (mpi4py Isend / Recv / Request.wait, pauxy/walkers/handler.py:299-334 and
    394-412).

    * Every rank runs a straight-line program on its own list of walkers.
    * [Isend dst tag pos] copies the walker at [pos] (handler copies it into a
      fresh buffer first) and appends it to the channel (source, dst, tag).
    * [Recv src tag pos] blocks until its channel holds a message that was not
      received yet; messages of one channel are received in the order sent
      (MPI's non-overtaking rule).
    * [Wait dst tag k] completes the request of the k-th message sent on that
      channel. MPI may complete it at once (buffered, [eager = true]) or only
      after the message was received (rendezvous, [eager = false]).
    * Any rank that can step may step: all interleavings.

    Simplification: barriers are not modelled (they only restrict the
    interleavings further); message transport takes no separate step because a
    message in transit is indistinguishable from one not yet received. *)
From Verif Require Import Base.
Open Scope nat_scope.

Definition chan := (nat * nat * nat)%type.     (* source, destination, tag *)

Inductive instr : Type :=
| Isend (dst tag pos : nat)
| Recv (src tag pos : nat)
| Wait (dst tag k : nat).

Definition chan_eqb (c d : chan) : bool :=
  match c, d with
  | (a1, b1, t1), (a2, b2, t2) => (a1 =? a2) && (b1 =? b2) && (t1 =? t2)
  end.

Record config (A : Type) : Type := Config {
  prog : nat -> list instr;      (* what rank r still has to do *)
  store : nat -> list A;         (* walkers of rank r *)
  sent : chan -> list A;         (* everything sent so far on a channel *)
  rcvd : chan -> nat             (* how many of them were received *)
}.
Arguments Config {A}.
Arguments prog {A}. Arguments store {A}. Arguments sent {A}. Arguments rcvd {A}.

Definition fset {B} (f : nat -> B) (i : nat) (x : B) : nat -> B :=
  fun j => if j =? i then x else f j.
Definition cset {B} (f : chan -> B) (c : chan) (x : B) : chan -> B :=
  fun d => if chan_eqb d c then x else f d.

Section Step.
  Context {A : Type}.
  Variable eager : bool.

  Inductive step : config A -> config A -> Prop :=
  | step_send cf r d t p q x :
      prog cf r = Isend d t p :: q -> nth_error (store cf r) p = Some x ->
      step cf (Config (fset (prog cf) r q) (store cf)
                 (cset (sent cf) (r, d, t) (sent cf (r, d, t) ++ [x])) (rcvd cf))
  | step_recv cf r s t p q x :
      prog cf r = Recv s t p :: q ->
      nth_error (sent cf (s, r, t)) (rcvd cf (s, r, t)) = Some x ->
      p < length (store cf r) ->
      step cf (Config (fset (prog cf) r q) (fset (store cf) r (upd p x (store cf r)))
                 (sent cf) (cset (rcvd cf) (s, r, t) (S (rcvd cf (s, r, t)))))
  | step_wait cf r d t k q :
      prog cf r = Wait d t k :: q ->
      eager = true \/ k < rcvd cf (r, d, t) ->
      step cf (Config (fset (prog cf) r q) (store cf) (sent cf) (rcvd cf)).

  (** Executions of [n] steps. *)
  Inductive steps : nat -> config A -> config A -> Prop :=
  | steps_0 cf : steps 0 cf cf
  | steps_S n cf cf' cf'' : steps n cf cf' -> step cf' cf'' -> steps (S n) cf cf''.

  Definition init (P : nat -> list instr) (st : nat -> list A) : config A :=
    Config P st (fun _ => []) (fun _ => 0).

  (** All ranks below [p] have finished. *)
  Definition finished (p : nat) (cf : config A) : Prop := forall r, r < p -> prog cf r = [].
End Step.
