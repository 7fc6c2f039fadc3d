(** Message passing between [P] processes, as used by lis_commtable_create and
    lis_send_recv (lis_matrix_mpi.c:594-949) and the macro LIS_MATVEC_SENDRECV:
    rounds in which a process
      (1) sends one message to every partner, in order (MPI_Isend, tag 0),
      (2) receives one message from every partner, in any order of arrival
          (MPI_Irecv + MPI_Waitall),
      (3) works on the received messages,
      (4) waits for its own sends (MPI_Waitall), which may (rendezvous) or may not
          (eager) mean that the partner has taken the message.
    A channel per ordered pair keeps the order of the messages (MPI: messages with
    the same source, tag and communicator do not overtake each other).
    MPI_Alltoall is modelled as a round with all processes as partners.
    No process ever waits for a lock-step: processes may be in different rounds. *)
Require Import ZArith List Bool.
From Verif Require Import Base.
Import ListNotations.
Open Scope Z_scope.

Section Net.
Context {St Msg : Type}.
Variable P : Z.                                              (* number of processes *)
Variable partners : nat -> Z -> St -> list Z.                (* round, process, state *)
Variable message : nat -> Z -> St -> Z -> res Msg.           (* the message for partner number t *)
Variable digest : nat -> Z -> St -> list Msg -> res St.      (* state after the round *)
Variable eager : nat -> Z -> bool.                           (* are the sends of this round buffered? *)

Record proc := mkProc { p_round : nat; p_st : St; p_sent : Z; p_got : list (option Msg) }.
Record config := mkConfig { c_proc : Z -> proc; c_chan : Z -> Z -> list Msg }.

Definition start (r : nat) (p : Z) (s : St) : proc := mkProc r s 0 (repeat None (length (partners r p s))).
Definition initial (s0 : Z -> St) : config := mkConfig (fun p => start 0 p (s0 p)) (fun _ _ => []).

Definition set_proc (c : config) (p : Z) (x : proc) : config :=
  mkConfig (fun q => if q =? p then x else c_proc c q) (c_chan c).
Definition set_chan (c : config) (a b : Z) (l : list Msg) : config :=
  mkConfig (c_proc c) (fun x y => if (x =? a) && (y =? b) then l else c_chan c x y).
Definition my_partners (p : Z) (x : proc) : list Z := partners (p_round x) p (p_st x).
Definition all_got (l : list (option Msg)) : option (list Msg) :=
  fold_right (fun o acc => match o, acc with Some m, Some t => Some (m :: t) | _, _ => None end) (Some []) l.

(** one step; [None] is a crash of a process (undefined behaviour or an error in its local code) *)
Inductive step (c : config) : option config -> Prop :=
| step_send p q m : let x := c_proc c p in 0 <= p < P -> p_sent x < zlen (my_partners p x) -> q = znth 0 (my_partners p x) (p_sent x) ->
    message (p_round x) p (p_st x) (p_sent x) = Ok m ->
    step c (Some (set_chan (set_proc c p (mkProc (p_round x) (p_st x) (p_sent x + 1) (p_got x))) p q (c_chan c p q ++ [m])))
| step_send_crash p : let x := c_proc c p in 0 <= p < P -> p_sent x < zlen (my_partners p x) ->
    (forall m, message (p_round x) p (p_st x) (p_sent x) <> Ok m) -> step c None
| step_recv p t q m l : let x := c_proc c p in 0 <= p < P -> p_sent x = zlen (my_partners p x) ->
    0 <= t < zlen (my_partners p x) -> znth None (p_got x) t = None -> q = znth 0 (my_partners p x) t -> c_chan c q p = m :: l ->
    step c (Some (set_chan (set_proc c p (mkProc (p_round x) (p_st x) (p_sent x) (zupd (p_got x) t (Some m)))) q p l))
| step_finish p msgs s' : let x := c_proc c p in 0 <= p < P -> p_sent x = zlen (my_partners p x) -> all_got (p_got x) = Some msgs ->
    (eager (p_round x) p = true \/ forall q, In q (my_partners p x) -> c_chan c p q = []) ->
    digest (p_round x) p (p_st x) msgs = Ok s' ->
    step c (Some (set_proc c p (start (Datatypes.S (p_round x)) p s')))
| step_finish_crash p msgs : let x := c_proc c p in 0 <= p < P -> p_sent x = zlen (my_partners p x) -> all_got (p_got x) = Some msgs ->
    (forall s', digest (p_round x) p (p_st x) msgs <> Ok s') -> step c None.

Inductive reach (c : config) : option config -> Prop :=
| reach_refl : reach c (Some c)
| reach_step c1 c2 : reach c (Some c1) -> step c1 c2 -> reach c c2.
End Net.
