(** Shared-memory threads.  A thread is a finite program of single reads and writes of
    shared cells (its private variables live in the continuation); an execution
    interleaves the threads' actions in any order.  This is the model of
    "#pragma omp parallel for": see the comments at each use. *)
Require Import ZArith List Bool.
Import ListNotations.
Open Scope Z_scope.

(** a shared cell: (array, index) *)
Definition cell : Type := Z * Z.
Definition store (T : Type) : Type := cell -> T.
Definition cell_eqb (a b : cell) : bool := (fst a =? fst b) && (snd a =? snd b).
Definition put {T} (s : store T) (a : cell) (v : T) : store T := fun c => if cell_eqb c a then v else s c.

Inductive prog (T : Type) : Type :=
| Done
| Read (a : cell) (k : T -> prog T)
| Write (a : cell) (v : T) (k : prog T).
Arguments Done {T}. Arguments Read {T}. Arguments Write {T}.

(** p then q *)
Fixpoint seq {T} (p q : prog T) : prog T :=
  match p with
  | Done => q
  | Read a k => Read a (fun v => seq (k v) q)
  | Write a v k => Write a v (seq k q)
  end.

(** one action of one thread *)
Inductive step {T} : list (prog T) * store T -> list (prog T) * store T -> Prop :=
| step_read : forall l a k r s, step (l ++ Read a k :: r, s) (l ++ k (s a) :: r, s)
| step_write : forall l a v k r s, step (l ++ Write a v k :: r, s) (l ++ k :: r, put s a v).

Inductive steps {T} : list (prog T) * store T -> list (prog T) * store T -> Prop :=
| steps_nil : forall c, steps c c
| steps_cons : forall c1 c2 c3, step c1 c2 -> steps c2 c3 -> steps c1 c3.

(** the threads ps, started in s, can end in s' *)
Definition exec {T} (ps : list (prog T)) (s s' : store T) : Prop :=
  exists ds, Forall (fun p => p = Done) ds /\ steps (ps, s) (ds, s').

(** one thread alone *)
Fixpoint run {T} (p : prog T) (s : store T) : store T :=
  match p with
  | Done => s
  | Read a k => run (k (s a)) s
  | Write a v k => run k (put s a v)
  end.

(** every cell p can read is in R, every cell it can write in W *)
Fixpoint within {T} (R W : cell -> Prop) (p : prog T) : Prop :=
  match p with
  | Done => True
  | Read a k => R a /\ forall v, within R W (k v)
  | Write a v k => W a /\ within R W k
  end.

(** "#pragma omp parallel for" over [0,n): the iterations, all concurrent.  Whatever
    way OpenMP distributes iterations over threads and orders them, the execution is an
    interleaving of the iterations' actions. *)
Definition par_for {T} (n : Z) (body : Z -> prog T) : list (prog T) := map (fun i => body (Z.of_nat i)) (List.seq 0 (Z.to_nat n)).
(** the serial loop *)
Definition ser_for {T} (n : Z) (body : Z -> prog T) : prog T := fold_right seq Done (par_for n body).
