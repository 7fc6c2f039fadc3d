(** What the vector operations should do.  No code of the library except the vector
    handles and cells of Vector.v. *)
Require Import ZArith List Bool.
From Verif Require Import Base Scalar Omp Vector.
Import ListNotations.
Open Scope Z_scope.

Section S.
Context {T : Type} {S : Scalar T}.
(** component i of a vector in a store *)
Definition comp (s : store T) (v : vec) (i : Z) : T := s (v_arr v, i).

(** from s to s': component i of z becomes f i, every other cell keeps its value *)
Definition sets (z : vec) (f : Z -> T) (s s' : store T) : Prop :=
  (forall i, 0 <= i < v_n z -> comp s' z i = f i) /\
  (forall c, ~ (fst c = v_arr z /\ 0 <= snd c < v_n z) -> s' c = s c).

(** every thread stays inside the given vectors *)
Definition inside (vs : list vec) (ps : list (prog T)) : Prop :=
  let ok c := exists v, In v vs /\ fst c = v_arr v /\ 0 <= snd c < v_n v in
  Forall (within ok ok) ps.

(** a call succeeds, and in whatever order its threads' actions happen, z gets f (as a
    function of the old store) *)
Definition computes (c : call T) (vs : list vec) (z : vec) (f : store T -> Z -> T) : Prop :=
  fst c = 0 /\ inside vs (snd c) /\ forall s s', exec (snd c) s s' -> sets z (f s) s s'.
(** a call is refused and changes nothing *)
Definition refuses (c : call T) : Prop :=
  fst c = 1 /\ forall s s', exec (snd c) s s' -> forall a, s' a = s a.

(** the iterations 0..n-1, each given to exactly one thread *)
Definition distributes (n : Z) (team : list (list Z)) : Prop := Permutation.Permutation (concat team) (zrange 0 n).

(** a table of nprocs consecutive ranges covering 0..n (C01) *)
Definition ranges_ok (ranges : list Z) (nprocs n : Z) : Prop :=
  0 < nprocs /\ zlen ranges = nprocs + 1 /\ znth 0 ranges 0 = 0 /\ znth 0 ranges nprocs = n /\
  forall p, 0 <= p < nprocs -> znth 0 ranges p <= znth 0 ranges (p + 1).

(** a local vector: rows is..ie-1, stored from 0 *)
Definition lvec_ok (v : lvec T) : Prop := 0 <= l_is v <= l_ie v /\ zlen (l_value v) = l_ie v - l_is v.

(** lis_vector_set_value on each (index, value) in turn, up to the first refused one *)
Fixpoint set_each (flag : Z) (ps : list (Z * T)) (v : lvec T) : res (Z * lvec T) :=
  match ps with
  | [] => Ok (0, v)
  | (i, w) :: ps => ' (c, v') <- vector_set_value flag i w v ;; if c =? 0 then set_each flag ps v' else Ok (c, v')
  end.

(** comparison is a total order *)
Definition total_order : Prop :=
  (forall a b : T, sleb a b = true \/ sleb b a = true) /\ (forall a b c : T, sleb a b = true -> sleb b c = true -> sleb a c = true).
End S.
