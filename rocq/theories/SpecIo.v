(** What a Matrix Market file means (the file format of the User's Guide, appendix). *)
Require Import ZArith List Bool String Ascii.
From Verif Require Import Base Scalar Spec Io.
Import ListNotations.
Open Scope Z_scope.

Section S.
Context {T : Type} {S : Scalar T}.
Variable of_int : Z -> T.

(** the elements that a line "i j v" (numbered from 1) of a general / symmetric file stands
    for (numbered from 0): in a symmetric file an off-diagonal element stands for two *)
Definition elements (symm : bool) (e : entry T) : list (entry T) :=
  let '(i, j, v) := e in
  (if symm && negb (i =? j) then [(j - 1, i - 1, v)] else []) ++ [(i - 1, j - 1, v)].
Definition file_entries (symm : bool) (es : list (entry T)) : list (entry T) := flat_map (elements symm) es.

(** a number, printed as an integer or not *)
Definition denotes (t : tok T) (v : T) : Prop := t = TNum v \/ exists z, t = TInt z /\ v = of_int z.
(** text lines "i j v ..." and "i v ...", and binary records of a machine of byte order e *)
Definition mat_line (l : line T) (e : entry T) : Prop :=
  exists t r, l = Text (TInt (erow e) :: TInt (ecol e) :: t :: r) /\ denotes t (eval e).
Definition vec_line (l : line T) (p : Z * T) : Prop := exists t r, l = Text (TInt (fst p) :: t :: r) /\ denotes t (snd p).
Definition comment (l : line T) : Prop := exists s r, l = Text (TWord (String "%"%char s) :: r).

Definition mm_header (mtx fmt struct : string) : line T := Text [TWord "%%MatrixMarket"; TWord mtx; TWord fmt; TWord "real"; TWord struct].
(** a coordinate file of an n x n matrix with the element lines ms (standing for es) and
    sections for b and for x, given by lines (None: no section) *)
Definition flag {A} (o : option A) : Z := match o with Some _ => 1 | None => 0 end.
Definition lines (o : option (list (line T))) : list (line T) := match o with Some l => l | None => [] end.
Definition size_line (n nnz : Z) (b x : option (list (line T))) : line T :=
  Text (match b, x with None, None => [TInt n; TInt n; TInt nnz] | _, _ => [TInt n; TInt n; TInt nnz; TInt (flag b); TInt (flag x)] end).
Definition mm_file (symm : bool) (comments : list (line T)) (n : Z) (ms : list (line T)) (b x : option (list (line T))) (rest : list (line T)) : list (line T) :=
  mm_header "matrix" "coordinate" (if symm then "symmetric" else "general") :: comments ++ size_line n (zlen ms) b x :: ms ++ lines b ++ lines x ++ rest.

(** the pairs (i, v_i) give each of the n elements once *)
Definition all_once (n : Z) (ps : list (Z * T)) : Prop := zlen ps = n /\ NoDup (map fst ps) /\ forall i v, In (i, v) ps -> 1 <= i <= n.
(** the n-vector a given by such pairs *)
Definition is_vector (n : Z) (ps : list (Z * T)) (a : list T) : Prop := zlen a = n /\ forall i v, In (i, v) ps -> znth s0 a (i - 1) = v.

(** the elements in row order; within a row in file order *)
Definition by_rows (n : Z) (es : list (entry T)) : list (entry T) := flat_map (fun r => filter (fun e => erow e =? r) es) (zrange 0 n).
(** text lines "v ..."; an "array" file of the n*n elements, by columns *)
Definition val_line (l : line T) (v : T) : Prop := exists t r, l = Text (t :: r) /\ denotes t v.
Definition array_file (comments : list (line T)) (n : Z) (vs rest : list (line T)) : list (line T) :=
  mm_header "matrix" "array" "general" :: comments ++ Text [TInt n; TInt n] :: vs ++ rest.
Definition is_text (l : line T) : Prop := exists ts, l = Text ts.
(** how many integers a line starts with *)
Fixpoint leading_ints (l : list (tok T)) : Z := match l with TInt _ :: l => 1 + leading_ints l | _ => 0 end.

(** every element of the file is inside the n x n matrix *)
Definition inside (n : Z) (es : list (entry T)) : Prop := forall e, In e es -> 1 <= erow e <= n /\ 1 <= ecol e <= n.
(** the text lines l of a vector section (if there is one) give each element once, by the pairs ps *)
Definition tsec (n : Z) (l : option (list (line T))) (ps : option (list (Z * T))) : Prop :=
  match l, ps with None, None => True | Some l, Some ps => Forall2 vec_line l ps /\ all_once n ps | _, _ => False end.
(** b' is what became of the vector object b when that section was read *)
Definition got (n : Z) (ps : option (list (Z * T))) (b b' : vobj T) : Prop :=
  match ps with None => b' = b | Some ps => exists a, b' = mkVo (vo_int b) (Some a) /\ is_vector n ps a end.

(** a vector object of size n or without any size, its elements not marked as integers *)
Definition vec_of (v : vobj T) (n : Z) : Prop := vo_int v = false /\ (vo_val v = None \/ exists a, vo_val v = Some a /\ zlen a = n).
(** v' is what became of v0 when the elements of v were read into it *)
Definition same_vec (v v0 v' : vobj T) : Prop := match vo_val v with None => v' = v0 | Some a => v' = mkVo (vo_int v0) (Some a) end.
(** what is printed of an element, as a number *)
Definition printed (to_int : T -> Z) (v : vobj T) (x : T) : T := if vo_int v then of_int (to_int x) else x.
End S.
