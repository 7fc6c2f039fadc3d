(** What a Harwell-Boeing file of an assembled real unsymmetric n x n matrix is (User's Guide for
    the Harwell-Boeing Sparse Matrix Collection).  No code of the library. *)
Require Import ZArith List Bool Ascii.
From Verif Require Import Base.
Import ListNotations.
Open Scope Z_scope.

Definition blanks (k : nat) : list ascii := repeat " "%char k.
Definition a_digit (c : ascii) : Prop := (48 <= nat_of_ascii c <= 57)%nat.
(** the number written with the digits ds *)
Definition decimal (ds : list ascii) : Z := fold_left (fun a c => 10 * a + (Z.of_nat (nat_of_ascii c) - 48)) ds 0.
Definition numeral (ds : list ascii) (z : Z) : Prop := ds <> [] /\ Forall a_digit ds /\ decimal ds = z.
(** a field of w columns: the integer z; at least pad blanks in front *)
Definition int_field (pad w : nat) (s : list ascii) (z : Z) : Prop :=
  exists k ds, s = blanks k ++ ds /\ length s = w /\ (pad <= k)%nat /\ numeral ds z.
Definition plus_minus (s : list ascii) (neg : bool) : Prop := (s = [] /\ neg = false) \/ (s = ["+"%char] /\ neg = false) \/ (s = ["-"%char] /\ neg = true).
Definition with_sign (neg : bool) (z : Z) : Z := if neg then - z else z.
(** [+-] digits . digits: the number m / 10^k *)
Definition fixed_text (s : list ascii) (m : Z) (k : nat) : Prop :=
  exists sg neg ip fp, s = sg ++ ip ++ "."%char :: fp /\ plus_minus sg neg /\ Forall a_digit ip /\ Forall a_digit fp /\ ip ++ fp <> [] /\ m = with_sign neg (decimal (ip ++ fp)) /\ k = length fp.
(** an exponent after the letter c *)
Definition exponent (c : ascii) (s : list ascii) (x : Z) : Prop := exists sg neg ds z, s = c :: sg ++ ds /\ plus_minus sg neg /\ numeral ds z /\ x = with_sign neg z.
(** a field of w columns: the real m * 10^e, written without exponent or with the letter E *)
Definition real_field (w : nat) (s : list ascii) (m e : Z) : Prop :=
  exists k t ex f x, s = blanks k ++ t ++ ex /\ length s = w /\ fixed_text t m f /\ e = x - Z.of_nat f /\
    ((ex = [] /\ x = 0) \/ exponent "E"%char ex x \/ exponent "e"%char ex x).

(** fields written per to a line, the last line may be short; a line may have a tail *)
Inductive laid (per : nat) : list (list ascii) -> list (list ascii) -> Prop :=
| laid_nil : laid per [] []
| laid_cons g fs tail ls : length g = per \/ (fs = [] /\ (0 < length g <= per)%nat) -> laid per fs ls -> laid per (g ++ fs) ((concat g ++ tail) :: ls).

(** formats: (aIw) and (aEw.d), (aDw.d) in upper or lower case, in a field of given width *)
Definition fmt_text (width : nat) (s inner : list ascii) : Prop := exists tail, s = "("%char :: inner ++ ")"%char :: tail /\ length s = width.
Definition int_fmt (s : list ascii) (a w : Z) : Prop := exists da c dw, (c = "I"%char \/ c = "i"%char) /\ numeral da a /\ numeral dw w /\ fmt_text 16 s (da ++ c :: dw).
Definition val_fmt (s : list ascii) (a w : Z) : Prop :=
  exists da c dw dd, In c ["E"; "e"; "D"; "d"]%char /\ numeral da a /\ numeral dw w /\ Forall a_digit dd /\ fmt_text 20 s (da ++ c :: dw ++ "."%char :: dd).

(** lines the reader can take: no longer than its buffer, no NUL *)
Definition plain_line (l : list ascii) : Prop := (length l <= 1022)%nat /\ ~ In (ascii_of_nat 0) l.
(** the type code RUA *)
Definition rua (s : list ascii) : Prop := exists a b c, s = [a; b; c] /\ In a ["R"; "r"]%char /\ In b ["U"; "u"]%char /\ In c ["A"; "a"]%char.

(** the file f: n columns, ptr and index (numbered from 0), value as decimal numbers (m, e); rhs:
    number of right-hand side lines; the lines rest follow the matrix *)
Definition hb_with (rest : list (list ascii)) (n : Z) (ptr index : list Z) (value : list (Z * Z)) (f : list (list ascii)) : Prop :=
  exists title l2 l3 l4 l5 pl xl vl,
    f = title :: l2 :: l3 :: l4 :: l5 ++ pl ++ xl ++ vl ++ rest /\ Forall plain_line f /\
    (exists cs tot rhs, l2 = concat cs /\
       ((Forall2 (int_field 1 14) cs [tot; zlen pl; zlen xl; zlen vl] /\ l5 = []) \/
        (Forall2 (int_field 1 14) cs [tot; zlen pl; zlen xl; zlen vl; 0] /\ l5 = []) \/
        (Forall2 (int_field 1 14) cs [tot; zlen pl; zlen xl; zlen vl; rhs] /\ rhs <> 0 /\ exists l, l5 = [l] /\ (length l <= 62)%nat))) /\
    (exists code cs k, l3 = code ++ blanks k ++ concat cs /\ rua code /\ Forall2 (int_field 1 14) cs [n; n; zlen index; 0]) /\
    (exists f1 f2 f3 f4 ap wp ai wi av wv pf xf vf, l4 = f1 ++ f2 ++ f3 ++ f4 /\ int_fmt f1 ap wp /\ int_fmt f2 ai wi /\ val_fmt f3 av wv /\ (~ In "("%char f4 \/ exists a w, val_fmt f4 a w) /\
       wp < 128 /\ wi < 128 /\ wv < 128 /\
       Forall2 (int_field 0 (Z.to_nat wp)) pf (map (fun p => p + 1) ptr) /\ laid (Z.to_nat ap) pf pl /\
       Forall2 (int_field 0 (Z.to_nat wi)) xf (map (fun p => p + 1) index) /\ laid (Z.to_nat ai) xf xl /\
       Forall2 (fun s me => real_field (Z.to_nat wv) s (fst me) (snd me)) vf value /\ laid (Z.to_nat av) vf vl).
Definition hb_file (n : Z) (ptr index : list Z) (value : list (Z * Z)) (f : list (list ascii)) : Prop := exists rest, hb_with rest n ptr index value f.
