(** Example files for Properties_Hb.v. *)
Require Import ZArith List Bool Ascii String.
Import ListNotations.
Open Scope string_scope.

Definition txt (s : string) : list ascii := list_ascii_of_string s.
Notation "a +++ b" := (List.app a b) (at level 60, right associativity).
Definition title := txt "a small matrix".
Definition l2 := txt "             4             1             1             2".
Definition l3 := txt "RUA                        2             2             3             0".
Definition l4 := txt "(3I4)           (3I4)           (2E12.4)            ".
Definition d1 := txt "   1   3   4".
Definition d2 := txt "   1   2   2".
Definition d3 := txt "  1.5000E+00 -2.5000E-01".
Definition d4 := txt "      0.3125".
Definition file := [title; l2; l3; l4; d1; d2; d3; d4].
Definition head (fmt : string) := [title; txt "             3             1             1             1"; txt "RUA                        2             2             2             0"; txt ("(3I4)           (3I4)           " ++ fmt); txt "   1   2   3"; txt "   1   2"].
Definition vals_e := txt "  1.5000E+03  2.5000E+00".
Definition file_e := head "(2E12.4)            " +++ [vals_e].
(** D format and D in the data *)
Definition file_d := head "(2D12.4)            " +++ [txt "  1.5000D+03  2.5000D+00"].
(** a scale factor, as Fortran programs write *)
Definition file_p := head "(1P2E12.4)          " +++ [vals_e].
(** F format *)
Definition file_f := head "(2F12.4)            " +++ [txt "   1500.0000      2.5000"].
(** no repeat count *)
Definition file_1 := head "(E24.4)             " +++ [vals_e].
(** the format does not end in its field *)
Definition file_u := head "(2E12.4             " +++ [vals_e].
(** a value line shorter than its two fields; the line before it was longer *)
Definition file_s := [title; txt "             4             1             1             2"; l3; txt "(3I4)           (3I4)           (2E12.4)            "; d1; d2; txt "  1.5000E+00"; txt "  2.5000E+00"].
(** the fields of the lines *)
Definition n14 (s : string) : list ascii := txt ("             " ++ s).
Definition n4 (s : string) : list ascii := txt ("   " ++ s).
Definition fmt1 := txt "(3I4)           ".
Definition fmt3 := txt "(2E12.4)            ".
Definition sp11 := txt "           ".
Definition sp12 := txt "            ".
Definition v1 := txt "  1.5000E+00".
Definition v2 := txt " -2.5000E-01".
Definition v3 := txt "      0.3125".
Definition one := "1". Definition two := "2". Definition three := "3". Definition four := "4". Definition zero := "0".
Definition t1 := txt "1.5000". Definition e1 := txt "E+00".
Definition t2 := txt "-2.5000". Definition e2 := txt "E-01".
Definition t3 := txt "0.3125".
