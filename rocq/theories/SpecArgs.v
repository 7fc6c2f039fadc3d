(** What option texts mean.  No code of the library. *)
Require Import ZArith List Bool.
Import ListNotations.
Open Scope Z_scope.

(** blank, tab, newline, carriage return *)
Definition blank (c : Z) : bool := (c =? 32) || (c =? 9) || (c =? 10) || (c =? 13).
(** 'A'..'Z' to 'a'..'z' *)
Definition lower (c : Z) : Z := if (65 <=? c) && (c <=? 90) then c + 32 else c.

(** the maximal runs of non-blank characters; [w] is the word being collected *)
Fixpoint split_words (w : list Z) (t : list Z) : list (list Z) :=
  match t with
  | [] => match w with [] => [] | _ => [w] end
  | c :: t => if blank c then match w with [] => split_words [] t | _ => w :: split_words [] t end
              else split_words (w ++ [c]) t
  end.
Definition words_of (t : list Z) : list (list Z) := split_words [] t.

(** two by two; an unpaired last word is dropped *)
Fixpoint two_by_two {A} (l : list A) : list (A * A) :=
  match l with a :: b :: l => (a, b) :: two_by_two l | _ => [] end.

(** option/value pairs of a command line: a word starting with '-' takes the next one *)
Fixpoint option_pairs (l : list (list Z)) : list (list Z * list Z) :=
  match l with
  | a :: ((b :: l'') as l') => match a with c :: _ => if c =? 45 then (a, b) :: option_pairs l'' else option_pairs l' | [] => option_pairs l' end
  | _ => []
  end.

Definition lower_pair (p : list Z * list Z) : list Z * list Z := (map lower (fst p), map lower (snd p)).
