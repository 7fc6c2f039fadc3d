(** Model of lis_text2args and lis_arg2args, src/system/lis_init.c:227-349.
    Characters are integers; a C string is its characters followed by 0. *)
Require Import ZArith List Bool.
From Verif Require Import Base.
Import ListNotations.
Open Scope Z_scope.

(** ' ', '\t', '\n', '\r' *)
Definition is_blank (c : Z) : bool := (c =? 32) || (c =? 9) || (c =? 10) || (c =? 13).
(** tolower in the C locale *)
Definition tolower (c : Z) : Z := if (65 <=? c) && (c <=? 90) then c + 32 else c.

(** while( *p==' ' || ... ) p++;   lis_init.c:251-254, 267-270 *)
Fixpoint skip_blank (fuel : nat) (buf : list Z) (p : Z) : res Z :=
  match fuel with
  | O => Err OUT_OF_FUEL
  | S f => c <- rd buf p ;; if is_blank c then skip_blank f buf (p + 1) else Ok p
  end.
(** while( *p!=' ' && ... && *p!='\0' ) { *p = tolower( *p); p++; }   256-260, 272-276 *)
Fixpoint lower_word (fuel : nat) (buf : list Z) (p : Z) : res (list Z * Z) :=
  match fuel with
  | O => Err OUT_OF_FUEL
  | S f => c <- rd buf p ;;
      if is_blank c || (c =? 0) then Ok (buf, p)
      else buf <- wr buf p (tolower c) ;; lower_word f buf (p + 1)
  end.
(** the C string starting at p (strlen, strcpy) *)
Fixpoint cstr (fuel : nat) (buf : list Z) (p : Z) : res (list Z) :=
  match fuel with
  | O => Err OUT_OF_FUEL
  | S f => c <- rd buf p ;; if c =? 0 then Ok [] else l <- cstr f buf (p + 1) ;; Ok (c :: l)
  end.

(** the main loop, lis_init.c:248-294; acc is the list of (arg1,arg2) so far *)
Fixpoint t2a_loop (fuel : nat) (buf : list Z) (p : Z) (f : bool) (acc : list (list Z * list Z)) : res (list (list Z * list Z)) :=
  let k := S (length buf) in
  match fuel with
  | O => Err OUT_OF_FUEL
  | S fuel' =>
      c <- rd buf p ;;
      if negb (c =? 0) && f then
        s1 <- skip_blank k buf p ;;
        ' (buf, p) <- lower_word k buf s1 ;;
        c <- rd buf p ;;
        if c =? 0 then Ok acc
        else
          buf <- wr buf p 0 ;;
          s2 <- skip_blank k buf (p + 1) ;;
          ' (buf, p) <- lower_word k buf s2 ;;
          c <- rd buf p ;;
          let f := if c =? 0 then false else f in
          buf <- wr buf p 0 ;;
          a1 <- cstr k buf s1 ;; a2 <- cstr k buf s2 ;;
          t2a_loop fuel' buf (p + 1) f
            (if (0 <? zlen a1) && (0 <? zlen a2) then acc ++ [(a1, a2)] else acc)
      else Ok acc
  end.

(** char buf[1024]; strcpy(buf,text);  [j]: the unset rest of the buffer *)
Definition text2args (j : Z -> Z) (text : list Z) : res (list (list Z * list Z)) :=
  if 1024 <? zlen text + 1 then UB
  else
    let buf := text ++ 0 :: alloc (1024 - zlen text - 1) j in
    t2a_loop (S (length buf)) buf 0 true [].

(** lis_arg2args, lis_init.c:304-349; argv[0] is the program *)
Fixpoint a2a_loop (fuel : nat) (argv : list (list Z)) (i : Z) (acc : list (list Z * list Z)) : res (list (list Z * list Z)) :=
  match fuel with
  | O => Err OUT_OF_FUEL
  | S fuel' =>
      if i <? zlen argv then
        a <- rd argv i ;;
        if (match a with c :: _ => c =? 45 | [] => false end) && (i + 1 <? zlen argv) then
          b <- rd argv (i + 1) ;;
          a2a_loop fuel' argv (i + 2) (acc ++ [(map tolower a, map tolower b)])
        else a2a_loop fuel' argv (i + 1) acc
      else Ok acc
  end.
Definition arg2args (argv : list (list Z)) : res (list (list Z * list Z)) :=
  a2a_loop (S (length argv)) argv 1 [].
