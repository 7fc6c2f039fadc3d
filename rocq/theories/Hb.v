(** Model of the Harwell-Boeing reader lis_input_hb (src/system/lis_input_hb.c): one process, real
    scalars, 32-bit LIS_INT, no OpenMP.  Here a file is a list of lines of characters and the
    buffer of fgets is modelled byte by byte: a field beyond the end of a line is what an earlier,
    longer line left there.  Simplifications: no line is longer than the buffer (1022 characters)
    and none contains a NUL; integers fit LIS_INT; hexadecimal numbers, infinities and NaNs do
    not occur in a value field; allocations succeed unless the size is negative; screen output
    is left out. *)
Require Import ZArith List Bool Ascii.
From Verif Require Import Base Scalar Spec Csc Split Copy Convert Io.
Import ListNotations.
Open Scope Z_scope.

Notation chars := (list ascii).
Definition NUL : ascii := ascii_of_nat 0.
Definition NL : ascii := ascii_of_nat 10.
(** lis_io.h:31 *)
Definition BUFSIZE : nat := 1024.

(** *** the C library *)
(** fgets: the line, a newline and a NUL over the beginning of the buffer *)
Definition gets (f : list chars) (buf : chars) : res (chars * list chars) :=
  match f with
  | [] => Err LIS_ERR_FILE_IO
  | l :: f => if Nat.leb (length l + 2) BUFSIZE then Ok (l ++ [NL; NUL] ++ skipn (length l + 2) buf, f) else Err NOT_MODELLED
  end.
(** the C string of at most w characters that starts with s; reading on past the end of the array
    is undefined *)
Fixpoint cstr (w : nat) (s : chars) : res chars :=
  match w, s with
  | O, _ => Ok []
  | Datatypes.S _, [] => UB
  | Datatypes.S w, c :: s => if Ascii.eqb c NUL then Ok [] else (r <- cstr w s ;; Ok (c :: r))
  end.
(** the buffer as a string *)
Fixpoint text (s : chars) : chars := match s with [] => [] | c :: s => if Ascii.eqb c NUL then [] else c :: text s end.
Definition isspace (c : ascii) : bool := let n := nat_of_ascii c in (Nat.eqb n 32 || (Nat.leb 9 n && Nat.leb n 13))%bool.
Definition isdigit (c : ascii) : bool := let n := nat_of_ascii c in (Nat.leb 48 n && Nat.leb n 57)%bool.
Definition digit (c : ascii) : Z := Z.of_nat (nat_of_ascii c) - 48.
Fixpoint skip (s : chars) : chars := match s with c :: t => if isspace c then skip t else s | [] => [] end.
(** digits from the left, at most w of them: value so far, number of digits, what follows *)
Fixpoint digits (w : nat) (s : chars) (a : Z) (k : nat) : Z * nat * chars :=
  match w, s with
  | Datatypes.S w, c :: t => if isdigit c then digits w t (10 * a + digit c) (Datatypes.S k) else (a, k, s)
  | _, _ => (a, k, s)
  end.
Definition sign (s : chars) : bool * chars :=
  match s with c :: t => if Ascii.eqb c "-"%char then (true, t) else if Ascii.eqb c "+"%char then (false, t) else (false, s) | [] => (false, s) end.
Definition signed (neg : bool) (z : Z) : Z := if neg then - z else z.
(** atoi *)
Definition atoi (s : chars) : Z :=
  let '(neg, s) := sign (skip s) in let '(a, _, _) := digits (length s) s 0 0 in signed neg a.
(** sscanf "%d" and "%14d": the sign counts as one of the w characters *)
Definition scan_d (w : nat) (s : chars) : option (Z * chars) :=
  let s1 := skip s in let '(neg, s2) := sign s1 in
  let '(a, k, r) := digits (if Nat.eqb (length s1) (length s2) then w else Nat.pred w) s2 0 0 in
  match k with O => None | _ => Some (signed neg a, r) end.
(** as many as can be read, at most m *)
Fixpoint scan_ds (m w : nat) (s : chars) : list Z :=
  match m with
  | O => []
  | Datatypes.S m => match scan_d w s with Some (z, r) => z :: scan_ds m w r | None => [] end
  end.
(** sscanf "%s" *)
Fixpoint nonblank (s : chars) : chars * chars :=
  match s with c :: t => if isspace c then ([], s) else let '(a, r) := nonblank t in (c :: a, r) | [] => ([], []) end.
Definition scan_s (s : chars) : option (chars * chars) := match nonblank (skip s) with ([], _) => None | (w, r) => Some (w, r) end.
(** strchr: what precedes and what follows the first c *)
Fixpoint strchr (c : ascii) (s : chars) : option (chars * chars) :=
  match s with
  | [] => None
  | x :: s => if Ascii.eqb x c then Some ([], s) else match strchr c s with Some (a, b) => Some (x :: a, b) | None => None end
  end.

(** lis_input_hb_get_fmt, lis_input_hb.c:106-141, on the string of [size] characters.  j0, j1: what
    iter and width pointed at.  (The NUL stored at the dot changes neither atoi.) *)
Definition get_fmt (j0 j1 : Z) (s : chars) : res (Z * Z) :=
  let tmp := map lower_char s in
  match strchr "("%char tmp with
  | None => Ok (0, 0)
  | Some (_, s) =>
      match strchr ")"%char s with
      | None => UB                                    (* *p = '\0' with p==NULL *)
      | Some (s, _) =>
          match strchr "i"%char s with
          | Some (a, b) => Ok (atoi a, atoi b)
          | None =>
              match (match strchr "e"%char s with Some ab => Some ab | None => strchr "d"%char s end) with
              | None => Ok (j0, j1)                   (* return LIS_FAILS, which no caller looks at *)
              | Some (a, b) => match strchr "."%char s with None => UB | Some _ => Ok (atoi a, atoi b) end
              end
          end
      end
  end.

Section M.
Context {T : Type} {S : Scalar T}.
Variable J : Z -> Z -> Z.
Variable JV : Z -> Z -> T.
(** the number nearest to m * 10^e *)
Variable of_dec : Z -> Z -> T.

(** atof: [+-] digits [. digits] [ (e|E) [+-] digits ] *)
Definition atof (s : chars) : T :=
  let '(neg, s) := sign (skip s) in
  let '(a, k, s) := digits (length s) s 0 0 in
  let '(a, kf, s) := match s with c :: t => if Ascii.eqb c "."%char then digits (length t) t a 0 else (a, O, s) | [] => (a, O, s) end in
  if Nat.eqb (k + kf) 0 then of_dec 0 0
  else
    let ex := match s with
      | c :: t => if Ascii.eqb (lower_char c) "e"%char then
            let '(ne, t) := sign t in let '(x, kx, _) := digits (length t) t 0 0 in if Nat.eqb kx 0 then 0 else signed ne x
          else 0
      | [] => 0 end in
    of_dec (signed neg a) (ex - Z.of_nat kf).

(** strncpy(dat, p, w); dat[w] = '\0'; p = buf + off, char dat[128] *)
Definition field (buf : chars) (off w : Z) : res chars :=
  if (0 <=? w) && (w <? 128) && (0 <=? off) && (off <=? 1024) then cstr (Z.to_nat w) (skipn (Z.to_nat off) buf) else UB.
(** for(j=0;j<iter&&k<cnt;j++) { ...; a[k] = conv(dat); p += w; k++; } *)
Fixpoint fields {X} (m : nat) (w cnt : Z) (conv : chars -> X) (buf : chars) (off k : Z) (a : list X) : res (Z * list X) :=
  match m with
  | O => Ok (k, a)
  | Datatypes.S m => if k <? cnt then (d <- field buf off w ;; a <- wr a k (conv d) ;; fields m w cnt conv buf (off + w) (k + 1) a) else Ok (k, a)
  end.
(** for( i=0; i<crd; i++ ) { fgets; the loop above }: buffer, rest of the file, k, a *)
Fixpoint records {X} (crd : nat) (iter w cnt : Z) (conv : chars -> X) (f : list chars) (buf : chars) (k : Z) (a : list X) : res (chars * list chars * Z * list X) :=
  match crd with
  | O => Ok (buf, f, k, a)
  | Datatypes.S crd =>
      ' (buf, f) <- gets f buf ;;
      ' (k, a) <- fields (Z.to_nat iter) w cnt conv buf 0 k a ;;
      records crd iter w cnt conv f buf k a
  end.

(** lines 1 to 4, lis_input_hb.c:177-275, and line 5, 287-323 *)
Record hbhead := mkHead { h_n : Z; h_nnz : Z; h_ptrcrd : Z; h_indcrd : Z; h_valcrd : Z;
  h_ip : Z; h_wp : Z; h_ii : Z; h_wi : Z; h_iv : Z; h_wv : Z }.
Definition char_at (s : chars) (i : nat) : ascii := nth i s NUL.
(** sscanf("%s...") into char mtx[64] *)
Definition fits (s : chars) : bool := Nat.leb (length s) 63.
Definition hb_head (f : list chars) (buf : chars) : res (hbhead * list chars * chars) :=
  ' (buf, f) <- gets f buf ;;
  ' (buf, f) <- gets f buf ;;
  ' (ptrcrd, indcrd, valcrd, rhscrd) <-
      match scan_ds 5 14 (text buf) with
      | [_; p; i; v] => Ok (p, i, v, 0)
      | [_; p; i; v; r] => Ok (p, i, v, r)
      | _ => Err LIS_ERR_FILE_IO
      end ;;
  ' (buf, f) <- gets f buf ;;
  ' (mtx, nrow, ncol, nnz) <-
      match scan_s (text buf) with
      | None => Err LIS_ERR_FILE_IO
      | Some (mtx, r) => if negb (fits mtx) then UB else
          match scan_ds 4 (length r) r with [a; b; c; _] => Ok (map lower_char mtx, a, b, c) | _ => Err LIS_ERR_FILE_IO end
      end ;;
  if negb (Ascii.eqb (char_at mtx 0) "r"%char) then Err LIS_ERR_FILE_IO
  else if negb (Ascii.eqb (char_at mtx 1) "u"%char) then Err LIS_ERR_FILE_IO
  else if negb (Ascii.eqb (char_at mtx 2) "a"%char) then Err LIS_ERR_FILE_IO
  else if negb (nrow =? ncol) then Err LIS_ERR_FILE_IO
  else
    ' (buf, f) <- gets f buf ;;
    s <- cstr 16 buf ;; ' (ip, wp) <- get_fmt (J 10 0) (J 10 1) s ;;
    s <- cstr 16 (skipn 16 buf) ;; ' (ii, wi) <- get_fmt (J 10 2) (J 10 3) s ;;
    s <- cstr 20 (skipn 32 buf) ;; ' (iv, wv) <- get_fmt (J 10 4) (J 10 5) s ;;
    s <- cstr 20 (skipn 52 buf) ;; ' (_, _) <- get_fmt (J 10 6) (J 10 7) s ;;
    ' (buf, f) <- (if negb (rhscrd =? 0) then
        ' (buf, f) <- gets f buf ;; match scan_s (text buf) with Some (mtx, _) => if fits mtx then Ok (buf, f) else UB | None => Ok (buf, f) end
      else Ok (buf, f)) ;;
    Ok (mkHead nrow nnz ptrcrd indcrd valcrd ip wp ii wi iv wv, f, buf).

(** the data, lis_input_hb.c:325-413: ptr, index, value of the CSC matrix *)
Definition hb_data (h : hbhead) (f : list chars) (buf : chars) : res (csc T) :=
  let n := h_n h in let nnz := h_nnz h in
  if nnz <? 0 then Err LIS_ERR_OUT_OF_MEMORY else
  ' (buf, f, _, ptr) <- records (Z.to_nat (h_ptrcrd h)) (h_ip h) (h_wp h) (n + 1) (fun d => atoi d - 1) f buf 0 (alloc (n + 1) (J 0)) ;;
  ' (buf, f, _, index) <- records (Z.to_nat (h_indcrd h)) (h_ii h) (h_wi h) nnz (fun d => atoi d - 1) f buf 0 (alloc nnz (J 1)) ;;
  ' (_, _, _, value) <- records (Z.to_nat (h_valcrd h)) (h_iv h) (h_wv h) nnz atof f buf 0 (alloc nnz (JV 0)) ;;
  Ok (mkCsc n n nnz ptr index value).

(** lis_input_hb_csr, 143-466, and lis_input_hb, 59-104.  The buffer is uninitialised: [b0].  Result:
    return code and A (b and x are not touched). *)
Definition input_hb (b0 : chars) (A : mobj T) (f : list chars) : res (Z * mobj T) :=
  let ty := ob_type A in
  match hb_head f b0 with
  | UB => UB
  | Err e => Ok (e, A)
  | Ok (h, f, buf) =>
      let '(err, A) := obj_size (h_n h) A in
      if negb (err =? LIS_SUCCESS) then Ok (err, A)
      else match hb_data h f buf with
      | UB => UB
      | Err e => Ok (e, A)
      | Ok C =>
          let '(err, A) := store (MCsc C) A in
          if negb (err =? LIS_SUCCESS) then Ok (err, A)
          else if ty =? 2 then Ok (LIS_SUCCESS, A)
          else
            B <- convert_csc2csr (J 2) (J 3) (J 4) (JV 1) C ;;
            let '(err, B) := store (MCsr B) (mkObj MNULL 1 (ob_n A) (ob_np A) None None) in
            if negb (err =? LIS_SUCCESS) then Ok (err, A)
            else
              ' (err, A, _, _) <- input_mm_to J JV ty 1 (LIS_SUCCESS, B, None, None) ;; Ok (err, A)
      end
  end.
End M.
