(** Model of the Matrix Market, PLAIN and LIS file input and output (src/system/lis_input.c,
    lis_input_mm.c, lis_output.c, lis_output_mm.c): one process, real scalars, 32-bit LIS_INT
    (not _LONG__LONG), no OpenMP.  Harwell-Boeing files: Hb.v.

    A text file is a list of lines, a line the list of its blank-separated tokens.
    Simplifications: no line is longer than the buffer (1024); no token longer than 63
    characters; a printed number is read back as itself (%28.20e prints 21 significant digits,
    enough for a double); a token that starts like a number but is not one, and infinities and
    NaNs, do not occur; integers fit LIS_INT.
    A record written with fwrite is a line too.  [e] is the byte order of the machine that wrote
    it (1 little, 0 big); on a machine of the other order a field is read byte-reversed. *)
Require Import ZArith List Bool String Ascii.
From Verif Require Import Base Scalar Spec Split Copy Convert.
Import ListNotations.
Open Scope Z_scope.

(** lis.h:55-64 *)
Definition FMT_PLAIN : Z := 1.
Definition FMT_MM : Z := 2.
Definition FMT_LIS : Z := 3.
Definition FMT_HB : Z := 7.
Definition FMT_MMB : Z := 8.
(** result used for the part that is not modelled *)
Definition NOT_MODELLED : Z := -1.

Inductive tok (T : Type) := TWord (s : string) | TInt (z : Z) | TNum (v : T).
Inductive line (T : Type) := Text (l : list (tok T)) | RecV (e i : Z) (v : T) | RecM (e i j : Z) (v : T).
Arguments TWord {T}. Arguments TInt {T}. Arguments TNum {T}.
Arguments Text {T}. Arguments RecV {T}. Arguments RecM {T}.

(** tolower and strncmp(s, pat, strlen(pat))==0 *)
Definition lower_char (c : ascii) : ascii :=
  let n := nat_of_ascii c in if (Nat.leb 65 n && Nat.leb n 90)%bool then ascii_of_nat (n + 32) else c.
Fixpoint lower (s : string) : string := match s with EmptyString => EmptyString | String c s => String (lower_char c) (lower s) end.
Definition starts (pat s : string) : bool := prefix pat s.

(** a vector object: the flag intvalue and the values (None: status LIS_VECTOR_NULL, value NULL) *)
Record vobj (T : Type) := mkVo { vo_int : bool; vo_val : option (list T) }.
Arguments mkVo {T}. Arguments vo_int {T}. Arguments vo_val {T}.

Section S.
Context {T : Type} {S : Scalar T}.
Variable J : Z -> Z -> Z.
Variable JV : Z -> Z -> T.
(** conversions between int and LIS_SCALAR (double); byte reversal of an int and of a double *)
Variable of_int : Z -> T.
Variable to_int : T -> Z.
Variable revI : Z -> Z.
Variable revV : T -> T.
(** byte order of this machine: int mode = 1; mode = *(char * )&mode *)
Variable me : Z.

Notation line := (line T).
Notation tok := (tok T).
Notation vobj := (vobj T).

(** *** scanning *)
(** %s: a numeral never equals one of the words tested for *)
Definition word (t : tok) : string := match t with TWord s => s | _ => "0"%string end.
(** %lg *)
Definition num (t : tok) : option T := match t with TWord _ => None | TInt z => Some (of_int z) | TNum v => Some v end.
(** sscanf(buf, "%d %d ...", ...) with k conversions: the integers read *)
Fixpoint scan_ints (k : nat) (l : list tok) : list Z :=
  match k, l with Datatypes.S k, TInt z :: l => z :: scan_ints k l | _, _ => [] end.
(** "%d %d %lg" and "%d %lg" and "%lg" *)
Definition scan_iiv (l : list tok) : option (Z * Z * T) :=
  match l with TInt i :: TInt j :: t :: _ => match num t with Some v => Some (i, j, v) | None => None end | _ => None end.
Definition scan_iv (l : list tok) : option (Z * T) :=
  match l with TInt i :: t :: _ => match num t with Some v => Some (i, v) | None => None end | _ => None end.
Definition scan_v (l : list tok) : option T := match l with t :: _ => num t | [] => None end.

(** fgets; NULL at the end of the file.  Text functions on a binary record: outside the model. *)
Definition fgets (f : list line) : res (list tok * list line) :=
  match f with [] => Err LIS_ERR_FILE_IO | Text l :: f => Ok (l, f) | _ => UB end.
(** buf[0]=='%' *)
Definition is_comment (l : list tok) : bool :=
  match l with TWord (String c _) :: _ => Ascii.eqb c "%"%char | _ => false end.
(** do fgets while( buf[0]=='%' ) *)
Fixpoint skip_comments (f : list line) : res (list tok * list line) :=
  match f with
  | [] => Err LIS_ERR_FILE_IO
  | Text l :: f => if is_comment l then skip_comments f else Ok (l, f)
  | _ => UB
  end.

(** sscanf(buf, "%s %s %s %s %s", ...): with fewer words some of the buffers stay uninitialised
    and are then read *)
Definition five_words (l : list tok) : res (string * string * string * string * string) :=
  match l with
  | a :: b :: c :: d :: e :: _ => Ok (word a, lower (word b), lower (word c), lower (word d), lower (word e))
  | _ => UB
  end.

(** lis_input_mm_banner, lis_input_mm.c:322-409, without _COMPLEX: mmfmt (0 coordinate,
    1 array), mmstruct (0 general, 1 symmetric); mmtype is always MM_REAL *)
Definition mm_banner (f : list line) : res (Z * Z * list line) :=
  ' (l, f) <- fgets f ;;
  ' (banner, mtx, fmt, dtype, dstruct) <- five_words l ;;
  if negb (starts "%%MatrixMarket" banner) || negb (starts "matrix" mtx) then Err LIS_ERR_FILE_IO
  else if negb (starts "coordinate" fmt) && negb (starts "array" fmt) then Err LIS_ERR_FILE_IO
  else if negb (starts "real" dtype) then Err LIS_ERR_FILE_IO
  else if starts "general" dstruct then Ok (if starts "coordinate" fmt then 0 else 1, 0, f)
  else if starts "symmetric" dstruct then Ok (if starts "coordinate" fmt then 0 else 1, 1, f)
  else Err LIS_ERR_FILE_IO.

Record mmsize := mkSize { sz_nr : Z; sz_nnz : Z; sz_isb : Z; sz_isx : Z; sz_isbin : Z }.
(** lis_input_mm_size, lis_input_mm.c:411-459.  With 0, 1 or 4 numbers on the line some of the
    results stay uninitialised and are used. *)
Definition mm_size (f : list line) : res (mmsize * list line) :=
  ' (l, f) <- skip_comments f ;;
  ' (nr, nc, s) <- match scan_ints 6 l with
       | [nr; nc] => Ok (nr, nc, mkSize nr (nr * nc) 0 0 0)
       | [nr; nc; nnz] => Ok (nr, nc, mkSize nr nnz 0 0 0)
       | [nr; nc; nnz; isb; isx] => Ok (nr, nc, mkSize nr nnz isb isx 0)
       | [nr; nc; nnz; isb; isx; isbin] => Ok (nr, nc, mkSize nr nnz isb isx isbin)
       | _ => UB
       end ;;
  if negb (nr =? nc) then Err LIS_ERR_FILE_IO else Ok (s, f).

(** a field written by a machine of byte order e as this machine sees it *)
Definition rawI (e i : Z) : Z := if e =? me then i else revI i.
Definition rawV (e : Z) (v : T) : T := if e =? me then v else revV v.
(** mode != isbin-1 *)
Definition swap_mode (isbin : Z) : bool := negb (me =? isbin - 1).

(** one matrix element: lis_input_mm.c:781-834 and 895-946 *)
Definition next_mat (isbin : Z) (f : list line) : res (Z * Z * T * list line) :=
  if negb (isbin =? 0) then
    match f with
    | [] => Err LIS_ERR_FILE_IO
    | RecM e i j v :: f => let i := rawI e i in let j := rawI e j in let v := rawV e v in
        Ok (if swap_mode isbin then (revI i, revI j, revV v, f) else (i, j, v, f))
    | _ => UB
    end
  else
    ' (l, f) <- fgets f ;;
    match scan_iiv l with Some (i, j, v) => Ok (i, j, v, f) | None => Err LIS_ERR_FILE_IO end.
(** one vector element: lis_input_mm.c:179-223 *)
Definition next_vec (isbin : Z) (f : list line) : res (Z * T * list line) :=
  if negb (isbin =? 0) then
    match f with
    | [] => Err LIS_ERR_FILE_IO
    | RecV e i v :: f => let i := rawI e i in let v := rawV e v in Ok (if swap_mode isbin then (revI i, revV v, f) else (i, v, f))
    | _ => UB
    end
  else
    ' (l, f) <- fgets f ;;
    match scan_iv l with Some (i, v) => Ok (i, v, f) | None => Err LIS_ERR_FILE_IO end.

(** *** lis_input_mm_csr, lis_input_mm.c:697-1050 *)
(** first pass, 779-853: ptr[i+1] counts the elements of row i, work[i] those that the
    symmetric counterpart adds; is = 0, ie = n *)
Definition mm_count (symm : bool) (n nnz isbin : Z) (f : list line) : res (list line * list Z * list Z) :=
  for_ 0 nnz (fun _ s =>
    let '(f, ptr, work) := s in
    ' (ridx, cidx, _, f) <- next_mat isbin f ;;
    work <- (if symm && negb (ridx =? cidx) then (if (0 <? cidx) && (cidx <=? n) then incr work (cidx - 0 - 1) else Ok work) else Ok work) ;;
    ptr <- (if (0 <? ridx) && (ridx <=? n) then incr ptr (ridx - 0) else Ok ptr) ;;
    Ok (f, ptr, work)) (f, alloc (n + 1) (fun _ => 0), alloc (n + 1) (fun _ => 0)).
(** 856-873 *)
Definition mm_ptr (symm : bool) (n : Z) (ptr work : list Z) : res (list Z * list Z) :=
  ptr <- wr ptr 0 0 ;;
  for_ 0 n (fun i s =>
    let '(ptr, work) := s in
    a <- rd ptr (i + 1) ;; p <- rd ptr i ;; w <- rd work i ;;
    ptr <- wr ptr (i + 1) (if symm then a + (p + w) else a + p) ;;
    work <- wr work i 0 ;;
    Ok (ptr, work)) (ptr, work).
(** 894-1019 *)
Definition mm_fill (symm : bool) (n nnz isbin : Z) (f : list line) (ptr work index : list Z) (value : list T) : res (list line * list Z * list Z * list T) :=
  for_ 0 nnz (fun _ s =>
    let '(f, work, index, value) := s in
    ' (ridx, cidx, val, f) <- next_mat isbin f ;;
    let ridx := ridx - 1 in let cidx := cidx - 1 in
    ' (work, index, value) <-
      (if symm && negb (ridx =? cidx) && ((0 <=? cidx) && (cidx <? n)) then
         p <- rd ptr (cidx - 0) ;; w <- rd work (cidx - 0) ;;
         value <- wr value (p + w) val ;; index <- wr index (p + w) ridx ;; work <- incr work (cidx - 0) ;; Ok (work, index, value)
       else Ok (work, index, value)) ;;
    ' (work, index, value) <-
      (if (0 <=? ridx) && (ridx <? n) then
         p <- rd ptr (ridx - 0) ;; w <- rd work (ridx - 0) ;;
         value <- wr value (p + w) val ;; index <- wr index (p + w) cidx ;; work <- incr work (ridx - 0) ;; Ok (work, index, value)
       else Ok (work, index, value)) ;;
    Ok (f, work, index, value)) (f, work, index, value).
(** everything between the size line and lis_matrix_set_csr; f0 is the whole file (rewind) *)
Definition mm_read_csr (symm : bool) (sz : mmsize) (f0 f : list line) : res (csr T * list line) :=
  let n := sz_nr sz in
  ' (_, ptr, work) <- mm_count symm n (sz_nnz sz) (sz_isbin sz) f ;;
  ' (ptr, work) <- mm_ptr symm n ptr work ;;
  total <- rd ptr n ;;
  let index := alloc total (J 0) in let value := alloc total (JV 0) in
  ' (index, value) <- for_ptr n ptr (fun _ j s => index <- wr (fst s) j 0 ;; value <- wr (snd s) j s0 ;; Ok (index, value)) (index, value) ;;
  ' (_, f) <- fgets f0 ;;
  ' (_, f) <- skip_comments f ;;
  ' (f, _, index, value) <- mm_fill symm n (sz_nnz sz) (sz_isbin sz) f ptr work index value ;;
  Ok (mkCsr n n total ptr index value, f).

(** *** lis_input_mm_vec, lis_input_mm.c:146-318, for a matrix of size n = gn.
    lis_vector_set_size(b,n,0) gives n zeros; its result is not tested *)
Definition mm_vec_part (n isbin : Z) (f : list line) : res (list T * list line) :=
  for_ 0 n (fun _ s =>
    let '(v, f) := s in
    ' (idx, val, f) <- next_vec isbin f ;;
    let idx := idx - 1 in
    v <- (if (0 <=? idx) && (idx <? n) then wr v (idx - 0) val else Ok v) ;; Ok (v, f)) (alloc n (fun _ => s0), f).
Definition mm_vec (n isb isx isbin : Z) (b x : vobj) (f : list line) : res (vobj * vobj) :=
  if (isb =? 0) && (isx =? 0) then Ok (b, x)
  else
    ' (b, f) <- (if negb (isb =? 0) then ' (v, f) <- mm_vec_part n isbin f ;; Ok (mkVo (vo_int b) (Some v), f) else Ok (b, f)) ;;
    ' (x, f) <- (if negb (isx =? 0) then ' (v, f) <- mm_vec_part n isbin f ;; Ok (mkVo (vo_int x) (Some v), f) else Ok (x, f)) ;;
    Ok (b, x).

(** lis_matrix_set_size(A,0,nr), see Assemble.set_size *)
Definition obj_size (nr : Z) (A : mobj T) : Z * mobj T :=
  if nr <=? 0 then (LIS_ERR_ILL_ARG, A) else (LIS_SUCCESS, mkObj MNULL (ob_type A) nr nr (ob_mat A) (ob_split A)).

(** objects after an input: return code, A, b, x *)
Definition outcome : Type := Z * mobj T * option vobj * option vobj.

(** lis_input_mm_csr.  None: a NULL pointer.  When lis_input_mm_vec fails, work is freed twice. *)
Definition input_mm_csr (A : mobj T) (b x : option vobj) (mmstruct : Z) (f0 f : list line) : res outcome :=
  match mm_size f with
  | UB => UB
  | Err e => Ok (e, A, b, x)
  | Ok (sz, f) =>
      let '(err, A) := obj_size (sz_nr sz) A in
      if negb (err =? LIS_SUCCESS) then Ok (err, A, b, x)
      else match mm_read_csr (mmstruct =? 1) sz f0 f with
      | UB => UB
      | Err e => Ok (e, A, b, x)
      | Ok (B, f) =>
          let '(err, A) := store (MCsr B) A in
          if negb (err =? LIS_SUCCESS) then Ok (err, A, b, x)
          else match b, x with
          | Some b, Some x =>
              match mm_vec (sz_nr sz) (sz_isb sz) (sz_isx sz) (sz_isbin sz) b x f with
              | Ok (b, x) => Ok (LIS_SUCCESS, A, Some b, Some x)
              | _ => UB
              end
          | _, _ => Ok (LIS_SUCCESS, A, b, x)
          end
      end
  end.

(** *** lis_input_mm_dns, lis_input_mm.c:461-695; a binary file's values are read but not stored *)
Definition next_dns (isbin : Z) (f : list line) : res (T * list line) :=
  if negb (isbin =? 0) then
    match f with [] => Err LIS_ERR_FILE_IO | RecM _ _ _ v :: f => Ok (v, f) | _ => UB end
  else
    ' (l, f) <- fgets f ;;
    match scan_v l with Some v => Ok (v, f) | None => Err LIS_ERR_FILE_IO end.
Definition mm_read_dns (sz : mmsize) (f0 f : list line) : res (dns T * list line) :=
  let n := sz_nr sz in
  _ <- for_ 0 (n * n) (fun _ f => ' (_, f) <- next_dns (sz_isbin sz) f ;; Ok f) f ;;
  value <- for_ 0 (n * n) (fun i v => wr v i s0) (alloc (n * n) (JV 0)) ;;
  ' (_, f) <- fgets f0 ;;
  ' (_, f) <- skip_comments f ;;
  ' (value, f) <- for_ 0 (n * n) (fun i s =>
      let '(value, f) := s in
      ' (v, f) <- next_dns (sz_isbin sz) f ;;
      value <- (if sz_isbin sz =? 0 then wr value i v else Ok value) ;; Ok (value, f)) (value, f) ;;
  Ok (mkDns n n value, f).
Definition input_mm_dns (A : mobj T) (b x : option vobj) (f0 f : list line) : res outcome :=
  match mm_size f with
  | UB => UB
  | Err e => Ok (e, A, b, x)
  | Ok (sz, f) =>
      let '(err, A) := obj_size (sz_nr sz) A in
      if negb (err =? LIS_SUCCESS) then Ok (err, A, b, x)
      else match mm_read_dns sz f0 f with
      | UB => UB
      | Err e => Ok (e, A, b, x)
      | Ok (B, f) =>
          let '(err, A) := store (MDns B) A in
          if negb (err =? LIS_SUCCESS) then Ok (err, A, b, x)
          else match b, x with
          | Some b, Some x =>
              match mm_vec (sz_nr sz) (sz_isb sz) (sz_isx sz) (sz_isbin sz) b x f with
              | Ok (b, x) => Ok (LIS_SUCCESS, A, Some b, Some x)
              | Err _ => Ok (LIS_SUCCESS, mkObj (ob_status A) (ob_type A) (ob_n A) (ob_np A) None (ob_split A), Some b, Some x)
              | UB => UB
              end
          | _, _ => Ok (LIS_SUCCESS, A, b, x)
          end
      end
  end.

(** lis_input_mm, lis_input_mm.c:60-143: what was read is converted to the type A was set to
    (default block size), and the result of the reading is forgotten if there is a conversion *)
Definition input_mm_to (ty ty0 : Z) (o : outcome) : res outcome :=
  let '(err, A, b, x) := o in
  if ty =? ty0 then Ok o
  else if ob_status A =? DECIDING_SIZE then Ok (LIS_ERR_ILL_ARG, A, b, x)
  else
    ' (err, B) <- convert J JV false false conv_init A (mkObj MNULL ty (ob_n A) (ob_np A) None None) ;;
    Ok (if err =? LIS_SUCCESS then (LIS_SUCCESS, B, b, x) else (err, A, b, x)).
Definition input_mm (A : mobj T) (b x : option vobj) (f0 : list line) : res outcome :=
  match mm_banner f0 with
  | UB => UB
  | Err e => Ok (e, A, b, x)
  | Ok (fmt, struct, f) =>
      if fmt =? 0 then (o <- input_mm_csr A b x struct f0 f ;; input_mm_to (ob_type A) 1 o)
      else (o <- input_mm_dns A b x f0 f ;; input_mm_to (ob_type A) 11 o)
  end.

(** first word of the file; sscanf on a blank line leaves it uninitialised *)
Definition first_word (f : list line) : res string :=
  ' (l, _) <- fgets f ;; match l with t :: _ => Ok (word t) | [] => UB end.
(** lis_input, lis_input.c:65-169 and lis_input_matrix, 172-185.  None: fopen failed *)
Definition input (A : mobj T) (b x : option vobj) (file : option (list line)) : res outcome :=
  match file with
  | None => Ok (LIS_ERR_FILE_IO, A, b, x)
  | Some f =>
      match first_word f with
      | UB => UB
      | Err e => Ok (e, A, b, x)
      | Ok w => if starts "%%MatrixMarket" w then input_mm A b x f else Ok (NOT_MODELLED, A, b, x)
      end
  end.
Definition input_matrix (A : mobj T) (file : option (list line)) : res (Z * mobj T) :=
  ' (err, A, _, _) <- input A None None file ;; Ok (err, A).

(** *** lis_input_vector_mm, lis_input.c:251-398 *)
Definition input_vector_mm (v : vobj) (f : list line) : res (Z * vobj) :=
  match (' (l, f) <- fgets f ;;
         ' (banner, mtx, fmt, dtype, dstruct) <- five_words l ;;
         if negb (starts "%%MatrixMarket" banner) || negb (starts "vector" mtx) then Err LIS_ERR_FILE_IO
         else if negb (starts "coordinate" fmt) && negb (starts "array" fmt) then Err LIS_ERR_FILE_IO
         else if negb (starts "real" dtype) then Err LIS_ERR_FILE_IO
         else if negb (starts "general" dstruct) then Err LIS_ERR_FILE_IO
         else
           ' (l, f) <- skip_comments f ;;
           match scan_ints 1 l with [n] => if n <? 0 then Err LIS_ERR_ILL_ARG else Ok (n, f) | _ => Err LIS_ERR_FILE_IO end) with
  | UB => UB
  | Err e => Ok (e, v)
  | Ok (n, f) =>
      (* what was stored before an error stays in v; simplification: v is left unsized then *)
      match mm_vec_part n 0 f with
      | UB => UB
      | Err e => Ok (e, v)
      | Ok (a, _) => Ok (LIS_SUCCESS, mkVo (vo_int v) (Some a))
      end
  end.

(** fscanf(file, "%lg", ...) skips line ends: the tokens up to the end of the file *)
Definition tokens (f : list line) : list tok := flat_map (fun l => match l with Text l => l | _ => [] end) f.
(** lis_input_vector_plain, lis_input.c:401-446 *)
Fixpoint count_nums (l : list tok) : Z := match l with t :: l => match num t with Some _ => 1 + count_nums l | None => 0 end | [] => 0 end.
Definition input_vector_plain (v : vobj) (f0 : list line) : res (Z * vobj) :=
  let n := count_nums (tokens f0) in
  match for_ 0 n (fun i s =>
      let '(a, f) := s in
      ' (l, f) <- fgets f ;;
      match scan_v l with Some x => a <- wr a (i - 0) x ;; Ok (a, f) | None => Err LIS_ERR_FILE_IO end) (alloc n (fun _ => s0), f0) with
  | UB => UB
  | Err e => Ok (e, v)
  | Ok (a, _) => Ok (LIS_SUCCESS, mkVo (vo_int v) (Some a))
  end.

(** lis_fscan_scalar, lis_input.c:600-619: fscanf returns 1 after a number, which ends the loop;
    [j]: what double_value holds when nothing was read.  Returns err and val[] *)
Definition fscan_scalar (j : T) (n : Z) (ts : list tok) (val : list T) : res (Z * list T) :=
  if n <=? 0 then Ok (LIS_SUCCESS, val)
  else match ts with
  | [] => val <- wr val 0 j ;; Ok (-1, val)
  | t :: _ =>
      match num t with
      | Some v => val <- wr val 0 v ;; Ok (1, val)
      | None => val <- for_ 0 n (fun i val => wr val i j) val ;; Ok (LIS_SUCCESS, val)
      end
  end.
(** the line "# pe n" of this process (pe = 0), lis_input.c:565-585 *)
Fixpoint lis_find (f : list line) : res (Z * list line) :=
  match f with
  | [] => Err LIS_ERR_FILE_IO
  | Text (TWord (String c r) :: l) :: f =>
      if Ascii.eqb c "#"%char then
        match r, l with
        | EmptyString, TInt pe :: TInt n :: _ => if pe =? 0 then Ok (n, f) else lis_find f
        | _, _ => Err LIS_ERR_FILE_IO
        end
      else lis_find f
  | Text _ :: f => lis_find f
  | _ => UB
  end.
(** lis_input_vector_lis_ascii, lis_input.c:518-597, one process *)
Definition input_vector_lis_ascii (v : vobj) (f : list line) : res (Z * vobj) :=
  match (' (l, f) <- fgets f ;;
         match scan_ints 1 l with
         | [p] => if negb (p =? 1) then Err LIS_ERR_FILE_IO else
             ' (n, f) <- lis_find f ;;
             if n <? 0 then Err LIS_ERR_ILL_ARG else Ok (n, f)
         | _ => Err LIS_ERR_FILE_IO
         end) with
  | UB => UB
  | Err e => Ok (e, v)
  | Ok (n, f) =>
      ' (err, a) <- fscan_scalar (JV 0 0) n (tokens f) (alloc n (fun _ => s0)) ;;
      Ok (if err =? LIS_SUCCESS then LIS_SUCCESS else LIS_ERR_FILE_IO, mkVo (vo_int v) (Some a))
  end.
(** lis_input_vector_lis, lis_input.c:449-515: the result of lis_input_vector_lis_ascii is
    dropped; for a binary file the 10 returned by fread is taken for an error *)
Definition input_vector_lis (v : vobj) (f : list line) : res (Z * vobj) :=
  match fgets f with
  | UB => UB
  | Err e => Ok (e, v)
  | Ok (l, f) =>
      match l with
      | a :: b :: c :: _ =>
          if negb (starts "#LIS" (word a)) then Ok (LIS_ERR_FILE_IO, v)
          else if starts "B" (word b) || starts "L" (word b) then Ok (10, v)
          else if starts "vec" (word c) then (' (_, v) <- input_vector_lis_ascii v f ;; Ok (LIS_SUCCESS, v))
          else Ok (LIS_ERR_FILE_IO, v)
      | _ => UB
      end
  end.
(** lis_input_vector, lis_input.c:188-247 *)
Definition input_vector (v : vobj) (file : option (list line)) : res (Z * vobj) :=
  match file with
  | None => Ok (LIS_ERR_FILE_IO, v)
  | Some f =>
      match first_word f with
      | UB => UB
      | Err e => Ok (e, v)
      | Ok w => if starts "%%MatrixMarket" w then input_vector_mm v f
                else if starts "#LIS" w then input_vector_lis v f
                else input_vector_plain v f
      end
  end.

(** *** output *)
(** lis_vector_is_null(v), lis_vector.c: v is dereferenced *)
Definition is_null (v : option vobj) : res bool := match v with None => UB | Some v => Ok (match vo_val v with None => true | Some _ => false end) end.
Definition value (v : option vobj) : res (list T) := match v with Some (mkVo _ (Some a)) => Ok a | _ => UB end.
Definition intvalue (v : option vobj) : res bool := match v with Some v => Ok (vo_int v) | None => UB end.

(** lis_output_mm_header, lis_output_mm.c:405-468.  [can_open]: does fopen succeed?  The result
    of fopen is not tested (the test is of file, not of *file). *)
Definition mm_banner_line (mtx dtype : string) : line := Text [TWord "%%MatrixMarket"; TWord mtx; TWord "coordinate"; TWord dtype; TWord "general"].
Definition output_mm_header (gn nnz : Z) (b x : option vobj) (format : Z) (can_open : bool) : res (list line) :=
  nb <- is_null b ;; nx <- is_null x ;;
  let isb := if nb : bool then 0 else 1 in let isx := if nx : bool then 0 else 1 in
  if negb can_open then UB
  else Ok [mm_banner_line "matrix" "real";
           Text (if format =? FMT_MM then (if (isb =? 0) && (isx =? 0) then [TInt gn; TInt gn; TInt nnz] else [TInt gn; TInt gn; TInt nnz; TInt isb; TInt isx])
                 else [TInt gn; TInt gn; TInt nnz; TInt isb; TInt isx; TInt (me + 1)])].

(** lis_output_mm_vec, lis_output_mm.c:225-321.  The text branch for x prints b->value[i]
    unless x holds integers. *)
Definition output_mm_vec (n : Z) (b x : option vobj) (format : Z) (f : list line) : res (list line) :=
  nb <- is_null b ;;
  f <- (if nb : bool then Ok f else
        if format =? FMT_MM then
          for_ 0 n (fun i f => isint <- intvalue b ;; a <- value b ;; v <- rd a i ;; Ok (f ++ [Text [TInt (i + 1); if isint : bool then TInt (to_int v) else TNum v]])) f
        else for_ 0 n (fun i f => a <- value b ;; v <- rd a i ;; Ok (f ++ [RecV me (i + 1) v])) f) ;;
  nx <- is_null x ;;
  (if nx : bool then Ok f else
   if format =? FMT_MM then
     for_ 0 n (fun i f => isint <- intvalue x ;;
        if isint : bool then (a <- value x ;; v <- rd a i ;; Ok (f ++ [Text [TInt (i + 1); TInt (to_int v)]]))
        else (a <- value b ;; v <- rd a i ;; Ok (f ++ [Text [TInt (i + 1); TNum v]]))) f
   else for_ 0 n (fun i f => a <- value x ;; v <- rd a i ;; Ok (f ++ [RecV me (i + 1) v])) f).

(** lis_output_mm_csr, lis_output_mm.c:600-725, CSR branch *)
Definition output_mm_csr (A : csr T) (b x : option vobj) (format : Z) (can_open : bool) : res (list line) :=
  f <- output_mm_header (csr_n A) (csr_nnz A) b x format can_open ;;
  f <- for_ptr (csr_n A) (csr_ptr A) (fun i j f =>
         c <- rd (csr_index A) j ;; v <- rd (csr_value A) j ;;
         let jj := c + 1 in
         Ok (f ++ [if format =? FMT_MM then Text [TInt (i + 1); TInt jj; TNum v] else RecM me (i + 1) jj v])) f ;;
  output_mm_vec (csr_n A) b x format f.

(** lis_output, lis_output.c:62-97: return code and the file (None: not written) *)
Definition output (A : mobj T) (b x : option vobj) (format : Z) (can_open : bool) : res (Z * option (list line)) :=
  if (ob_status A =? DECIDING_SIZE) || ((ob_status A <=? 0) && (0 <? ob_n A)) then Ok (LIS_ERR_ILL_ARG, None)
  else if (format =? FMT_MM) || (format =? FMT_MMB) then
    if ob_type A =? 1 then
      match ob_split A, ob_mat A with
      | None, Some (MCsr B) => f <- output_mm_csr B b x format can_open ;; Ok (LIS_SUCCESS, Some f)
      | _, _ => UB
      end
    else
      ' (err, C) <- convert J JV false false conv_init A (mkObj MNULL 1 (ob_n A) (ob_np A) None None) ;;
      if negb (err =? LIS_SUCCESS) then Ok (err, None)
      else match ob_mat C with
      | Some (MCsr B) => f <- output_mm_csr B b x format can_open ;; Ok (LIS_SUCCESS, Some f)
      | _ => UB
      end
  else Ok (LIS_SUCCESS, None).
(** lis_output_matrix, lis_output.c:99-142: b and x are fresh, empty vectors; the return code is
    that of lis_vector_destroy, except for the early returns *)
Definition output_matrix (A : mobj T) (format : Z) (can_open : bool) : res (Z * option (list line)) :=
  output A (Some (mkVo false None)) (Some (mkVo false None)) format can_open.

(** lis_output_vector_plain / _mm / _lis_ascii, lis_output.c:179-582, one process, v->n elements *)
Definition print_elem (v : vobj) (i : Z) : res tok :=
  a <- value (Some v) ;; x <- rd a i ;; Ok (if vo_int v then TInt (to_int x) else TNum x).
Definition output_vector_plain (v : vobj) (n : Z) : res (list line) :=
  for_ 0 n (fun i f => t <- print_elem v i ;; Ok (f ++ [Text [t]])) [].
Definition output_vector_mm (v : vobj) (n : Z) : res (list line) :=
  for_ 0 n (fun i f => t <- print_elem v i ;; Ok (f ++ [Text [TInt (i + 0 + 1); t]]))
    [mm_banner_line "vector" (if vo_int v then "integer" else "real"); Text [TInt n]].
(** three elements on a line, lis_output.c:553-579: cur is the current, unfinished line *)
Definition output_vector_lis (v : vobj) (n : Z) : res (list line) :=
  ' (f, cur) <- for_ 0 n (fun i s =>
      let '(f, cur) := s in
      t <- print_elem v i ;;
      let cur := cur ++ [t] in
      Ok (if (i + 1) mod 3 =? 0 then (f ++ [Text cur], []) else (f, cur)))
    ([Text [TWord "#LIS"; TWord "A"; TWord "vec"]; Text [TInt 1]; Text [TWord "#"; TInt 0; TInt n]], []) ;;
  Ok (if negb (n mod 3 =? 0) then f ++ [Text cur] else f).
(** lis_output_vector, lis_output.c:144-176; a vector without values has n = 0 *)
Definition vec_n (v : vobj) : Z := match vo_val v with Some a => zlen a | None => 0 end.
Definition output_vector (v : vobj) (format : Z) (can_open : bool) : res (Z * option (list line)) :=
  if negb ((format =? FMT_PLAIN) || (format =? FMT_MM) || (format =? FMT_LIS)) then Ok (LIS_ERR_ILL_ARG, None)
  else if negb can_open then Ok (LIS_ERR_FILE_IO, None)
  else
    f <- (if format =? FMT_PLAIN then output_vector_plain v (vec_n v)
          else if format =? FMT_MM then output_vector_mm v (vec_n v) else output_vector_lis v (vec_n v)) ;;
    Ok (LIS_SUCCESS, Some f).
End S.
