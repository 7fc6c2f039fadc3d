(** Model of lis_matrix_solve_vbr, lis_matrix_solveh_vbr (src/matrix/lis_matrix_vbr.c) and of
    lis_matrix_diag_inverse for blocks of different orders (one thread, double precision). *)
Require Import ZArith List Bool.
From Verif Require Import Base Scalar Spec Array BsrSolve SplitFmt VbrSplit.
Import ListNotations.
Open Scope Z_scope.

Section S.
Context {T : Type} {S : Scalar T}.

(** lis_matrix_diag_inverse, lis_matrix_diag.c:763-773 (D->bns != NULL) *)
Definition diag_inverse_vbr (nr : Z) (bns : list Z) (D : list (list T)) : res (list (list T)) :=
  for_ 0 nr (fun i D => bn <- rd bns i ;; a <- rd D i ;; a <- lis_array_ge bn a ;; wr D i a) D.

(** the inner loop of lis_array_matvec_ns (lis_array.c:645-685): t = sum of a[p+i+j*lda]*x[c+j] *)
Definition vdot (lda n : Z) (a : list T) (p i : Z) (x : list T) (c : Z) : res T :=
  for_ 0 n (fun j t => v <- rd a (p + i + j * lda) ;; y <- rd x (c + j) ;; Ok (sadd t (smul v y))) s0.
(** lis_array_matvec_ns(dim,sz,&a[p],dim,&x[c],&x[r],LIS_SUB_VALUE): source and result lie in x *)
Definition vsub_in (dim sz : Z) (a : list T) (p : Z) (x : list T) (c r : Z) : res (list T) :=
  for_ 0 dim (fun i x => t <- vdot dim sz a p i x c ;; y <- rd x (r + i) ;; wr x (r + i) (ssub y t)) x.
(** lis_array_matvec_ns(dim,dim,d,dim,&x[r],w,LIS_INS_VALUE) *)
Definition vmul (dim : Z) (d x : list T) (r : Z) (w : list T) : res (list T) :=
  for_ 0 dim (fun i w => t <- vdot dim dim d 0 i x r ;; wr w i t) w.
(** lis_array_matvec_ns(dim,sz,&a[p],dim,&x[c],w,LIS_ADD_VALUE) *)
Definition vadd (dim sz : Z) (a : list T) (p : Z) (x : list T) (c : Z) (w : list T) : res (list T) :=
  for_ 0 dim (fun i w => t <- vdot dim sz a p i x c ;; y <- rd w i ;; wr w i (sadd y t)) w.
(** lis_array_matvec_ns(dim,sz,&a[p],dim,w,&x[r],LIS_SUB_VALUE) *)
Definition vsub (dim sz : Z) (a : list T) (p : Z) (w x : list T) (r : Z) : res (list T) :=
  for_ 0 dim (fun i x => t <- vdot dim sz a p i w 0 ;; y <- rd x (r + i) ;; wr x (r + i) (ssub y t)) x.

(** the loop over the blocks of block row i (1516-1521, 1532-1537, ...); f gets the width of the block, its position and its first column *)
Definition vrow {St} (B : vbr T) (i : Z) (f : Z -> Z -> Z -> St -> res St) (s : St) : res St :=
  js <- rd (vbr_bptr B) i ;; je <- rd (vbr_bptr B) (i + 1) ;;
  for_ js je (fun j s =>
    jj <- rd (vbr_bindex B) j ;; c1 <- rd (vbr_col B) (jj + 1) ;; c0 <- rd (vbr_col B) jj ;;
    p <- rd (vbr_ptr B) j ;; f (c1 - c0) p c0 s) s.
(** dim = row[i+1]-row[i]; bnr = row[i] *)
Definition vdim (B : vbr T) (i : Z) : res (Z * Z) := r1 <- rd (vbr_row B) (i + 1) ;; r0 <- rd (vbr_row B) i ;; Ok (r1 - r0, r0).

(** one block row of LOWER and UPPER (1514-1523, 1530-1539); the state is (x, w) *)
Definition vstep (B : vbr T) (wd : list (list T)) (i : Z) (s : list T * list T) : res (list T * list T) :=
  let '(x, w) := s in
  ' (dim, r) <- vdim B i ;;
  x <- vrow B i (fun sz p c x => vsub_in dim sz (vbr_value B) p x c r) x ;;
  d <- rd wd i ;; w <- vmul dim d x r w ;;
  x <- memcpy dim x r w 0 ;; Ok (x, w).
(** LIS_SCALAR w[1024] (1497), never initialised *)
Definition vwork (jw : Z -> T) : list T := alloc 1024 jw.

(** lis_matrix_solve_vbr, lis_matrix_vbr.c:1494-1574; P = A->L, A->U, wd = A->WD *)
Definition solve_lower_vbr (jw : Z -> T) (P : vsplit T) (wd : list (list T)) (b x : list T) : res (list T) :=
  x <- copy_to (vs_n P) b x ;;
  ' (x, w) <- for_ 0 (vs_nr P) (vstep (vs_L P) wd) (x, vwork jw) ;; Ok x.
Definition solve_upper_vbr (jw : Z -> T) (P : vsplit T) (wd : list (list T)) (b x : list T) : res (list T) :=
  x <- copy_to (vs_n P) b x ;;
  ' (x, w) <- for_down (vs_nr P - 1) 0 (vstep (vs_U P) wd) (x, vwork jw) ;; Ok x.
(** 1542-1568 *)
Definition vcorrect (U : vbr T) (wd : list (list T)) (i : Z) (s : list T * list T) : res (list T * list T) :=
  let '(x, w) := s in
  ' (dim, r) <- vdim U i ;;
  w <- for_ 0 dim (fun k w => wr w k s0) w ;;
  w <- vrow U i (fun sz p c w => vadd dim sz (vbr_value U) p x c w) w ;;
  d <- rd wd i ;; x <- vsub dim dim d 0 w x r ;; Ok (x, w).
Definition solve_ssor_vbr (jw : Z -> T) (P : vsplit T) (wd : list (list T)) (b x : list T) : res (list T) :=
  x <- copy_to (vs_n P) b x ;;
  s <- for_ 0 (vs_nr P) (vstep (vs_L P) wd) (x, vwork jw) ;;
  ' (x, w) <- for_down (vs_nr P - 1) 0 (vcorrect (vs_U P) wd) s ;; Ok x.

(** lis_matrix_solveh_vbr, lis_matrix_vbr.c:1576-1660: LOWER goes forwards with U, UPPER backwards with L;
    one block row (1593-1602, 1609-1618) *)
Definition vstep_h (B : vbr T) (wd : list (list T)) (i : Z) (s : list T * list T) : res (list T * list T) :=
  let '(x, w) := s in
  ' (dim, r) <- vdim B i ;;
  d <- rd wd i ;; w <- vmul dim d x r w ;; x <- memcpy dim x r w 0 ;;
  x <- vrow B i (fun sz p c x => vsub_in dim sz (vbr_value B) p x c r) x ;; Ok (x, w).
Definition solveh_lower_vbr (jw : Z -> T) (P : vsplit T) (wd : list (list T)) (b x : list T) : res (list T) :=
  x <- copy_to (vs_n P) b x ;;
  ' (x, w) <- for_ 0 (vs_nr P) (vstep_h (vs_U P) wd) (x, vwork jw) ;; Ok x.
Definition solveh_upper_vbr (jw : Z -> T) (P : vsplit T) (wd : list (list T)) (b x : list T) : res (list T) :=
  x <- copy_to (vs_n P) b x ;;
  ' (x, w) <- for_down (vs_nr P - 1) 0 (vstep_h (vs_L P) wd) (x, vwork jw) ;; Ok x.
(** 1621-1648: lis_array_matvec_ns(dim,sz,&value[ptr],dim,w,&x[col],LIS_SUB_VALUE), one block row; the backward half
    also copies w into x *)
Definition vscatter_h (fill : bool) (B : vbr T) (wd : list (list T)) (i : Z) (s : list T * list T) : res (list T * list T) :=
  let '(x, w) := s in
  ' (dim, r) <- vdim B i ;;
  d <- rd wd i ;; w <- vmul dim d x r w ;;
  x <- (if fill then memcpy dim x r w 0 else Ok x) ;;
  x <- vrow B i (fun sz p c x => vsub dim sz (vbr_value B) p w x c) x ;; Ok (x, w).
Definition solveh_ssor_vbr (jw : Z -> T) (P : vsplit T) (wd : list (list T)) (b x : list T) : res (list T) :=
  x <- copy_to (vs_n P) b x ;;
  s <- for_ 0 (vs_nr P) (vscatter_h false (vs_U P) wd) (x, vwork jw) ;;
  ' (x, w) <- for_down (vs_nr P - 1) 0 (vscatter_h true (vs_L P) wd) s ;; Ok x.
End S.
