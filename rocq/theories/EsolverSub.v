(** Model of the eigensolvers that use a subspace, standard problem A x = lambda x, one process, real
    arithmetic: lis_esi (lis_esolver_si.c:136-367), lis_eli (lis_esolver_li.c:146-355),
    lis_eai (lis_esolver_ai.c:150-385).  Conventions of Esolver.v.

    - [ss] is options[LIS_EOPTIONS_SUBSPACE]; lis_esolve (lis_esolver.c:400-470) admits 1 <= ss <= n only and allocates
      ss+2 elements for evalue, resid, iter and evector, with evalue[0] = evalue[ss-1] = 1.0.
      [None] is an element not written yet.
    - esolver->work has 4+ss (lis_esi) or 2+ss vectors; v points into it, so v[0..ss+1] resp. v[0..ss] exist.
    - lis_array_qr is Gs.lis_array_qr; [tq] stands for its constant 1e-12, [maxit] for 100000.
    - [run] is the inner eigensolver chosen by -ie in lis_eli/lis_eai, as in Esolver.esolve.
    - simplification: screen output, timing and the linear solver object lis_eli/lis_eai create for its
      name only are left out. *)
Require Import ZArith List Bool.
From Verif Require Import Base Scalar Spec Krylov Esolver.
From Verif Require Gs.
Import ListNotations.
Open Scope Z_scope.

Section M.
Context {T : Type} {S : Scalar T}.
Notation vecs := (list (list T)).

(** what the caller sees afterwards *)
Record sout := mkSO { so_ret : Z; so_evalue : list (option T); so_resid : list (option T); so_iter : list (option Z);
  so_evector : list (option (list T)); so_x : list T; so_rh : list T; so_E : list (entry T) }.

(** evalue as lis_esolve leaves it, lis_esolver.c:441-449 *)
Definition evalue0 (ss : Z) : list (option T) := zupd (zupd (repeat None (Z.to_nat (ss + 2))) 0 (Some s1)) (ss - 1) (Some s1).
Definition none_of {A} (ss : Z) : list (option A) := repeat None (Z.to_nat (ss + 2)).

(** for(k=1;k<j;k++) { lis_vector_dot(v[j],v[k],&dot); lis_vector_axpy(-dot,v[k],v[j]); } *)
Definition reorth (n j : Z) (v : vecs) : res vecs :=
  for_ 1 j (fun k v => vj <- rd v j ;; vk <- rd v k ;; wr v j (axpy n (sopp (dot n vj vk)) vk vj)) v.

(** ** Subspace iteration *)
(** options[LIS_EOPTIONS_INNER_ESOLVER]: LIS_ESOLVER_PI, LIS_ESOLVER_II or another value *)
Inductive inner_e := IPower | IInverse | IOther.
(** v, r, theta, resid, rhistory *)
Definition sst := (vecs * list T * option T * option T * list T)%type.
(** lis_esolver_si.c:247-322: one iteration for mode j; None: the solver failed *)
Definition esi_body (e : eenv T) (ni : inner_e) (E : list (entry T)) (j iter : Z) (s : sst) : res (ector sst) :=
  let n := ee_n e in let '(v, r, theta, resid, rh) := s in
  v <- reorth n j v ;;
  vj <- rd v j ;;
  let '(err, r) := match ni with IPower => (0, matvec n E vj) | IInverse => ee_solve e iter E vj | IOther => (0, r) end in
  if negb (err =? 0) then Ok (EFail err (v, r, theta, resid, rh))
  else
    let nrm := nrm2 n r in
    let theta := dot n vj r in
    let q := axpyz n (sopp theta) vj r in
    resid <- divz (nrm2 n q) (sabs theta) ;;
    c <- divz s1 nrm ;;
    let r := scale n c r in
    v <- wr v j (copy n r) ;;
    rh <- (if j =? 1 then history e iter resid rh else Ok rh) ;;
    let s := (v, r, Some theta, Some resid, rh) in
    Ok (if negb (sleb (ee_tol e) resid) then EStop s else ENext s).        (* tol>resid *)
(** lis_esolver_si.c:229-352: mode j = 1..ss *)
Record sil := mkSil { l_v : vecs; l_r : list T; l_evalue : list (option T); l_resid : list (option T); l_iter : list (option Z); l_evec : list (option (list T)); l_rh : list T }.
Definition esi_mode (e : eenv T) (ni : inner_e) (E : list (entry T)) (j : Z) (s : sil) : res (Z * sil) :=
  let n := ee_n e in
  v <- wr (l_v s) j (copy n (l_r s)) ;;
  ' (fail, ret, iter, (v, r, theta, resid, rh)) <- eiterate (Z.to_nat (ee_maxiter e)) 0 (esi_body e ni E j) (v, l_r s, None, None, l_rh s) ;;
  if (fail : bool) then Ok (ret, mkSil v r (l_evalue s) (l_resid s) (l_iter s) (l_evec s) rh)
  else
    it <- (if andb (j =? 1) (1 <=? iter) then wr (l_iter s) (j - 1) (Some iter) else Ok (l_iter s)) ;;
    ' (ev, rs, it) <- match ni with
      | IOther => Ok (l_evalue s, l_resid s, it)
      | _ =>
        theta <- get theta ;; resid <- get resid ;;
        lam <- (match ni with IPower => Ok theta | _ => divz s1 theta end) ;;
        ev <- wr (l_evalue s) (j - 1) (Some (sadd lam (ee_shift e))) ;;
        rs <- wr (l_resid s) (j - 1) (Some resid) ;;
        it <- wr it (j - 1) (Some iter) ;;
        Ok (ev, rs, it)
      end ;;
    vj <- rd v j ;;
    ec <- wr (l_evec s) (j - 1) (Some (copy n vj)) ;;
    Ok (0, mkSil v r ev rs it ec rh).
Fixpoint esi_loop (fuel : nat) (e : eenv T) (ni : inner_e) (E : list (entry T)) (j : Z) (s : sil) : res (Z * sil) :=
  match fuel with
  | O => Ok (0, s)
  | Datatypes.S f => ' (err, s) <- esi_mode e ni E (j + 1) s ;; if err =? 0 then esi_loop f e ni E (j + 1) s else Ok (err, s)
  end.
(** [jv]: contents of the fresh work vectors *)
Definition esi (e : eenv T) (ni : inner_e) (ss : Z) (jv : Z -> list T) (E0 : list (entry T)) (x : list T) (rh : list T) : res sout :=
  let n := ee_n e in
  r <- normalize n (set_all n s1) ;;
  let E := do_shift (ee_shift e) E0 in
  ' (err, s) <- esi_loop (Z.to_nat ss) e ni E 0 (mkSil (alloc (ss + 2) jv) r (evalue0 ss) (none_of ss) (none_of ss) (none_of ss) rh) ;;
  if negb (err =? 0) then Ok (mkSO err (l_evalue s) (l_resid s) (l_iter s) (l_evec s) x (l_rh s) E)       (* return err; *)
  else
    x0 <- rd (l_evec s) 0 ;; x0 <- get x0 ;;
    Ok (mkSO LIS_SUCCESS (l_evalue s) (l_resid s) (l_iter s) (l_evec s) (copy n x0) (l_rh s) (undo_shift (ee_shift e) E)).

(** ** The refined eigenpairs of lis_eli and lis_eai: lis_esolver_li.c:285-345, lis_esolver_ai.c:325-372.
    [f i]: the i-th Ritz value; lis_esolver_create sets no shift and INITGUESS_ONES. *)
Definition sub_env (e : eenv T) (ishift : T) : eenv T :=
  mkEE (ee_n e) (ee_maxiter e) (ee_tol e) s0 ishift true (ee_mem e) (ee_solve e) (ee_psolve e).
Definition refine_step (run : eenv T -> list (entry T) -> list T -> list T -> res (eout T)) (e : eenv T) (jx : Z -> list T) (jrh : Z -> T) (i : Z)
    (s : list (option T) * list (option T) * list (option Z) * list (option (list T)) * list T * list (entry T)) :=
  let '(ev, rs, it, ec, rh, E) := s in
  th <- rd ev i ;; th <- get th ;;
  ' (_, lam, o) <- esolve run (sub_env e th) E (jx i) jrh ;;
  ev <- wr ev i (Some lam) ;;
  it <- wr it i (eo_iter o) ;;
  rs <- wr rs i (eo_resid o) ;;
  ec <- wr ec i (Some (eo_x o)) ;;
  rh <- (if andb (i =? 0) (ee_mem e)
         then it0 <- get (eo_iter o) ;; for_ 0 (it0 + 1) (fun ic rh => a <- rd (eo_rh o) ic ;; wr rh ic a) rh
         else Ok rh) ;;
  Ok (ev, rs, it, ec, rh, eo_E o).
Definition refine run (e : eenv T) (ss : Z) (jx : Z -> list T) (jrh : Z -> T) (ev : list (option T)) (rh : list T) (E : list (entry T)) : res sout :=
  ' (ev, rs, it, ec, rh, E) <- for_ 0 ss (refine_step run e jx jrh) (ev, none_of ss, none_of ss, none_of ss, rh, E) ;;
  x0 <- rd ec 0 ;; x0 <- get x0 ;;
  Ok (mkSO LIS_SUCCESS ev rs it ec (copy (ee_n e) x0) rh E).

(** ** Lanczos: lis_esolver_li.c:186-245 *)
(** v, r, t *)
Definition lst := (vecs * list T * list T)%type.
Definition lan_step (e : eenv T) (E : list (entry T)) (ss : Z) (nrm : T) (j : Z) (s : lst) : res (bool * lst) :=
  let n := ee_n e in let '(v, r, t) := s in
  v <- wr v j (copy n r) ;;
  ' (v, r) <- (if j =? 1
    then c <- divz s1 nrm ;; vj <- rd v j ;; let vj := scale n c vj in v <- wr v j vj ;; Ok (v, matvec n E vj)
    else b <- rd t ((j - 2) * ss + j - 1) ;; c <- divz s1 b ;; vj <- rd v j ;; let vj := scale n c vj in v <- wr v j vj ;;
         vp <- rd v (j - 1) ;; Ok (v, axpy n (sopp b) vp (matvec n E vj))) ;;
  vj <- rd v j ;;
  let alpha := dot n vj r in
  t <- wr t ((j - 1) * ss + j - 1) alpha ;;
  let r := axpy n (sopp alpha) vj r in
  v <- reorth n j v ;;
  let beta := nrm2 n r in
  t <- wr t ((j - 1) * ss + j) beta ;;
  if negb (sleb (ee_tol e) (sabs beta)) then Ok (true, (v, r, t))
  else t <- wr t (j * ss + j - 1) beta ;; Ok (false, (v, r, t)).
(** while (j<ss-1) { j = j+1; ... } *)
Fixpoint lan_loop (fuel : nat) (e : eenv T) (E : list (entry T)) (ss : Z) (nrm : T) (j : Z) (s : lst) : res lst :=
  match fuel with
  | O => Ok s
  | Datatypes.S f => ' (stop, s) <- lan_step e E ss nrm (j + 1) s ;; if (stop : bool) then Ok s else lan_loop f e E ss nrm (j + 1) s
  end.
(** the array given to lis_array_qr *)
Definition lanczos (e : eenv T) (ss : Z) (jv : Z -> list T) (E : list (entry T)) : res (list T) :=
  let n := ee_n e in
  let v := zupd (alloc (ss + 1) jv) 0 (set_all n s0) in
  let r := set_all n s1 in
  t <- for_ 0 (ss * ss) (fun i t => wr t i s0) (alloc (ss * ss) (fun _ => s0)) ;;
  ' (_, _, t) <- lan_loop (Z.to_nat (ss - 1)) e E ss (nrm2 n r) 0 (v, r, t) ;;
  Ok t.
(** esolver->evalue[i] = t[i*ss+i] *)
Definition diag_of (ss : Z) (t : list T) (ev : list (option T)) : res (list (option T)) :=
  for_ 0 ss (fun i ev => a <- rd t (i * ss + i) ;; wr ev i (Some a)) ev.
Definition eli (tq : T) (maxit : nat) run (rval : bool) (e : eenv T) (ss : Z) (jv jx : Z -> list T) (jq jrh : Z -> T) (E : list (entry T)) (x : list T) (rh : list T) : res sout :=
  t <- lanczos e ss jv E ;;
  ' (t, _, _, _, _) <- Gs.lis_array_qr tq maxit ss t (alloc (ss * ss) jq) (alloc (ss * ss) jq) jq ;;
  ev <- diag_of ss t (evalue0 ss) ;;
  if rval then Ok (mkSO LIS_SUCCESS ev (none_of ss) (none_of ss) (none_of ss) x rh E)
  else refine run e ss jx jrh ev rh E.

(** ** Arnoldi: lis_esolver_ai.c:186-243 *)
(** v, w, h *)
Definition arn_step (e : eenv T) (E : list (entry T)) (ss : Z) (j : Z) (s : vecs * list T) : res (bool * (vecs * list T)) :=
  let n := ee_n e in let '(v, h) := s in
  vj <- rd v j ;;
  ' (w, h) <- for_ 0 (j + 1) (fun i '(w, h) =>
      vi <- rd v i ;; let d := dot n vi w in h <- wr h (i + j * ss) d ;; Ok (axpy n (sopp d) vi w, h)) (matvec n E vj, h) ;;
  let nrm := nrm2 n w in
  h <- wr h (j + 1 + j * ss) nrm ;;
  if negb (sleb (ee_tol e) (sabs nrm)) then Ok (true, (v, h))
  else c <- divz s1 nrm ;; v <- wr v (j + 1) (copy n (scale n c w)) ;; Ok (false, (v, h)).
(** j=-1; while (j<ss-1) { j = j+1; ... } *)
Fixpoint arn_loop (fuel : nat) (e : eenv T) (E : list (entry T)) (ss : Z) (j : Z) (s : vecs * list T) : res (vecs * list T) :=
  match fuel with
  | O => Ok s
  | Datatypes.S f => ' (stop, s) <- arn_step e E ss (j + 1) s ;; if (stop : bool) then Ok s else arn_loop f e E ss (j + 1) s
  end.
Definition arnoldi (e : eenv T) (ss : Z) (jv : Z -> list T) (E : list (entry T)) : res (list T) :=
  let n := ee_n e in
  v0 <- normalize n (set_all n s1) ;;
  v <- wr (alloc (ss + 1) jv) 0 v0 ;;
  h <- for_ 0 (ss * ss) (fun i h => wr h i s0) (alloc (ss * ss) (fun _ => s0)) ;;
  ' (_, h) <- arn_loop (Z.to_nat ss) e E ss (-1) (v, h) ;;
  Ok h.
(** the Ritz values from the diagonal blocks, lis_esolver_ai.c:256-318; fuel ss *)
Fixpoint ritz (fuel : nat) (tol : T) (ss i : Z) (h : list T) (ev : list (option T)) : res (list (option T)) :=
  if negb (i <? ss) then Ok ev else
  match fuel with
  | O => Err OUT_OF_FUEL
  | Datatypes.S f =>
    let i := i + 1 in
    sub <- rd h (i + (i - 1) * ss) ;;
    a <- rd h (i - 1 + (i - 1) * ss) ;;
    if negb (sleb tol (sabs sub)) then ev <- wr ev (i - 1) (Some a) ;; ritz f tol ss i h ev
    else
      d <- rd h (i + i * ss) ;; b <- rd h (i - 1 + i * ss) ;;
      let two := sadd s1 s1 in
      let disc := ssub (smul (sadd a d) (sadd a d)) (smul (smul two two) (ssub (smul a d) (smul b sub))) in
      if negb (sleb s0 disc)
      then ev <- wr ev (i - 1) (Some (sdiv (sadd a d) two)) ;; ev <- wr ev i (Some (sdiv (sadd a d) two)) ;; ritz f tol ss (i + 1) h ev
      else ev <- wr ev (i - 1) (Some a) ;; ritz f tol ss i h ev
  end.
Definition eai (tq : T) (maxit : nat) run (rval : bool) (e : eenv T) (ss : Z) (jv jx : Z -> list T) (jq jrh : Z -> T) (E : list (entry T)) (x : list T) (rh : list T) : res sout :=
  h <- arnoldi e ss jv E ;;
  ' (h, _, _, _, _) <- Gs.lis_array_qr tq maxit ss h (alloc (ss * ss) jq) (alloc (ss * ss) jq) jq ;;
  ev <- ritz (Z.to_nat ss) (ee_tol e) ss 0 h (evalue0 ss) ;;
  if rval then Ok (mkSO LIS_SUCCESS ev (none_of ss) (none_of ss) (none_of ss) x rh E)
  else refine run e ss jx jrh ev rh E.
End M.
Arguments sout T : clear implicits.
