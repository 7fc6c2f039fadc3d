(** Model of lis_solver_set_option, src/solver/lis_solver.c:168-215 (tables), 1122-1635.
    Strings are lists of character codes, as in Args.v.  Real values: the type P of
    params, read by sscanf "%lg" = [scan_lg] (None: no number there), are not
    interpreted.  Not modelled: freeing of the work vectors and of the argument list
    on the error path, error messages. *)
Require Import ZArith List Bool Ascii String.
From Verif Require Import Base Args.
Import ListNotations.
Open Scope Z_scope.

Definition str (s : string) : list Z := map (fun a => Z.of_N (N_of_ascii a)) (list_ascii_of_string s).
(** strcmp(a,b)==0 *)
Fixpoint str_eqb (a b : list Z) : bool :=
  match a, b with
  | [], [] => true
  | x :: a, y :: b => (x =? y) && str_eqb a b
  | _, _ => false
  end.

(** include/lis.h:70-138 *)
Definition OPTIONS_LEN : Z := 27.
Definition PARAMS_LEN : Z := 15.
Definition O_SOLVER := 0. Definition O_PRECON := 1. Definition O_MAXITER := 2. Definition O_OUTPUT := 3.
Definition O_RESTART := 4. Definition O_ELL := 5. Definition O_SCALE := 6. Definition O_FILL := 7.
Definition O_M := 8. Definition O_PSOLVER := 9. Definition O_PMAXITER := 10. Definition O_PRESTART := 11.
Definition O_PELL := 12. Definition O_PPRECON := 13. Definition O_ISLEVEL := 14. Definition O_INITGUESS_ZEROS := 15.
Definition O_ADDS := 16. Definition O_ADDS_ITER := 17. Definition O_PRECISION := 18. Definition O_USE_AT := 19.
Definition O_SWITCH_MAXITER := 20. Definition O_SAAMG_UNSYM := 21. Definition O_STORAGE := 22.
Definition O_STORAGE_BLOCK := 23. Definition O_CONV_COND := 24. Definition O_INIT_SHADOW_RESID := 25. Definition O_IDRS_RESTART := 26.
Definition P_RESID := OPTIONS_LEN + 0. Definition P_OMEGA := OPTIONS_LEN + 1. Definition P_RELAX := OPTIONS_LEN + 2.
Definition P_DROP := OPTIONS_LEN + 3. Definition P_ALPHA := OPTIONS_LEN + 4. Definition P_TAU := OPTIONS_LEN + 5.
Definition P_SIGMA := OPTIONS_LEN + 6. Definition P_GAMMA := OPTIONS_LEN + 7. Definition P_SSOR_OMEGA := OPTIONS_LEN + 8.
Definition P_PRESID := OPTIONS_LEN + 9. Definition P_POMEGA := OPTIONS_LEN + 10. Definition P_SWITCH_RESID := OPTIONS_LEN + 11.
Definition P_RATE := OPTIONS_LEN + 12. Definition P_RESID_WEIGHT := OPTIONS_LEN + 13. Definition P_SAAMG_THETA := OPTIONS_LEN + 14.
Definition O_FILE := -1. Definition O_HELP := -2. Definition O_VER := -3.

(** LIS_SOLVER_OPTNAME 176-187 *)
Definition OPTNAME : list (list Z) := map str (
  ["-maxiter";           "-tol";           "-print";          "-scale";         "-ssor_omega";
   "-ilu_fill";          "-ilu_relax";     "-is_alpha";       "-is_level";      "-is_m";
   "-hybrid_maxiter";    "-hybrid_ell";    "-hybrid_restart"; "-hybrid_tol";    "-hybrid_omega";
   "-hybrid_i";          "-sainv_drop";    "-ric2s_tau";      "-ric2s_sigma";   "-ric2s_gamma";
   "-restart";           "-ell";           "-omega";          "-i";             "-p";
   "-f";                 "-h";             "-ver";            "-hybrid_p";      "-initx_zeros";
   "-adds";              "-adds_iter";     "-f";              "-use_at";        "-switch_tol";
   "-switch_maxiter";    "-saamg_unsym";   "-iluc_drop";      "-iluc_gamma";    "-iluc_rate";
   "-storage";           "-storage_block"; "-conv_cond";      "-tol_w";         "-saamg_theta";  "-irestart"])%string.

(** LIS_SOLVER_OPTACT 189-200 *)
Definition OPTACT : list Z :=
  [O_MAXITER; P_RESID; O_OUTPUT; O_SCALE; P_SSOR_OMEGA;
   O_FILL; P_RELAX; P_ALPHA; O_ISLEVEL; O_M;
   O_PMAXITER; O_PELL; O_PRESTART; P_PRESID; P_POMEGA;
   O_PSOLVER; P_DROP; P_TAU; P_SIGMA; P_GAMMA;
   O_RESTART; O_ELL; P_OMEGA; O_SOLVER; O_PRECON;
   O_FILE; O_HELP; O_VER; O_PPRECON; O_INITGUESS_ZEROS;
   O_ADDS; O_ADDS_ITER; O_PRECISION; O_USE_AT; P_SWITCH_RESID;
   O_SWITCH_MAXITER; O_SAAMG_UNSYM; P_DROP; P_GAMMA; P_RATE;
   O_STORAGE; O_STORAGE_BLOCK; O_CONV_COND; P_RESID_WEIGHT; P_SAAMG_THETA; O_IDRS_RESTART].
Definition SOLVER_OPTION_LEN : Z := 46.

(** 202-209 *)
Definition solver_atoi := map str (["cg"; "bicg"; "cgs"; "bicgstab"; "bicgstabl"; "gpbicg"; "tfqmr"; "orthomin"; "gmres"; "jacobi"; "gs"; "sor"; "bicgsafe"; "cr"; "bicr"; "crs"; "bicrstab"; "gpbicr"; "bicrsafe"; "fgmres"; "idrs"; "idr1"; "minres"; "cocg"; "cocr"])%string.
Definition precon_atoi := map str (["none"; "jacobi"; "ilu"; "ssor"; "hybrid"; "is"; "sainv"; "saamg"; "iluc"; "ilut"; "bjacobi"; ""])%string.
Definition storage_atoi := map str (["csr"; "csc"; "msr"; "dia"; "ell"; "jad"; "bsr"; "bsc"; "vbr"; "coo"; "dns"])%string.
Definition print_atoi := map str (["none"; "mem"; "out"; "all"])%string.
Definition scale_atoi := map str (["none"; "jacobi"; "symm_diag"])%string.
Definition truefalse_atoi := map str (["false"; "true"])%string.
Definition precision_atoi := map str (["double"; "quad"; "switch"])%string.
Definition conv_cond_atoi := map str (["nrm2_r"; "nrm2_b"; "nrm1_b"])%string.
Definition SOLVER_LEN : Z := 25. Definition PRECON_TYPE_LEN : Z := 12. Definition STORAGE_LEN : Z := 11. Definition PRINT_LEN : Z := 4.
Definition SCALE_LEN : Z := 3. Definition TRUEFALSE_LEN : Z := 2. Definition PRECISION_LEN : Z := 3. Definition CONV_COND_LEN : Z := 3.

Definition ILL_ARG_ : Z := 1.  (* LIS_ERR_ILL_ARG, lis.h *)

(** sscanf(s,"%d",&v): optional sign, decimal digits; None if there are none (v is then
    left alone).  A value that does not fit in 32 bits is undefined behaviour. *)
Definition is_digit (c : Z) : bool := (48 <=? c) && (c <=? 57).
Fixpoint digits (acc : Z) (s : list Z) : Z :=
  match s with c :: s => if is_digit c then digits (acc * 10 + (c - 48)) s else acc | [] => acc end.
Definition scan_d (s : list Z) : res (option Z) :=
  let '(sg, t) := match s with c :: t => if c =? 45 then (-1, t) else if c =? 43 then (1, t) else (1, s) | [] => (1, s) end in
  match t with
  | c :: _ => if is_digit c then let v := sg * digits 0 t in if (- 2 ^ 31 <=? v) && (v <? 2 ^ 31) then Ok (Some v) else UB else Ok None
  | [] => Ok None
  end.

Section S.
Context {P : Type} (scan_lg : list Z -> option P) (c012 : P) (jd : list Z -> P).
(** solver->options, solver->params, solver->retcode *)
Record solver := mkSol { s_opt : list Z; s_par : list P; s_ret : Z }.

(** sscanf(arg,"%d",&solver->options[o]) *)
Definition scan_opt (arg : list Z) (o : Z) (s : solver) : res solver :=
  r <- scan_d arg ;;
  match r with
  | Some v => l <- wr (s_opt s) o v ;; Ok (mkSol l (s_par s) (s_ret s))
  | None => Ok s
  end.

(** for(i=0;i<len;i++) if(strcmp(argv,names[i])==0) { options[o] = i+off; break; }
    else if(i==len-1) return LIS_ERR_ILL_ARG; -- result: error code and state *)
Fixpoint name_loop (fuel : nat) (names : list (list Z)) (len off i : Z) (arg : list Z) (o : Z) (s : solver) : res (Z * solver) :=
  match fuel with
  | O => Err OUT_OF_FUEL
  | S f =>
      if i <? len then
        nm <- rd names i ;;
        if str_eqb arg nm then l <- wr (s_opt s) o (i + off) ;; Ok (0, mkSol l (s_par s) (s_ret s))
        else if i =? len - 1 then Ok (ILL_ARG_, s)
        else name_loop f names len off (i + 1) arg o s
      else Ok (0, s)
  end.

(** the common shape of lis_solver_set_option_solver .. _conv_cond, 1247-1635: a value
    whose first character is between '0' and [hi] is a number, otherwise a name.  In
    _precon and _pprecon the search of registered user preconditioners comes after a
    return in every case, so it is never reached. *)
Definition set_named (hi : Z) (names : list (list Z)) (len off : Z) (arg : list Z) (o : Z) (s : solver) : res (Z * solver) :=
  let c := match arg with c :: _ => c | [] => 0 end in
  if (48 <=? c) && (c <=? hi) then s <- scan_opt arg o s ;; Ok (0, s)
  else name_loop (S (List.length names)) names len off 0 arg o s.

Definition set_option_solver arg := set_named 57 solver_atoi SOLVER_LEN 1 arg O_SOLVER.        (* 1247-1284 *)
Definition set_option_psolver arg := set_named 57 solver_atoi SOLVER_LEN 1 arg O_PSOLVER.      (* 1286-1320 *)
Definition set_option_precon arg := set_named 57 precon_atoi PRECON_TYPE_LEN 0 arg O_PRECON.   (* 1322-1365 *)
Definition set_option_pprecon arg := set_named 57 precon_atoi PRECON_TYPE_LEN 0 arg O_PPRECON. (* 1367-1410 *)
Definition set_option_print arg := set_named 51 print_atoi PRINT_LEN 0 arg O_OUTPUT.           (* 1412-1446 *)
Definition set_option_scale arg := set_named 50 scale_atoi SCALE_LEN 0 arg O_SCALE.            (* 1448-1482 *)
Definition set_option_truefalse arg := set_named 49 truefalse_atoi TRUEFALSE_LEN 0 arg.        (* 1484-1518 *)
Definition set_option_precision arg := set_named 49 precision_atoi PRECISION_LEN 0 arg.        (* 1520-1554 *)
Definition set_option_storage arg := set_named 57 storage_atoi STORAGE_LEN 1 arg O_STORAGE.    (* 1556-1590 *)
Definition set_option_conv_cond arg := set_named 51 conv_cond_atoi CONV_COND_LEN 0 arg O_CONV_COND. (* 1592-1626 *)

(** the switch of lis_solver_set_option2, 1166-1231 *)
Definition act_on (act : Z) (arg : list Z) (s : solver) : res (Z * solver) :=
  if act =? O_FILE then Ok (0, s)
  else if act =? O_HELP then Ok (0, s)
  else if act =? O_VER then Ok (0, s)
  else if act =? O_SOLVER then set_option_solver arg s
  else if act =? O_PRECON then set_option_precon arg s
  else if act =? O_SCALE then set_option_scale arg s
  else if act =? O_OUTPUT then set_option_print arg s
  else if act =? O_PSOLVER then set_option_psolver arg s
  else if act =? O_PPRECON then set_option_pprecon arg s
  else if act =? O_INITGUESS_ZEROS then set_option_truefalse arg O_INITGUESS_ZEROS s
  else if act =? O_ADDS then set_option_truefalse arg O_ADDS s
  else if act =? O_PRECISION then set_option_precision arg O_PRECISION s
  else if act =? O_USE_AT then set_option_truefalse arg O_USE_AT s
  else if act =? O_SAAMG_UNSYM then
    ' (e, s) <- set_option_truefalse arg O_SAAMG_UNSYM s ;;
    u <- rd (s_opt s) O_SAAMG_UNSYM ;;
    if negb (u =? 0) then l <- wr (s_par s) (P_SAAMG_THETA - OPTIONS_LEN) c012 ;; Ok (e, mkSol (s_opt s) l (s_ret s))
    else Ok (e, s)
  else if act =? O_STORAGE then set_option_storage arg s
  else if act =? O_CONV_COND then set_option_conv_cond arg s
  else if act <? OPTIONS_LEN then s <- scan_opt arg act s ;; Ok (0, s)
  else
    (* double_value is an uninitialised local when sscanf finds no number: [jd] *)
    let v := match scan_lg arg with Some v => v | None => jd arg end in
    l <- wr (s_par s) (act - OPTIONS_LEN) v ;; Ok (0, mkSol (s_opt s) l (s_ret s)).

(** lis_solver_set_option2 1151-1243; on error retcode = err *)
Fixpoint option2_loop (fuel : nat) (i : Z) (arg1 arg2 : list Z) (s : solver) : res (Z * solver) :=
  match fuel with
  | O => Err OUT_OF_FUEL
  | S f =>
      if i <? SOLVER_OPTION_LEN then
        nm <- rd OPTNAME i ;;
        ' (e, s) <- (if str_eqb arg1 nm then act <- rd OPTACT i ;; act_on act arg2 s else Ok (0, s)) ;;
        if negb (e =? 0) then Ok (e, mkSol (s_opt s) (s_par s) e)
        else option2_loop f (i + 1) arg1 arg2 s
      else Ok (0, s)
  end.
Definition set_option2 (arg1 arg2 : list Z) (s : solver) : res (Z * solver) := option2_loop 47 0 arg1 arg2 s.

(** lis_solver_set_option 1122-1147 on the argument list: stops at the first error *)
Fixpoint set_options (args : list (list Z * list Z)) (s : solver) : res (Z * solver) :=
  match args with
  | [] => Ok (0, s)
  | (a1, a2) :: args =>
      ' (e, s) <- set_option2 a1 a2 s ;;
      if negb (e =? 0) then Ok (e, mkSol (s_opt s) (s_par s) e) else set_options args s
  end.
Definition set_option (j : Z -> Z) (text : list Z) (s : solver) : res (Z * solver) :=
  args <- text2args j text ;; set_options args s.
End S.
Arguments solver P : clear implicits.
Arguments mkSol {P}. Arguments s_opt {P}. Arguments s_par {P}. Arguments s_ret {P}.
