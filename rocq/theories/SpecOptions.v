(** What the solver options mean: doc/man/man3/lis_solver_set_option.3, and for the
    options not listed there the names in include/lis.h.  No code of the library; the
    positions of the settings (O_*, P_*, lis.h:70-138) and the C library's number
    readers (scan_d; scan_lg is a parameter) are taken from Options.v. *)
Require Import ZArith List Bool Ascii String.
From Verif Require Import Base Options.
Import ListNotations.
Open Scope Z_scope.

Inductive kind :=
| Named (names : list string) (first : Z) (top : Z)  (* a name, counted from [first]; or a number whose first digit is at most [top] *)
| Int                                                (* an integer *)
| Real.                                              (* a real number *)

Definition solvers := (["cg"; "bicg"; "cgs"; "bicgstab"; "bicgstabl"; "gpbicg"; "tfqmr"; "orthomin"; "gmres"; "jacobi"; "gs"; "sor";
  "bicgsafe"; "cr"; "bicr"; "crs"; "bicrstab"; "gpbicr"; "bicrsafe"; "fgmres"; "idrs"; "idr1"; "minres"; "cocg"; "cocr"])%string.
Definition precons := (["none"; "jacobi"; "ilu"; "ssor"; "hybrid"; "is"; "sainv"; "saamg"; "iluc"; "ilut"; "bjacobi"; ""])%string.
Definition formats := (["csr"; "csc"; "msr"; "dia"; "ell"; "jad"; "bsr"; "bsc"; "vbr"; "coo"; "dns"])%string.
Definition flag := Named (["false"; "true"])%string 0 1.

(** option, setting it controls, kind of value *)
Definition doc_table : list (string * Z * kind) := ([
  ("-i", O_SOLVER, Named solvers 1 9);
  ("-p", O_PRECON, Named precons 0 9);
  ("-hybrid_i", O_PSOLVER, Named solvers 1 9);
  ("-hybrid_p", O_PPRECON, Named precons 0 9);
  ("-storage", O_STORAGE, Named formats 1 9);
  ("-print", O_OUTPUT, Named ["none"; "mem"; "out"; "all"] 0 3);
  ("-scale", O_SCALE, Named ["none"; "jacobi"; "symm_diag"] 0 2);
  ("-conv_cond", O_CONV_COND, Named ["nrm2_r"; "nrm2_b"; "nrm1_b"] 0 3);
  ("-f", O_PRECISION, Named ["double"; "quad"; "switch"] 0 1);
  ("-initx_zeros", O_INITGUESS_ZEROS, flag);
  ("-adds", O_ADDS, flag);
  ("-use_at", O_USE_AT, flag);
  ("-saamg_unsym", O_SAAMG_UNSYM, flag);
  ("-maxiter", O_MAXITER, Int); ("-ell", O_ELL, Int); ("-restart", O_RESTART, Int); ("-irestart", O_IDRS_RESTART, Int);
  ("-ilu_fill", O_FILL, Int); ("-is_level", O_ISLEVEL, Int); ("-is_m", O_M, Int);
  ("-hybrid_maxiter", O_PMAXITER, Int); ("-hybrid_ell", O_PELL, Int); ("-hybrid_restart", O_PRESTART, Int);
  ("-adds_iter", O_ADDS_ITER, Int); ("-switch_maxiter", O_SWITCH_MAXITER, Int); ("-storage_block", O_STORAGE_BLOCK, Int);
  ("-tol", P_RESID, Real); ("-tol_w", P_RESID_WEIGHT, Real); ("-omega", P_OMEGA, Real); ("-ssor_omega", P_SSOR_OMEGA, Real);
  ("-ilu_relax", P_RELAX, Real); ("-is_alpha", P_ALPHA, Real); ("-hybrid_tol", P_PRESID, Real); ("-hybrid_omega", P_POMEGA, Real);
  ("-sainv_drop", P_DROP, Real); ("-iluc_drop", P_DROP, Real); ("-ric2s_tau", P_TAU, Real); ("-ric2s_sigma", P_SIGMA, Real);
  ("-ric2s_gamma", P_GAMMA, Real); ("-iluc_gamma", P_GAMMA, Real); ("-iluc_rate", P_RATE, Real);
  ("-switch_tol", P_SWITCH_RESID, Real); ("-saamg_theta", P_SAAMG_THETA, Real) ])%string.

Fixpoint find_option (name : list Z) (t : list (string * Z * kind)) : option (Z * kind) :=
  match t with
  | [] => None
  | (n, o, k) :: t => if list_eq_dec Z.eq_dec name (str n) then Some (o, k) else find_option name t
  end.
Fixpoint position (value : list Z) (names : list string) (i : Z) : option Z :=
  match names with
  | [] => None
  | n :: names => if list_eq_dec Z.eq_dec value (str n) then Some i else position value names (i + 1)
  end.

Section S.
Context {P : Type} (scan_lg : list Z -> option P) (c012 : P) (jd : list Z -> P).
Inductive effect :=
| Assign (o : Z) (v : Z)        (* integer setting o becomes v *)
| AssignReal (p : Z) (v : P)    (* real setting p becomes v *)
| Keep                          (* nothing happens *)
| Reject                        (* LIS_ERR_ILL_ARG *)
| TooBig.                       (* a number that does not fit an int: undefined *)

Definition of_number (o : Z) (r : res (option Z)) : effect :=
  match r with Ok (Some v) => Assign o v | Ok None => Keep | _ => TooBig end.
Definition doc_effect (name value : list Z) : effect :=
  match find_option name doc_table with
  | None => Keep
  | Some (o, Named names first top) =>
      let c := match value with c :: _ => c | [] => 0 end in
      if (48 <=? c) && (c <=? 48 + top) then of_number o (scan_d value)
      else match position value names first with Some v => Assign o v | None => Reject end
  | Some (o, Int) => of_number o (scan_d value)
  | Some (p, Real) => AssignReal (p - OPTIONS_LEN) (match scan_lg value with Some v => v | None => jd value end)
  end.

(** one option; switching -saamg_unsym on also sets the drop criterion to 0.12 *)
Definition apply_option (e : effect) (opt : list Z) (par : list P) : list Z * list P :=
  match e with
  | Assign o v => (zupd opt o v, if (o =? O_SAAMG_UNSYM) && negb (v =? 0) then zupd par (P_SAAMG_THETA - OPTIONS_LEN) c012 else par)
  | AssignReal p v => (opt, zupd par p v)
  | _ => (opt, par)
  end.

Inductive doc_result := Accepted (opt : list Z) (par : list P) | RejectedAt (name : list Z) (opt : list Z) (par : list P) | Overflow.
Fixpoint doc_run (ps : list (list Z * list Z)) (opt : list Z) (par : list P) : doc_result :=
  match ps with
  | [] => Accepted opt par
  | (n, v) :: ps =>
      match doc_effect n v with
      | Reject => RejectedAt n opt par
      | TooBig => Overflow
      | e => let '(opt, par) := apply_option e opt par in doc_run ps opt par
      end
  end.
End S.
Arguments effect P : clear implicits.
