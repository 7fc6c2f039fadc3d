(** C08: lis_solver_set_option.  SpecOptions.v holds the documented table of options and
    what each option/value pair does (doc_effect, doc_run); SpecArgs.v how a text is cut
    into pairs.  scan_lg is sscanf's "%lg", c012 the constant 0.12, jd uninitialised
    stack contents, j unset bytes of the text buffer. *)
Require Import ZArith List Bool Ascii String Lia.
From Verif Require Import Base Args SpecArgs ArgsProof Options SpecOptions OptionsProof.
Import ListNotations.
Open Scope Z_scope.

(** A text of at most 1022 characters: the pairs are applied from left to right; the
    first bad value stops with LIS_ERR_ILL_ARG, what was set before it stays set.
    (The one value a rejected option can touch is the SA-AMG drop criterion.) *)
Theorem C08_set_option : forall (P : Type) (scan_lg : list Z -> option P) c012 jd j text (s : solver P),
  Forall (fun c => c <> 0) text -> zlen text <= 1022 -> zlen (s_opt s) = OPTIONS_LEN -> zlen (s_par s) = PARAMS_LEN ->
  match doc_run scan_lg c012 jd (map lower_pair (two_by_two (words_of text))) (s_opt s) (s_par s) with
  | Accepted opt par => set_option scan_lg c012 jd j text s = Ok (0, mkSol opt par (s_ret s))
  | RejectedAt name opt par => exists par', set_option scan_lg c012 jd j text s = Ok (ILL_ARG_, mkSol opt par' ILL_ARG_) /\
      (name <> str "-saamg_unsym" -> par' = par)
  | Overflow => set_option scan_lg c012 jd j text s = UB
  end.
Proof.
  intros P scan_lg c012 jd j text s Hz Hl H1 H2. unfold set_option.
  replace (text2args j text) with (Ok (map lower_pair (two_by_two (words_of text)))).
  2: { symmetry. apply text2args_ok; auto. intros c Hc. rewrite Forall_forall in Hz. apply Hz; auto. }
  cbn [bind]. apply (options_spec scan_lg c012 jd); split; auto.
Qed.
Print Assumptions C08_set_option.

(** In an accepted list of pairs the last one that names an integer setting decides it,
    and a setting nobody names keeps its value. *)
Theorem C08_last_wins : forall (P : Type) (scan_lg : list Z -> option P) c012 jd ps (s : solver P) opt par,
  zlen (s_opt s) = OPTIONS_LEN -> zlen (s_par s) = PARAMS_LEN ->
  doc_run scan_lg c012 jd ps (s_opt s) (s_par s) = Accepted opt par ->
  set_options scan_lg c012 jd ps s = Ok (0, mkSol opt par (s_ret s)) /\
  forall o, 0 <= o < OPTIONS_LEN ->
    ((forall n v w, In (n, v) ps -> doc_effect scan_lg jd n v <> Assign o w) -> znth 0 opt o = znth 0 (s_opt s) o) /\
    (forall a n v b w, ps = a ++ (n, v) :: b -> doc_effect scan_lg jd n v = Assign o w ->
       (forall n' v' w', In (n', v') b -> doc_effect scan_lg jd n' v' <> Assign o w') -> znth 0 opt o = w).
Proof.
  intros P scan_lg c012 jd ps s opt par H1 H2 HD.
  split. { pose proof (options_spec scan_lg c012 jd ps s (conj H1 H2)) as H. rewrite HD in H. exact H. }
  assert (FR : forall ps opt0 par0, zlen opt0 = OPTIONS_LEN -> doc_run scan_lg c012 jd ps opt0 par0 = Accepted opt par ->
     forall o, 0 <= o < OPTIONS_LEN -> (forall n v w, In (n, v) ps -> doc_effect scan_lg jd n v <> Assign o w) -> znth 0 opt o = znth 0 opt0 o).
  { clear. induction ps as [|[n v] ps IH]; intros opt0 par0 L HD o Ho HN; cbn [doc_run] in HD; [inversion HD; auto|].
    pose proof (HN n v) as HNv. specialize (fun opt0 par0 L HD => IH opt0 par0 L HD o Ho ltac:(intros; apply HN; right; auto)).
    destruct (doc_effect scan_lg jd n v) as [o' w|p w| | |]; cbn [apply_option] in HD; try discriminate HD.
    - apply IH in HD; [|rewrite zlen_zupd; auto]. rewrite HD. destruct (Z.eq_dec o o'); [|apply znth_zupd_other; auto].
      subst o'. exfalso. apply (HNv w); [left; auto|auto].
    - apply IH in HD; auto.
    - apply IH in HD; auto. }
  intros o Ho. split; [apply (FR ps _ _ H1 HD o Ho)|].
  intros a n v b w E EF HN. subst ps. clear H2. revert H1 HD. generalize (s_opt s) (s_par s).
  induction a as [|[n1 v1] a IH]; intros opt0 par0 L HD; cbn [app doc_run] in HD.
  - rewrite EF in HD. cbn [apply_option] in HD. apply (FR b _ _) with (o := o) in HD; auto; [|rewrite zlen_zupd; auto].
    rewrite HD, znth_zupd by lia. rewrite Z.eqb_refl. reflexivity.
  - destruct (doc_effect scan_lg jd n1 v1) as [o' w'|p w'| | |]; cbn [apply_option] in HD; try discriminate HD; eapply IH in HD; eauto; try (rewrite zlen_zupd; auto).
Qed.
Print Assumptions C08_last_wins.

(** an option name the table does not list is ignored *)
Theorem C08_unknown_name : forall (P : Type) (scan_lg : list Z -> option P) c012 jd name value (s : solver P),
  zlen (s_opt s) = OPTIONS_LEN -> zlen (s_par s) = PARAMS_LEN ->
  (forall n o k, In (n, o, k) doc_table -> name <> str n) -> set_option2 scan_lg c012 jd name value s = Ok (0, s).
Proof.
  intros P scan_lg c012 jd name value s H1 H2 HN. pose proof (option2_spec scan_lg c012 jd name value s (conj H1 H2)) as H. unfold doc_effect in H.
  pose proof (find_option_spec scan_lg c012 jd name) as F. destruct (find_option name doc_table) as [[o k]|].
  - destruct F as (n & E & Hin). exfalso. exact (HN _ _ _ Hin E).
  - cbn [obeys apply_option fst snd] in H. rewrite H. rewrite sol_eta. auto.
Qed.
Print Assumptions C08_unknown_name.

(** A value that is neither one of the names nor starts with an accepted digit is
    rejected and no integer setting changes; a name selects its number. *)
Theorem C08_named_values : forall (P : Type) (scan_lg : list Z -> option P) c012 jd n o names first top value (s : solver P),
  zlen (s_opt s) = OPTIONS_LEN -> zlen (s_par s) = PARAMS_LEN -> In (n, o, Named names first top) doc_table -> n <> "-saamg_unsym"%string ->
  (forall c t, value = c :: t -> ~ (48 <= c <= 48 + top)) ->
  ((forall nm, In nm names -> value <> str nm) ->
     set_option2 scan_lg c012 jd (str n) value s = Ok (ILL_ARG_, mkSol (s_opt s) (s_par s) ILL_ARG_)) /\
  (forall i nm, nth_error names i = Some nm -> value = str nm ->
     set_option2 scan_lg c012 jd (str n) value s = Ok (0, mkSol (zupd (s_opt s) o (first + Z.of_nat i)) (s_par s) (s_ret s))).
Proof.
  intros P scan_lg c012 jd n o names first top value s H1 H2 Hin Hn Hd.
  pose proof (option2_spec scan_lg c012 jd (str n) value s (conj H1 H2)) as H. unfold doc_effect in H.
  assert (F : find_option (str n) doc_table = Some (o, Named names first top) /\ (str n <> str "-saamg_unsym") /\ o <> O_SAAMG_UNSYM /\ NoDup (map str names)).
  { cbn [doc_table In] in Hin. do 43 (destruct Hin as [E|Hin]; [first [discriminate E | inversion E; subst;
      first [exfalso; apply Hn; reflexivity |
        split; [vm_compute; reflexivity|]; split; [intros X; vm_compute in X; discriminate X|]; split; [vm_compute; congruence|];
        vm_compute; repeat (constructor; [cbn; intuition congruence|]); constructor]]|]). destruct Hin. }
  destruct F as (F & NS & NO & ND). rewrite F in H. cbv zeta in H.
  assert (D : (48 <=? match value with c :: _ => c | [] => 0 end) && (match value with c :: _ => c | [] => 0 end <=? 48 + top) = false).
  { destruct value as [|c t]; [reflexivity|]. specialize (Hd c t eq_refl). destruct (Z.leb_spec 48 c); [|auto]. destruct (Z.leb_spec c (48 + top)); [lia|auto]. }
  rewrite D in H.
  assert (PN : forall l i, (forall nm, In nm l -> value <> str nm) -> position value l i = None).
  { induction l as [|m l IH]; intros i Hl; cbn [position]; [auto|]. destruct (list_eq_dec Z.eq_dec value (str m)) as [E|]; [exfalso; apply (Hl m); [left; auto|auto]|]. apply IH. intros; apply Hl; right; auto. }
  assert (PS : forall l i k nm, NoDup (map str l) -> nth_error l k = Some nm -> value = str nm -> position value l i = Some (i + Z.of_nat k)).
  { induction l as [|m l IH]; intros i k nm HD Hk E; [destruct k; discriminate|]. cbn [position]. inversion HD; subst. destruct k as [|k]; cbn [nth_error] in Hk.
    - inversion Hk; subst. destruct (list_eq_dec Z.eq_dec (str nm) (str nm)); [f_equal; lia|congruence].
    - destruct (list_eq_dec Z.eq_dec (str nm) (str m)) as [E|]; [exfalso; apply H4; rewrite <- E; apply in_map; eapply nth_error_In; eauto|].
      rewrite (IH (i + 1) k nm); auto. f_equal. lia. }
  split.
  - intros HN. rewrite PN in H by auto. destruct H as (par' & -> & _ & Hp). rewrite Hp by auto. reflexivity.
  - intros i nm Hi E. rewrite (PS names first i nm ND Hi E) in H. cbn [obeys apply_option fst snd] in H. destruct (Z.eqb_spec o O_SAAMG_UNSYM); [contradiction|]. exact H.
Qed.
Print Assumptions C08_named_values.

(** A solver with default settings, reals read as the length of their text.
    "-i cg -p ilu -maxiter 50 -tol x -i gmres": the last -i wins. *)
Definition sol0 : solver Z := mkSol (repeat 0 27) (repeat 0 15) 0.
Definition lg (s : list Z) : option Z := Some (zlen s).
Definition jz (s : list Z) : Z := 777.
Definition run (t : string) : res (Z * solver Z) := set_option lg 12 jz (fun _ => 0) (str t) sol0.
Example C08_ex : Forall (fun c => c <> 0) (str "-i cg -p ilu -maxiter 50 -tol 1e-8 -i gmres") /\
  (' (e, s) <- run "-i cg -p ilu -maxiter 50 -tol 1e-8 -i GMRES" ;; Ok (e, firstn 4 (s_opt s), firstn 2 (s_par s))) = Ok (0, [9; 2; 50; 0], [4; 0]) /\
  (' (e, s) <- run "-maxiter 7 -i bogus -p ilu" ;; Ok (e, firstn 4 (s_opt s))) = Ok (ILL_ARG_, [0; 0; 7; 0]) /\
  (' (e, s) <- run "-nonsense 3 -saamg_unsym true" ;; Ok (e, znth 0 (s_opt s) 21, znth 0 (s_par s) 14)) = Ok (0, 1, 12).
Proof. split; [repeat constructor; discriminate|]. vm_compute. auto. Qed.

(** ** Where the documentation and the code disagree *)
(** -ilut_drop and -ilut_rate are documented (lis_solver_set_option.3) but do nothing *)
Theorem C08_ilut_refuted : forall (P : Type) (scan_lg : list Z -> option P) c012 jd v (s : solver P),
  set_option2 scan_lg c012 jd (str "-ilut_drop") v s = Ok (0, s) /\ set_option2 scan_lg c012 jd (str "-ilut_rate") v s = Ok (0, s).
Proof. intros. rewrite !set_option2_acts. split; reflexivity. Qed.
Print Assumptions C08_ilut_refuted.
(** numbers are not checked against the list of codes: there are 25 solvers, 3 conditions *)
Theorem C08_number_unchecked_refuted :
  (' (e, s) <- run "-i 99" ;; Ok (e, znth 0 (s_opt s) O_SOLVER)) = Ok (0, 99) /\
  (' (e, s) <- run "-conv_cond 3" ;; Ok (e, znth 0 (s_opt s) O_CONV_COND)) = Ok (0, 3).
Proof. vm_compute. auto. Qed.
(** the number of "switch" precision, 2, is refused; so is "-f" with a file name *)
Theorem C08_precision_number_refuted :
  (' (e, s) <- run "-f switch" ;; Ok (e, znth 0 (s_opt s) O_PRECISION)) = Ok (0, 2) /\ (' (e, s) <- run "-f 2" ;; Ok e) = Ok ILL_ARG_.
Proof. vm_compute. auto. Qed.
(** a real option with no number in it stores whatever the stack held, and succeeds *)
Theorem C08_bad_real_refuted : forall (P : Type) (scan_lg : list Z -> option P) c012 jd v (s : solver P),
  scan_lg v = None -> zlen (s_par s) = PARAMS_LEN ->
  set_option2 scan_lg c012 jd (str "-tol") v s = Ok (0, mkSol (s_opt s) (zupd (s_par s) 0 (jd v)) (s_ret s)).
Proof.
  intros P scan_lg c012 jd v s H L. rewrite set_option2_acts. change (acts (str "-tol")) with [P_RESID]. cbn [run_acts].
  pose proof (act_real scan_lg c012 jd "-tol" P_RESID v (mkSol (repeat 0 27) (s_par s) (s_ret s))).
  unfold act_on. repeat match goal with |- context [?a =? ?b] => let v := eval vm_compute in (a =? b) in change (a =? b) with v end; cbv iota.
  change (P_RESID <? OPTIONS_LEN) with false. cbv iota. rewrite H. change (P_RESID - OPTIONS_LEN) with 0. rewrite wr_ok by (rewrite L; vm_compute; intuition congruence). reflexivity.
Qed.
Print Assumptions C08_bad_real_refuted.
Print Assumptions C08_number_unchecked_refuted.
Print Assumptions C08_precision_number_refuted.
