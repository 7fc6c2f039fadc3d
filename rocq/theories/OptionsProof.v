Require Import ZArith List Bool Ascii String Lia.
From Verif Require Import Base Args SpecArgs ArgsProof Options SpecOptions.
Import ListNotations.
Open Scope Z_scope.

Lemma str_eqb_spec a b : str_eqb a b = if list_eq_dec Z.eq_dec a b then true else false.
Proof.
  revert b. induction a as [|x a IH]; intros [|y b]; cbn [str_eqb]; try (destruct list_eq_dec; congruence || auto; fail).
  rewrite IH. destruct (Z.eqb_spec x y); destruct (list_eq_dec Z.eq_dec a b); destruct (list_eq_dec Z.eq_dec (x :: a) (y :: b)); cbn [andb]; congruence.
Qed.

Lemma skipn_nth {A} (l : list A) d n : (n < List.length l)%nat -> nth n l d :: skipn (S n) l = skipn n l.
Proof. revert n. induction l; intros [|n] H; cbn in *; try lia; auto. apply IHl. lia. Qed.

Lemma znth_zupd_other {A} (d : A) a i j v : j <> i -> znth d (zupd a i v) j = znth d a j.
Proof.
  intros N. unfold znth, zupd. destruct (Z.ltb_spec j 0); [auto|]. destruct (Z.ltb_spec i 0); [auto|].
  assert (E : Z.to_nat j <> Z.to_nat i) by lia. revert E. generalize (Z.to_nat j) (Z.to_nat i). induction a as [|x a IH]; intros [|p] [|q] E; cbn; auto; try congruence.
Qed.

Section S.
Context {P : Type} (scan_lg : list Z -> option P) (c012 : P) (jd : list Z -> P).

Definition acts_from (l : list (list Z * Z)) (arg1 : list Z) : list Z := map snd (filter (fun p => str_eqb arg1 (fst p)) l).
Fixpoint run_acts (l : list Z) (arg2 : list Z) (s : solver P) : res (Z * solver P) :=
  match l with
  | [] => Ok (0, s)
  | a :: l => ' (e, s) <- act_on scan_lg c012 jd a arg2 s ;; if negb (e =? 0) then Ok (e, mkSol (s_opt s) (s_par s) e) else run_acts l arg2 s
  end.

Lemma option2_loop_acts arg1 arg2 : forall k f i s, (k + Z.to_nat i = 46)%nat -> (k < f)%nat -> 0 <= i ->
  option2_loop scan_lg c012 jd f i arg1 arg2 s = run_acts (acts_from (skipn (Z.to_nat i) (combine OPTNAME OPTACT)) arg1) arg2 s.
Proof.
  induction k as [|k IH]; intros f i s Hk Hf Hi; (destruct f as [|f]; [lia|]); cbn [option2_loop].
  - destruct (Z.ltb_spec i SOLVER_OPTION_LEN); [unfold SOLVER_OPTION_LEN in *; lia|]. replace (Z.to_nat i) with 46%nat by lia. reflexivity.
  - destruct (Z.ltb_spec i SOLVER_OPTION_LEN); [|unfold SOLVER_OPTION_LEN in *; lia].
    assert (L1 : zlen OPTNAME = 46) by reflexivity. assert (L2 : zlen OPTACT = 46) by reflexivity. unfold SOLVER_OPTION_LEN in *.
    rewrite (rd_ok []) by lia. cbn [bind].
    assert (SK : skipn (Z.to_nat i) (combine OPTNAME OPTACT) = (znth [] OPTNAME i, znth 0 OPTACT i) :: skipn (Z.to_nat (i + 1)) (combine OPTNAME OPTACT)).
    { unfold znth. replace (Z.to_nat (i + 1)) with (S (Z.to_nat i)) by lia. destruct (Z.ltb_spec i 0); [lia|].
      rewrite <- (skipn_nth (combine OPTNAME OPTACT) ([], 0)) by (rewrite combine_length; unfold zlen in *; lia).
      rewrite combine_nth by (unfold zlen in *; lia). reflexivity. }
    rewrite SK. unfold acts_from. cbn [filter fst]. destruct (str_eqb arg1 (znth [] OPTNAME i)).
    + rewrite (rd_ok 0) by lia. cbn [bind map snd run_acts].
      destruct (act_on scan_lg c012 jd (znth 0 OPTACT i) arg2 s) as [[e s']|z|]; cbn [bind]; auto.
      destruct (negb (e =? 0)); auto. apply IH; lia.
    + cbn [bind negb Z.eqb]. apply IH; lia.
Qed.

Definition acts := acts_from (combine OPTNAME OPTACT).
Lemma set_option2_acts arg1 arg2 s : set_option2 scan_lg c012 jd arg1 arg2 s = run_acts (acts arg1) arg2 s.
Proof. unfold set_option2. rewrite (option2_loop_acts arg1 arg2 46) by lia. change (Z.to_nat 0) with 0%nat. unfold acts. generalize (combine OPTNAME OPTACT). intros l. reflexivity. Qed.

(** the two tables and the documented one list the same names *)
Lemma find_option_spec name : match find_option name doc_table with
  | None => forall arg2 s, run_acts (acts name) arg2 s = Ok (0, s)
  | Some (o, k) => exists n, name = str n /\ In (n, o, k) doc_table
  end.
Proof.
  assert (G : forall t, (forall n o k, In (n, o, k) t -> In (n, o, k) doc_table) ->
     match find_option name t with
     | None => forall n o k, In (n, o, k) t -> name <> str n
     | Some (o, k) => exists n, name = str n /\ In (n, o, k) doc_table end).
  { induction t as [|[[n o] k] t IH]; intros Ht; cbn [find_option].
    - intros ? ? ? [].
    - destruct (list_eq_dec Z.eq_dec name (str n)).
      + exists n. split; [auto|]. apply Ht. left; auto.
      + specialize (IH ltac:(intros; apply Ht; right; auto)). destruct (find_option name t) as [[? ?]|]; [auto|].
        intros n' o' k' [E|H]; [inversion E; subst; auto|]. eapply IH; eauto. }
  specialize (G doc_table ltac:(auto)). destruct (find_option name doc_table) as [[o k]|]; [exact G|].
  intros arg2 s.
  destruct (list_eq_dec Z.eq_dec name (str "-h")) as [->|N1]; [reflexivity|].
  destruct (list_eq_dec Z.eq_dec name (str "-ver")) as [->|N2]; [reflexivity|].
  assert (H : acts name = []); [|rewrite H; reflexivity].
  assert (C : forallb (fun nm => existsb (fun '(n, _, _) => str_eqb nm (str n)) doc_table || str_eqb nm (str "-h") || str_eqb nm (str "-ver")) OPTNAME = true) by (vm_compute; auto).
  rewrite forallb_forall in C. unfold acts, acts_from.
  replace (filter _ _) with (@nil (list Z * Z)); [reflexivity|]. symmetry.
  assert (F : forall l, (forall p, In p l -> In (fst p) OPTNAME) -> filter (fun p => str_eqb name (fst p)) l = @nil (list Z * Z)).
  { induction l as [|p l IH]; intros Hl; [reflexivity|]. cbn [filter]. rewrite str_eqb_spec.
    destruct (list_eq_dec Z.eq_dec name (fst p)) as [E|E]; [|apply IH; intros; apply Hl; right; auto].
    exfalso. specialize (C (fst p) (Hl p (or_introl eq_refl))). rewrite <- E in C. rewrite !str_eqb_spec in C.
    destruct (list_eq_dec Z.eq_dec name (str "-h")); [auto|]. destruct (list_eq_dec Z.eq_dec name (str "-ver")); [auto|].
    rewrite !orb_false_r in C. apply existsb_exists in C. destruct C as ([[n' o'] k'] & Hin & Ex). rewrite str_eqb_spec in Ex.
    destruct (list_eq_dec Z.eq_dec name (str n')) as [En|]; [|discriminate]. exact (G _ _ _ Hin En). }
  apply F. intros [nm a] Hp. eapply in_combine_l. exact Hp.
Qed.

Lemma acts_doc n o k arg2 s : In (n, o, k) doc_table -> run_acts (acts (str n)) arg2 s = run_acts [o] arg2 s.
Proof.
  assert (C : forallb (fun '(n, o, _) => if list_eq_dec Z.eq_dec (acts (str n)) [o] then true else if list_eq_dec Z.eq_dec (acts (str n)) [O_FILE; o] then true else false) doc_table = true) by (vm_compute; auto).
  rewrite forallb_forall in C. intros Hin. specialize (C _ Hin). cbn beta iota in C.
  destruct (list_eq_dec Z.eq_dec (acts (str n)) [o]) as [->|_]; [auto|].
  destruct (list_eq_dec Z.eq_dec (acts (str n)) [O_FILE; o]) as [->|_]; [reflexivity|discriminate].
Qed.

Lemma name_loop_spec len off arg o s : 0 <= o < zlen (s_opt s) -> forall l pre, len = zlen pre + zlen (map str l) -> 0 < zlen (map str l) ->
  forall f, (List.length l < f)%nat ->
  @name_loop P f (pre ++ map str l) len off (zlen pre) arg o s =
    match position arg l (zlen pre + off) with
    | Some v => Ok (0, mkSol (zupd (s_opt s) o v) (s_par s) (s_ret s))
    | None => Ok (ILL_ARG_, s)
    end.
Proof.
  intros Ho. induction l as [|n l IH]; intros pre Hlen Hpos f Hf; [cbn in Hpos; lia|].
  destruct f as [|f]; [lia|]. cbn [name_loop position map]. cbn [map] in Hlen. rewrite zlen_cons in Hlen. pose proof (zlen_nonneg (map str l)). pose proof (zlen_nonneg pre).
  destruct (Z.ltb_spec (zlen pre) len); [|lia]. rewrite rd_mid by auto. cbn [bind]. rewrite str_eqb_spec.
  destruct (list_eq_dec Z.eq_dec arg (str n)).
  - rewrite wr_ok by auto. reflexivity.
  - destruct l as [|n' l].
    + cbn [map] in *. change (zlen (@nil (list Z))) with 0 in *. destruct (Z.eqb_spec (zlen pre) (len - 1)); [reflexivity|lia].
    + cbn [map] in H. rewrite zlen_cons in *. pose proof (zlen_nonneg (map str l)). cbn [map] in Hlen. rewrite zlen_cons in Hlen.
      destruct (Z.eqb_spec (zlen pre) (len - 1)); [lia|].
      specialize (IH (pre ++ [str n])). rewrite zlen_app in IH. change (zlen [str n]) with 1 in IH. rewrite <- app_assoc in IH. cbn [app] in IH.
      rewrite IH; [|cbn [map]; rewrite zlen_cons; lia|cbn [map]; rewrite zlen_cons; lia|cbn in Hf |- *; lia].
      replace (zlen pre + 1 + off) with (zlen pre + off + 1) by lia. reflexivity.
Qed.

Definition good (s : solver P) : Prop := zlen (s_opt s) = OPTIONS_LEN /\ zlen (s_par s) = PARAMS_LEN.

(** what one option does, as the documentation says *)
Definition obeys (e : effect P) (s : solver P) (r : res (Z * solver P)) : Prop :=
  match e with
  | Reject => r = Ok (ILL_ARG_, s)
  | TooBig => r = UB
  | e => r = Ok (0, mkSol (fst (apply_option c012 e (s_opt s) (s_par s))) (snd (apply_option c012 e (s_opt s) (s_par s))) (s_ret s))
  end.

Lemma sol_eta (s : solver P) : mkSol (s_opt s) (s_par s) (s_ret s) = s.
Proof. destruct s; reflexivity. Qed.

Lemma scan_d_noerr v : forall e, scan_d v <> Err e.
Proof.
  intros e. unfold scan_d. destruct (match v with c :: t => if c =? 45 then (-1, t) else if c =? 43 then (1, t) else (1, v) | [] => (1, v) end) as [sg t].
  destruct t; [discriminate|]. destruct (is_digit z); [|discriminate]. cbv zeta. destruct ((_ <=? _) && _); discriminate.
Qed.

Lemma scan_opt_spec v o s : 0 <= o < zlen (s_opt s) -> o <> O_SAAMG_UNSYM -> obeys (of_number o (scan_d v)) s (s <- scan_opt v o s ;; Ok (0, s)).
Proof.
  intros Ho Hs. unfold scan_opt. pose proof (scan_d_noerr v). destruct (scan_d v) as [[w|]|z|]; cbn [bind of_number obeys apply_option fst snd].
  - rewrite wr_ok by auto. cbn [bind]. destruct (Z.eqb_spec o O_SAAMG_UNSYM); [lia|]. reflexivity.
  - rewrite sol_eta. auto.
  - exfalso. eapply H; eauto.
  - auto.
Qed.

(** set_named without the saamg special case; pure version *)
Definition named_effect (value : list Z) (names : list string) (first top o : Z) : effect P :=
  let c := match value with c :: _ => c | [] => 0 end in
  if (48 <=? c) && (c <=? 48 + top) then of_number o (scan_d value)
  else match position value names first with Some v => Assign o v | None => Reject end.

Lemma set_named_spec top names off v o (s : solver P) : 0 <= o < zlen (s_opt s) -> 0 < zlen (map str names) ->
  match named_effect v names off top o with
  | Assign o' w => set_named (48 + top) (map str names) (zlen (map str names)) off v o s = Ok (0, mkSol (zupd (s_opt s) o w) (s_par s) (s_ret s)) /\ o' = o
  | AssignReal _ _ => False
  | Keep => set_named (48 + top) (map str names) (zlen (map str names)) off v o s = Ok (0, s)
  | Reject => set_named (48 + top) (map str names) (zlen (map str names)) off v o s = Ok (ILL_ARG_, s)
  | TooBig => set_named (48 + top) (map str names) (zlen (map str names)) off v o s = UB
  end.
Proof.
  intros Ho Hp. unfold named_effect, set_named. cbv zeta. destruct ((48 <=? _) && _).
  - unfold scan_opt. pose proof (scan_d_noerr v). destruct (scan_d v) as [[w|]|z|]; cbn [bind of_number]; auto.
    + rewrite wr_ok by auto. auto.
    + exfalso. eapply H; eauto.
  - pose proof (name_loop_spec (zlen (map str names)) off v o s Ho names [] eq_refl Hp (S (List.length (map str names))) ltac:(rewrite map_length; lia)) as L.
    cbn [app] in L. change (zlen (@nil (list Z))) with 0 in L. rewrite Z.add_0_l in L. rewrite L. destruct (position v names off); auto.
Qed.

Ltac crunch := repeat match goal with |- context [?a =? ?b] => let v := eval vm_compute in (a =? b) in change (a =? b) with v end; cbv iota.

Lemma act_named n o names first top v s : good s -> In (n, o, Named names first top) doc_table -> n <> "-saamg_unsym"%string ->
  obeys (named_effect v names first top o) s (act_on scan_lg c012 jd o v s).
Proof.
  intros (G1 & G2) Hin Hn.
  assert (K : act_on scan_lg c012 jd o v s = set_named (48 + top) (map str names) (zlen (map str names)) first v o s /\ 0 <= o < OPTIONS_LEN /\ 0 < zlen (map str names) /\ o <> O_SAAMG_UNSYM).
  { cbn [doc_table In] in Hin. do 43 (destruct Hin as [E|Hin]; [first [discriminate E | inversion E; subst;
      first [exfalso; apply Hn; reflexivity | split; [unfold act_on; crunch; reflexivity|vm_compute; repeat split; congruence]]]|]). destruct Hin. }
  destruct K as (-> & Ho & Hp & Hs). pose proof (set_named_spec top names first v o s ltac:(lia) Hp) as K.
  destruct (named_effect v names first top o); cbn [obeys apply_option fst snd].
  - destruct K as (-> & ->). destruct (Z.eqb_spec o O_SAAMG_UNSYM); [lia|]. reflexivity.
  - destruct K.
  - rewrite K, sol_eta. auto.
  - auto.
  - auto.
Qed.

Lemma act_int n o v s : good s -> In (n, o, Int) doc_table -> obeys (of_number o (scan_d v)) s (act_on scan_lg c012 jd o v s).
Proof.
  intros (G1 & G2) Hin.
  assert (K : act_on scan_lg c012 jd o v s = (s <- scan_opt v o s ;; Ok (0, s)) /\ 0 <= o < OPTIONS_LEN /\ o <> O_SAAMG_UNSYM).
  { cbn [doc_table In] in Hin. do 43 (destruct Hin as [E|Hin]; [first [discriminate E | inversion E; subst;
      split; [unfold act_on; crunch; reflexivity|vm_compute; repeat split; congruence]]|]). destruct Hin. }
  destruct K as (-> & Ho & Hs). apply scan_opt_spec; auto. lia.
Qed.

Lemma act_real n p v s : good s -> In (n, p, Real) doc_table ->
  obeys (AssignReal (p - OPTIONS_LEN) (match scan_lg v with Some x => x | None => jd v end)) s (act_on scan_lg c012 jd p v s).
Proof.
  intros (G1 & G2) Hin.
  assert (K : act_on scan_lg c012 jd p v s = (l <- wr (s_par s) (p - OPTIONS_LEN) (match scan_lg v with Some v => v | None => jd v end) ;; Ok (0, mkSol (s_opt s) l (s_ret s)))
     /\ 0 <= p - OPTIONS_LEN < PARAMS_LEN).
  { cbn [doc_table In] in Hin. do 43 (destruct Hin as [E|Hin]; [first [discriminate E | inversion E; subst;
      split; [unfold act_on; crunch; reflexivity|vm_compute; repeat split; congruence]]|]). destruct Hin. }
  destruct K as (-> & Ho). cbn [obeys apply_option fst snd]. rewrite wr_ok by lia. reflexivity.
Qed.

Lemma act_saamg v s : good s ->
  match named_effect v ["false"; "true"]%string 0 1 O_SAAMG_UNSYM with
  | Reject => exists par', act_on scan_lg c012 jd O_SAAMG_UNSYM v s = Ok (ILL_ARG_, mkSol (s_opt s) par' (s_ret s)) /\ zlen par' = PARAMS_LEN
  | e => obeys e s (act_on scan_lg c012 jd O_SAAMG_UNSYM v s)
  end.
Proof.
  intros (G1 & G2).
  assert (K : act_on scan_lg c012 jd O_SAAMG_UNSYM v s = (
    ' (e, s) <- set_named (48 + 1) (map str ["false"; "true"]%string) (zlen (map str ["false"; "true"]%string)) 0 v O_SAAMG_UNSYM s ;;
    u <- rd (s_opt s) O_SAAMG_UNSYM ;;
    if negb (u =? 0) then l <- wr (s_par s) (P_SAAMG_THETA - OPTIONS_LEN) c012 ;; Ok (e, mkSol (s_opt s) l (s_ret s))
    else Ok (e, s))) by (unfold act_on; crunch; reflexivity).
  rewrite K. clear K. assert (HO : 0 <= O_SAAMG_UNSYM < OPTIONS_LEN) by (vm_compute; repeat split; congruence).
  assert (HP : 0 <= P_SAAMG_THETA - OPTIONS_LEN < PARAMS_LEN) by (vm_compute; repeat split; congruence).
  pose proof (set_named_spec 1 ["false"; "true"]%string 0 v O_SAAMG_UNSYM s ltac:(lia) ltac:(reflexivity)) as K.
  assert (NK : named_effect v ["false"; "true"]%string 0 1 O_SAAMG_UNSYM <> Keep).
  { unfold named_effect. cbv zeta. destruct v as [|c v]; [cbn; discriminate|].
    destruct ((48 <=? c) && (c <=? 48 + 1)) eqn:D.
    - apply andb_prop in D. destruct D as (D1 & D2). apply Z.leb_le in D1, D2. unfold scan_d.
      destruct (Z.eqb_spec c 45); [lia|]. destruct (Z.eqb_spec c 43); [lia|]. unfold is_digit.
      destruct (Z.leb_spec 48 c); [|lia]. destruct (Z.leb_spec c 57); [|lia]. cbn [andb]. cbv zeta. destruct ((_ <=? _) && _); discriminate.
    - destruct (position _ _ _); discriminate. }
  destruct (named_effect v _ 0 1 O_SAAMG_UNSYM); try contradiction; cbn [obeys apply_option fst snd].
  - destruct K as (-> & ->). cbn [bind s_opt s_par]. rewrite (rd_ok 0) by (rewrite zlen_zupd; lia). cbn [bind]. rewrite znth_zupd by lia. rewrite !Z.eqb_refl. cbn [andb].
    destruct (negb (v0 =? 0)); [|reflexivity]. rewrite wr_ok by lia. reflexivity.
  - rewrite K. cbn [bind]. rewrite (rd_ok 0) by lia. cbn [bind]. destruct (negb _).
    + rewrite wr_ok by lia. cbn [bind]. eexists. split; [reflexivity|]. rewrite zlen_zupd; auto.
    + exists (s_par s). rewrite sol_eta. auto.
  - rewrite K. reflexivity.
Qed.

(** one option *)
Lemma option2_spec name v s : good s ->
  match doc_effect scan_lg jd name v with
  | Reject => exists par', set_option2 scan_lg c012 jd name v s = Ok (ILL_ARG_, mkSol (s_opt s) par' ILL_ARG_) /\ zlen par' = PARAMS_LEN /\
                (name <> str "-saamg_unsym" -> par' = s_par s)
  | e => obeys e s (set_option2 scan_lg c012 jd name v s)
  end.
Proof.
  intros HG. rewrite set_option2_acts. pose proof (find_option_spec name) as F. unfold doc_effect.
  destruct (find_option name doc_table) as [[o k]|]; [|rewrite F; cbn [obeys apply_option fst snd]; rewrite sol_eta; auto].
  destruct F as (n & -> & Hin). rewrite (acts_doc _ _ _ _ _ Hin). cbn [run_acts].
  assert (ONE : forall e, e <> Reject -> obeys e s (act_on scan_lg c012 jd o v s) ->
      obeys e s (' (e, s) <- act_on scan_lg c012 jd o v s ;; if negb (e =? 0) then Ok (e, mkSol (s_opt s) (s_par s) e) else Ok (0, s))).
  { intros e Hne. destruct e; cbn [obeys]; intros H; try contradiction; rewrite H; reflexivity. }
  destruct k as [names first top| |].
  - fold (named_effect v names first top o). destruct (string_dec n "-saamg_unsym") as [->|Hn].
    + assert (E : o = O_SAAMG_UNSYM /\ names = ["false"; "true"]%string /\ first = 0 /\ top = 1).
      { cbn [doc_table In] in Hin. do 43 (destruct Hin as [E|Hin]; [try discriminate E; inversion E; auto|]). destruct Hin. }
      destruct E as (-> & -> & -> & ->). pose proof (act_saamg v s HG) as A.
      destruct (named_effect v _ 0 1 O_SAAMG_UNSYM) eqn:EN; try (apply ONE; [discriminate|exact A]).
      destruct A as (par' & -> & L). cbn [bind]. exists par'. split; [reflexivity|]. split; [auto|]. intros H; exfalso; apply H; reflexivity.
    + pose proof (act_named n o names first top v s HG Hin Hn) as A.
      destruct (named_effect v names first top o) eqn:EN; try (apply ONE; [discriminate|exact A]).
      cbn [obeys] in A. rewrite A. cbn [bind]. exists (s_par s). split; [reflexivity|]. split; [apply HG|auto].
  - pose proof (act_int n o v s HG Hin) as A. pose proof (scan_d_noerr v). destruct (scan_d v) as [[w|]|z|]; cbn [of_number] in *; try (apply ONE; [discriminate|exact A]).
  - apply ONE; [discriminate|]. apply (act_real n); auto.
Qed.

Lemma good_apply e s : good s -> zlen (fst (apply_option c012 e (s_opt s) (s_par s))) = OPTIONS_LEN /\ zlen (snd (apply_option c012 e (s_opt s) (s_par s))) = PARAMS_LEN.
Proof.
  intros (G1 & G2). destruct e; cbn [apply_option fst snd]; rewrite ?zlen_zupd; auto. split; [auto|].
  destruct (_ && _); rewrite ?zlen_zupd; auto.
Qed.

Lemma options_spec : forall ps s, good s ->
  match doc_run scan_lg c012 jd ps (s_opt s) (s_par s) with
  | Accepted opt par => set_options scan_lg c012 jd ps s = Ok (0, mkSol opt par (s_ret s))
  | RejectedAt name opt par => exists par', set_options scan_lg c012 jd ps s = Ok (ILL_ARG_, mkSol opt par' ILL_ARG_) /\
      (name <> str "-saamg_unsym" -> par' = par)
  | Overflow => set_options scan_lg c012 jd ps s = UB
  end.
Proof.
  induction ps as [|[n v] ps IH]; intros s HG; cbn [doc_run set_options].
  - rewrite sol_eta. auto.
  - pose proof (option2_spec n v s HG) as H.
    assert (NX : forall e, obeys e s (set_option2 scan_lg c012 jd n v s) -> match e with Reject | TooBig => False | _ => True end ->
      match doc_run scan_lg c012 jd ps (fst (apply_option c012 e (s_opt s) (s_par s))) (snd (apply_option c012 e (s_opt s) (s_par s))) with
      | Accepted opt par => (' (e, s) <- set_option2 scan_lg c012 jd n v s ;; if negb (e =? 0) then Ok (e, mkSol (s_opt s) (s_par s) e) else set_options scan_lg c012 jd ps s) = Ok (0, mkSol opt par (s_ret s))
      | RejectedAt name opt par => exists par', (' (e, s) <- set_option2 scan_lg c012 jd n v s ;; if negb (e =? 0) then Ok (e, mkSol (s_opt s) (s_par s) e) else set_options scan_lg c012 jd ps s) = Ok (ILL_ARG_, mkSol opt par' ILL_ARG_) /\
          (name <> str "-saamg_unsym" -> par' = par)
      | Overflow => (' (e, s) <- set_option2 scan_lg c012 jd n v s ;; if negb (e =? 0) then Ok (e, mkSol (s_opt s) (s_par s) e) else set_options scan_lg c012 jd ps s) = UB
      end).
    { intros e He Hk. assert (E : set_option2 scan_lg c012 jd n v s = Ok (0, mkSol (fst (apply_option c012 e (s_opt s) (s_par s))) (snd (apply_option c012 e (s_opt s) (s_par s))) (s_ret s))) by (destruct e; try contradiction; exact He).
      rewrite E. cbn [bind negb Z.eqb].
      exact (IH (mkSol (fst (apply_option c012 e (s_opt s) (s_par s))) (snd (apply_option c012 e (s_opt s) (s_par s))) (s_ret s)) (good_apply e s HG)). }
    destruct (doc_effect scan_lg jd n v) as [o w|p w| | |] eqn:E.
    + exact (NX (Assign o w) H I).
    + exact (NX (AssignReal p w) H I).
    + exact (NX Keep H I).
    + destruct H as (par' & -> & _ & Hp). cbn [bind]. exists par'. split; [reflexivity|auto].
    + cbn [obeys] in H. rewrite H. reflexivity.
Qed.
End S.
