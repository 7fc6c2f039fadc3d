Require Import ZArith List Bool Lia Reals Lra.
From Verif Require Import Base Scalar ScalarReal Spec SpecSolver SpecDiag SpecEsolver Krylov MatvecProof KrylovProof DiagProof2 RealVec Esolver EsolverTerms EsolverProof EsolverProof2 EsolverProof3 EsolverFinal EsolverSub.
Import ListNotations.
Open Scope Z_scope.

Lemma safe_rd {A} (d : A) l i (Q : A -> Prop) : 0 <= i < zlen l -> Q (znth d l i) -> safe (rd l i) Q.
Proof. intros H HQ. rewrite (rd_ok d) by auto. exact HQ. Qed.
Lemma safe_wr {A} (l : list A) i v (Q : list A -> Prop) : 0 <= i < zlen l -> Q (zupd l i v) -> safe (wr l i v) Q.
Proof. intros H HQ. rewrite wr_ok by auto. exact HQ. Qed.
Lemma safe_for {A} (I : Z -> A -> Prop) lo hi body s (Q : A -> Prop) : lo <= hi -> I lo s ->
  (forall i s, lo <= i < hi -> I i s -> safe (body i s) (I (i + 1))) -> (forall s, I hi s -> Q s) -> safe (for_ lo hi body s) Q.
Proof.
  intros Hl H0 Hb HQ. unfold for_. remember (Z.to_nat (hi - lo)) as k. assert (hi = lo + Z.of_nat k) by lia. clear Heqk. revert lo s Hl H0 Hb H.
  induction k as [|k IH]; intros lo s Hl H0 Hb H; cbn [for_n].
  - cbn. apply HQ. replace hi with lo by lia. exact H0.
  - apply safe_bind. eapply safe_mono; [apply Hb; [lia|exact H0]|]. intros s' Hs'. apply IH; [lia|exact Hs'| |lia]. intros i s2 Hi. apply Hb. lia.
Qed.

Section Si.
Variables (e : eenv R) (ni : inner_e) (E : Ent).
Let n := ee_n e.
(** what the inner step returned for u *)
Definition inner_res (u y : vec) : Prop := match ni with IPower => y = matvec n E u | IInverse => exists k, ee_solve e k E u = (0, y) | IOther => False end.
Definition si_good (s : sst (T:=R)) : Prop := exists u y th r, unit_v n u /\ inner_res u y /\ th = ip n (at_ u) (at_ y) /\ (th <> 0)%R /\ (nm n (at_ y) <> 0)%R /\
  eqv n (at_ (znth [] (fst (fst (fst (fst s)))) 1)) (fun i => 1 / nm n (at_ y) * at_ y i)%R /\ snd (fst (fst s)) = Some th /\ snd (fst s) = Some r /\
  r = (nm n (fun i => at_ y i - th * at_ u i) / Rabs th)%R.
Definition si_I (L M : Z) (iter : Z) (s : sst (T:=R)) : Prop := zlen (fst (fst (fst (fst s)))) = L /\ zlen (snd s) = M + 2 /\ unit_v n (znth [] (fst (fst (fst (fst s)))) 1) /\
  (0 < iter -> si_good s /\ exists r, snd (fst s) = Some r /\ (ee_tol e <= r)%R).
Definition si_S (L M : Z) (iter : Z) (s : sst (T:=R)) : Prop := zlen (fst (fst (fst (fst s)))) = L /\ zlen (snd s) = M + 2 /\ unit_v n (znth [] (fst (fst (fst (fst s)))) 1) /\
  si_good s /\ exists r, snd (fst s) = Some r /\ (r < ee_tol e)%R.
Lemma esi_body_safe L M iter s : 1 < L -> ni <> IOther -> 0 <= iter < M -> si_I L M iter s ->
  safe (esi_body e ni E 1 (iter + 1) s) (fun c => match c with ENext s => si_I L M (iter + 1) s | EStop s => si_S L M (iter + 1) s | EFail err s => err <> 0 /\ ni = IInverse end).
Proof.
  intros HL Hni Hi (A1 & A2 & A3 & _). destruct s as [[[[v r0] th0] rs0] rh]. cbn [snd fst] in *. unfold esi_body.
  unfold reorth. apply safe_bind. rewrite for_empty by lia. cbn [safe].
  apply safe_bind, (safe_rd []); [lia|]. set (u := znth [] v 1) in *. fold n.
  set (m := match ni with IPower => (0, matvec n E u) | IInverse => ee_solve e (iter + 1) E u | IOther => (0, r0) end).
  destruct m as [err y] eqn:Em. destruct (Z.eqb_spec err 0) as [->|Ne]; cbn [negb]; [|cbn; split; [exact Ne|]; unfold m in Em; destruct ni; [injection Em as <- <-; congruence|reflexivity|congruence]].
  assert (IR : inner_res u y).
  { unfold inner_res, m in *. destruct ni; [injection Em as <-; reflexivity|eexists; exact Em|congruence]. }
  apply safe_bind, safe_divz. intros Ht. rewrite nrm_axpyz. change (dot n u y) with (ip n (at_ u) (at_ y)) in *. set (th := ip n (at_ u) (at_ y)) in *.
  apply safe_bind, safe_divz. intros Hy. change (nrm2 n y) with (nm n (at_ y)) in *.
  apply safe_bind, safe_wr; [lia|]. rewrite Z.eqb_refl.
  apply safe_bind, safe_history; [lia|]. intros rh' Hrh. cbn [safe].
  assert (Hth0 : (th <> 0)%R) by (intros X; apply Ht; change (Rabs th = 0%R); rewrite X; apply Rabs_R0).
  set (r := (nm n (fun i => at_ y i - th * at_ u i) / sabs th)%R).
  set (w := copy n (scale n (s1 / nm n (at_ y))%R y)).
  assert (Hw : eqv n (at_ w) (fun i => 1 / nm n (at_ y) * at_ y i)%R).
  { intros i Hi'. unfold w. rewrite (at_copy (S:=ScalarR)) by auto. apply (at_scale (S:=ScalarR)); auto. }
  assert (Uw : unit_v n w).
  { unfold unit_v. rewrite (nm_ext _ _ _ Hw), nm_scal. rewrite Rabs_pos_eq; [field; auto|]. pose proof (nm_pos n (at_ y)). apply Rlt_le, Rdiv_lt_0_compat; lra. }
  assert (Ew : znth [] (zupd v 1 w) 1 = w) by (apply znth_zupd_eq; lia).
  assert (G : si_good (zupd v 1 w, scale n (s1 / nm n (at_ y))%R y, Some th, Some r, rh')).
  { exists u, y, th, r. cbn [fst snd]. split; [exact A3|]. split; [exact IR|]. split; [reflexivity|]. split; [exact Hth0|]. split; [exact Hy|]. rewrite Ew. split; [exact Hw|]. split; [reflexivity|]. split; reflexivity. }
  destruct (sleb (ee_tol e) r) eqn:El; cbn [negb].
  - apply slebR in El. unfold si_I. cbn [fst snd]. rewrite zlen_zupd, Ew. split; [auto|]. split; [lia|]. split; [exact Uw|]. intros _. split; [exact G|]. exists r. split; [reflexivity|exact El].
  - apply slebR' in El. unfold si_S. cbn [fst snd]. rewrite zlen_zupd, Ew. split; [auto|]. split; [lia|]. split; [exact Uw|]. split; [exact G|]. exists r. split; [reflexivity|exact El].
Qed.
End Si.

(** ** one vector: lis_esi with ss = 1 *)
Definition si_post (e : eenv R) (ni : inner_e) (E0 : Ent) (o : sout R) : Prop :=
  let n := ee_n e in let sg := ee_shift e in let E := do_shift sg E0 in
  (exists u y th r it, unit_v n u /\ inner_res e ni E u y /\ th = ip n (at_ u) (at_ y) /\ (th <> 0)%R /\ (nm n (at_ y) <> 0)%R /\
    r = (nm n (fun i => at_ y i - th * at_ u i) / Rabs th)%R /\ unit_v n (so_x o) /\
    eqv n (at_ (so_x o)) (fun i => 1 / nm n (at_ y) * at_ y i)%R /\
    znth None (so_evalue o) 0 = Some ((match ni with IPower => th | _ => 1 / th end) + sg)%R /\ znth None (so_resid o) 0 = Some r /\ znth None (so_iter o) 0 = Some it /\
    1 <= it <= ee_maxiter e /\ ((r < ee_tol e)%R \/ (it = ee_maxiter e /\ (ee_tol e <= r)%R)) /\ so_ret o = LIS_SUCCESS /\ so_E o = E0) \/
  (so_ret o <> LIS_SUCCESS /\ ni = IInverse).
Lemma esi_one e ni jv E0 x rh : 1 <= ee_maxiter e -> zlen rh = ee_maxiter e + 2 -> ni <> IOther -> safe (esi e ni 1 jv E0 x rh) (si_post e ni E0).
Proof.
  intros Hm Hl Hni. unfold esi. set (n := ee_n e). set (sg := ee_shift e). set (E := do_shift sg E0).
  apply safe_bind, safe_normalize. intros r1 _ Ur _.
  change (Z.to_nat 1) with 1%nat. cbn [esi_loop]. change (0 + 1) with 1. apply safe_bind. unfold esi_mode. cbn [l_v l_r l_rh l_evalue l_resid l_iter l_evec]. fold n.
  assert (LV : zlen (alloc (1 + 2) jv) = 3) by (apply zlen_alloc; lia).
  apply safe_bind. apply safe_bind. apply safe_wr; [lia|]. apply safe_bind. eapply safe_mono.
  - apply (eiterate_safe (si_I e ni E 3 (ee_maxiter e)) (si_S e ni E 3 (ee_maxiter e)) (fun err _ _ => err <> 0 /\ ni = IInverse) (esi_body e ni E 1) (ee_maxiter e)).
    + intros iter s Hi HI. eapply safe_mono; [apply (esi_body_safe e ni E 3 (ee_maxiter e)); auto; lia|]. intros [s'|s'|err s']; auto.
    + lia.
    + rewrite Z2Nat.id by lia. lia.
    + unfold si_I. cbn [fst snd]. rewrite zlen_zupd. split; [exact LV|]. split; [exact Hl|]. split; [|lia]. rewrite znth_zupd_eq by lia.
      unfold unit_v in *. fold n. rewrite (nm_ext n (at_ (copy n r1)) (at_ r1)); [exact Ur|]. intros i Hi. apply (at_copy (S:=ScalarR)); auto.
  - intros [[[fl ret] it] [[[[v r'] th'] rs'] rh']] H. destruct fl.
    + assert (Hr : ret <> 0 /\ ni = IInverse) by (destruct H as [[C _]|[[C _]|[_ [_ C]]]]; [discriminate|discriminate|exact C]).
      cbn [safe]. destruct (Z.eqb_spec ret 0) as [C|_]; [destruct Hr; contradiction|]. cbn [safe bind negb]. destruct (Z.eqb_spec ret 0) as [C|_]; [destruct Hr; contradiction|]. cbn [safe]. right. exact Hr.
    + assert (G : si_good e ni E (v, r', th', rs', rh') /\ zlen v = 3 /\ unit_v n (znth [] v 1) /\ 1 <= it <= ee_maxiter e /\ exists r, rs' = Some r /\
         ((r < ee_tol e)%R \/ (it = ee_maxiter e /\ (ee_tol e <= r)%R))).
      { destruct H as [[_ [A [B (C1 & C2 & C3 & C4)]]]|[[_ [A [B (C1 & C2 & C3 & C4 & r & C5 & C6)]]]|[C _]]]; [| |discriminate].
        - destruct C4 as [G [r [X Y]]]; [lia|]. cbn [snd fst] in *. split; [exact G|]. split; [exact C1|]. split; [exact C3|]. split; [lia|]. exists r. auto.
        - cbn [snd fst] in *. split; [exact C4|]. split; [exact C1|]. split; [exact C3|]. split; [lia|]. exists r. auto. }
      clear H. destruct G as ((u & y & th & r & U1 & U2 & U3 & U4 & U5 & U6 & U7 & U8 & U9) & GV & GU & GI & r2 & GR & GC). cbn [fst snd] in *. fold n in U1, U3, U5, U6, U9.
      rewrite U7, U8. rewrite U8 in GR. injection GR as <-.
      rewrite (proj2 (Z.leb_le 1 it)) by lia. cbn [Z.eqb andb]. 
      apply safe_bind. apply safe_wr; [vm_compute; split; congruence|].
      apply safe_bind.
      assert (Hlam : safe (match ni with IPower => Ok th | _ => divz s1 th end) (fun lam => lam = match ni with IPower => th | _ => (1 / th)%R end)).
      { destruct ni; [reflexivity|apply safe_divz; reflexivity|congruence]. }
      assert (G : safe (theta <- get (Some th) ;; resid <- get (Some r) ;;
        lam <- (match ni with IPower => Ok theta | _ => divz s1 theta end) ;;
        ev <- wr (evalue0 1) (1 - 1) (Some (sadd lam (ee_shift e))) ;;
        rs <- wr (none_of 1) (1 - 1) (Some resid) ;;
        it <- wr (zupd (none_of 1) (1 - 1) (Some it)) (1 - 1) (Some it) ;;
        Ok (ev, rs, it)) (fun '(ev, rs, it') => znth None ev 0 = Some ((match ni with IPower => th | _ => 1 / th end) + sg)%R /\ znth None rs 0 = Some r /\ znth None it' 0 = Some it)).
      { cbn [get bind]. apply safe_bind. eapply safe_mono; [exact Hlam|]. intros lam ->. apply safe_bind, safe_wr; [vm_compute; split; congruence|]. apply safe_bind, safe_wr; [vm_compute; split; congruence|]. apply safe_bind, safe_wr; [vm_compute; split; congruence|].
        cbn [safe]. split; [reflexivity|]. split; reflexivity. }
      destruct ni eqn:En; [| |congruence].
      all: eapply safe_mono; [exact G|]; intros [[ev rs] it'] (E1 & E2 & E3).
      all: apply safe_bind, (safe_rd []); [lia|]; apply safe_bind, safe_wr; [vm_compute; split; congruence|]; cbn [safe bind Z.eqb negb l_evec l_evalue l_resid l_iter l_rh].
      all: apply safe_bind, (safe_rd None); [vm_compute; split; congruence|].
      all: change (znth None (zupd (none_of 1) (1 - 1) (Some (copy n (znth [] v 1)))) 0) with (Some (copy n (znth [] v 1))); cbn [get bind safe]; left.
      all: exists u, y, th, r, it; cbn [so_ret so_evalue so_resid so_iter so_x so_E]; fold n; fold sg; fold E.
      all: assert (CC : eqv n (at_ (copy n (copy n (znth [] v 1)))) (at_ (znth [] v 1))) by (intros i Hi; rewrite (at_copy (S:=ScalarR)) by auto; apply (at_copy (S:=ScalarR)); auto).
      all: split; [exact U1|]; split; [exact U2|]; split; [exact U3|]; split; [exact U4|]; split; [exact U5|]; split; [exact U9|].
      all: split; [unfold unit_v; rewrite (nm_ext n _ _ CC); exact GU|]; split; [intros i Hi; rewrite CC by exact Hi; apply U6; exact Hi|].
      all: split; [exact E1|]; split; [exact E2|]; split; [exact E3|]; split; [exact GI|]; split; [exact GC|]; split; [reflexivity|]; apply undo_do.
Qed.

(** ** two or more vectors *)
From Verif Require Import ConvertExact.
Lemma wl_divz {Q : R -> Prop} (a b : R) : ((b <> 0)%R -> Q (a / b)%R) -> wl (divz a b) Q.
Proof. intros H x Hx. unfold divz in Hx. destruct (seqb b s0) eqn:Es; [discriminate|]. injection Hx as <-. apply H. intros C. apply seqbR in C. change (s0 : R) with 0%R in Es. congruence. Qed.
Lemma wl_eiterate {A} (I : A -> Prop) (Qf : Z -> A -> Prop) body fuel : forall iter s, I s ->
  (forall iter s, I s -> wl (body iter s) (fun c => match c with ENext s => I s | EStop s => I s | EFail err s => Qf err s end)) ->
  wl (eiterate fuel iter body s) (fun '(fail, ret, it, s) => if (fail : bool) then Qf ret s else I s).
Proof.
  induction fuel as [|f IH]; intros iter s Hs Hb; cbn [eiterate]; [apply wl_ok; exact Hs|].
  eapply wl_bind; [apply Hb; exact Hs|]. intros [s'|s'|err s'] H; [apply IH; auto|apply wl_ok; exact H|apply wl_ok; exact H].
Qed.
Lemma wl_rdw {A} (d : A) l i (Q : A -> Prop) : (0 <= i < zlen l -> Q (znth d l i)) -> wl (rd l i) Q.
Proof.
  intros H a Ha. destruct (Z.leb_spec 0 i) as [h1|h1]; [destruct (Z.ltb_spec i (zlen l)) as [h2|h2]|].
  - rewrite (rd_ok d) in Ha by lia. injection Ha as <-. apply H. lia.
  - rewrite rd_ub in Ha by lia. discriminate.
  - rewrite rd_ub in Ha by lia. discriminate.
Qed.
Lemma wl_wrw {A} (l : list A) i v (Q : list A -> Prop) : (0 <= i < zlen l -> Q (zupd l i v)) -> wl (wr l i v) Q.
Proof.
  intros H a Ha. destruct (Z.leb_spec 0 i) as [h1|h1]; [destruct (Z.ltb_spec i (zlen l)) as [h2|h2]|].
  - rewrite wr_ok in Ha by lia. injection Ha as <-. apply H. lia.
  - rewrite wr_ub in Ha by lia. discriminate.
  - rewrite wr_ub in Ha by lia. discriminate.
Qed.
Section Si2.
Variables (e : eenv R) (ni : inner_e) (E : Ent).
Hypothesis Hni : ni <> IOther.
Let n := ee_n e.
Let failed (err : Z) : Prop := err <> 0 /\ ni = IInverse.
Lemma inner_failed it (u r : vec) err y : match ni with IPower => (0, matvec n E u) | IInverse => ee_solve e it E u | IOther => (0, r) end = (err, y) -> err <> 0 -> failed err.
Proof. intros Em Ne. split; [exact Ne|]. destruct ni; [injection Em as <- <-; congruence|reflexivity|congruence]. Qed.
Definition m1 (s : sst (T:=R)) : Prop := let '(v, r, th, _, _) := s in th = None \/ (1 < zlen v /\ unit_v n r /\ eqv n (at_ (znth [] v 1)) (at_ r)).
Lemma unit_scale (y : vec) : (nm n (at_ y) <> 0)%R -> unit_v n (scale n (1 / nm n (at_ y))%R y).
Proof.
  intros Hy. unfold unit_v. rewrite (nm_ext n _ (fun i => 1 / nm n (at_ y) * at_ y i)%R) by (intros i Hi; apply (at_scale (S:=ScalarR)); auto). rewrite nm_scal.
  rewrite Rabs_pos_eq; [field; auto|]. pose proof (nm_pos n (at_ y)). apply Rlt_le, Rdiv_lt_0_compat; lra.
Qed.
Lemma body1 iter s : m1 s -> wl (esi_body e ni E 1 iter s) (fun c => match c with ENext s => m1 s | EStop s => m1 s | EFail err _ => failed err end).
Proof.
  intros _. destruct s as [[[[v r] th] rs] rh]. unfold esi_body. fold n.
  eapply wl_bind; [apply wl_true|]. intros v' _. eapply wl_bind; [apply (wl_rdw [] v' 1 (fun _ => True)); auto|]. intros u _.
  destruct (match ni with IPower => (0, matvec n E u) | IInverse => ee_solve e iter E u | IOther => (0, r) end) as [err y] eqn:Em.
  destruct (Z.eqb_spec err 0) as [->|Ne]; cbn [negb]; [|apply wl_ok; apply (inner_failed _ _ _ _ _ Em Ne)].
  eapply wl_bind; [apply wl_true|]. intros rs' _.
  eapply wl_bind; [apply (wl_divz (Q := fun c => (nm n (at_ y) <> 0)%R /\ c = (1 / nm n (at_ y))%R)); auto|]. intros c (Hy & ->).
  eapply wl_bind; [apply (wl_wrw v' 1 _ (fun w => 0 <= 1 < zlen v' /\ w = zupd v' 1 (copy n (scale n (1 / nm n (at_ y))%R y)))); auto|]. intros w (Hl & ->).
  eapply wl_bind; [apply wl_true|]. intros rh' _. apply wl_ok.
  assert (G : m1 (zupd v' 1 (copy n (scale n (1 / nm n (at_ y))%R y)), scale n (1 / nm n (at_ y))%R y, Some (dot n u y), Some rs', rh')).
  { right. rewrite zlen_zupd. split; [lia|]. split; [apply unit_scale; exact Hy|]. rewrite znth_zupd_eq by lia. intros i Hi. apply (at_copy (S:=ScalarR)); auto. }
  destruct (negb _); exact G.
Qed.
Definition linked (s : sil (T:=R)) : Prop := unit_v n (l_r s) /\ eqv n (at_ (znth [] (l_v s) 1)) (at_ (l_r s)) /\ 1 < zlen (l_v s).
Lemma mode1 s : wl (esi_mode e ni E 1 s) (fun '(err, s') => failed err \/ (err = 0 /\ linked s')).
Proof.
  unfold esi_mode. fold n. eapply wl_bind; [apply wl_true|]. intros v0 _.
  eapply wl_bind; [apply (wl_eiterate m1 (fun err _ => failed err)); [left; reflexivity|intros; apply body1; assumption]|].
  intros [[[fl ret] it] [[[[v r] th] rs] rh]] H. destruct fl; [apply wl_ok; left; exact H|].
  eapply wl_bind; [apply wl_true|]. intros it' _.
  eapply (wl_bind _ _ (fun _ => th <> None)).
  { destruct ni; [| |congruence]; (destruct th as [th|]; [eapply wl_mono; [apply wl_true|intros; congruence]|intros a Ha; discriminate]). }
  intros [[ev rs'] it2] Hth. eapply wl_bind; [apply wl_true|]. intros vj _. eapply wl_bind; [apply wl_true|]. intros ec _. apply wl_ok. right. split; [reflexivity|].
  destruct H as [H|(H1 & H2 & H3)]; [contradiction|]. split; [exact H2|]. split; [exact H3|exact H1].
Qed.
Lemma body2 iter (v : list vec) (r : vec) rh : 2 < zlen v -> unit_v n r -> eqv n (at_ (znth [] v 1)) (at_ r) ->
  wl (esi_body e ni E 2 iter (zupd v 2 (copy n r), r, None, None, rh)) (fun c => match c with EFail err _ => failed err | _ => False end).
Proof.
  intros Hl Hr Hv. unfold esi_body. fold n. set (v2 := zupd v 2 (copy n r)).
  assert (L2 : zlen v2 = zlen v) by apply zlen_zupd.
  assert (Hr1 : reorth n 2 v2 = Ok (zupd v2 2 (axpy n (sopp (dot n (copy n r) (znth [] v 1))) (znth [] v 1) (copy n r)))).
  { unfold reorth, for_. change (Z.to_nat (2 - 1)) with 1%nat. cbn [for_n].
    assert (R1 : @rd (list R) v2 2 = Ok (copy n r)) by (rewrite (rd_ok []) by lia; unfold v2; rewrite znth_zupd_eq by lia; reflexivity).
    assert (R2 : @rd (list R) v2 1 = Ok (znth [] v 1)) by (rewrite (rd_ok []) by lia; unfold v2; rewrite znth_zupd_neq by lia; reflexivity).
    match goal with |- bind (bind ?a _) _ = _ => change a with (@rd (list R) v2 2) end. rewrite R1. cbn [bind]. match goal with |- bind (bind ?a _) _ = _ => change a with (@rd (list R) v2 1) end. rewrite R2. cbn [bind]. rewrite wr_ok by (split; [lia|exact (eq_ind_r (fun z => 2 < z) Hl L2)]). reflexivity. }
  rewrite Hr1. cbn [bind]. match goal with |- wl (bind (rd ?w _) _) _ => assert (R3 : rd w 2 = Ok (axpy n (sopp (dot n (copy n r) (znth [] v 1))) (znth [] v 1) (copy n r))) by (rewrite (rd_ok []) by (rewrite zlen_zupd; split; [lia|exact (eq_ind_r (fun z => 2 < z) Hl L2)]); rewrite znth_zupd_eq by (split; [lia|exact (eq_ind_r (fun z => 2 < z) Hl L2)]); reflexivity) end. rewrite R3. cbn [bind].
  set (u := axpy n (sopp (dot n (copy n r) (znth [] v 1))) (znth [] v 1) (copy n r)).
  assert (Hu : eqv n (at_ u) (fun _ => 0%R)).
  { intros i Hi. unfold u. rewrite (at_axpy (S:=ScalarR)) by auto. rewrite (at_copy (S:=ScalarR)) by auto. rewrite Hv by auto.
    assert (D : dot n (copy n r) (znth [] v 1) = 1%R).
    { rewrite dot_ip. rewrite (ip_ext n _ (at_ r) _ (at_ r)); [|intros j Hj; apply (at_copy (S:=ScalarR)); auto|exact Hv]. rewrite <- nm_sq. unfold unit_v in Hr. rewrite Hr. ring. }
    rewrite D. cbn. ring. }
  destruct (match ni with IPower => (0, matvec n E u) | IInverse => ee_solve e iter E u | IOther => (0, r) end) as [err y] eqn:Em.
  destruct (Z.eqb_spec err 0) as [->|Ne]; cbn [negb]; [|apply wl_ok; apply (inner_failed _ _ _ _ _ Em Ne)].
  eapply wl_bind; [apply (wl_divz (Q := fun _ => False))|intros; contradiction]. intros C. apply C. 
  rewrite dot_ip. rewrite (ip_ext n _ (fun _ => 0 * 0)%R _ (at_ y)); [|intros i Hi; rewrite Hu by auto; ring|intros i Hi; reflexivity]. rewrite ip_scal. rewrite Rmult_0_l. cbn. apply Rabs_R0.
Qed.
Lemma mode2 s : linked s -> wl (esi_mode e ni E 2 s) (fun '(err, _) => failed err).
Proof.
  intros (H1 & H2 & H3). unfold esi_mode. fold n. eapply wl_bind; [apply (wl_wrw (l_v s) 2 _ (fun w => 0 <= 2 < zlen (l_v s) /\ w = zupd (l_v s) 2 (copy n (l_r s)))); auto|]. intros v0 (Hl & ->).
  eapply wl_bind.
  - apply (wl_eiterate (fun s' => s' = (zupd (l_v s) 2 (copy n (l_r s)), l_r s, None, None, l_rh s)) (fun err _ => failed err)); [reflexivity|].
    intros iter s' ->. eapply wl_mono; [apply body2; [lia|exact H1|exact H2]|]. intros [c|c|err c] H; [contradiction|contradiction|exact H].
  - intros [[[fl ret] it] s'] H. destruct fl.
    + destruct s' as [[[[v r] th] rs] rh]. apply wl_ok. exact H.
    + subst s'. eapply wl_bind; [apply wl_true|]. intros it' _. eapply (wl_bind _ _ (fun _ => False)); [|intros; contradiction]. destruct ni; [| |congruence]; intros a Ha; discriminate.
Qed.
End Si2.
Lemma esi_many e ni ss jv E0 x rh o : ni <> IOther -> 2 <= ss -> esi e ni ss jv E0 x rh = Ok o -> so_ret o <> LIS_SUCCESS /\ ni = IInverse.
Proof.
  intros Hni Hss. revert o. change (wl (esi e ni ss jv E0 x rh) (fun o => so_ret o <> LIS_SUCCESS /\ ni = IInverse)).
  unfold esi. eapply wl_bind; [apply wl_true|]. intros r1 _. set (E := do_shift _ _).
  eapply (wl_bind _ _ (fun '(err, _) => err <> 0 /\ ni = IInverse)).
  - replace (Z.to_nat ss) with (Datatypes.S (Datatypes.S (Z.to_nat (ss - 2)))) by lia. cbn [esi_loop]. change (0 + 1) with 1. change (1 + 1) with 2.
    eapply wl_bind; [apply mode1; exact Hni|]. intros [err s] [[Ne Hi]|[-> Hs]].
    + destruct (Z.eqb_spec err 0); [contradiction|]. apply wl_ok. auto.
    + cbn [Z.eqb]. eapply wl_bind; [apply mode2; [exact Hni|exact Hs]|]. intros [err s'] [Ne Hi]. destruct (Z.eqb_spec err 0); [contradiction|]. apply wl_ok. auto.
  - intros [err s] [Ne Hi]. destruct (Z.eqb_spec err 0) as [C|_]; [contradiction|]. apply wl_ok. auto.
Qed.
