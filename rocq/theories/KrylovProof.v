Require Import ZArith List Bool Lia Ring Field.
From Verif Require Import Base Scalar Spec SpecSolver Krylov MatvecProof.
Import ListNotations.
Open Scope Z_scope.

Definition safe {A} (m : res A) (Q : A -> Prop) : Prop :=
  match m with Ok a => Q a | Err c => c = DIV_BY_ZERO | UB => False end.

Section P.
Context {T : Type} {S : Scalar T}.
Notation kst' := (kst (T:=T)).
Notation env' := (env (T:=T)).
Notation vec := (vect (T:=T)).
Hypothesis RT : is_ring S.
Let RT' : @ring_theory T s0 s1 sadd smul ssub sopp (@eq T) := RT.
Add Ring Tr : RT'.

Lemma at_tab n (f : Z -> T) i : 0 <= i < n -> at_ (tab n f) i = f i.
Proof.
  intros. unfold at_, tab. rewrite (znth_map f 0 s0) by (rewrite zlen_zrange; lia).
  rewrite znth_zrange by lia. f_equal.
Qed.

Definition mv (e : env') (v : vect (T:=T)) (i : Z) : T := mv_spec (e_E e) (e_n e) (at_ v) i.
Lemma mv_ext e u v i : (forall j, 0 <= j < e_n e -> at_ u j = at_ v j) -> mv e u i = mv e v i.
Proof.
  intros H. unfold mv, mv_spec. apply ssum_map_ext. intros j Hj. apply In_zrange in Hj. rewrite H by lia. reflexivity.
Qed.
Lemma mv_lin e a b x y v i : (forall j, 0 <= j < e_n e -> at_ v j = sadd (smul a (at_ x j)) (smul b (at_ y j))) ->
  mv e v i = sadd (smul a (mv e x i)) (smul b (mv e y i)).
Proof.
  intros H. unfold mv, mv_spec. rewrite <- !(ssum_map_mul_l RT), <- (ssum_map_add RT).
  apply ssum_map_ext. intros j Hj. apply In_zrange in Hj. rewrite H by lia. ring.
Qed.

Lemma at_axpy n a x y i : 0 <= i < n -> at_ (axpy n a x y) i = sadd (at_ y i) (smul a (at_ x i)).
Proof. intros. apply at_tab; auto. Qed.
Lemma at_xpay n a x y i : 0 <= i < n -> at_ (xpay n x a y) i = sadd (at_ x i) (smul a (at_ y i)).
Proof. intros. apply at_tab; auto. Qed.
Lemma at_axpyz n a x y i : 0 <= i < n -> at_ (axpyz n a x y) i = sadd (smul a (at_ x i)) (at_ y i).
Proof. intros. apply at_tab; auto. Qed.
Lemma at_scale n a x i : 0 <= i < n -> at_ (scale n a x) i = smul a (at_ x i).
Proof. intros. apply at_tab; auto. Qed.
Lemma at_copy n x i : 0 <= i < n -> at_ (copy n x) i = at_ x i.
Proof. intros. apply at_tab; auto. Qed.
Lemma at_set_all n a i : 0 <= i < n -> at_ (set_all n a) i = a.
Proof. intros. unfold set_all. apply at_tab; auto. Qed.
Lemma at_matvec e x i : 0 <= i < e_n e -> at_ (matvec (e_n e) (e_E e) x) i = mv e x i.
Proof. intros. apply at_tab; auto. Qed.
Lemma mv_axpy e a x y i : mv e (axpy (e_n e) a x y) i = sadd (mv e y i) (smul a (mv e x i)).
Proof. rewrite (mv_lin e s1 a y x); [ring|]. intros. rewrite at_axpy by auto. ring. Qed.
Lemma mv_xpay e a x y i : mv e (xpay (e_n e) x a y) i = sadd (mv e x i) (smul a (mv e y i)).
Proof. rewrite (mv_lin e s1 a x y); [ring|]. intros. rewrite at_xpay by auto. ring. Qed.
Lemma mv_axpyz e a x y i : mv e (axpyz (e_n e) a x y) i = sadd (smul a (mv e x i)) (mv e y i).
Proof. rewrite (mv_lin e a s1 x y); [ring|]. intros. rewrite at_axpyz by auto. ring. Qed.
Lemma mv_scale e a x i : mv e (scale (e_n e) a x) i = smul a (mv e x i).
Proof. rewrite (mv_lin e a s0 x x); [ring|]. intros. rewrite at_scale by auto. ring. Qed.
Lemma mv_copy e x i : mv e (copy (e_n e) x) i = mv e x i.
Proof. apply mv_ext. intros. apply at_copy; auto. Qed.
Lemma mv_zero e x i : (forall j, 0 <= j < e_n e -> at_ x j = s0) -> mv e x i = s0.
Proof. intros. rewrite (mv_lin e s0 s0 x x); [ring|]. intros. rewrite H by auto. ring. Qed.

(** *** the residual invariant *)
Definition resid_ok (e : env') (rr : vect) (x : vect (T:=T)) : Prop :=
  forall i, 0 <= i < e_n e -> at_ rr i = ssub (at_ (e_b e) i) (mv e x i).
Lemma dot_ext n (u u' v v' : vect (T:=T)) :
  (forall i, 0 <= i < n -> at_ u i = at_ u' i) -> (forall i, 0 <= i < n -> at_ v i = at_ v' i) -> dot n u v = dot n u' v'.
Proof. intros H H'. apply ssum_map_ext. intros i Hi. apply In_zrange in Hi. rewrite H, H' by lia. reflexivity. Qed.
Lemma get_residual_ext e bn (u v : vect (T:=T)) : (forall i, 0 <= i < e_n e -> at_ u i = at_ v i) -> get_residual e bn u = get_residual e bn v.
Proof.
  intros H. unfold get_residual, nrm1, nrm2. rewrite (dot_ext (e_n e) u v u v) by auto.
  destruct (e_conv e =? 2); auto. apply ssum_map_ext. intros i Hi. apply In_zrange in Hi. rewrite H by lia. reflexivity.
Qed.
Definition tres (e : env') (x : vect (T:=T)) := residual (e_n e) (e_E e) (e_b e) x.
Lemma resid_tres e r x : resid_ok e r x <-> forall i, 0 <= i < e_n e -> at_ r i = at_ (tres e x) i.
Proof.
  split; intros H i Hi; rewrite (H i Hi); unfold tres, residual.
  - symmetry. apply (at_tab (e_n e) (fun i => ssub (vcomp (e_b e) i) (mv_spec (e_E e) (e_n e) (vcomp x) i))); auto.
  - apply (at_tab (e_n e) (fun i => ssub (vcomp (e_b e) i) (mv_spec (e_E e) (e_n e) (vcomp x) i))); auto.
Qed.

(** the value kept in nrm2, if any, belongs to the current x *)
Definition honest (e : env') (bn : T) (k : kst') : Prop :=
  forall v, k_nrm k = Some v -> v = get_residual e bn (tres e (k_W k X)).
Lemma honest_intro e bn W r rh : resid_ok e r (W X) -> honest e bn (mkK W (Some (get_residual e bn r)) rh).
Proof.
  intros H v Hv. inversion Hv; subst. cbn [k_W]. apply get_residual_ext. apply resid_tres. auto.
Qed.

(** *** rules *)
Lemma safe_bind {A B} (m : res A) (f : A -> res B) Q : safe m (fun a => safe (f a) Q) -> safe (bind m f) Q.
Proof. destruct m; simpl; auto. Qed.
Lemma safe_mono {A} (m : res A) (P Q : A -> Prop) : safe m P -> (forall a, P a -> Q a) -> safe m Q.
Proof. destruct m; simpl; auto. Qed.
Lemma safe_lt {A B} (a : A) (f : A -> res B) Q : safe (f a) Q -> safe (lt a f) Q.
Proof. auto. Qed.
Lemma safe_divz {B} a b (f : T -> res B) Q : (forall q, safe (f q) Q) -> safe (bind (divz a b) f) Q.
Proof. intros H. unfold divz. destruct (seqb b s0); simpl; auto. Qed.
Lemma safe_qsi {B} it t0 t1 t2 t3 t4 (f : T * T -> res B) Q :
  (forall q h, (it = 1 -> h = s0) -> safe (f (q, h)) Q) -> safe (bind (qsi_eta it t0 t1 t2 t3 t4) f) Q.
Proof.
  intros H. unfold qsi_eta, divz. destruct (it =? 1) eqn:E.
  - destruct (seqb t4 s0); simpl; auto. 
  - apply Z.eqb_neq in E. destruct (seqb _ s0); simpl; auto. apply H; intros; lia.
Qed.
(** the residual history: only entry [it] may have changed *)
Definition rh_ext (e : env') (it : Z) (rh0 rh : list T) : Prop :=
  zlen rh = zlen rh0 /\ (forall j, j <> it -> znth s0 rh j = znth s0 rh0 j) /\ (e_mem e = false -> rh = rh0).
Lemma rh_refl e it rh : rh_ext e it rh rh.
Proof. split; [auto|]. split; auto. Qed.
Lemma rh_trans e it a b c : rh_ext e it a b -> rh_ext e it b c -> rh_ext e it a c.
Proof.
  intros (A1 & A2 & A3) (B1 & B2 & B3). split; [lia|]. split; [intros; rewrite B2, A2 by auto; reflexivity|].
  intros H. rewrite (B3 H). auto.
Qed.
Lemma rh_zupd e it rh v : e_mem e = true -> 0 <= it < zlen rh -> rh_ext e it rh (zupd rh it v).
Proof.
  intros Hm Hi. split; [unfold zlen, zupd; destruct (it <? 0); auto; rewrite upd_nat_length; reflexivity|].
  split; [|congruence]. intros j Hj. rewrite znth_zupd by lia. destruct (j =? it) eqn:E; [apply Z.eqb_eq in E; lia|reflexivity].
Qed.
Lemma safe_check {B} e bn tol it r W k (f : bool * kst' -> res B) Q :
  0 <= it < zlen (k_rh k) ->
  (forall rh, rh_ext e it (k_rh k) rh -> (e_mem e = true -> znth s0 rh it = get_residual e bn r) ->
     safe (f (sleb (get_residual e bn r) tol, mkK W (Some (get_residual e bn r)) rh)) Q) ->
  safe (bind (conv_check e bn tol it r W k) f) Q.
Proof.
  intros Hi H. unfold conv_check. destruct (e_mem e) eqn:Em; cbn [bind].
  - rewrite wr_ok by auto. cbn [bind]. apply H; [apply rh_zupd; auto|]. intros _. rewrite znth_zupd, Z.eqb_refl by lia. reflexivity.
  - apply H; [apply rh_refl|discriminate].
Qed.
Lemma safe_early {B} e bn tol it r W k (f : bool * kst' -> res B) Q :
  0 <= it < zlen (k_rh k) ->
  (forall rh, rh_ext e it (k_rh k) rh -> (sleb (get_residual e bn r) tol = true -> e_mem e = true -> znth s0 rh it = get_residual e bn r) ->
     safe (f (sleb (get_residual e bn r) tol, mkK W (Some (get_residual e bn r)) rh)) Q) ->
  safe (bind (early_check e bn tol it r W k) f) Q.
Proof.
  intros Hi H. unfold early_check. destruct (sleb (get_residual e bn r) tol) eqn:El, (e_mem e) eqn:Em; cbn [bind andb].
  1: rewrite wr_ok by auto; cbn [bind]; apply H; [apply rh_zupd; auto|]; intros _ _; rewrite znth_zupd, Z.eqb_refl by lia; reflexivity.
  all: apply H; [apply rh_refl|try discriminate].
Qed.

(** what every exit of a loop body guarantees *)
Definition body_post {L} (e : env') (bn tol : T) (rr it : Z) (k0 : kst') (P : Z -> (Z -> vec) -> L -> Prop) (c : ctl (kst' * L)) : Prop :=
  match c with
  | Next (k, l) => rh_ext e it (k_rh k0) (k_rh k) /\ resid_ok e (k_W k rr) (k_W k X) /\ honest e bn k /\
                   (exists v, k_nrm k = Some v /\ sleb v tol = false /\ (e_mem e = true -> znth s0 (k_rh k) it = v)) /\ P (it + 1) (k_W k) l
  | Stop ret (k, l) => rh_ext e it (k_rh k0) (k_rh k) /\ honest e bn k /\
       (ret = LIS_SUCCESS /\ (exists v, k_nrm k = Some v /\ sleb v tol = true /\ (e_mem e = true -> znth s0 (k_rh k) it = v)) \/
        ret = LIS_BREAKDOWN /\ (it = 1 \/ exists v, k_nrm k = Some v /\ sleb v tol = false))
  end.
Definition body_ok {L} (e : env') (bn tol : T) (rr : Z) (P : Z -> (Z -> vec) -> L -> Prop) (body : Z -> kst' * L -> res (ctl (kst' * L))) : Prop :=
  forall it k l, 1 <= it <= e_maxiter e -> zlen (k_rh k) = e_maxiter e + 2 ->
    resid_ok e (k_W k rr) (k_W k X) -> honest e bn k -> (it = 1 \/ exists v, k_nrm k = Some v /\ sleb v tol = false) -> P it (k_W k) l ->
    safe (body it (k, l)) (body_post e bn tol rr it k P).

(** history after the iterations 1 .. it-1, starting from rh0 *)
Definition hist (e : env') (tol : T) (it : Z) (rh0 rh : list T) : Prop :=
  zlen rh = zlen rh0 /\ (forall j, j < 1 \/ it <= j -> znth s0 rh j = znth s0 rh0 j) /\
  (e_mem e = true -> forall j, 1 <= j < it -> sleb (znth s0 rh j) tol = false) /\ (e_mem e = false -> rh = rh0).
(** the outcome: ret, iter, resid, rhistory *)
Definition outcome (e : env') (tol : T) (rh0 : list T) (ret iter : Z) (nrm : option T) (rh : list T) : Prop :=
  zlen rh = zlen rh0 /\ 1 <= iter <= e_maxiter e + 1 /\
  (forall j, j < 1 \/ iter < j -> znth s0 rh j = znth s0 rh0 j) /\
  (e_mem e = true -> forall j, 1 <= j < iter -> sleb (znth s0 rh j) tol = false) /\ (e_mem e = false -> rh = rh0) /\
  (ret = LIS_SUCCESS /\ iter <= e_maxiter e /\ (exists v, nrm = Some v /\ sleb v tol = true /\ (e_mem e = true -> znth s0 rh iter = v)) \/
   ret = LIS_BREAKDOWN /\ iter <= e_maxiter e /\ (iter = 1 \/ exists v, nrm = Some v /\ sleb v tol = false) \/
   ret = LIS_MAXITER /\ iter = e_maxiter e + 1 /\
     (iter = 1 \/ exists v, nrm = Some v /\ sleb v tol = false /\ (e_mem e = true -> znth s0 rh (iter - 1) = v))).

Lemma iterate_ok {L} e bn tol rr P (body : Z -> kst' * L -> res (ctl (kst' * L))) rh0 :
  body_ok e bn tol rr P body ->
  forall fuel it k l, Z.of_nat fuel = e_maxiter e + 1 - it -> 1 <= it ->
    hist e tol it rh0 (k_rh k) -> zlen (k_rh k) = e_maxiter e + 2 ->
    resid_ok e (k_W k rr) (k_W k X) -> honest e bn k ->
    (it = 1 \/ exists v, k_nrm k = Some v /\ sleb v tol = false /\ (e_mem e = true -> znth s0 (k_rh k) (it - 1) = v)) -> P it (k_W k) l ->
  safe (iterate fuel it body (k, l)) (fun o => let '(ret, iter, (k, l)) := o in
    honest e bn k /\ outcome e tol rh0 ret iter (k_nrm k) (k_rh k)).
Proof.
  intros HB fuel; induction fuel as [|f IH]; intros it k l Hf Hit (H1 & H2 & H3 & H4) Hz Hr Hh Hn HP; cbn [iterate].
  - assert (Hm : it = e_maxiter e + 1) by lia. simpl.
    split; [auto|]. split; [auto|]. split; [lia|]. split; [intros; apply H2; lia|]. split; [auto|]. split; [auto|].
    right. right. split; [reflexivity|]. split; [lia|]. exact Hn.
  - apply safe_bind. eapply safe_mono.
    + apply HB; auto. lia. destruct Hn as [Hn|(v & V1 & V2 & V3)]; [left; auto|right; eauto].
    + intros [[k' l']|ret [k' l']] H; cbn [body_post] in H.
      * destruct H as ((A1 & A1' & A1'') & A2 & A3 & (v & V1 & V2 & V3) & A5).
        apply IH; auto; try lia.
        { split; [lia|]. split; [intros j Hj; rewrite A1' by lia; apply H2; lia|].
          split; [|intros Hm; rewrite (A1'' Hm); auto].
          intros Hm j Hj. destruct (Z.eq_dec j it) as [->|Hne]; [rewrite (V3 Hm); exact V2|].
          rewrite A1' by auto. apply H3; auto. lia. }
        right. exists v. split; [auto|]. split; [auto|]. replace (it + 1 - 1) with it by lia. exact V3.
      * destruct H as ((A1 & A1' & A1'') & A2 & A3). simpl. split; [auto|]. split; [lia|]. split; [lia|].
        split; [intros j Hj; rewrite A1' by lia; apply H2; lia|].
        split; [intros Hm j Hj; rewrite A1' by lia; apply H3; auto|].
        split; [intros Hm; rewrite (A1'' Hm); auto|].
        destruct A3 as [(-> & A)|(-> & A)]; [left|right; left]; (split; [reflexivity|]); (split; [lia|exact A]).
Qed.

(** *** the frame *)
Definition sol_ok (e : env') (x0 : vect (T:=T)) (rh : list T) (o : sol (T:=T)) : Prop :=
  let '(p, bn, tol, nr, acc) := get_initial_residual e x0 in
  if acc then o_ret o = LIS_SUCCESS /\ o_iter o = 1 /\ o_resid o = Some nr /\ o_x o = x0 /\ o_rh o = rh
  else
    (forall v, o_resid o = Some v -> v = get_residual e bn (tres e (o_x o))) /\
    outcome e tol rh (o_ret o) (o_iter o) (o_resid o) (o_rh o).

Definition zeros_ok (e : env') (x : vect (T:=T)) : Prop := e_zeros e = true -> forall i, 0 <= i < e_n e -> at_ x i = s0.
Lemma initial_resid e x : zeros_ok e x -> resid_ok e (fst (fst (fst (fst (get_initial_residual e x))))) x.
Proof.
  intros HZ i Hi. unfold get_initial_residual.
  assert (HH : at_ (if e_zeros e then copy (e_n e) (e_b e) else xpay (e_n e) (e_b e) (sopp s1) (matvec (e_n e) (e_E e) x)) i = ssub (at_ (e_b e) i) (mv e x i)).
  { destruct (e_zeros e) eqn:EZ.
    - rewrite at_copy by auto. rewrite mv_zero; [ring|]. apply HZ; auto.
    - rewrite at_xpay by auto. rewrite at_matvec by auto. ring. }
  destruct (e_conv e =? 0); [exact HH|]. destruct (e_conv e =? 1); exact HH.
Qed.

Lemma solver_ok {L} e rr (P : Z -> (Z -> vec) -> L -> Prop) start body x rh :
  0 <= e_maxiter e -> rr <> X -> zlen rh = e_maxiter e + 2 -> zeros_ok e x ->
  (forall bn tol W, resid_ok e (W rr) (W X) -> (forall j, j <> rr -> j <> X -> W j = set_all (e_n e) s0) ->
     safe (start bn tol W) (fun o => let '(W', l) := o in resid_ok e (W' rr) (W' X) /\ P 1 W' l)) ->
  (forall bn tol, body_ok e bn tol rr P (body bn tol)) ->
  safe (solver e rr start body x rh) (sol_ok e x rh).
Proof.
  intros Hm HX Hrh HZ HS HB. unfold solver, sol_ok. pose proof (initial_resid e x HZ) as HI.
  destruct (get_initial_residual e x) as [[[[p bn] tol] nr] acc]. cbn [fst] in HI. destruct acc.
  - simpl. auto 10.
  - cbv zeta. apply safe_lt. apply safe_bind.
    assert (H1 : forall j, upd (upd (fun _ => set_all (e_n e) s0) X x) rr p j = if j =? rr then p else if j =? X then x else set_all (e_n e) s0) by reflexivity.
    eapply safe_mono.
    + apply HS.
      * rewrite !H1, Z.eqb_refl. destruct (X =? rr) eqn:E; [apply Z.eqb_eq in E; congruence|]. rewrite Z.eqb_refl. exact HI.
      * intros j Hj Hj'. rewrite H1. apply Z.eqb_neq in Hj, Hj'. rewrite Hj, Hj'. reflexivity.
    + intros [W l] (R1 & R2). apply safe_bind. eapply safe_mono.
      * apply (iterate_ok e bn tol rr P (body bn tol) rh (HB bn tol)); cbn [k_W k_rh k_nrm]; auto; try lia.
        split; [auto|]. split; [auto|]. split; [intros; lia|auto].
        intros v Hv; discriminate.
      * intros [[ret iter] [k l']] (A1 & A2). simpl. split; [exact A1|exact A2].
Qed.

(** *** symbolic execution of a loop body *)
Ltac red_upd t := let t' := eval cbv [upd Z.eqb Pos.eqb X k_W] in t in t'.
Ltac facts e ex :=
  lazymatch ex with
  | axpy _ ?a ?x ?y => pose proof (fun i => at_axpy (e_n e) a x y i); pose proof (mv_axpy e a x y)
  | xpay _ ?x ?a ?y => pose proof (fun i => at_xpay (e_n e) a x y i); pose proof (mv_xpay e a x y)
  | axpyz _ ?a ?x ?y => pose proof (fun i => at_axpyz (e_n e) a x y i); pose proof (mv_axpyz e a x y)
  | scale _ ?a ?x => pose proof (fun i => at_scale (e_n e) a x i); pose proof (mv_scale e a x)
  | copy _ ?x => pose proof (fun i => at_copy (e_n e) x i); pose proof (mv_copy e x)
  | matvec _ _ ?x => pose proof (at_matvec e x)
  | set_all _ ?a => pose proof (at_set_all (e_n e) a)
  | _ => idtac
  end.
Ltac gen ex := let v := fresh "v" in generalize dependent ex; intro v; intros.
Ltac kstep e :=
  lazymatch goal with
  | |- safe (lt ?ex ?F) ?Q => apply safe_lt; cbv beta;
      lazymatch ex with
      | upd ?W0 ?k ?ex =>
          let ex' := red_upd ex in
          let k' := eval cbv in k in
          change ex with ex'; facts e ex';
          (tryif is_var ex' then idtac else gen ex')
      | _ => let v := fresh "c" in generalize ex; intro v
      end
  | |- safe (match (_, _) with _ => _ end) _ => cbv beta iota
  | |- safe (bind (divz _ _) _) _ => apply safe_divz; let q := fresh "q" in intro q; cbv beta
  | |- safe (bind (qsi_eta _ _ _ _ _ _) _) _ => apply safe_qsi; let q := fresh "q" in let h := fresh "h" in let H := fresh "Heta" in intros q h H; cbv beta iota
  | |- safe (bind (conv_check _ _ _ _ ?r _ _) _) _ =>
      let r' := red_upd r in change r with r';
      apply safe_check; [cbn [k_rh]; try match goal with H : rh_ext _ _ _ _ |- _ => rewrite (proj1 H) end; lia|];
      let rh := fresh "rh" in let H := fresh "Hrh" in let H' := fresh "Hmem" in intros rh H H'; cbv beta iota; cbn [k_rh] in H
  | |- safe (bind (early_check _ _ _ _ ?r _ _) _) _ =>
      let r' := red_upd r in change r with r';
      apply safe_early; [cbn [k_rh]; try match goal with H : rh_ext _ _ _ _ |- _ => rewrite (proj1 H) end; lia|];
      let rh := fresh "rh" in let H := fresh "Hrh" in let H' := fresh "Hmem" in intros rh H H'; cbv beta iota; cbn [k_rh] in H
  | |- safe (bind _ _) _ => apply safe_bind
  | |- safe (if ?c then _ else _) _ =>
      let E := fresh "E" in
      (tryif (lazymatch c with sleb ?u ?v => idtac end) then idtac else idtac);
      destruct c eqn:E
  | |- safe (Ok ?a) ?Q => change (Q a); cbv beta
  end.
(** leaves *)
Ltac look Hi :=
  repeat match goal with
  | H : forall i, 0 <= i < _ -> at_ ?v i = _ |- context[at_ ?v ?j] => rewrite (H j Hi)
  | H : forall i, mv _ ?v i = _ |- context[mv _ ?v ?j] => rewrite (H j)
  end.
Ltac simp := cbv [upd Z.eqb Pos.eqb X]; cbn [k_W k_nrm k_rh].
Ltac resid_tac := let i := fresh "i" in let Hi := fresh "Hi" in intros i Hi; simp; look Hi; try ring.
Ltac hon Hh := first [ exact Hh | apply honest_intro; resid_tac ].
Ltac ext := first [apply rh_refl | assumption | eapply rh_trans; eassumption].
Ltac leaf Hh Hn :=
  cbv [body_post]; cbn [k_W k_nrm k_rh];
  (split; [ext|]);
  lazymatch goal with
  | |- resid_ok _ _ _ /\ _ => split; [resid_tac|]; split; [hon Hh|]; split; [eexists; split; [reflexivity|]; split; [assumption|auto]|]
  | |- honest _ _ _ /\ _ => split; [hon Hh|];
      first [ left; split; [reflexivity|]; eexists; split; [reflexivity|]; split; [assumption|auto]
            | right; split; [reflexivity|]; first [exact Hn | right; eexists; split; [reflexivity|assumption]] ]
  end.

Definition noinv {L : Type} (_ : Z) (_ : Z -> vec) (_ : L) : Prop := True.
Lemma cg_ok ip e bn tol : body_ok e bn tol 2 noinv (cg_body ip e bn tol).
Proof.
  intros it [W0 nr0 rh0] l Hit Hz Hr Hh Hn _. cbn [k_W k_nrm k_rh] in *. red in Hr. cbv [X] in Hr.
  cbv beta delta [cg_body]; cbv zeta. repeat kstep e. all: leaf Hh Hn. exact I.
Qed.
Ltac go f e := intros it [W0 nr0 rh0] l Hit Hz Hr Hh Hn HP; cbn [k_W k_nrm k_rh] in *; red in Hr; cbv [X] in Hr;
  repeat (destruct l as [l ?]);
  cbv beta delta [f]; cbv zeta.
Lemma bicg_ok e bn tol : body_ok e bn tol 0 noinv (bicg_body e bn tol).
Proof. go (@bicg_body) e. repeat kstep e. all: leaf Hh Hn. exact I. Qed.
Lemma cgs_ok e bn tol : body_ok e bn tol 0 noinv (cgs_body e bn tol).
Proof. go (@cgs_body) e. repeat kstep e. all: leaf Hh Hn. exact I. Qed.
Lemma crs_ok e bn tol : body_ok e bn tol 0 noinv (crs_body e bn tol).
Proof. go (@crs_body) e. repeat kstep e. all: leaf Hh Hn. exact I. Qed.
Lemma bicgstab_ok e bn tol : body_ok e bn tol 1 noinv (bicgstab_body e bn tol).
Proof. go (@bicgstab_body) e. repeat kstep e. all: leaf Hh Hn. all: exact I. Qed.
Lemma bicrstab_ok e bn tol : body_ok e bn tol 1 noinv (bicrstab_body e bn tol).
Proof. go (@bicrstab_body) e. repeat kstep e. all: leaf Hh Hn. all: exact I. Qed.

(** invariant: register b holds A times register a *)
Definition isA (e : env') (a b : Z) (W : Z -> vec) : Prop := forall i, 0 <= i < e_n e -> at_ (W b) i = mv e (W a) i.
Lemma cr_ok ip e bn tol : body_ok e bn tol 2 (fun _ W _ => isA e 3 1 W) (cr_body ip e bn tol).
Proof. go (@cr_body) e. red in HP. repeat kstep e. all: leaf Hh Hn. resid_tac. Qed.
Lemma bicr_ok e bn tol : body_ok e bn tol 0 (fun _ W _ => isA e 4 6 W) (bicr_body e bn tol).
Proof. go (@bicr_body) e. red in HP. repeat kstep e. all: leaf Hh Hn. resid_tac. Qed.

(** BiCGSafe, BiCRSafe *)
Definition safeinv (e : env') (it : Z) (W : Z -> vec) : Prop :=
  isA e 4 5 W /\ isA e 2 3 W /\ (it <> 1 -> isA e 10 8 W).
Ltac by_it it Heta HP3 :=
  let E := fresh "E" in destruct (Z.eq_dec it 1) as [E|E]; [rewrite (Heta E) in * | specialize (HP3 E); red in HP3].
Ltac gsplit := split; [resid_tac|]; split; [resid_tac|]; intros _; resid_tac.
Lemma bicgsafe_ok e bn tol : body_ok e bn tol 1 (fun it W _ => safeinv e it W) (bicgsafe_body e bn tol).
Proof.
  go (@bicgsafe_body) e. destruct HP as (P1 & P2 & P3). red in P1, P2. repeat kstep e.
  all: by_it it Heta P3; leaf Hh Hn. all: gsplit.
Qed.
Lemma bicrsafe_ok e bn tol : body_ok e bn tol 1 (fun it W _ => safeinv e it W) (bicrsafe_body e bn tol).
Proof.
  go (@bicrsafe_body) e. destruct HP as (P1 & P2 & P3). red in P1, P2. repeat kstep e.
  all: by_it it Heta P3; leaf Hh Hn. all: gsplit.
Qed.

(** GPBiCG, GPBiCR *)
Definition gpinv (e : env') (it : Z) (W : Z -> vec) (beta : T) : Prop :=
  it <> 1 -> (forall i, 0 <= i < e_n e -> mv e (W 12) i = ssub (at_ (W 6) i) (at_ (W 1) i)) /\
    (forall i, 0 <= i < e_n e -> mv e (W 13) i =
       sadd (ssub (at_ (W 11) i) (mv e (W 3) i)) (ssub (mv e (W 2) i) (smul beta (mv e (W 9) i)))).
Ltac look2 Hi :=
  repeat match goal with
  | H : forall i, 0 <= i < _ -> at_ ?v i = _ |- context[at_ ?v ?j] => rewrite (H j Hi)
  | H : forall i, 0 <= i < _ -> mv _ ?v i = _ |- context[mv _ ?v ?j] => rewrite (H j Hi)
  | H : forall i, mv _ ?v i = _ |- context[mv _ ?v ?j] => rewrite (H j)
  end.
Ltac resid_tac ::= let i := fresh "i" in let Hi := fresh "Hi" in intros i Hi; simp; look2 Hi; try ring.
Lemma gpbicg_ok cr e bn tol : body_ok e bn tol 1 (fun it W l => gpinv e it W (fst l)) (gpbicg_body cr e bn tol).
Proof.
  go (@gpbicg_body) e. red in HP. cbn [fst] in HP. repeat kstep e.
  - leaf Hh Hn.
  - leaf Hh Hn.
  - destruct (Z.eq_dec it 1) as [C|C]; [rewrite (Heta C) in *|specialize (HP C); destruct HP as (P1 & P2)]; leaf Hh Hn.
  - destruct (Z.eq_dec it 1) as [C|C]; [rewrite (Heta C) in *|specialize (HP C); destruct HP as (P1 & P2)]; leaf Hh Hn.
  - destruct (Z.eq_dec it 1) as [C|C]; [rewrite (Heta C) in *|specialize (HP C); destruct HP as (P1 & P2)]; leaf Hh Hn.
    all: intros _; cbn [fst]; (split; resid_tac).
Qed.
End P.
