(** TFQMR: memory safety, iteration counts and the residual history. *)
Require Import ZArith List Bool Lia.
From Verif Require Import Base Scalar Spec Krylov Krylov3 KrylovProof IdrProof.
Import ListNotations.
Open Scope Z_scope.

Section P.
Context {T : Type} {S : Scalar T}.
Notation vec := (vect (T:=T)).
Notation kst' := (kst (T:=T)).
Notation env' := (env (T:=T)).

Definition tf_sol (e : env') (x rh : list T) (o : sol (T:=T)) : Prop :=
  let '(p, bn, tol, nr, acc) := get_initial_residual e x in
  let it := o_iter o in
  if acc then o_ret o = LIS_SUCCESS /\ it = 1 /\ o_resid o = Some nr /\ o_x o = x /\ o_rh o = rh
  else zlen (o_rh o) = zlen rh /\ znth s0 (o_rh o) 0 = znth s0 rh 0 /\ (e_mem e = true -> forall j, 1 <= j < it -> sleb (znth s0 (o_rh o) j) tol = false) /\ 1 <= it /\
   (o_ret o = LIS_SUCCESS /\ it <= e_maxiter e /\ (exists v, o_resid o = Some v /\ sleb v tol = true) \/
    o_ret o = LIS_BREAKDOWN /\ it <= e_maxiter e \/
    o_ret o = LIS_MAXITER /\ it = e_maxiter e + 1 /\ (e_maxiter e = 0 \/ exists v, o_resid o = Some v /\ sleb v tol = false)).
Definition thist (e : env') (tol : T) (rh0 : list T) (it : Z) (rh : list T) : Prop :=
  zlen rh = zlen rh0 /\ znth s0 rh 0 = znth s0 rh0 0 /\ (e_mem e = true -> forall j, 1 <= j < it -> sleb (znth s0 rh j) tol = false).
Lemma half_ok (e : env') (bn tol : T) (rh0 : list T) it (m : bool) zz ww alpha (k : kst') (l : tst (T:=T)) : 1 <= it <= e_maxiter e -> zlen rh0 = e_maxiter e + 2 ->
  thist e tol rh0 (if m then it + 1 else it) (k_rh k) ->
  safe (tf_half e bn tol it m zz ww alpha k l) (fun r => let '(stop, k', _) := r in
    (exists v, k_nrm k' = Some v /\ sleb v tol = stop) /\ thist e tol rh0 it (k_rh k') /\ (stop = false -> thist e tol rh0 (it + 1) (k_rh k'))).
Proof.
  intros Hi Hl (H1 & H2 & H3). unfold tf_half. cbv zeta. apply safe_divz. intros q. apply safe_lt. apply safe_divz. intros th. apply safe_divz. intros c. repeat apply safe_lt. cbv beta.
  set (nr := smul _ bn). destruct m; cbn [negb andb].
  - cbn [bind safe k_nrm k_rh]. split; [exists nr; auto|]. split; [|intros _; split; auto]. split; [exact H1|]. split; [exact H2|]. intros Em j Hj. apply H3; [exact Em|lia].
  - destruct (e_mem e) eqn:Em.
    + rewrite wr_ok by lia. cbn [bind safe k_nrm k_rh]. split; [exists nr; auto|].
      assert (A : forall j, znth s0 (zupd (k_rh k) it nr) j = if j =? it then nr else znth s0 (k_rh k) j) by (intros j; rewrite znth_zupd by lia; reflexivity).
      split; [|intros Hs]; (split; [rewrite zlen_zupd; exact H1|split; [rewrite A; destruct (Z.eqb_spec 0 it) as [Hq|Hq]; [lia|exact H2]|]]); intros _ j Hj; rewrite A; destruct (Z.eqb_spec j it) as [Hq|Hq]; try lia; try (apply H3; [reflexivity|lia]). exact Hs.
    + cbn [bind safe k_nrm k_rh]. split; [exists nr; auto|]. split; [|intros _]; (split; [exact H1|split; [exact H2|congruence]]).
Qed.
Definition tinv (e : env') (tol : T) (rh0 : list T) (it : Z) (s : kst' * tst (T:=T)) : Prop :=
  thist e tol rh0 it (k_rh (fst s)) /\ (1 < it -> exists v, k_nrm (fst s) = Some v /\ sleb v tol = false).
Definition tstop (e : env') (tol : T) (rh0 : list T) (it ret : Z) (s : kst' * tst (T:=T)) : Prop :=
  thist e tol rh0 it (k_rh (fst s)) /\ (ret = LIS_SUCCESS /\ (exists v, k_nrm (fst s) = Some v /\ sleb v tol = true) \/ ret = LIS_BREAKDOWN).
Lemma thist_mono (e : env') tol (rh0 : list T) it it' rh : it' <= it -> thist e tol rh0 it rh -> thist e tol rh0 it' rh.
Proof. intros Hi (H1 & H2 & H3). split; [exact H1|]. split; [exact H2|]. intros Em j Hj. apply H3; [exact Em|lia]. Qed.
Lemma body_ok (e : env') (bn tol : T) (rh0 : list T) it s : 1 <= it <= e_maxiter e -> zlen rh0 = e_maxiter e + 2 -> tinv e tol rh0 it s ->
  safe (tfqmr_body e bn tol it s) (fun c => match c with Next s' => tinv e tol rh0 (it + 1) s' | Stop ret s' => tstop e tol rh0 it ret s' end).
Proof.
  intros Hi Hl HI. destruct s as [k l]. unfold tinv in HI. cbn [fst] in HI. destruct HI as (HH & HN). unfold tfqmr_body. cbv zeta. apply safe_lt.
  destruct (seqb _ s0); [split; [exact HH|right; reflexivity]|]. apply safe_divz. intros alpha. do 6 apply safe_lt. cbv beta.
  apply safe_bind. eapply safe_mono; [apply (half_ok e bn tol rh0 it false); [exact Hi|exact Hl|exact HH]|]. intros [[stop k1] l1] (N1 & T1 & T2).
  destruct stop. { split; [exact T1|]. left. split; [reflexivity|exact N1]. }
  apply safe_bind. eapply safe_mono; [apply (half_ok e bn tol rh0 it true); [exact Hi|exact Hl|exact (T2 eq_refl)]|]. intros [[stop k2] l2] (N2 & T3 & T4).
  destruct stop. { split; [exact T3|]. left. split; [reflexivity|exact N2]. }
  apply safe_lt. destruct (seqb _ s0). { split; [exact T3|]. right. reflexivity. }
  apply safe_divz. intros beta. repeat apply safe_lt. split; [exact (T4 eq_refl)|]. intros _. exact N2.
Qed.
Lemma loop_ok (e : env') (bn tol : T) (rh0 : list T) fuel : zlen rh0 = e_maxiter e + 2 -> forall it s, 1 <= it -> tinv e tol rh0 it s -> Z.of_nat fuel + it = e_maxiter e + 1 ->
  safe (iterate fuel it (tfqmr_body e bn tol) s) (fun o => let '(ret, iter, s') := o in
    thist e tol rh0 iter (k_rh (fst s')) /\ it <= iter /\
   (ret = LIS_SUCCESS /\ iter <= e_maxiter e /\ (exists v, k_nrm (fst s') = Some v /\ sleb v tol = true) \/
    ret = LIS_BREAKDOWN /\ iter <= e_maxiter e \/
    ret = LIS_MAXITER /\ iter = e_maxiter e + 1 /\ (iter = 1 \/ exists v, k_nrm (fst s') = Some v /\ sleb v tol = false))).
Proof.
  intros Hl. induction fuel as [|f IH]; intros it s H1 HI Hf; cbn [iterate].
  - destruct HI as (A & B). cbn [safe]. split; [exact A|]. split; [lia|]. right. right. split; [reflexivity|]. split; [lia|]. destruct (Z.eq_dec it 1); [left; auto|right; apply B; lia].
  - apply safe_bind. eapply safe_mono; [apply body_ok; [lia|exact Hl|exact HI]|]. intros [s'|ret s'] H.
    + eapply safe_mono; [apply IH; [lia|exact H|lia]|]. intros [[ret iter] s2] (A & B & C). split; [exact A|]. split; [lia|exact C].
    + destruct H as (A & B). cbn [safe]. split; [exact A|]. split; [lia|]. destruct B as [(-> & B)|B]; [left; split; [reflexivity|]; split; [lia|exact B]|right; left; split; [exact B|lia]].
Qed.
Lemma lis_tfqmr_ok (e : env') (x rh : list T) : 0 <= e_maxiter e -> zlen rh = e_maxiter e + 2 -> safe (lis_tfqmr e x rh) (tf_sol e x rh).
Proof.
  intros Hm Hl. unfold lis_tfqmr, solver, tf_sol. cbv zeta. destruct (get_initial_residual e x) as [[[[p bn] tol] nr] acc]. destruct acc; [cbn [safe]; auto 10|].
  apply safe_lt. apply safe_bind. unfold tfqmr_start. cbv zeta. repeat apply safe_lt. cbn [safe].
  apply safe_bind. eapply safe_mono; [apply (loop_ok e bn tol rh); [exact Hl|lia| |lia]|].
  - split; [|intros; lia]. cbn [fst k_rh]. split; [reflexivity|]. split; [reflexivity|]. intros; lia.
  - intros [[ret iter] [k l]] ((A1 & A2 & A3) & B & C). cbn [fst safe o_iter o_rh o_ret o_resid] in *. split; [exact A1|]. split; [exact A2|]. split; [exact A3|]. split; [exact B|].
    destruct C as [C|[C|(C1 & C2 & C3)]]; [left; exact C|right; left; exact C|right; right]. split; [exact C1|]. split; [exact C2|]. destruct C3 as [C3|C3]; [left; lia|right; exact C3].
Qed.
End P.
