Require Import ZArith List Bool Lia Ring Field.
From Verif Require Import Base Scalar Spec SpecSolver Krylov Krylov2 Solve SpecSolve MatvecProof KrylovProof KrylovFinal SolveProof.
Import ListNotations.
Open Scope Z_scope.

Section P.
Context {T : Type} {S : Scalar T}.
Hypothesis FT : is_field S.
Hypothesis EQ : eqb_ok S.
Lemma RT : is_ring S. Proof. exact (F_R FT). Qed.
Let RT' : @ring_theory T s0 s1 sadd smul ssub sopp (@eq T) := RT.
Add Ring Tr : RT'.
Notation vec := (vect (T:=T)).
Notation env' := (env (T:=T)).

(** *** reciprocal *)
Lemma reciprocal_ok n (d0 : vec) : 0 <= n -> zlen d0 = n ->
  safe (reciprocal n d0) (fun d => zlen d = n /\ forall i, 0 <= i < n -> at_ d0 i <> s0 /\ smul (at_ d i) (at_ d0 i) = s1).
Proof.
  intros Hn HL. unfold reciprocal, for_. rewrite Z.sub_0_r.
  assert (G : forall f d k, zlen d = n -> Z.of_nat f = n - k -> 0 <= k ->
    (forall i, 0 <= i < k -> at_ d0 i <> s0 /\ smul (at_ d i) (at_ d0 i) = s1) -> (forall i, k <= i < n -> at_ d i = at_ d0 i) ->
    safe (for_n f k (fun i r => q <- divz s1 (at_ r i);; wr r i q) d)
      (fun d => zlen d = n /\ forall i, 0 <= i < n -> at_ d0 i <> s0 /\ smul (at_ d i) (at_ d0 i) = s1)).
  { intros f; induction f as [|f IH]; intros d k H1 H2 H3 H4 H5; cbn [for_n].
    - simpl. split; [exact H1|]. intros i Hi. apply H4. lia.
    - unfold divz. rewrite H5 by lia. destruct (seqb (at_ d0 k) s0) eqn:EZ; [reflexivity|].
      assert (NZ : at_ d0 k <> s0) by (intros C; apply EQ in C; congruence).
      cbn [bind]. rewrite wr_ok by lia. cbn [bind]. apply IH; [len; lia|lia|lia| |].
      + intros i Hi. destruct (Z.eq_dec i k) as [->|Hne].
        * split; [exact NZ|]. unfold at_ at 1. rewrite znth_zupd, Z.eqb_refl by lia. exact (Finv_l FT _ NZ).
        * destruct (H4 i ltac:(lia)) as (A & B). split; [exact A|]. unfold at_ at 1. rewrite znth_zupd by lia.
          destruct (i =? k) eqn:E'; [apply Z.eqb_eq in E'; lia|exact B].
      + intros i Hi. unfold at_ at 1. rewrite znth_zupd by lia. destruct (i =? k) eqn:E'; [apply Z.eqb_eq in E'; lia|]. apply H5. lia. }
  apply G; auto; try lia.
Qed.

(** *** forward substitution *)
Lemma forward_len k E (wd r : vec) : zlen (forward k E wd r) = Z.of_nat k.
Proof. unfold zlen. induction k as [|k IH]; [reflexivity|]. cbn [forward]. rewrite app_length. cbn [length]. lia. Qed.
Lemma forward_prefix k E (wd r : vec) i : 0 <= i < Z.of_nat k -> at_ (forward (Datatypes.S k) E wd r) i = at_ (forward k E wd r) i.
Proof.
  intros Hi. cbn [forward]. unfold at_ at 1. rewrite znth_app by lia. rewrite forward_len.
  destruct (i <? Z.of_nat k) eqn:C; [reflexivity|apply Z.ltb_ge in C; lia].
Qed.
Lemma forward_at k E (wd r : vec) i : 0 <= i < Z.of_nat k ->
  at_ (forward k E wd r) i = smul (ssub (at_ r i) (ssum (map (fun j => smul (coef E i j) (at_ (forward k E wd r) j)) (zrange 0 i)))) (at_ wd i).
Proof.
  induction k as [|k IH]; intros Hi; [lia|].
  assert (HP : ssum (map (fun j => smul (coef E i j) (at_ (forward (Datatypes.S k) E wd r) j)) (zrange 0 i)) =
               ssum (map (fun j => smul (coef E i j) (at_ (forward k E wd r) j)) (zrange 0 i))).
  { apply ssum_map_ext. intros j Hj. apply In_zrange in Hj. rewrite forward_prefix by lia. reflexivity. }
  rewrite HP. destruct (Z.eq_dec i (Z.of_nat k)) as [->|Hne].
  - cbn [forward]. unfold at_ at 1. rewrite znth_app by lia. rewrite forward_len.
    replace (Z.of_nat k <? Z.of_nat k) with false by (symmetry; apply Z.ltb_irrefl). rewrite Z.sub_diag. reflexivity.
  - rewrite forward_prefix by lia. apply IH. lia.
Qed.

(** *** the loop *)
(** no preconditioner *)
Definition no_precon (e : env') : Prop := forall k v i, 0 <= i < e_n e -> at_ (e_psolve e k v) i = at_ v i.

Definition stat_post (e : env') (step : vec -> vec) (rh : list T) (o : sol (T:=T)) : Prop :=
  zlen (o_rh o) = zlen rh /\ 1 <= o_iter o <= e_maxiter e + 1 /\
  (o_ret o = LIS_SUCCESS /\ o_iter o <= e_maxiter e \/ o_ret o = LIS_MAXITER /\ o_iter o = e_maxiter e + 1) /\
  (1 < o_iter o \/ o_ret o = LIS_SUCCESS ->
    exists xp r q, o_resid o = Some q /\ (forall i, 0 <= i < e_n e -> at_ r i = vcomp (residual (e_n e) (e_E e) (e_b e) xp) i) /\
      q = rel (norm2 (e_n e) (residual (e_n e) (e_E e) (e_b e) xp)) (norm2 (e_n e) (e_b e)) /\
      (o_ret o = LIS_SUCCESS -> sleb q (e_tol e) = true) /\
      (e_mem e = true -> o_ret o = LIS_SUCCESS -> znth s0 (o_rh o) (o_iter o) = q) /\
      forall i, 0 <= i < e_n e -> at_ (o_x o) i = sadd (at_ xp i) (at_ (step r) i)).

Lemma stationary_ok e step x rh : 0 <= e_maxiter e -> zlen rh = e_maxiter e + 2 -> no_precon e ->
  safe (stationary e step x rh) (stat_post e step rh).
Proof.
  intros Hm Hrh HN. unfold stationary. cbv zeta. unfold divz.
  change (nrm2 (e_n e) (e_b e)) with (norm2 (e_n e) (e_b e)).
  destruct (seqb (norm2 (e_n e) (e_b e)) s0) eqn:EB; [reflexivity|]. cbn [bind].
  set (bn := sdiv s1 (norm2 (e_n e) (e_b e))).
  set (body := stationary_iter e bn step).
  (* the fact about the latest step, for iterate x' *)
  set (last := fun (x' : vec) (nrm : option T) => exists xp r q, nrm = Some q /\ (forall i, 0 <= i < e_n e -> at_ r i = vcomp (residual (e_n e) (e_E e) (e_b e) xp) i) /\
      q = rel (norm2 (e_n e) (residual (e_n e) (e_E e) (e_b e) xp)) (norm2 (e_n e) (e_b e)) /\
      forall i, 0 <= i < e_n e -> at_ x' i = sadd (at_ xp i) (at_ (step r) i)).
  assert (G : forall f it x nrm rh', Z.of_nat f = e_maxiter e + 1 - it -> 1 <= it -> zlen rh' = e_maxiter e + 2 -> (1 < it -> last x nrm) ->
    safe (iterate f it body (x, nrm, rh')) (fun '(ret, iter, (x', nrm', rh'')) =>
      zlen rh'' = e_maxiter e + 2 /\ it <= iter <= e_maxiter e + 1 /\
      ((ret = LIS_SUCCESS /\ iter <= e_maxiter e /\ last x' nrm' /\ (forall q, nrm' = Some q -> sleb q (e_tol e) = true /\ (e_mem e = true -> znth s0 rh'' iter = q))) \/
       (ret = LIS_MAXITER /\ iter = e_maxiter e + 1 /\ (1 < iter -> last x' nrm'))))).
  { intros f; induction f as [|f IH]; intros it x1 nrm rh' H1 H2 H3 H4; cbn [iterate].
    - simpl. split; [exact H3|]. split; [lia|]. right. split; [reflexivity|]. split; [lia|exact H4].
    - unfold body at 1, stationary_iter. cbv zeta beta iota. unfold lt.
      set (s := e_psolve e it x1). set (r := axpyz (e_n e) (sopp s1) (matvec (e_n e) (e_E e) s) (e_b e)).
      set (x2 := axpy (e_n e) s1 (step r) x1). set (q := smul (nrm2 (e_n e) r) bn).
      assert (HR : forall i, 0 <= i < e_n e -> at_ r i = vcomp (residual (e_n e) (e_E e) (e_b e) x1) i).
      { intros i Hi. unfold r. rewrite at_axpyz, at_matvec, residual_at by auto. unfold mv.
        rewrite (mv_spec_ext (e_E e) (e_n e) (at_ s) (vcomp x1)); [unfold vcomp, at_; ring|]. intros j Hj. apply HN. auto. }
      assert (HQ : q = rel (norm2 (e_n e) (residual (e_n e) (e_E e) (e_b e) x1)) (norm2 (e_n e) (e_b e))).
      { unfold q, bn. rewrite <- (rel_mul FT). rewrite EB. f_equal. apply norm2_ext. exact HR. }
      assert (LX : last x2 (Some q)).
      { exists x1, r, q. split; [reflexivity|]. split; [exact HR|]. split; [exact HQ|]. intros i Hi. unfold x2. rewrite at_axpy by auto. ring. }
      set (w := if e_mem e then wr rh' it q else Ok rh').
      assert (HW : exists rh2, w = Ok rh2 /\ zlen rh2 = e_maxiter e + 2 /\ (e_mem e = true -> znth s0 rh2 it = q)).
      { unfold w. destruct (e_mem e); [|exists rh'; split; [reflexivity|split; [exact H3|discriminate]]].
        rewrite wr_ok by lia. eexists. split; [reflexivity|]. split; [len; lia|]. intros _. rewrite znth_zupd, Z.eqb_refl by lia. reflexivity. }
      destruct HW as (rh2 & -> & W1 & W2). cbn [bind]. destruct (sleb q (e_tol e)) eqn:EQ1; cbn [bind].
      + simpl. split; [exact W1|]. split; [lia|]. left. split; [reflexivity|]. split; [lia|]. split.
        * destruct LX as (xp & r' & q' & L1 & L2 & L3 & L4). exists xp, r', q'. split; [exact L1|]. split; [exact L2|]. split; [exact L3|].
          intros i Hi. rewrite <- L4 by auto. rewrite at_copy by auto. apply HN. auto.
        * intros q' Hq. inversion Hq; subst. split; [exact EQ1|exact W2].
      + eapply safe_mono; [apply IH; auto; lia|]. intros [[ret iter] [[x' nrm'] rh'']] (A & B & C). split; [exact A|]. split; [lia|exact C]. }
  apply safe_bind. eapply safe_mono; [apply (G (Z.to_nat (e_maxiter e)) 1 x None rh); auto; lia|].
  intros [[ret iter] [[x' nrm'] rh'']] (A & B & C). cbn [safe]. unfold stat_post. cbn [o_ret o_iter o_resid o_x o_rh].
  split; [lia|]. split; [lia|]. destruct C as [(-> & C1 & C2 & C3)|(-> & C1 & C2)].
  - split; [left; auto|]. intros _. change (LIS_SUCCESS =? LIS_MAXITER) with false. cbn match.
    destruct C2 as (xp & r' & q' & L1 & L2 & L3 & L4). exists xp, r', q'. destruct (C3 q' L1) as (C4 & C5).
    split; [exact L1|]. split; [exact L2|]. split; [exact L3|]. split; [auto|]. split; [auto|exact L4].
  - split; [right; auto|]. intros H. change (LIS_MAXITER =? LIS_MAXITER) with true. cbn match.
    assert (1 < iter) by (destruct H; [auto|discriminate]).
    destruct (C2 H0) as (xp & r' & q' & L1 & L2 & L3 & L4). exists xp, r', q'.
    split; [exact L1|]. split; [exact L2|]. split; [exact L3|]. split; [discriminate|]. split; [discriminate|].
    intros i Hi. rewrite <- L4 by auto. rewrite at_copy by auto. apply HN. auto.
Qed.

Lemma diagonal_len (e : env') : 0 <= e_n e -> zlen (diagonal e) = e_n e.
Proof. intros. unfold diagonal, tab, zlen. rewrite map_length. pose proof (zlen_zrange 0 (e_n e)) as HL. unfold zlen in HL. lia. Qed.
Lemma diagonal_at (e : env') i : 0 <= i < e_n e -> at_ (diagonal e) i = coef (e_E e) i i.
Proof. intros. unfold diagonal. rewrite at_tab by auto. reflexivity. Qed.

Definition stat_final (k : Z) (w : T) (e : env') (rh : list T) (o : sol (T:=T)) : Prop :=
  zlen (o_rh o) = zlen rh /\ 1 <= o_iter o <= e_maxiter e + 1 /\
  (o_ret o = LIS_SUCCESS /\ o_iter o <= e_maxiter e \/ o_ret o = LIS_MAXITER /\ o_iter o = e_maxiter e + 1) /\
  (1 < o_iter o \/ o_ret o = LIS_SUCCESS ->
    exists xp q, o_resid o = Some q /\ is_update k w (e_n e) (e_E e) (e_b e) xp (o_x o) /\
      q = rel (norm2 (e_n e) (residual (e_n e) (e_E e) (e_b e) xp)) (norm2 (e_n e) (e_b e)) /\
      (o_ret o = LIS_SUCCESS -> sleb q (e_tol e) = true) /\
      (e_mem e = true -> o_ret o = LIS_SUCCESS -> znth s0 (o_rh o) (o_iter o) = q)).
Lemma stat_fin k w e step rh o :
  (forall xp r x, (forall i, 0 <= i < e_n e -> at_ r i = vcomp (residual (e_n e) (e_E e) (e_b e) xp) i) ->
     (forall i, 0 <= i < e_n e -> at_ x i = sadd (at_ xp i) (at_ (step r) i)) -> is_update k w (e_n e) (e_E e) (e_b e) xp x) ->
  stat_post e step rh o -> stat_final k w e rh o.
Proof.
  intros H (A & B & C & D). split; [exact A|]. split; [exact B|]. split; [exact C|]. intros HH.
  destruct (D HH) as (xp & r & q & L1 & L2 & L3 & L4 & L5 & L6). exists xp, q. split; [exact L1|]. split; [exact (H xp r (o_x o) L2 L6)|]. auto.
Qed.

Lemma jacobi_final e x rh w : 0 <= e_n e -> 0 <= e_maxiter e -> zlen rh = e_maxiter e + 2 -> no_precon e ->
  safe (lis_jacobi e x rh) (stat_final 10 w e rh).
Proof.
  intros Hn Hm Hrh HN. unfold lis_jacobi. apply safe_bind.
  eapply safe_mono; [apply reciprocal_ok; [exact Hn|apply diagonal_len; auto]|]. intros d (D1 & D2).
  eapply safe_mono; [apply stationary_ok; auto|]. intros o. apply stat_fin.
  intros xp r x1 HR HX i Hi. change (10 =? 12) with false. change (10 =? 10) with true. cbn match.
  unfold vcomp at 1 2. fold (at_ x1 i) (at_ xp i). rewrite HX by auto. rewrite <- HR by auto.
  unfold pmul. rewrite at_tab by auto. destruct (D2 i Hi) as (_ & D3). rewrite diagonal_at in D3 by auto.
  transitivity (smul (at_ r i) (smul (at_ d i) (coef (e_E e) i i))); [ring|]. rewrite D3. ring.
Qed.

Lemma triangular_update k w (e : env') wd xp r x : k <> 10 ->
  (forall i, 0 <= i < e_n e -> smul (at_ wd i) (if k =? 12 then sdiv (coef (e_E e) i i) w else coef (e_E e) i i) = s1) ->
  (forall i, 0 <= i < e_n e -> at_ r i = vcomp (residual (e_n e) (e_E e) (e_b e) xp) i) ->
  (forall i, 0 <= i < e_n e -> at_ x i = sadd (at_ xp i) (at_ (forward (Z.to_nat (e_n e)) (e_E e) wd r) i)) ->
  is_update k w (e_n e) (e_E e) (e_b e) xp x.
Proof.
  intros Hk HW HR HX i Hi. cbv zeta. destruct (k =? 10) eqn:Ek; [apply Z.eqb_eq in Ek; lia|].
  set (t := forward (Z.to_nat (e_n e)) (e_E e) wd r) in *.
  assert (HD : forall j, 0 <= j < e_n e -> ssub (vcomp x j) (vcomp xp j) = at_ t j).
  { intros j Hj. change (vcomp x j) with (at_ x j). rewrite HX by auto. unfold vcomp, at_. ring. }
  rewrite HD by auto.
  rewrite (ssum_map_ext _ (fun j => smul (coef (e_E e) i j) (at_ t j))) by (intros j Hj; apply In_zrange in Hj; rewrite HD by lia; reflexivity).
  rewrite <- HR by auto. unfold t at 1. rewrite forward_at by lia. fold t.
  set (a := if k =? 12 then _ else _). set (s := ssum _). specialize (HW i Hi). fold a in HW.
  transitivity (sadd (smul (ssub (at_ r i) s) (smul (at_ wd i) a)) s); [ring|]. rewrite HW. ring.
Qed.
Lemma gs_final e x rh w : 0 <= e_n e -> 0 <= e_maxiter e -> zlen rh = e_maxiter e + 2 -> no_precon e ->
  safe (lis_gs e None x rh) (fun o => stat_final 11 w e rh (fst o)).
Proof.
  intros Hn Hm Hrh HN. unfold lis_gs. apply safe_bind.
  eapply safe_mono; [apply reciprocal_ok; [exact Hn|apply diagonal_len; auto]|]. intros d (D1 & D2). apply safe_bind.
  eapply safe_mono; [apply stationary_ok; auto|]. intros o Ho. cbn [safe fst]. revert Ho. apply stat_fin.
  intros xp r x1 HR HX. apply (triangular_update 11 w e d xp r x1); auto; [lia|].
  intros i Hi. change (11 =? 12) with false. cbn match. rewrite <- diagonal_at by auto. apply D2. auto.
Qed.
Lemma sor_final e x rh w : 0 <= e_n e -> 0 <= e_maxiter e -> zlen rh = e_maxiter e + 2 -> no_precon e ->
  safe (lis_sor e w None x rh) (fun o => stat_final 12 w e rh (fst o)).
Proof.
  intros Hn Hm Hrh HN. unfold lis_sor. unfold divz at 1. destruct (seqb w s0) eqn:Ew; [reflexivity|]. cbn [bind].
  apply safe_bind.
  eapply safe_mono; [apply reciprocal_ok; [exact Hn|]|].
  { unfold Krylov.scale, tab, zlen. rewrite map_length. pose proof (zlen_zrange 0 (e_n e)) as HL. unfold zlen in HL. lia. }
  intros d (D1 & D2). apply safe_bind.
  eapply safe_mono; [apply stationary_ok; auto|]. intros o Ho. cbn [safe fst]. revert Ho. apply stat_fin.
  intros xp r x1 HR HX. apply (triangular_update 12 w e d xp r x1); auto; [lia|].
  intros i Hi. change (12 =? 12) with true. cbn match. destruct (D2 i Hi) as (_ & D3). rewrite <- D3.
  rewrite at_scale, diagonal_at by auto. rewrite (Fdiv_def FT (coef (e_E e) i i) w). ring.
Qed.
End P.
