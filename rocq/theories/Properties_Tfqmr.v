(** C55, TFQMR (solver 7): which vector lis_solve returns and what the reported number is. *)
Require Import Reals Lra ZArith List Bool Lia.
From Verif Require Import Base Scalar ScalarReal Spec SpecSolver SpecTerm SpecGmres Krylov KrylovProof Solve SpecMore SpecTfqmr TfFinal.
Import ListNotations.
Open Scope Z_scope.

(** With preconditioner M, unless the initial vector is accepted at once (C55_tfqmr_partial says
    what happens then): the vector returned is the m-th iterate of TFQMR started from it, the
    number reported is the quasi-residual estimate of that iterate, and m is two per iteration.
    The only other outcome is a division by zero the code does not detect. *)
Theorem C55_tfqmr (o : opts (T:=R)) n E M b x (x0 : Z -> R) : accepted 7 o -> is_matrix n (s_psolve o) M ->
  (forall i, 0 <= i < n -> x0 i = vcomp (start o n x) i) ->
  sleb (initial_measure (s_conv o) n b (residual n E b (start o n x))) (sabs (s_tol o)) = false ->
  match lis_solve o n E b x with
  | Ok v => exists m, tfqmr_result o n E M b x0 v m
  | Err c => c = DIV_BY_ZERO
  | UB => False
  end.
Proof.
  intros HA HM HX HS. pose proof (tf_at o n E M b x HA HM x0 HX) as H1. pose proof (MoreFinal.tf_solve ScalarR_field o n E b x HA) as H2.
  destruct (lis_solve o n E b x) as [v|c|]; [exact (H1 v eq_refl HS)|exact H2|exact H2].
Qed.
Print Assumptions C55_tfqmr.
(** How much that number says: if at every half-way CGS point the residual is at most C times the
    geometric mean of its neighbours, the residual of the m-th iterate is at most
    C sqrt(m + 1) tau_m.  Without such a C it can be anything: C55_tfqmr_refuted *)
Theorem C55_tfqmr_bound n E M b x0 rt C m : (1 <= C)%R ->
  (forall k, (2 * k < m)%nat -> let c := cgs_at n E M b x0 rt k in
     let h := norm n (res_of n E b (half n E M rt c)) in let r := norm n (res_of n E b (c_x c)) in let r' := norm n (res_of n E b (full n E M rt c)) in
     h * h <= C * C * (r' * r))%R ->
  (norm n (res_of n E b (fst (tfqmr n E M b x0 rt m))) <= C * (sqrt (INR m + 1) * snd (tfqmr n E M b x0 rt m)))%R.
Proof. exact (tfqmr_bound n E M b x0 rt C m). Qed.
Print Assumptions C55_tfqmr_bound.

(** *** the hypotheses are met *)
Definition Et : list (entry R) := [(0, 0, 2%R)].
Definition It : list (entry R) := [(0, 0, 1%R)].
Definition ot : opts (T:=R) := mkOpts 7 1 5 0 0%R 0%R true true 0 40 1%R 0 (fun _ v => v) (fun _ v => v) None (fun _ => 7%R) 2 2 (fun _ => 7%R).
Lemma norm_two : norm2 1 (residual 1 Et [2%R] (start ot 1 [])) = 2%R.
Proof.
  change (sqrt ((2 - ((2 + 0) * 0 + 0)) * (2 - ((2 + 0) * 0 + 0)) + 0) = 2)%R. replace ((2 - ((2 + 0) * 0 + 0)) * (2 - ((2 + 0) * 0 + 0)) + 0)%R with (2 * 2)%R by ring. apply sqrt_square. lra.
Qed.
Example C55_tfqmr_case : accepted 7 ot /\ is_matrix 1 (s_psolve ot) It /\ (forall i, 0 <= i < 1 -> 0%R = vcomp (start ot 1 []) i) /\
  sleb (initial_measure (s_conv ot) 1 [2%R] (residual 1 Et [2%R] (start ot 1 []))) (sabs (s_tol ot)) = false.
Proof.
  split; [unfold accepted, ot; cbn; lia|]. split; [|split].
  - intros k v i Hi. assert (i = 0) as -> by lia. change (vcomp v 0 = (1 + 0) * vcomp v 0 + 0)%R. ring.
  - intros i Hi. assert (i = 0) as -> by lia. reflexivity.
  - change (sleb (rel (norm2 1 (residual 1 Et [2%R] (start ot 1 []))) (norm2 1 (residual 1 Et [2%R] (start ot 1 [])))) (Rabs 0) = false). rewrite norm_two.
    unfold rel. destruct (seqb 2%R s0) eqn:Es. { exfalso. apply ScalarR_eqb in Es. change (2 = 0)%R in Es. lra. }
    cbn [sleb sabs sdiv ScalarR]. destruct (Rle_dec _ _) as [Hq|Hq]; [exfalso|reflexivity]. rewrite Rabs_R0 in Hq. replace (2 / 2)%R with 1%R in Hq by field. lra.
Qed.
(** A = (2), b = (1), from 0: the half-way point of the first iteration is the solution *)
Example C55_tfqmr_bound_case : (forall k, (2 * k < 2)%nat -> let c := cgs_at 1 Et It (fun _ => 1%R) (fun _ => 0%R) (fun _ => 1%R) k in
     let h := norm 1 (res_of 1 Et (fun _ => 1%R) (half 1 Et It (fun _ => 1%R) c)) in let r := norm 1 (res_of 1 Et (fun _ => 1%R) (c_x c)) in let r' := norm 1 (res_of 1 Et (fun _ => 1%R) (full 1 Et It (fun _ => 1%R) c)) in
     h * h <= 1 * 1 * (r' * r))%R.
Proof.
  intros k Hk. assert (k = 0%nat) as -> by lia. cbv zeta.
  match goal with |- (?h * ?h <= 1 * 1 * (?a * ?c))%R => assert (Eh : h = 0%R); [|assert (0 <= a /\ 0 <= c)%R by (split; apply sqrt_pos); rewrite Eh; assert (0 <= a * c)%R by (apply Rmult_le_pos; tauto); lra] end.
  unfold norm. match goal with |- sqrt ?q = _ => replace q with 0%R; [apply sqrt_0|] end. symmetry. unfold inner. cbn [zrange map ssum].
  assert (Hh : res_of 1 Et (fun _ => 1%R) (half 1 Et It (fun _ => 1%R) (cgs_at 1 Et It (fun _ => 1%R) (fun _ => 0%R) (fun _ => 1%R) 0)) 0 = 0%R).
  { change (1 - ((2 + 0) * (0 + ((1 - ((2 + 0) * 0 + 0)) * 1 + 0) / (((2 + 0) * ((1 + 0) * (1 - ((2 + 0) * 0 + 0)) + 0) + 0) * 1 + 0) * ((1 + 0) * (1 - ((2 + 0) * 0 + 0)) + 0)) + 0) = 0)%R. field. }
  change (res_of 1 Et (fun _ => 1%R) (half 1 Et It (fun _ => 1%R) (cgs_at 1 Et It (fun _ => 1%R) (fun _ => 0%R) (fun _ => 1%R) 0)) 0 * res_of 1 Et (fun _ => 1%R) (half 1 Et It (fun _ => 1%R) (cgs_at 1 Et It (fun _ => 1%R) (fun _ => 0%R) (fun _ => 1%R) 0)) 0 + 0 = 0)%R. rewrite Hh. ring.
Qed.
