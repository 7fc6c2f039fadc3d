(** C53: GMRES (solver 9) and FGMRES (solver 20), real scalars, exact arithmetic. *)
Require Import Reals Lra.
Require Import ZArith List Bool Lia QArith Qcanon.
From Verif Require Import Base Scalar ScalarReal Spec SpecSolver SpecTerm Krylov TermProof Solve SpecGmres GmresSolve.
Import ListNotations.
Open Scope Z_scope.

(** GMRES with a linear preconditioner M: the reported residual norm is that of the returned x
    relative to the initial residual, the status agrees with it, the history never increases,
    and each value of the first cycle is the least over the Krylov space.  The run ends with a
    result, or with a division by zero that the code does not detect. *)
Theorem C53_gmres (o : opts (T:=R)) n E M b x : accepts 9 o -> 0 <= n -> is_matrix n (s_psolve o) M ->
  let start := if s_zeros o then zeros n else x in let r0 := residual n E b start in
  let meas := fun y => rel (norm2 n (residual n E b y)) (norm2 n r0) in
  match lis_solve o n E b x with
  | Ok v => if Rle_dec (rel (norm2 n r0) (norm2 n r0)) (Rabs (s_tol o))
            then v_ret v = LIS_SUCCESS /\ v_status v = LIS_SUCCESS /\ v_iter v = 1 /\ forall i, 0 <= i < n -> vcomp (v_x v) i = vcomp start i
            else run_ok meas o start v /\ optimal_history n E M (fun r => rel (norm2 n r) (norm2 n r0)) o r0 v
  | Err c => c = DIV_BY_ZERO
  | UB => False
  end.
Proof.
  intros HA Hn HP. cbv zeta.
  pose proof (solve_ok false 9 o n E M b x (or_introl eq_refl) HA Hn (fun _ => HP) ltac:(discriminate)) as H. unfold okm in H.
  destruct (lis_solve o n E b x) as [v|c|]; [|apply H|exact H]. destruct H as (_ & _ & H).
  change (sleb (first o n E b x) (sabs (s_tol o))) with (if Rle_dec (rel (norm2 n (residual n E b (if s_zeros o then zeros n else x))) (norm2 n (residual n E b (if s_zeros o then zeros n else x)))) (Rabs (s_tol o)) then true else false) in H.
  destruct (Rle_dec _ _); [destruct H as (H1 & H2 & H3 & _ & H4); auto|]. destruct H as (H1 & H2 & _). split; [exact H1|exact (H2 HP)].
Qed.
Print Assumptions C53_gmres.
(** FGMRES with any preconditioner, even one that changes in every iteration: the reported norm
    is that of b - A x itself, not relative *)
Theorem C53_fgmres (o : opts (T:=R)) n E b x : accepts 20 o -> 0 <= n ->
  let start := if s_zeros o then zeros n else x in let r0 := residual n E b start in
  match lis_solve o n E b x with
  | Ok v => if Rle_dec (rel (norm2 n r0) (norm2 n r0)) (Rabs (s_tol o))
            then v_ret v = LIS_SUCCESS /\ v_status v = LIS_SUCCESS /\ v_iter v = 1 /\ forall i, 0 <= i < n -> vcomp (v_x v) i = vcomp start i
            else run_ok (fun y => norm2 n (residual n E b y)) o start v /\
              forall M, is_matrix n (s_psolve o) M -> optimal_history n E M (norm2 n) o r0 v
  | Err c => c = DIV_BY_ZERO
  | UB => False
  end.
Proof.
  intros HA Hn. cbv zeta.
  assert (H : forall M, okm false (lis_solve o n E b x) _) by (intros M; exact (solve_ok false 20 o n E M b x (or_intror eq_refl) HA Hn ltac:(discriminate) ltac:(discriminate))).
  unfold okm in H. destruct (lis_solve o n E b x) as [v|c|]; [|apply (H [])|exact (H [])].
  change (sleb (first o n E b x) (sabs (s_tol o))) with (if Rle_dec (rel (norm2 n (residual n E b (if s_zeros o then zeros n else x))) (norm2 n (residual n E b (if s_zeros o then zeros n else x)))) (Rabs (s_tol o)) then true else false) in H.
  destruct (Rle_dec _ _).
  - destruct (H []) as (_ & _ & H1 & H2 & H3 & _ & H4); auto.
  - split; [apply (H [])|]. intros M HM. apply (H M). exact HM.
Qed.
Print Assumptions C53_fgmres.
(** no division by zero for a nonsingular matrix and preconditioner, whatever the restart *)
Theorem C53_no_breakdown (k : Z) (o : opts (T:=R)) n E M b x : k = 9 \/ k = 20 -> accepts k o -> 0 <= n -> is_matrix n (s_psolve o) M ->
  nonsingular n E -> nonsingular n M -> (0 <= s_tol o)%R -> exists v, lis_solve o n E b x = Ok v /\ v_ret v = LIS_SUCCESS.
Proof.
  intros Hk HA Hn HP HE HM HT.
  pose proof (solve_ok true k o n E M b x Hk HA Hn (fun _ => HP) (fun _ => conj HP (conj HE (conj HM HT)))) as H. unfold okm in H.
  destruct (lis_solve o n E b x) as [v|c|]; [|destruct H; discriminate|contradiction]. exists v. split; [reflexivity|]. destruct H as (_ & _ & H).
  destruct (sleb (first o n E b x) (sabs (s_tol o))); apply H.
Qed.
Print Assumptions C53_no_breakdown.
(** ... and with restart >= n and maxiter >= n they succeed within n iterations *)
Theorem C53_finite_termination (k : Z) (o : opts (T:=R)) n E M b x : k = 9 \/ k = 20 -> accepts k o -> 1 <= n -> is_matrix n (s_psolve o) M ->
  nonsingular n E -> nonsingular n M -> (0 <= s_tol o)%R -> n <= s_restart o -> n <= s_maxiter o ->
  exists v, lis_solve o n E b x = Ok v /\ v_status v = LIS_SUCCESS /\ v_iter v <= n.
Proof.
  intros Hk HA Hn HP HE HM HT HR HX.
  pose proof (solve_ok true k o n E M b x Hk HA ltac:(lia) (fun _ => HP) (fun _ => conj HP (conj HE (conj HM HT)))) as H. unfold okm in H.
  destruct (lis_solve o n E b x) as [v|c|]; [|destruct H; discriminate|contradiction]. exists v. split; [reflexivity|]. destruct H as (_ & _ & H).
  destruct (sleb (first o n E b x) (sabs (s_tol o))); [destruct H as (_ & H1 & H2 & _); split; [exact H1|lia]|]. destruct H as (_ & _ & H). apply H; auto.
Qed.
Print Assumptions C53_finite_termination.
(** with tolerance 0 the x returned is then the solution *)
Theorem C53_exact (k : Z) (o : opts (T:=R)) n E M b x : k = 9 \/ k = 20 -> accepts k o -> 1 <= n -> is_matrix n (s_psolve o) M ->
  nonsingular n E -> nonsingular n M -> s_tol o = 0%R -> n <= s_restart o -> n <= s_maxiter o ->
  exists v, lis_solve o n E b x = Ok v /\ v_status v = LIS_SUCCESS /\ v_iter v <= n /\ forall i, 0 <= i < n -> mv_spec E n (vcomp (v_x v)) i = vcomp b i.
Proof.
  intros Hk HA Hn HP HE HM HT HR HX.
  destruct (C53_finite_termination k o n E M b x Hk HA Hn HP HE HM ltac:(lra) HR HX) as (v & Hv & H1 & H2). exists v. split; [exact Hv|]. split; [exact H1|]. split; [exact H2|].
  assert (Z0 : norm2 n (residual n E b (v_x v)) = 0%R).
  2:{ intros i Hi. assert (Hr := GmresMath.ip_zero n (vcomp (residual n E b (v_x v)))). 
      assert (Hq : GmresMath.ip n (vcomp (residual n E b (v_x v))) (vcomp (residual n E b (v_x v))) = 0%R) by (apply sqrt_eq_0; [apply GmresMath.ip_nonneg|exact Z0]).
      specialize (Hr Hq i Hi). cbv beta in Hr.
      assert (Ht : vcomp (residual n E b (v_x v)) i = (vcomp b i - mv_spec E n (vcomp (v_x v)) i)%R) by exact (KrylovProof.at_tab n (fun i => ssub (vcomp b i) (mv_spec E n (vcomp (v_x v)) i)) i Hi). lra. }
  assert (Rel0 : forall p q : R, (0 <= p)%R -> (0 <= q)%R -> (rel p q <= 0)%R -> p = 0%R \/ q = 0%R /\ p = 0%R).
  { intros p q Hp Hq. unfold rel. cbn [seqb ScalarR s0]. destruct (Req_EM_T q 0); intros H; [right; lra|]. left. cbn [sdiv ScalarR] in H.
    destruct (Req_dec p 0) as [|C]; [auto|]. assert (0 < p / q)%R by (apply Rdiv_lt_0_compat; lra). lra. }
  pose proof (solve_ok true k o n E M b x Hk HA ltac:(lia) (fun _ => HP) (fun _ => conj HP (conj HE (conj HM (Req_le_sym _ _ HT))))) as H. unfold okm in H. rewrite Hv in H.
  destruct H as (_ & _ & H). destruct (sleb (first o n E b x) (sabs (s_tol o))) eqn:El.
  - apply GmresLoop.sleb_R_t in El. rewrite HT in El. change (sabs 0%R) with (Rabs 0) in El. rewrite Rabs_R0 in El. destruct H as (_ & _ & _ & _ & Hx).
    assert (Er : residual n E b (v_x v) = residual n E b (x0 o n x)) by (apply residual_ext; [exact o|exact Hx]).
    rewrite Er. destruct (Rel0 _ _ (sqrt_pos _) (sqrt_pos _) El) as [C|(_ & C)]; exact C.
  - destruct H as ((_ & _ & HR1 & _) & _). destruct HR1 as [(_ & _ & _ & HR1)|(C & _)]; [|rewrite H1 in C; discriminate].
    rewrite HT in HR1. unfold mg in HR1. destruct (k =? 9).
    + destruct (Rel0 _ _ (sqrt_pos _) (sqrt_pos _) HR1) as [C|(_ & C)]; exact C.
    + pose proof (sqrt_pos (ssum (map (fun i => smul (sconj (vcomp (residual n E b (v_x v)) i)) (vcomp (residual n E b (v_x v)) i)) (zrange 0 n)))) as HQ. unfold norm2 in *. change (ssqrt (Scalar:=ScalarR)) with sqrt in *. lra.
Qed.
Print Assumptions C53_exact.

(** *** the hypotheses are met: A = ((0 1)(1 0)), M = diag(2, 1/2), both solvers *)
Definition swap2 : list (entry R) := [(0, 1, 1%R); (1, 0, 1%R)].
Definition m2 : list (entry R) := [(0, 0, 2%R); (1, 1, (/2)%R)].
Definition og (s restart mi : Z) : opts (T:=R) := mkOpts s 1 mi 0 0%R 0%R true true 0 restart 1%R 0
   (fun _ v => times 2 m2 v) (fun _ v => v) None (fun _ => 7%R) 2 2 (fun _ => 7%R).
Lemma two (i : Z) : 0 <= i < 2 -> i = 0 \/ i = 1. Proof. lia. Qed.
Example C53_applies : forall s, s = 9 \/ s = 20 -> accepts s (og s 2 2) /\ is_matrix 2 (s_psolve (og s 2 2)) m2 /\ nonsingular 2 swap2 /\ nonsingular 2 m2.
Proof.
  intros s Hs. split; [|split; [|split]].
  - unfold accepts, og; cbn. lia.
  - intros k v i Hi. exact (KrylovProof.at_tab 2 (mv_spec m2 2 (vcomp v)) i Hi).
  - intros v H i Hi. pose proof (H 0 ltac:(lia)) as H0. pose proof (H 1 ltac:(lia)) as H1.
    change (mv_spec swap2 2 (vcomp v) 0) with (0 * vcomp v 0 + ((1 + 0) * vcomp v 1 + 0))%R in H0. change (mv_spec swap2 2 (vcomp v) 1) with ((1 + 0) * vcomp v 0 + (0 * vcomp v 1 + 0))%R in H1.
    destruct (two i Hi) as [-> | ->]; lra.
  - intros v H i Hi. pose proof (H 0 ltac:(lia)) as H0. pose proof (H 1 ltac:(lia)) as H1.
    change (mv_spec m2 2 (vcomp v) 0) with ((2 + 0) * vcomp v 0 + (0 * vcomp v 1 + 0))%R in H0. change (mv_spec m2 2 (vcomp v) 1) with (0 * vcomp v 0 + ((/ 2 + 0) * vcomp v 1 + 0))%R in H1.
    destruct (two i Hi) as [-> | ->]; lra.
Qed.

(** *** runs over the rationals *)
Definition q (a : Z) (b : positive) : Qc := Q2Qc (a # b).
Definition oq (s restart mi : Z) (tol : Qc) (P : Z -> list Qc -> list Qc) : opts (T:=Qc) := mkOpts s 1 mi 0 tol (q 0 1) true true 0 restart (q 1 1) 0
   P (fun _ v => v) None (fun _ => q 7 1) 2 2 (fun _ => q 7 1).
Definition swapq : list (entry Qc) := [(0, 1, q 1 1); (1, 0, q 1 1)].
Definition show (r : res (solved (T:=Qc))) : res (Z * Z * option Q * list Q * list Q) :=
  match r with Ok v => Ok (v_status v, v_iter v, option_map this (v_resid v), map this (v_x v), map this (v_rh v)) | Err c => Err c | UB => UB end.
Definition zq := [q 0 1; q 0 1].
(** ((0 1)(1 0)) x = (3,4): two iterations, relative residuals 7/25 and 0 *)
Example C53_gmres_runs : show (lis_solve (oq 9 2 3 (q 0 1) (fun _ v => v)) 2 swapq [q 3 1; q 4 1] zq) =
  Ok (LIS_SUCCESS, 2, Some 0%Q, [4%Q; 3%Q], [1%Q; (7 # 25)%Q; 0%Q; 7%Q; 7%Q]).
Proof. vm_compute. reflexivity. Qed.
Example C53_fgmres_runs : show (lis_solve (oq 20 2 3 (q 0 1) (fun _ v => v)) 2 swapq [q 3 1; q 4 1] zq) =
  Ok (LIS_SUCCESS, 2, Some 0%Q, [4%Q; 3%Q], [1%Q; (7 # 5)%Q; 0%Q; 7%Q; 7%Q]).
Proof. vm_compute. reflexivity. Qed.
(** restart < n: finite termination is lost; GMRES(1) never moves on ((0 1)(1 0)) x = (1,0) *)
Example C53_restart_needed : show (lis_solve (oq 9 1 3 (q 1 100) (fun _ v => v)) 2 swapq [q 1 1; q 0 1] zq) =
  Ok (LIS_MAXITER, 4, Some 1%Q, [0%Q; 0%Q], [1%Q; 1%Q; 1%Q; 1%Q; 7%Q]).
Proof. vm_compute. reflexivity. Qed.

(** *** what the documentation promises and the code does not do *)
(** restart 0 passes the parameter check and both solvers then write behind the vector s *)
Theorem C53_restart_0_refuted : forall s, s = 9 \/ s = 20 -> exists n E b x, lis_solve (oq s 0 3 (q 0 1) (fun _ v => v)) n E b x = UB.
Proof. intros s Hs. exists 2, swapq, [q 3 1; q 4 1], zq. destruct Hs as [-> | ->]; vm_compute; reflexivity. Qed.
Print Assumptions C53_restart_0_refuted.
(** FGMRES: convergence condition 0 is ||b - A x|| <= tol ||b - A x0||, but FGMRES reports success
    for a relative residual of 7/25 with tolerance 1/4 *)
Theorem C53_fgmres_relative_refuted : exists n E b x, let o := oq 20 2 3 (q 1 4) (fun _ v => v) in
  exists v, lis_solve o n E b x = Ok v /\ v_status v = LIS_SUCCESS /\
    measured 0 n b (residual n E b (zeros n)) (residual n E b (v_x v)) = q 7 25 /\ ~ (q 7 25 <= s_tol o)%Qc.
Proof.
  exists 2, swapq, [q 3 10; q 4 10], zq. cbv zeta. eexists. split; [vm_compute; reflexivity|]. split; [reflexivity|]. split.
  - apply Qc_is_canon. vm_compute. reflexivity.
  - intros C. vm_compute in C. congruence.
Qed.
Print Assumptions C53_fgmres_relative_refuted.
(** a singular matrix: GMRES divides by zero (the program goes on with NaN); it has no
    LIS_BREAKDOWN return *)
Theorem C53_singular_refuted : exists n E b x, lis_solve (oq 9 2 3 (q 0 1) (fun _ v => v)) n E b x = Err DIV_BY_ZERO.
Proof. exists 2, [(0, 1, q 1 1)], [q 1 1; q 0 1], zq. vm_compute. reflexivity. Qed.
Print Assumptions C53_singular_refuted.
(** GMRES with a preconditioner that changes (or is not linear) reports a wrong residual:
    0 and success, although b - A x is not 0 *)
Theorem C53_gmres_variable_precon_refuted : exists n E b x P, let o := oq 9 2 3 (q 0 1) P in
  exists v, lis_solve o n E b x = Ok v /\ v_status v = LIS_SUCCESS /\ option_map this (v_resid v) = Some 0%Q /\
    vcomp (residual n E b (v_x v)) 0 = q (-96) 25.
Proof.
  exists 2, swapq, [q 3 1; q 4 1], zq, (fun k v => map (fun a => (a * q k 2)%Qc) v). cbv zeta. eexists. split; [vm_compute; reflexivity|]. split; [reflexivity|]. split.
  - vm_compute; reflexivity.
  - apply Qc_is_canon. vm_compute. reflexivity.
Qed.
Print Assumptions C53_gmres_variable_precon_refuted.
