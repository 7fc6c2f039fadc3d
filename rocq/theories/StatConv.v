(** Convergence of the stationary iterations over the reals. *)
Require Import Reals Lra ZArith List Bool Lia Field.
From Verif Require Import Base Scalar ScalarReal Spec SpecSolver Krylov Krylov2 Solve SpecSolve MatvecProof KrylovProof SpecTerm SpecGmres SpecStat TermFinal GmresMath.
Import ListNotations.
Open Scope R_scope.

Lemma sm_Rabs lo hi f : Rabs (sm lo hi f) <= sm lo hi (fun j => Rabs (f j)).
Proof.
  unfold sm. induction (zrange lo hi) as [|a l IH]; cbn [map ssum].
  - change (Rabs 0 <= 0). rewrite Rabs_R0. lra.
  - change (Rabs (f a + ssum (map f l)) <= Rabs (f a) + ssum (map (fun j => Rabs (f j)) l)).
    eapply Rle_trans; [apply Rabs_triang|]. lra.
Qed.
Lemma sm_le lo hi f g : (forall j, (lo <= j < hi)%Z -> f j <= g j) -> sm lo hi f <= sm lo hi g.
Proof.
  intros H. assert (0 <= sm lo hi (fun j => g j + (-1) * f j)) as P by (apply sm_nonneg; intros j Hj; specialize (H j Hj); lra).
  rewrite sm_plus, sm_scal in P. lra.
Qed.
Lemma sm_minus lo hi f g : sm lo hi (fun k => f k - g k) = sm lo hi f - sm lo hi g.
Proof. rewrite (sm_ext lo hi _ (fun k => f k + (-1) * g k)) by (intros; ring). rewrite sm_plus, sm_scal. ring. Qed.

Section C.
Variables (k n : Z) (w : R) (E : list (entry R)) (b xs : list R).
Hypothesis Hk : k = 10%Z \/ k = 11%Z \/ k = 12%Z.
Hypothesis Hn : (0 <= n)%Z.
Hypothesis HS : solves n E b xs.
Notation a := (coef E).
Let w' : R := if (k =? 12)%Z then w else 1.
Let err (x : list R) (i : Z) : R := vcomp xs i - vcomp x i.
Let off (i : Z) (g : Z -> R) : R := sm 0 n (fun j => if (j =? i)%Z then 0 else a i j * g j).

Lemma row_split i (f : Z -> R) : (0 <= i < n)%Z -> sm 0 n (fun j => a i j * f j) = sm 0 i (fun j => a i j * f j) + a i i * f i + sm (i + 1) n (fun j => a i j * f j).
Proof using. clear. intros Hi. rewrite (sm_split 0 i n) by lia. rewrite (sm_cons i n) by lia. ring. Qed.
Lemma off_split i g : (0 <= i < n)%Z -> off i g = sm 0 i (fun j => a i j * g j) + sm (i + 1) n (fun j => a i j * g j).
Proof using.
  intros Hi. unfold off. rewrite (sm_split 0 i n) by lia. rewrite (sm_cons i n) by lia. rewrite Z.eqb_refl.
  rewrite (sm_ext 0 i _ (fun j => a i j * g j)) by (intros j Hj; destruct (j =? i)%Z eqn:C; [apply Z.eqb_eq in C; lia|reflexivity]).
  rewrite (sm_ext (i + 1) n _ (fun j => a i j * g j)) by (intros j Hj; destruct (j =? i)%Z eqn:C; [apply Z.eqb_eq in C; lia|reflexivity]). ring.
Qed.
(** the residual is A applied to the error *)
Lemma resid_err x i : (0 <= i < n)%Z -> vcomp (residual n E b x) i = sm 0 n (fun j => a i j * err x j).
Proof using HS.
  intros Hi. etransitivity; [exact (at_tab n (fun i => ssub (vcomp b i) (mv_spec E n (vcomp x) i)) i Hi)|].
  change (vcomp b i - mv_spec E n (vcomp x) i = sm 0 n (fun j => a i j * err x j)). rewrite <- (HS i Hi).
  change (sm 0 n (fun j => a i j * vcomp xs j) - sm 0 n (fun j => a i j * vcomp x j) = sm 0 n (fun j => a i j * err x j)).
  rewrite <- sm_minus. apply sm_ext. intros; unfold err; ring.
Qed.
(** the update, as an equation between the errors *)
Lemma update_err x y : w' <> 0 -> is_update k w n E b x y -> forall i, (0 <= i < n)%Z ->
  a i i / w' * (err x i - err y i) + (if (k =? 10)%Z then 0 else sm 0 i (fun j => a i j * (err x j - err y j))) = sm 0 n (fun j => a i j * err x j).
Proof using HS.
  intros Hw HU i Hi. rewrite <- resid_err by auto. rewrite <- (HU i Hi). cbv zeta.
  assert (D : forall j, (err x j - err y j) = vcomp y j - vcomp x j) by (intros; unfold err; ring).
  rewrite D. unfold w' in *. refine (f_equal2 Rplus _ _).
  - destruct (k =? 12)%Z; [reflexivity|]. change (a i i / 1 * (vcomp y i - vcomp x i) = a i i * (vcomp y i - vcomp x i)). field.
  - destruct (k =? 10)%Z; [reflexivity|]. apply sm_ext. intros j Hj. rewrite D. reflexivity.
Qed.
Section D.
Variable rho : R.
Hypothesis HD : dominant n E rho.
Hypothesis Hw : 0 < w' <= 1.
Lemma off_bound i g D : (0 <= i < n)%Z -> (forall j, (0 <= j < n)%Z -> j <> i -> Rabs (g j) <= D) -> 0 <= D -> Rabs (off i g) <= rho * Rabs (a i i) * D.
Proof using HD.
  intros Hi Hg HD0. destruct HD as (Hr & Hdom). destruct (Hdom i Hi) as (_ & H). unfold off.
  eapply Rle_trans; [apply sm_Rabs|]. apply Rle_trans with (D * sm 0 n (fun j => if (j =? i)%Z then 0 else Rabs (a i j))).
  - rewrite <- sm_scal. apply sm_le. intros j Hj. destruct (j =? i)%Z eqn:C; [rewrite Rabs_R0; lra|]. rewrite Rabs_mult.
    apply Z.eqb_neq in C. specialize (Hg j Hj C). pose proof (Rabs_pos (a i j)). rewrite (Rmult_comm D). apply Rmult_le_compat_l; lra.
  - rewrite (Rmult_comm _ D). apply Rmult_le_compat_l; [exact HD0|exact H].
Qed.
Lemma contract x y D : is_update k w n E b x y -> 0 <= D -> within n D xs x -> within n (factor k w rho * D) xs y.
Proof using All.
  intros HU HD0 HW. assert (U := update_err x y ltac:(lra) HU). destruct HD as (Hr & Hdom).
  assert (FE : factor k w rho = 1 - w' + w' * rho) by (unfold factor, w'; destruct (k =? 12)%Z; ring).
  assert (F1 : 0 <= factor k w rho * D <= D). { rewrite FE. assert (0 <= w' * rho) by (apply Rmult_le_pos; lra). assert (w' * rho <= w') by (rewrite <- (Rmult_1_r w') at 2; apply Rmult_le_compat_l; lra). split; [apply Rmult_le_pos; lra|]. rewrite <- (Rmult_1_l D) at 2. apply Rmult_le_compat_r; lra. }
  assert (G : forall m : nat, forall i, (0 <= i < Z.of_nat m)%Z -> (i < n)%Z -> Rabs (err y i) <= factor k w rho * D).
  { induction m as [|m IH]; intros i Hi Hin; [lia|]. destruct (Z.eq_dec i (Z.of_nat m)) as [Em|]; [|apply IH; lia].
    destruct (Hdom i ltac:(lia)) as (Ha & _). specialize (U i ltac:(lia)).
    set (g := fun j => if (k =? 10)%Z then err x j else if (j <? i)%Z then err y j else err x j).
    assert (Hg : forall j, (0 <= j < n)%Z -> j <> i -> Rabs (g j) <= D).
    { intros j Hj Hne. assert (Rabs (err x j) <= D) by (apply HW; exact Hj). unfold g. destruct (k =? 10)%Z; [auto|]. destruct (j <? i)%Z eqn:C; [|auto].
      apply Z.ltb_lt in C. specialize (IH j ltac:(lia) ltac:(lia)). lra. }
    assert (Q : a i i * err y i = a i i * (1 - w') * err x i - w' * off i g).
    { assert (S1 : off i g = sm 0 n (fun j => a i j * err x j) - a i i * err x i - (if (k =? 10)%Z then 0 else sm 0 i (fun j => a i j * (err x j - err y j)))).
      { rewrite (off_split i g) by lia. rewrite (row_split i (err x)) by lia.
        rewrite (sm_ext (i + 1) n (fun j => a i j * g j) (fun j => a i j * err x j)) by (intros j Hj; unfold g; destruct (k =? 10)%Z; [reflexivity|]; destruct (j <? i)%Z eqn:C; [apply Z.ltb_lt in C; lia|reflexivity]).
        destruct (k =? 10)%Z eqn:Ek.
        - rewrite (sm_ext 0 i (fun j => a i j * g j) (fun j => a i j * err x j)) by (intros; unfold g; reflexivity). ring.
        - rewrite (sm_ext 0 i (fun j => a i j * g j) (fun j => a i j * err y j)) by (intros j Hj; unfold g; destruct (j <? i)%Z eqn:C; [reflexivity|apply Z.ltb_ge in C; lia]).
          rewrite (sm_ext 0 i (fun j => a i j * (err x j - err y j)) (fun j => a i j * err x j - a i j * err y j)) by (intros; ring). rewrite sm_minus. ring. }
      rewrite S1. rewrite <- U. field. lra. }
    assert (B := off_bound i g D ltac:(lia) Hg HD0). assert (Hx : Rabs (err x i) <= D) by (apply HW; lia).
    assert (Hpa : 0 < Rabs (a i i)) by (apply Rabs_pos_lt; exact Ha).
    apply Rmult_le_reg_l with (Rabs (a i i)); [exact Hpa|]. rewrite <- Rabs_mult, Q, FE.
    eapply Rle_trans; [apply Rabs_triang|]. rewrite Rabs_Ropp, !Rabs_mult. rewrite (Rabs_pos_eq (1 - w')), (Rabs_pos_eq w') by lra.
    apply Rle_trans with (Rabs (a i i) * (1 - w') * D + w' * (rho * Rabs (a i i) * D)).
    - apply Rplus_le_compat; apply Rmult_le_compat_l; try lra. apply Rmult_le_pos; lra.
    - right. ring. }
  intros i Hi. apply (G (Z.to_nat n)); lia.
Qed.
Lemma trajectory_within x0 X D : trajectory k w n E b x0 X -> 0 <= D -> within n D xs x0 -> forall s, within n (factor k w rho ^ s * D) xs (X s).
Proof using All.
  intros (T0 & T1) HD0 HW. destruct HD as (Hr & Hdom).
  assert (F0 : 0 <= factor k w rho). { assert (FE : factor k w rho = 1 - w' + w' * rho) by (unfold factor, w'; destruct (k =? 12)%Z; ring). rewrite FE. assert (0 <= w' * rho) by (apply Rmult_le_pos; lra). lra. }
  induction s as [|s IH].
  - intros i Hi. rewrite T0 by auto. cbn [pow]. rewrite Rmult_1_l. apply HW; auto.
  - cbn [pow]. rewrite Rmult_assoc. apply (contract (X s) (X (S s))); [apply T1| |exact IH]. apply Rmult_le_pos; [apply pow_le; exact F0|exact HD0].
Qed.
End D.

(** ** symmetric positive definite: the energy of the error *)
Section Spd.
Hypothesis HSy : symmetric n E.
Hypothesis HP : pos_def n (times n E).
Hypothesis Hw : 0 < w' < 2.
Hypothesis Hk10 : k <> 10%Z.
Definition en (f : Z -> R) : R := sm 0 n (fun i => f i * sm 0 n (fun j => a i j * f j)).
Lemma en_energy x : energy_error n E xs x = en (err x).
Proof using.
  unfold energy_error, inner, en, err. cbv zeta. apply sm_ext. intros i Hi.
  assert (D : forall j, (0 <= j < n)%Z -> vcomp (map (fun i => vcomp xs i - vcomp x i) (zrange 0 n)) j = vcomp xs j - vcomp x j) by (intros j Hj; exact (at_tab n (fun i => vcomp xs i - vcomp x i) j Hj)).
  change (vcomp (map (fun i => vcomp xs i - vcomp x i) (zrange 0 n)) i * vcomp (times n E (map (fun i => vcomp xs i - vcomp x i) (zrange 0 n))) i = (vcomp xs i - vcomp x i) * sm 0 n (fun j => a i j * (vcomp xs j - vcomp x j))).
  rewrite D by auto. f_equal. etransitivity; [exact (at_tab n (mv_spec E n (vcomp (map (fun i => vcomp xs i - vcomp x i) (zrange 0 n)))) i Hi)|].
  apply sm_ext. intros j Hj. rewrite D by auto. reflexivity.
Qed.
Lemma en_nonneg f : 0 <= en f.
Proof using HP.
  destruct (TermFinal.zero_or_nonzero n (tab n f)) as [Z0|NZ].
  - right. symmetry. apply sm_zero. intros i Hi. specialize (Z0 i Hi). rewrite (at_tab n f i Hi : vcomp (tab n f) i = f i) in Z0. rewrite Z0. ring.
  - specialize (HP _ NZ). left. replace (en f) with (inner n (tab n f) (times n E (tab n f))); [exact HP|].
    unfold inner, en. apply sm_ext. intros i Hi. change (vcomp (tab n f) i * vcomp (times n E (tab n f)) i = f i * sm 0 n (fun j => a i j * f j)).
    f_equal; [exact (at_tab n f i Hi)|]. etransitivity; [exact (at_tab n (mv_spec E n (vcomp (tab n f))) i Hi)|].
    apply sm_ext. intros j Hj. exact (f_equal (Rmult (a i j)) (at_tab n f j Hj)).
Qed.
Lemma en_step x y : is_update k w n E b x y -> 
  en (err y) = en (err x) - (2 / w' - 1) * sm 0 n (fun i => a i i * ((err x i - err y i) * (err x i - err y i))).
Proof using All.
  intros HU. assert (U := update_err x y ltac:(lra) HU). set (d := fun i => err x i - err y i).
  assert (Ek : (k =? 10)%Z = false) by (apply Z.eqb_neq; exact Hk10). rewrite Ek in U.
  (* en (x - d) = en x - 2 d.A x + en d *)
  assert (X1 : en (err y) = en (err x) - 2 * sm 0 n (fun i => d i * sm 0 n (fun j => a i j * err x j)) + en d).
  { assert (Y : forall i, (0 <= i < n)%Z -> err y i * sm 0 n (fun j => a i j * err y j) = err x i * sm 0 n (fun j => a i j * err x j) - d i * sm 0 n (fun j => a i j * err x j) - err x i * sm 0 n (fun j => a i j * d j) + d i * sm 0 n (fun j => a i j * d j)).
    { intros i Hi. rewrite (sm_ext 0 n (fun j => a i j * err y j) (fun j => a i j * err x j - a i j * d j)) by (intros; unfold d; ring). rewrite sm_minus.
      replace (err y i) with (err x i - d i) by (unfold d; ring). ring. }
    unfold en at 1. rewrite (sm_ext 0 n _ _ Y). rewrite sm_plus, !sm_minus. fold (en (err x)). fold (en d).
    assert (SW : sm 0 n (fun i => err x i * sm 0 n (fun j => a i j * d j)) = sm 0 n (fun i => d i * sm 0 n (fun j => a i j * err x j))).
    { rewrite (sm_ext 0 n _ (fun i => sm 0 n (fun j => err x i * (a i j * d j)))) by (intros; rewrite sm_scal; reflexivity). rewrite sm_swap.
      apply sm_ext. intros j Hj. rewrite <- sm_scal. apply sm_ext. intros i Hi. rewrite (HSy i j Hi Hj). ring. }
    rewrite SW. ring. }
  (* en d = sum a_ii d_i^2 + 2 sum_i d_i sum_{j<i} a_ij d_j *)
  assert (X2 : en d = sm 0 n (fun i => a i i * (d i * d i)) + 2 * sm 0 n (fun i => d i * sm 0 i (fun j => a i j * d j))).
  { unfold en. rewrite (sm_ext 0 n _ (fun i => (d i * sm 0 (i + 1) (fun j => a i j * d j)) + sm (i + 1) n (fun j => d i * (a i j * d j)))).
    2:{ intros i Hi. rewrite (sm_split 0 (i + 1) n) by lia. rewrite sm_scal. ring. }
    rewrite sm_plus.
    assert (TRI : sm 0 n (fun i => sm (i + 1) n (fun j => d i * (a i j * d j))) = sm 0 n (fun i => d i * sm 0 i (fun j => a i j * d j))).
    { assert (T1 := sm_tri n (fun l kk => d l * (a l kk * d kk)) Hn). cbv beta in T1.
      rewrite (sm_ext 0 n (fun kk => sm 0 (kk + 1) (fun l => d l * (a l kk * d kk))) (fun kk => d kk * sm 0 kk (fun l => a kk l * d l) + a kk kk * (d kk * d kk))) in T1.
      2:{ intros i Hi. rewrite sm_snoc by lia. rewrite <- sm_scal. rewrite (sm_ext 0 i (fun l => d l * (a l i * d i)) (fun l => d i * (a i l * d l))) by (intros l Hl; rewrite (HSy l i ltac:(lia) Hi); ring). ring. }
      rewrite (sm_ext 0 n (fun l => sm l n (fun kk => d l * (a l kk * d kk))) (fun l => a l l * (d l * d l) + sm (l + 1) n (fun kk => d l * (a l kk * d kk)))) in T1.
      2:{ intros l Hl. rewrite (sm_cons l n) by lia. ring. }
      rewrite !sm_plus in T1. lra. }
    rewrite TRI. rewrite (sm_ext 0 n (fun i => d i * sm 0 (i + 1) (fun j => a i j * d j)) (fun i => a i i * (d i * d i) + d i * sm 0 i (fun j => a i j * d j))) by (intros i Hi; rewrite sm_snoc by lia; ring).
    rewrite sm_plus. ring. }
  assert (X3 : sm 0 n (fun i => d i * sm 0 n (fun j => a i j * err x j)) = / w' * sm 0 n (fun i => a i i * (d i * d i)) + sm 0 n (fun i => d i * sm 0 i (fun j => a i j * d j))).
  { rewrite <- sm_scal, <- sm_plus. apply sm_ext. intros i Hi. rewrite <- (U i Hi). fold (d i).
    change (sm 0 i (fun j => a i j * (err x j - err y j))) with (sm 0 i (fun j => a i j * d j)). unfold Rdiv. ring. }
  rewrite X1, X2, X3. unfold d. field. lra.
Qed.
(** the residual is bounded by the size of the step *)
Let cc (i : Z) : R := sqrt (a i i) / w' + sm 0 i (fun j => Rabs (a i j) / sqrt (a j j)).
Definition KK : R := sm 0 n (fun i => cc i * cc i).
Lemma diag_pos i : (0 <= i < n)%Z -> 0 < a i i.
Proof using HP. clear - HP. intros Hi. apply (TermFinal.diag_positive n E i HP Hi). Qed.
Lemma resid_step x y : is_update k w n E b x y ->
  sm 0 n (fun i => vcomp (residual n E b x) i * vcomp (residual n E b x) i) <= KK * sm 0 n (fun i => a i i * ((err x i - err y i) * (err x i - err y i))).
Proof using All.
  intros HU. assert (U := update_err x y ltac:(lra) HU). set (d := fun i => err x i - err y i).
  assert (Ek : (k =? 10)%Z = false) by (apply Z.eqb_neq; exact Hk10). rewrite Ek in U.
  set (Q := sm 0 n (fun i => a i i * ((err x i - err y i) * (err x i - err y i)))).
  assert (Q0 : 0 <= Q) by (apply sm_nonneg; intros i Hi; pose proof (diag_pos i Hi); apply Rmult_le_pos; [lra|apply Rle_0_sqr]).
  assert (B : forall i, (0 <= i < n)%Z -> Rabs (d i) * sqrt (a i i) <= sqrt Q).
  { intros i Hi. pose proof (diag_pos i Hi). rewrite <- sqrt_Rsqr_abs. rewrite <- sqrt_mult_alt by apply Rle_0_sqr. apply sqrt_le_1_alt.
    unfold Q. rewrite (sm_split 0 i n) by lia. rewrite (sm_cons i n) by lia.
    assert (0 <= sm 0 i (fun i => a i i * ((err x i - err y i) * (err x i - err y i)))) by (apply sm_nonneg; intros l Hl; pose proof (diag_pos l ltac:(lia)); apply Rmult_le_pos; [lra|apply Rle_0_sqr]).
    assert (0 <= sm (i + 1) n (fun i => a i i * ((err x i - err y i) * (err x i - err y i)))) by (apply sm_nonneg; intros l Hl; pose proof (diag_pos l ltac:(lia)); apply Rmult_le_pos; [lra|apply Rle_0_sqr]).
    unfold Rsqr, d in *. lra. }
  assert (C : forall i, (0 <= i < n)%Z -> Rabs (vcomp (residual n E b x) i) <= cc i * sqrt Q).
  { intros i Hi. rewrite resid_err by auto. rewrite <- (U i Hi). fold (d i).
    change (sm 0 i (fun j => a i j * (err x j - err y j))) with (sm 0 i (fun j => a i j * d j)).
    eapply Rle_trans; [apply Rabs_triang|]. unfold cc. rewrite Rmult_plus_distr_r. apply Rplus_le_compat.
    - pose proof (diag_pos i Hi) as P. pose proof (B i Hi) as Bi. pose proof (sqrt_lt_R0 _ P) as P'.
      rewrite Rabs_mult. rewrite (Rabs_pos_eq (a i i / w')) by (left; apply Rdiv_lt_0_compat; lra).
      replace (a i i / w' * Rabs (d i)) with (sqrt (a i i) / w' * (Rabs (d i) * sqrt (a i i))).
      + apply Rmult_le_compat_l; [left; apply Rdiv_lt_0_compat; lra|exact Bi].
      + rewrite <- (sqrt_sqrt (a i i)) at 3 by lra. field. lra.
    - eapply Rle_trans; [apply sm_Rabs|]. rewrite Rmult_comm, <- sm_scal. apply sm_le. intros j Hj.
      pose proof (diag_pos j ltac:(lia)) as P. pose proof (B j ltac:(lia)) as Bj. pose proof (sqrt_lt_R0 _ P) as P'.
      rewrite Rabs_mult. replace (Rabs (a i j) * Rabs (d j)) with (Rabs (a i j) / sqrt (a j j) * (Rabs (d j) * sqrt (a j j))) by (field; lra).
      rewrite (Rmult_comm (sqrt Q)). apply Rmult_le_compat_l; [|exact Bj]. unfold Rdiv. apply Rmult_le_pos; [apply Rabs_pos|]. left. apply Rinv_0_lt_compat. exact P'. }
  unfold KK. rewrite Rmult_comm, <- sm_scal. apply sm_le. intros i Hi. specialize (C i Hi).
  replace (vcomp (residual n E b x) i * vcomp (residual n E b x) i) with (Rabs (vcomp (residual n E b x) i) * Rabs (vcomp (residual n E b x) i)) by (rewrite <- Rabs_mult; apply Rabs_pos_eq; apply Rle_0_sqr).
  apply Rle_trans with ((cc i * sqrt Q) * (cc i * sqrt Q)).
  - apply Rmult_le_compat; try apply Rabs_pos; exact C.
  - right. replace Q with (sqrt Q * sqrt Q) at 3 by (apply sqrt_sqrt; exact Q0). ring.
Qed.
End Spd.
End C.
