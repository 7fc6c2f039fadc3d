(** ILUC over the real numbers. *)
Require Import ZArith List Bool Lia Reals Lra.
From Verif Require IlutEnd.
From Verif Require Import Base Scalar ScalarReal Spec SpecSplit SpecIlu SpecIlut SpecIluc Split Ilu Ilut SainvMath Iluc IlucFinal.
Import ListNotations.
Open Scope R_scope.

Lemma kept_len lfil k n (thr : R) z ix : kept lfil k n thr z ix -> (0 <= k < n)%Z -> (zlen ix <= n - k - 1)%Z.
Proof.
  intros (A & _ & B & _) Hk. assert (H : (length ix <= length (zrange (k + 1) n))%nat).
  { apply NoDup_incl_length; [exact A|]. intros c Hc. apply In_zrange. destruct (B c Hc). lia. }
  pose proof (zlen_zrange (k + 1) n) as HL. unfold zlen in *. lia.
Qed.

Lemma iluc_real J JV tol gamma lfil (A : split R) :
  split_ok A -> sp_np A = sp_n A -> no_dup_pos (csr_entries (sp_L A)) -> no_dup_pos (csr_entries (sp_U A)) -> (sp_n A <= lfil)%Z -> 0 <= tol ->
  let n := sp_n A in let a := coef (split_entries A) in
  exists F, create_iluc J JV tol gamma lfil A = Ok F /\ exists d : Z -> R,
    (forall k, (0 <= k < n)%Z -> znth 0 (fa_D F) k = 1 / d k) /\
    ((forall k, (0 <= k < n)%Z -> d k <> 0) ->
      let M := mat_mul 0 n (unit_lower_c (fa_L F) (fa_Lv F)) (upper_with d (fa_U F) (fa_Uv F)) in
      (forall i j, (0 <= i < n)%Z -> (0 <= j < n)%Z -> i <> j -> Rabs (a i j - M i j) <= tol * Rabs (d (Z.min i j))) /\
      (tol = 0 -> forall i, (0 <= i < n)%Z -> M i i = gamma * a i i) /\
      forall b, (n <= zlen b)%Z -> exists x x', psolve_iluc n F b = Ok x /\ psolveh_iluc n F b = Ok x' /\ zlen x = zlen b /\ zlen x' = zlen b /\
        (forall i, (0 <= i < n)%Z -> mat_vec 0 n M (znth 0 x) i = znth 0 b i /\ mat_vech 0 n M (znth 0 x') i = znth 0 b i) /\
        (tol = 0 -> gamma = 1 -> forall i, (0 <= i < n)%Z -> mat_vec 0 n a (znth 0 x) i = znth 0 b i /\ mat_vech 0 n a (znth 0 x') i = znth 0 b i)).
Proof.
  intros HA Hsq HL HU Hlf Ht n a.
  assert (Hn : (0 <= n)%Z). { destruct HA as (_ & _ & _ & _ & ((P & _) & _) & U2 & _). rewrite U2 in P. exact P. }
  destruct (iluc_final ScalarR_ring ScalarR_field J JV tol gamma lfil A IlutEnd.R_total_order ScalarR_eqb HA Hsq HL HU ltac:(lia)) as (F & EF & d & HC & HM). fold n a in HC, HM. cbv zeta in HM.
  exists F. split; [exact EF|]. exists d. split; [intros k Hk; apply (HC k Hk)|]. intros Hd M. destruct (HM Hd) as (B1 & B2 & B3 & B4). fold M in B1, B2, B3, B4.
  assert (OFF : forall i j, (0 <= i < n)%Z -> (0 <= j < n)%Z -> i <> j -> Rabs (a i j - M i j) <= tol * Rabs (d (Z.min i j))).
  { intros i j Hi Hj Hne.
    assert (G : forall m, (M i j = a i j \/ sleb (sabs (ssub (a i j) (M i j))) (smul (sabs (d m)) tol) = true \/ False) -> Rabs (a i j - M i j) <= tol * Rabs (d m)).
    { intros m [E|[E|[]]].
      - rewrite E. replace (a i j - a i j) with 0 by ring. rewrite Rabs_R0. apply Rmult_le_pos; [exact Ht|apply Rabs_pos].
      - cbn [sleb sabs ssub smul ScalarR] in E. rewrite (Rmult_comm tol). destruct (Rle_dec (Rabs (a i j - M i j)) (Rabs (d m) * tol)); [assumption|discriminate]. }
    destruct (Z.lt_ge_cases i j) as [H|H].
    - rewrite Z.min_l by lia. apply G. destruct (B1 i j ltac:(lia) ltac:(lia)) as [E|[E|E]]; [left; exact E|right; left; exact E|].
      exfalso. destruct (HC i Hi) as (_ & _ & K & _). pose proof (kept_len _ _ _ _ _ _ K Hi). lia.
    - rewrite Z.min_r by lia. apply G. destruct (B2 i j ltac:(lia) ltac:(lia)) as [E|[E|E]]; [left; exact E|right; left; exact E|].
      exfalso. destruct (HC j Hj) as (_ & _ & _ & _ & K & _). pose proof (kept_len _ _ _ _ _ _ K Hj). lia. }
  assert (EQ : tol = 0 -> forall i j, (0 <= i < n)%Z -> (0 <= j < n)%Z -> i <> j -> M i j = a i j).
  { intros E i j Hi Hj Hne. pose proof (OFF i j Hi Hj Hne) as H. rewrite E in H. rewrite Rmult_0_l in H. pose proof (Rabs_pos (a i j - M i j)).
    destruct (Req_dec (a i j - M i j) 0) as [Z0|Z0]; [|apply Rabs_pos_lt in Z0; lra]. symmetry. apply Rminus_diag_uniq. exact Z0. }
  assert (DG : tol = 0 -> forall i, (0 <= i < n)%Z -> M i i = gamma * a i i).
  { intros E i Hi. apply (B3 i Hi). intros t Ht'. split; apply (EQ E); lia. }
  split; [exact OFF|]. split; [exact DG|].
  intros b Hb. destruct (B4 b Hb) as ((x & X1 & X2 & X3) & HH). destruct (HH ltac:(reflexivity)) as (x' & X1' & X2' & X3').
  exists x, x'. do 4 (split; [assumption|]). split; [intros i Hi; split; [apply X3|apply X3']; exact Hi|].
  intros E0 E1 i Hi.
  assert (EM : forall i j, (0 <= i < n)%Z -> (0 <= j < n)%Z -> a i j = M i j).
  { intros i' j Hi' Hj. destruct (Z.eq_dec i' j) as [->|N]; [rewrite (DG E0 j Hj), E1; ring|symmetry; apply (EQ E0); assumption]. }
  split.
  - etransitivity; [|exact (X3 i Hi)]. unfold mat_vec. apply sum_ext. intros j Hj. rewrite EM by assumption. reflexivity.
  - etransitivity; [|exact (X3' i Hi)]. unfold mat_vech. apply sum_ext. intros j Hj. rewrite EM by assumption. reflexivity.
Qed.
