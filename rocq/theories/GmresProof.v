(** One pass of the inner loop of GMRES / FGMRES. *)
Require Import Reals Lra ZArith List Bool Lia.
From Verif Require Import Base Scalar ScalarReal Spec SpecSolver Krylov MatvecProof KrylovProof TermProof Gmres GmresMath.
Import ListNotations.
Open Scope Z_scope.

(** rules *)
Lemma okm_rd {A B} st (d : A) a i (f : A -> res B) Q : 0 <= i < zlen a -> okm st (f (znth d a i)) Q -> okm st (bind (rd a i) f) Q.
Proof. intros H HQ. rewrite (rd_ok d) by auto. exact HQ. Qed.
Lemma okm_wr {A B} st (a : list A) i v (f : list A -> res B) Q : 0 <= i < zlen a -> okm st (f (zupd a i v)) Q -> okm st (bind (wr a i v) f) Q.
Proof. intros H HQ. rewrite wr_ok by auto. exact HQ. Qed.
Lemma okm_wr_end {A} st (a : list A) i v (Q : list A -> Prop) : 0 <= i < zlen a -> Q (zupd a i v) -> okm st (wr a i v) Q.
Proof. intros H HQ. rewrite wr_ok by auto. exact HQ. Qed.
Lemma okm_getv {B} st (W : list (option (vect (T:=R)))) k v (f : list R -> res B) Q :
  0 <= k < zlen W -> znth None W k = Some v -> okm st (f v) Q -> okm st (bind (getv W k) f) Q.
Proof. intros H HV HQ. unfold getv. rewrite (rd_ok None) by auto. cbn [bind]. rewrite HV. exact HQ. Qed.
Lemma okm_getv_none {B} st (W : list (option (vect (T:=R)))) k (f : list R -> res B) Q :
  0 <= k < zlen W -> znth None W k = None -> st = false -> okm st (bind (getv W k) f) Q.
Proof. intros H HV HQ. unfold getv. rewrite (rd_ok None) by auto. cbn [bind]. rewrite HV. split; auto. Qed.
Lemma okm_divz {B} st (a b : R) (f : R -> res B) Q : (b = 0%R -> st = false) -> (b <> 0%R -> okm st (f (a / b)%R) Q) -> okm st (bind (divz a b) f) Q.
Proof.
  intros H0 H1. unfold divz. destruct (seqb b s0) eqn:E.
  - apply ScalarR_eqb in E. split; [apply H0; exact E|reflexivity].
  - apply H1. intros C. rewrite C in E. assert (seqb (Scalar:=ScalarR) 0%R s0 = true) by (apply ScalarR_eqb; reflexivity). congruence.
Qed.
Lemma okm_for {A} st (I : Z -> A -> Prop) lo hi body s (Q : A -> Prop) :
  lo <= hi -> I lo s -> (forall i s, lo <= i < hi -> I i s -> okm st (body i s) (I (i + 1))) -> (forall s, I hi s -> Q s) ->
  okm st (for_ lo hi body s) Q.
Proof.
  intros Hl HI HB HQ. eapply okm_mono; [|exact HQ]. unfold for_.
  replace hi with (lo + Z.of_nat (Z.to_nat (hi - lo))) by lia. replace (lo + Z.of_nat (Z.to_nat (hi - lo)) - lo) with (Z.of_nat (Z.to_nat (hi - lo))) by lia.
  rewrite Nat2Z.id. assert (HB' : forall i s, lo <= i < lo + Z.of_nat (Z.to_nat (hi - lo)) -> I i s -> okm st (body i s) (I (i + 1))) by (intros; apply HB; auto; lia).
  clear HQ HB Hl. revert HB'. generalize (Z.to_nat (hi - lo)). intros k. revert lo s HI. induction k; intros lo s HI HB.
  - cbn. replace (lo + 0) with lo by lia. exact HI.
  - cbn [for_n]. apply okm_bind. eapply okm_mono; [apply HB; [lia|exact HI]|]. intros s' Hs'.
    replace (lo + Z.of_nat (S k)) with (lo + 1 + Z.of_nat k) by lia. apply IHk; auto. intros; apply HB; auto; lia.
Qed.
Lemma nrm2_R n (w : list R) : nrm2 n w = sqrt (ip n (at_ w) (at_ w)).
Proof. reflexivity. Qed.
Lemma dot_R n (u w : list R) : dot n u w = ip n (at_ u) (at_ w).
Proof. reflexivity. Qed.
Lemma at_axpy_R n a (u w : list R) j : 0 <= j < n -> at_ (axpy n a u w) j = (at_ w j + a * at_ u j)%R.
Proof. intros H. exact (at_axpy n a u w j H). Qed.
Lemma at_scale_R n a (u : list R) j : 0 <= j < n -> at_ (scale n a u) j = (a * at_ u j)%R.
Proof. intros H. exact (at_scale n a u j H). Qed.
Lemma seqb_R (a b : R) : seqb (Scalar:=ScalarR) a b = true <-> a = b.
Proof. apply ScalarR_eqb. Qed.
Lemma seqb_R0 (a : R) : seqb (Scalar:=ScalarR) a s0 = false -> a <> 0%R.
Proof. intros H C. assert (seqb (Scalar:=ScalarR) a s0 = true) by (apply ScalarR_eqb; exact C). congruence. Qed.
Lemma tiny_neq : @tiny R ScalarR <> 0%R.
Proof.
  unfold tiny. change (1 / power ten 17 <> 0)%R. assert (H : (0 < @ten R ScalarR)%R) by (unfold ten; cbn [sadd s1 ScalarR]; lra).
  assert (P : forall k, (0 < power (T:=R) ten k)%R).
  { intros k; induction k; cbn [power]; [change (0 < 1)%R; lra|]. change (0 < ten * power ten k)%R. apply Rmult_lt_0_compat; auto. }
  specialize (P 17%nat). unfold Rdiv. rewrite Rmult_1_l. apply Rinv_neq_0_compat. lra.
Qed.

Lemma sm_snoc' lo hi f : lo < hi -> sm lo hi f = (sm lo (hi - 1) f + f (hi - 1)%Z)%R.
Proof. intros. replace hi with (hi - 1 + 1) at 1 by lia. apply sm_snoc; lia. Qed.
(** where column l, k of h is, and the rotations behind *)
Lemma idx m l k : 1 <= m -> 0 <= l <= m -> 0 <= k < m -> 0 <= l + k * (m + 1) < (m + 1) * (m + 1) - 1.
Proof. intros. assert (k * (m + 1) <= (m - 1) * (m + 1)) by (apply Z.mul_le_mono_nonneg_r; lia). assert (0 <= k * (m + 1)) by (apply Z.mul_nonneg_nonneg; lia). lia. Qed.
Lemma idx_inj m l k l' k' : 0 <= l <= m -> 0 <= l' <= m -> l + k * (m + 1) = l' + k' * (m + 1) -> l = l' /\ k = k'.
Proof. intros. assert (k = k') by (destruct (Z.lt_trichotomy k k') as [?|[?|?]]; [assert ((k + 1) * (m + 1) <= k' * (m + 1)) by (apply Z.mul_le_mono_nonneg_r; lia); lia|auto|assert ((k' + 1) * (m + 1) <= k * (m + 1)) by (apply Z.mul_le_mono_nonneg_r; lia); lia]). subst. lia. Qed.

Section P.
Variables (st : bool) (e : env (T:=R)) (m L : Z) (vr zr : Z -> Z).
Notation n := (e_n e).
Hypothesis Hm : 1 <= m.
Hypothesis Vrange : forall k, 0 <= k <= m -> 0 <= vr k < L.
Hypothesis Zrange : forall k, 0 <= k < m -> 0 <= zr k < L.
Hypothesis Vinj : forall a b, 0 <= a <= m -> 0 <= b <= m -> vr a = vr b -> a = b.
Hypothesis VZ : forall a b, 0 <= a <= m -> 0 <= b < m -> vr a <> zr b.
Notation hd := (m + 1).
Notation cs := ((m + 1) * (m + 1)).
Notation sn := ((m + 2) * (m + 1)).
Notation hlen := ((m + 2) * (m + 3)).
Notation pe := (peq n).
Notation on := (ip n).

Definition has (W : list (option (vect (T:=R)))) (k : Z) (f : Z -> R) : Prop := exists w, znth None W k = Some w /\ pe (at_ w) f.

(** modified Gram-Schmidt *)
Lemma arnoldi i (W : list (option (vect (T:=R)))) (h : list R) (V : Z -> Z -> R) (az : Z -> R) : 1 <= i <= m -> zlen W = L -> zlen h = hlen ->
  (forall k, 0 <= k < i -> has W (vr k) (V k)) -> has W (vr i) az ->
  (forall a b, 0 <= a < i -> 0 <= b < i -> on (V a) (V b) = if a =? b then 1%R else 0%R) ->
  okm st (for_ 0 i (fun k '(W, h) =>
       w <- getv W (vr i) ;; vk <- getv W (vr k) ;;
       LET t := dot n w vk in
       h <- wr h (k + (i - 1) * hd) t ;;
       W <- wr W (vr i) (Some (axpy n (sopp t) vk w)) ;;
       Ok (W, h)) (W, h))
   (fun o => let '(W', h') := o in zlen W' = L /\ zlen h' = hlen /\ (forall k, k <> vr i -> znth None W' k = znth None W k) /\
      (forall p, (forall k, 0 <= k < i -> p <> k + (i - 1) * hd) -> znth 0%R h' p = znth 0%R h p) /\
      exists w, znth None W' (vr i) = Some w /\ (forall j, 0 <= j < n -> az j = (sm 0 i (fun k => znth 0%R h' (k + (i - 1) * hd) * V k j) + at_ w j)%R) /\
        forall k, 0 <= k < i -> on (at_ w) (V k) = 0%R).
Proof.
  intros Hi HW Hh HV HZ HO.
  apply (okm_for st (fun k o => let '(W', h') := o in zlen W' = L /\ zlen h' = hlen /\ (forall k, k <> vr i -> znth None W' k = znth None W k) /\
      (forall p, (forall k, 0 <= k < i -> p <> k + (i - 1) * hd) -> znth 0%R h' p = znth 0%R h p) /\
      exists w, znth None W' (vr i) = Some w /\ (forall j, 0 <= j < n -> az j = (sm 0 k (fun k => znth 0%R h' (k + (i - 1) * hd) * V k j) + at_ w j)%R) /\
        forall a, 0 <= a < k -> on (at_ w) (V a) = 0%R)); [lia| | |auto].
  - split; [auto|]. split; [auto|]. split; [auto|]. split; [auto|]. destruct HZ as (w & Hw & Hz). exists w. split; [auto|]. split.
    + intros j Hj. rewrite sm_nil by lia. rewrite Hz by auto. ring.
    + intros; lia.
  - intros k [W' h'] Hk (A1 & A2 & A3 & A4 & w & A5 & A6 & A7).
    pose proof (Vrange i ltac:(lia)) as Ri. pose proof (Vrange k ltac:(lia)) as Rk.
    assert (NE : vr k <> vr i) by (intros C; apply Vinj in C; lia).
    destruct (HV k Hk) as (vk & Hvk & Evk).
    eapply okm_getv; [lia|exact A5|]. eapply okm_getv; [lia|rewrite A3 by auto; exact Hvk|].
    unfold lt. set (t := dot n w vk).
    pose proof (idx m k (i - 1) Hm ltac:(lia) ltac:(lia)).
    apply okm_wr; [rewrite A2; lia|]. apply okm_wr; [lia|]. cbn [okm].
    assert (Et : t = on (at_ w) (V k)) by (unfold t; rewrite dot_R; apply ip_ext; [intros ? ?; reflexivity|exact Evk]).
    split; [rewrite zlen_zupd; auto|]. split; [rewrite zlen_zupd; auto|]. split; [|split].
    + intros a Ha. rewrite znth_zupd by lia. destruct (Z.eqb_spec a (vr i)); [lia|]. auto.
    + intros p Hp. rewrite znth_zupd by (rewrite A2; lia). destruct (Z.eqb_spec p (k + (i - 1) * hd)); [exfalso; apply (Hp k); auto|]. apply A4; auto.
    + exists (axpy n (sopp t) vk w). split; [rewrite znth_zupd by lia; rewrite Z.eqb_refl; reflexivity|]. split.
      * intros j Hj. rewrite A6 by auto. rewrite sm_snoc by lia. rewrite (znth_zupd _ h' (k + (i - 1) * hd)) by (rewrite A2; lia). rewrite Z.eqb_refl.
        rewrite at_axpy_R by auto. rewrite Evk by auto.
        rewrite (sm_ext 0 k (fun k0 => znth 0%R (zupd h' (k + (i - 1) * hd) t) (k0 + (i - 1) * hd) * V k0 j)%R (fun k0 => znth 0%R h' (k0 + (i - 1) * hd) * V k0 j)%R).
        { cbn [sopp ScalarR]. ring. }
        intros a Ha. rewrite znth_zupd by (rewrite A2; lia). destruct (Z.eqb_spec (a + (i - 1) * hd) (k + (i - 1) * hd)); [lia|reflexivity].
      * intros a Ha. rewrite (ip_lin n 1 (- t) _ (at_ w) (V k)).
        2:{ intros j Hj. rewrite at_axpy_R by auto. rewrite Evk by auto. cbn [sopp ScalarR]. ring. }
        rewrite (HO k a) by lia. destruct (Z.eqb_spec k a) as [->|]; [rewrite <- Et; ring|rewrite A7 by lia; ring].
Qed.

(** the earlier rotations applied to the new column *)
Lemma rotations i (h : list R) (V q qh : Z -> Z -> R) (f : Z -> R) : 1 <= i <= m -> zlen h = hlen -> pe (qh 0) (V 0) ->
  (forall k, 0 <= k < i - 1 -> rot n (znth 0%R h (k + cs)) (znth 0%R h (k + sn)) (V (k + 1)) (q k) (qh k) (qh (k + 1))) ->
  (forall j, 0 <= j < n -> f j = sm 0 (i + 1) (fun l => znth 0%R h (l + (i - 1) * hd) * V l j)%R) ->
  okm st (for_ 1 (i - 1 + 1) (fun k h =>
       let jj := k - 1 in
       t <- rd h (jj + (i - 1) * hd) ;; c <- rd h (jj + cs) ;; s <- rd h (jj + sn) ;; u <- rd h (k + (i - 1) * hd) ;;
       LET aa := sadd (smul c t) (smul s u) in
       LET bb := sadd (smul (sopp s) t) (smul c u) in
       h <- wr h (jj + (i - 1) * hd) aa ;; wr h (k + (i - 1) * hd) bb) h)
    (fun h' => zlen h' = hlen /\ (forall p, (forall k, 0 <= k < i -> p <> k + (i - 1) * hd) -> znth 0%R h' p = znth 0%R h p) /\
       forall j, 0 <= j < n -> f j = (sm 0 (i - 1) (fun l => znth 0%R h' (l + (i - 1) * hd) * q l j) +
          znth 0%R h' (i - 1 + (i - 1) * hd) * qh (i - 1)%Z j + znth 0%R h' (i + (i - 1) * hd) * V i j)%R).
Proof.
  intros Hi Hh Q0 HR HF.
  assert (IB : (i - 1) * hd <= (m - 1) * hd /\ 0 <= (i - 1) * hd) by (split; [apply Z.mul_le_mono_nonneg_r; lia|apply Z.mul_nonneg_nonneg; lia]).
  apply (okm_for st (fun k h' => zlen h' = hlen /\ (forall p, (forall k, 0 <= k < i -> p <> k + (i - 1) * hd) -> znth 0%R h' p = znth 0%R h p) /\
       forall j, 0 <= j < n -> f j = (sm 0 (k - 1) (fun l => znth 0%R h' (l + (i - 1) * hd) * q l j) +
          znth 0%R h' (k - 1 + (i - 1) * hd) * qh (k - 1)%Z j + sm k (i + 1) (fun l => znth 0%R h' (l + (i - 1) * hd) * V l j))%R)); [lia| | |].
  - split; [auto|]. split; [auto|]. intros j Hj. rewrite HF by auto. rewrite (sm_cons 0) by lia. rewrite (sm_nil 0 (1 - 1)) by lia.
    replace (1 - 1) with 0 by lia. replace (0 + 1) with 1 by lia. rewrite Q0 by auto. ring.
  - intros k h' Hk (B1 & B2 & B3). cbv zeta.
    apply (okm_rd st 0%R); [lia|]. apply (okm_rd st 0%R); [lia|]. apply (okm_rd st 0%R); [lia|]. apply (okm_rd st 0%R); [lia|]. unfold lt.
    rewrite (B2 (k - 1 + cs)) by (intros; lia). rewrite (B2 (k - 1 + sn)) by (intros; lia).
    destruct (HR (k - 1) ltac:(lia)) as (CS & HR'). replace (k - 1 + 1) with k in * by lia.
    set (c := znth 0%R h (k - 1 + cs)) in *. set (s := znth 0%R h (k - 1 + sn)) in *.
    set (t := znth 0%R h' (k - 1 + (i - 1) * hd)) in *. set (u := znth 0%R h' (k + (i - 1) * hd)) in *.
    apply okm_wr; [lia|]. apply okm_wr_end; [rewrite zlen_zupd; lia|].
    set (h2 := zupd _ _ _).
    assert (Z2 : forall p, znth 0%R h2 p = if p =? k + (i - 1) * hd then (- s * t + c * u)%R else if p =? k - 1 + (i - 1) * hd then (c * t + s * u)%R else znth 0%R h' p).
    { intros p. unfold h2. rewrite znth_zupd by (rewrite zlen_zupd; lia). destruct (p =? k + (i - 1) * hd); [reflexivity|]. rewrite znth_zupd by lia. reflexivity. }
    split; [unfold h2; rewrite !zlen_zupd; auto|]. split.
    { intros p Hp. rewrite Z2. destruct (Z.eqb_spec p (k + (i - 1) * hd)); [exfalso; apply (Hp k); lia|].
      destruct (Z.eqb_spec p (k - 1 + (i - 1) * hd)); [exfalso; apply (Hp (k - 1)); lia|]. apply B2; auto. }
    intros j Hj. rewrite B3 by auto. replace (k + 1 - 1) with k by lia.
    rewrite (sm_cons k (i + 1)) by lia.
    replace (sm 0 k (fun l => znth 0%R h2 (l + (i - 1) * hd) * q l j)%R) with (sm 0 (k - 1) (fun l => znth 0%R h' (l + (i - 1) * hd) * q l j)%R + (c * t + s * u) * q (k - 1)%Z j)%R.
    2:{ replace k with (k - 1 + 1) at 3 by lia. rewrite sm_snoc by lia. f_equal.
        - apply sm_ext. intros l Hl. rewrite Z2. destruct (Z.eqb_spec (l + (i - 1) * hd) (k + (i - 1) * hd)); [lia|]. destruct (Z.eqb_spec (l + (i - 1) * hd) (k - 1 + (i - 1) * hd)); [lia|]. reflexivity.
        - rewrite Z2. destruct (Z.eqb_spec (k - 1 + (i - 1) * hd) (k + (i - 1) * hd)); [lia|]. rewrite Z.eqb_refl. reflexivity. }
    rewrite (sm_ext (k + 1) (i + 1) (fun l => znth 0%R h2 (l + (i - 1) * hd) * V l j)%R (fun l => znth 0%R h' (l + (i - 1) * hd) * V l j)%R).
    2:{ intros l Hl. rewrite Z2. destruct (Z.eqb_spec (l + (i - 1) * hd) (k + (i - 1) * hd)); [lia|]. destruct (Z.eqb_spec (l + (i - 1) * hd) (k - 1 + (i - 1) * hd)); [lia|]. reflexivity. }
    rewrite (Z2 (k + (i - 1) * hd)). rewrite Z.eqb_refl. fold t. fold u. destruct (HR' j Hj) as (E1 & E2). rewrite E1, E2.
    replace (t * qh (k - 1)%Z j)%R with ((c * c + s * s) * t * qh (k - 1)%Z j)%R by (rewrite CS; ring).
    replace (u * V k j)%R with ((c * c + s * s) * u * V k j)%R by (rewrite CS; ring). ring.
  - intros h' (B1 & B2 & B3). split; [auto|]. split; [auto|]. intros j Hj. rewrite B3 by auto. replace (i - 1 + 1) with i by lia.
    rewrite (sm_cons i) by lia. rewrite (sm_nil (i + 1)) by lia. ring.
Qed.

(** *** invariant after i passes; V the basis, Zv the search vectors, q, qh the rotated basis *)
Definition Af (f : Z -> R) (j : Z) : R := mv_spec (e_E e) n f j.
Record CInv (zinj : bool) (r0 : Z -> R) (i : Z) (W : list (option (vect (T:=R)))) (sv h : list R) (V q qh Zv : Z -> Z -> R) : Prop := {
  c_W : zlen W = L; c_s : zlen sv = m + 1; c_h : zlen h = hlen;
  c_v : forall k, 0 <= k < i -> has W (vr k) (V k);
  c_on : forall a b, 0 <= a < i -> 0 <= b < i -> on (V a) (V b) = if a =? b then 1%R else 0%R;
  c_last : (has W (vr i) (V i) /\ on (V i) (V i) = 1%R /\ forall a, 0 <= a < i -> on (V a) (V i) = 0%R) \/
           (1 <= i /\ znth None W (vr i) = None /\ pe (V i) (fun _ => 0%R) /\ znth 0%R sv i = 0%R);
  c_q0 : pe (qh 0) (V 0);
  c_rot : forall k, 0 <= k < i -> rot n (znth 0%R h (k + cs)) (znth 0%R h (k + sn)) (V (k + 1)) (q k) (qh k) (qh (k + 1));
  c_A : forall k, 0 <= k < i -> znth 0%R h (k + k * hd) <> 0%R /\
          forall j, 0 <= j < n -> Af (Zv k) j = sm 0 (k + 1) (fun l => znth 0%R h (l + k * hd) * q l j)%R;
  c_r : forall j, 0 <= j < n -> r0 j = (sm 0 i (fun l => znth 0%R sv l * q l j) + znth 0%R sv i * qh i j)%R;
  c_z1 : forall k, 0 <= k < i -> exists it w, pe (at_ w) (V k) /\ pe (at_ (e_psolve e it w)) (Zv k);
  c_z2 : zinj = true -> forall k, 0 <= k < i -> has W (zr k) (Zv k) }.
Definition doomed (i : Z) (W : list (option (vect (T:=R)))) (sv h : list R) : Prop :=
  1 <= i /\ zlen W = L /\ zlen sv = m + 1 /\ zlen h = hlen /\ znth None W (vr i) = None /\ znth 0%R h (i - 1 + (i - 1) * hd) = 0%R /\ znth 0%R sv i = 0%R.
Definition alive i (W : list (option (vect (T:=R)))) : Prop := znth None W (vr i) <> None.

(** the strict case: the preconditioned matrix is injective *)
Definition good_op (Mf : (Z -> R) -> Z -> R) : Prop :=
  (forall it w f, pe (at_ w) f -> pe (at_ (e_psolve e it w)) (Mf f)) /\
  (forall lo hi y (g : Z -> Z -> R) f, pe f (fun j => sm lo hi (fun k => y k * g k j)%R) -> pe (Mf f) (fun j => sm lo hi (fun k => y k * Mf (g k) j)%R)) /\
  (forall f, pe (Af (Mf f)) (fun _ => 0%R) -> pe f (fun _ => 0%R)).
Lemma Af_sum lo hi y (g : Z -> Z -> R) f j : pe f (fun j => sm lo hi (fun k => y k * g k j)%R) -> Af f j = sm lo hi (fun k => y k * Af (g k) j)%R.
Proof.
  intros H. unfold Af, mv_spec. transitivity (sm 0 n (fun a => sm lo hi (fun k => y k * (coef (e_E e) j a * g k a))))%R.
  - apply sm_ext. intros a Ha. rewrite H by auto. change (coef (e_E e) j a * sm lo hi (fun k => y k * g k a) = sm lo hi (fun k => y k * (coef (e_E e) j a * g k a)))%R.
    rewrite <- sm_scal. apply sm_ext. intros; ring.
  - rewrite sm_swap. apply sm_ext. intros k _. rewrite sm_scal. reflexivity.
Qed.
Lemma Af_ext f g j : pe f g -> Af f j = Af g j.
Proof. intros H. apply sm_ext. intros a Ha. rewrite H by auto. reflexivity. Qed.
Lemma tri_solve (rm : Z -> Z -> R) (b : Z -> R) i : 0 <= i -> (forall k, 0 <= k < i -> rm k k <> 0%R) ->
  exists y, forall l, 0 <= l < i -> sm l i (fun k => rm l k * y k)%R = b l.
Proof.
  intros Hi HD. assert (G : forall c : nat, (Z.of_nat c <= i) -> exists y, forall l, i - Z.of_nat c <= l < i -> sm l i (fun k => rm l k * y k)%R = b l).
  { induction c as [|c IH]; intros Hc; [exists (fun _ => 0%R); intros; lia|]. destruct IH as (y & Hy); [lia|].
    set (l0 := i - Z.of_nat (S c)). set (X0 := ((b l0 - sm (l0 + 1) i (fun k => rm l0 k * y k)) / rm l0 l0)%R). exists (fun k => if k =? l0 then X0 else y k).
    intros l Hl. destruct (Z.eq_dec l l0) as [->|].
    - rewrite sm_cons by lia. rewrite Z.eqb_refl.
      rewrite (sm_ext (l0 + 1) i _ (fun k => rm l0 k * y k)%R) by (intros k Hk; destruct (Z.eqb_spec k l0); [lia|reflexivity]).
      unfold X0. field. apply HD; lia.
    - rewrite <- (Hy l) by lia. apply sm_ext. intros k Hk. destruct (Z.eqb_spec k l0); [lia|reflexivity]. }
  destruct (G (Z.to_nat i)) as (y & Hy); [lia|]. exists y. intros l Hl. apply Hy; lia.
Qed.
Definition fu (V : Z -> Z -> R) (i : Z) (f : Z -> R) : Z -> Z -> R := fun k => if k =? i then f else V k.
Lemma fu_same V i f : fu V i f i = f. Proof. unfold fu. rewrite Z.eqb_refl. reflexivity. Qed.
Lemma fu_other V i f k : k <> i -> fu V i f k = V k. Proof. intros. unfold fu. destruct (Z.eqb_spec k i); [contradiction|reflexivity]. Qed.
Lemma has_other W W' k f : znth None W' k = znth None W k -> has W k f -> has W' k f.
Proof. intros E (w & H1 & H2). exists w. rewrite E. auto. Qed.

Variable nf : R -> R.
Lemma gm_step_ok zinj r0 i iter g V q qh Zv : 1 <= i <= m -> (e_mem e = true -> 0 <= iter < zlen (g_rh g)) ->
  (zinj = true -> forall a b, 0 <= a < m -> 0 <= b < m -> zr a = zr b -> a = b) ->
  (st = true -> exists Mf, good_op Mf) ->
  CInv zinj r0 (i - 1) (g_W g) (g_s g) (g_h g) V q qh Zv -> (st = true -> alive (i - 1) (g_W g)) ->
  okm st (gm_step m vr zr nf e i iter g) (fun g' =>
    g_x g' = g_x g /\ (let nr := nf (Rabs (znth 0%R (g_s g') i)) in g_nrm g' = Some nr /\ g_rh g' = (if e_mem e then zupd (g_rh g) iter nr else g_rh g)) /\
    (Rabs (znth 0%R (g_s g') i) <= Rabs (znth 0%R (g_s g) (i - 1)))%R /\
    (znth None (g_W g') (vr 0) = znth None (g_W g) (vr 0)) /\
    ((exists V' q' qh' Zv', CInv zinj r0 i (g_W g') (g_s g') (g_h g') V' q' qh' Zv' /\ V' 0 = V 0) \/ st = false /\ doomed i (g_W g') (g_s g') (g_h g'))).
Proof.
  intros Hi Hrh Hzi Hst CI Hal. destruct CI as [cW cs_ ch cv con clast cq0 crot cA cr cz1 cz2].
  assert (IB : (i - 1) * hd <= (m - 1) * hd /\ 0 <= (i - 1) * hd) by (split; [apply Z.mul_le_mono_nonneg_r; lia|apply Z.mul_nonneg_nonneg; lia]).
  pose proof (Vrange i ltac:(lia)) as Ri. pose proof (Vrange (i - 1) ltac:(lia)) as Ri'. pose proof (Zrange (i - 1) ltac:(lia)) as Rz.
  pose proof (Vrange 0 ltac:(lia)) as R00.
  unfold gm_step. cbv zeta.
  destruct clast as [((w & Hw & Ew) & Nw & Ow)|(D1 & D2 & D3 & D4)].
  2:{ apply okm_getv_none; [lia|exact D2|]. destruct st; auto. elim (Hal eq_refl D2). }
  assert (con' : forall a b, 0 <= a < i -> 0 <= b < i -> on (V a) (V b) = if a =? b then 1%R else 0%R).
  { intros a b Ha Hb. destruct (Z.eq_dec a (i - 1)) as [->|], (Z.eq_dec b (i - 1)) as [->|].
    - rewrite Z.eqb_refl. exact Nw.
    - rewrite ip_sym, Ow by lia. destruct (Z.eqb_spec (i - 1) b); [lia|reflexivity].
    - rewrite Ow by lia. destruct (Z.eqb_spec a (i - 1)); [lia|reflexivity].
    - apply con; lia. }
  eapply okm_getv; [lia|exact Hw|]. apply okm_wr; [lia|].
  set (z := e_psolve e iter w). 
  eapply okm_getv; [rewrite zlen_zupd; lia|rewrite znth_zupd by lia; rewrite Z.eqb_refl; reflexivity|].
  apply okm_wr; [rewrite zlen_zupd; lia|].
  set (W1 := zupd (zupd (g_W g) _ _) _ _).
  assert (N1 : vr i <> zr (i - 1)) by (apply VZ; lia).
  assert (W1o : forall k, k <> vr i -> k <> zr (i - 1) -> znth None W1 k = znth None (g_W g) k).
  { intros k K1 K2. unfold W1. rewrite !znth_zupd by (rewrite ?zlen_zupd; lia). destruct (Z.eqb_spec k (vr i)); [lia|]. destruct (Z.eqb_spec k (zr (i - 1))); [lia|]. reflexivity. }
  assert (W1z : znth None W1 (zr (i - 1)) = Some z).
  { unfold W1. rewrite !znth_zupd by (rewrite ?zlen_zupd; lia). destruct (Z.eqb_spec (zr (i - 1)) (vr i)); [lia|]. rewrite Z.eqb_refl. reflexivity. }
  assert (cv' : forall k, 0 <= k < i -> has W1 (vr k) (V k)).
  { intros k Hk. apply (has_other (g_W g)).
    - apply W1o; [intros C; apply Vinj in C; lia|apply VZ; lia].
    - destruct (Z.eq_dec k (i - 1)) as [->|]; [exists w; auto|apply cv; lia]. }
  apply okm_bind. eapply okm_mono; [apply (arnoldi i W1 (g_h g) V (Af (at_ z))); auto|].
  { unfold W1. rewrite !zlen_zupd; auto. }
  { exists (matvec n (e_E e) z). split; [unfold W1; rewrite znth_zupd by (rewrite zlen_zupd; lia); rewrite Z.eqb_refl; reflexivity|]. intros j Hj. exact (at_matvec e z j Hj). }
  intros [W2 h2] (A1 & A2 & A3 & A4 & wn & A5 & A6 & A7).
  eapply okm_getv; [lia|exact A5|]. unfold lt. rewrite nrm2_R. set (t := sqrt (on (at_ wn) (at_ wn))).
  pose proof (idx m i (i - 1) Hm ltac:(lia) ltac:(lia)) as IX.
  apply okm_wr; [lia|]. apply okm_wr; [lia|].
  set (h3 := zupd h2 _ _). set (Wn := zupd W2 _ _).
  assert (Ht0 : (0 <= t)%R) by apply sqrt_pos.
  assert (Htt : (t * t)%R = on (at_ wn) (at_ wn)) by (apply sqrt_sqrt; apply ip_nonneg).
  set (Vn := fun j => if Req_EM_T t 0 then 0%R else (/ t * at_ wn j)%R).
  assert (Evn : forall j, 0 <= j < n -> at_ wn j = (t * Vn j)%R).
  { intros j Hj. unfold Vn. destruct (Req_EM_T t 0) as [E0|E0]; [|field; auto].
    rewrite E0 in Htt. rewrite (ip_zero n (at_ wn)) by (auto; lra). ring. }
  assert (OVn : forall a, 0 <= a < i -> on (V a) Vn = 0%R).
  { intros a Ha. destruct (Req_EM_T t 0) as [E0|E0].
    - unfold ip. apply sm_zero. intros j Hj. unfold Vn. destruct (Req_EM_T t 0); [ring|contradiction].
    - rewrite ip_sym. rewrite (ip_lin n (/ t) 0 Vn (at_ wn) (at_ wn)); [rewrite A7 by auto; ring|].
      intros j Hj. unfold Vn. destruct (Req_EM_T t 0); [contradiction|ring]. }
  set (V' := fu V i Vn).
  assert (h3o : forall p, p <> i + (i - 1) * hd -> znth 0%R h3 p = znth 0%R h2 p).
  { intros p Hp. unfold h3. rewrite znth_zupd by lia. destruct (Z.eqb_spec p (i + (i - 1) * hd)); [lia|reflexivity]. }
  assert (h3i : znth 0%R h3 (i + (i - 1) * hd) = t) by (unfold h3; rewrite znth_zupd by lia; rewrite Z.eqb_refl; reflexivity).
  assert (h3l : zlen h3 = hlen) by (unfold h3; rewrite zlen_zupd; auto).
  assert (h3g : forall p, (forall k, 0 <= k <= i -> p <> k + (i - 1) * hd) -> znth 0%R h3 p = znth 0%R (g_h g) p).
  { intros p Hp. rewrite h3o by (apply Hp; lia). apply A4. intros k Hk. apply Hp; lia. }
  apply okm_bind. eapply okm_mono; [apply (rotations i h3 V' q qh (Af (at_ z))); auto|].
  { intros j Hj. rewrite cq0 by auto. unfold V'. rewrite fu_other by lia. reflexivity. }
  { intros k Hk. rewrite !h3g by (intros; lia). unfold V'. rewrite fu_other by lia. apply crot; lia. }
  { intros j Hj. rewrite A6 by auto. rewrite sm_snoc by lia. unfold V' at 2. rewrite fu_same, h3i, Evn by auto. f_equal.
    apply sm_ext. intros k Hk. rewrite h3o by lia. unfold V'. rewrite fu_other by lia. reflexivity. }
  intros h4 (B1 & B2 & B3).
  apply (okm_rd st 0%R); [lia|]. apply (okm_rd st 0%R); [lia|]. unfold lt.
  set (aa := znth 0%R h4 (i - 1 + (i - 1) * hd)) in *. set (bb := znth 0%R h4 (i + (i - 1) * hd)) in *.
  assert (Ebb : bb = t).
  { unfold bb. rewrite B2; [exact h3i|]. intros k Hk C. apply idx_inj in C; lia. }
  set (r := ssqrt _). assert (Er : r = sqrt (aa * aa + bb * bb)) by reflexivity.
  set (rr := if seqb r s0 then tiny else r).
  assert (Hrr : rr <> 0%R) by (unfold rr; destruct (seqb r s0) eqn:E; [apply tiny_neq|apply seqb_R0; auto]).
  apply okm_divz; [intros C; contradiction|intros _]. set (c := (aa / rr)%R).
  apply okm_wr; [lia|]. apply okm_divz; [intros C; contradiction|intros _]. set (s := (bb / rr)%R).
  apply okm_wr; [rewrite zlen_zupd; lia|]. set (h5 := zupd (zupd h4 _ _) _ _).
  assert (h5l : zlen h5 = hlen) by (unfold h5; rewrite !zlen_zupd; auto).
  assert (Z5 : forall p, znth 0%R h5 p = if p =? i - 1 + sn then s else if p =? i - 1 + cs then c else znth 0%R h4 p).
  { intros p. unfold h5. rewrite znth_zupd by (rewrite zlen_zupd; lia). destruct (p =? i - 1 + sn); auto. rewrite znth_zupd by lia. reflexivity. }
  assert (C5s : znth 0%R h5 (i - 1 + sn) = s) by (rewrite Z5, Z.eqb_refl; reflexivity).
  assert (C5c : znth 0%R h5 (i - 1 + cs) = c) by (rewrite Z5, Z.eqb_refl; destruct (Z.eqb_spec (i - 1 + cs) (i - 1 + sn)); [lia|reflexivity]).
  apply (okm_rd st 0%R); [lia|]. rewrite C5s. apply (okm_rd st 0%R); [lia|]. apply okm_wr; [lia|].
  apply (okm_rd st 0%R); [lia|]. rewrite C5c. apply (okm_rd st 0%R); [rewrite zlen_zupd; lia|].
  set (u := znth 0%R (g_s g) (i - 1)).
  assert (Eu : forall x, znth 0%R (zupd (g_s g) i x) (i - 1) = u) by (intros x; rewrite znth_zupd by lia; destruct (Z.eqb_spec (i - 1) i); [lia|reflexivity]).
  rewrite Eu. apply okm_wr; [rewrite zlen_zupd; lia|]. set (sv := zupd (zupd (g_s g) _ _) _ _).
  assert (Zs : forall p, znth 0%R sv p = if p =? i - 1 then (c * u)%R else if p =? i then (- s * u)%R else znth 0%R (g_s g) p).
  { intros p. unfold sv. rewrite znth_zupd by (rewrite zlen_zupd; lia). destruct (p =? i - 1); [reflexivity|]. rewrite znth_zupd by lia. reflexivity. }
  assert (svl : zlen sv = m + 1) by (unfold sv; rewrite !zlen_zupd; auto).
  assert (Z5a : znth 0%R h5 (i - 1 + (i - 1) * hd) = aa) by (rewrite Z5; destruct (Z.eqb_spec (i - 1 + (i - 1) * hd) (i - 1 + sn)); [lia|]; destruct (Z.eqb_spec (i - 1 + (i - 1) * hd) (i - 1 + cs)); [lia|]; reflexivity).
  assert (Z5b : znth 0%R h5 (i + (i - 1) * hd) = bb) by (rewrite Z5; destruct (Z.eqb_spec (i + (i - 1) * hd) (i - 1 + sn)); [lia|]; destruct (Z.eqb_spec (i + (i - 1) * hd) (i - 1 + cs)); [lia|]; reflexivity).
  apply (okm_rd st 0%R); [lia|]. apply (okm_rd st 0%R); [lia|]. rewrite Z5a, Z5b.
  apply okm_wr; [lia|]. set (h6 := zupd h5 _ _).
  assert (Z6 : forall p, znth 0%R h6 p = if p =? i - 1 + (i - 1) * hd then (c * aa + s * bb)%R else znth 0%R h5 p) by (intros p; unfold h6; rewrite znth_zupd by lia; reflexivity).
  assert (h6l : zlen h6 = hlen) by (unfold h6; rewrite !zlen_zupd; auto).
  apply (okm_rd st 0%R); [lia|].
  assert (Esi : znth 0%R sv i = (- s * u)%R) by (rewrite Zs; destruct (Z.eqb_spec i (i - 1)); [lia|]; rewrite Z.eqb_refl; reflexivity).
  rewrite Esi. set (nr := nf (sabs (- s * u)%R)).
  assert (Fin : forall rh, rh = (if e_mem e then zupd (g_rh g) iter nr else g_rh g) ->
     okm st (Ok (mkG Wn sv h6 (g_x g) (Some nr) rh)) (fun g' =>
    g_x g' = g_x g /\ (let nr := nf (Rabs (znth 0%R (g_s g') i)) in g_nrm g' = Some nr /\ g_rh g' = (if e_mem e then zupd (g_rh g) iter nr else g_rh g)) /\
    (Rabs (znth 0%R (g_s g') i) <= Rabs (znth 0%R (g_s g) (i - 1)))%R /\
    (znth None (g_W g') (vr 0) = znth None (g_W g) (vr 0)) /\
    ((exists V' q' qh' Zv', CInv zinj r0 i (g_W g') (g_s g') (g_h g') V' q' qh' Zv' /\ V' 0 = V 0) \/ st = false /\ doomed i (g_W g') (g_s g') (g_h g')))).
  2:{ destruct (e_mem e) eqn:Em; [rewrite wr_ok by (apply Hrh; reflexivity); cbn [bind]; apply Fin; reflexivity|cbn [bind]; apply Fin; reflexivity]. }
  intros rh Erh. cbn [okm g_x g_nrm g_rh g_s g_W g_h]. rewrite Esi. cbv zeta. fold u.
  split; [reflexivity|]. split; [split; [reflexivity|exact Erh]|].
  assert (Wno : forall k, k <> vr i -> k <> zr (i - 1) -> znth None Wn k = znth None (g_W g) k).
  { intros k K1 K2. unfold Wn. rewrite znth_zupd by lia. destruct (Z.eqb_spec k (vr i)); [lia|]. rewrite A3 by auto. apply W1o; auto. }
  assert (Wnl : zlen Wn = L) by (unfold Wn; rewrite zlen_zupd; auto).
  (* |s| <= 1 *)
  assert (Hsq : (r * r = aa * aa + bb * bb)%R).
  { rewrite Er. apply sqrt_sqrt. pose proof (Rle_0_sqr aa). pose proof (Rle_0_sqr bb). unfold Rsqr in *. lra. }
  assert (CS : r <> 0%R -> (c * c + s * s = 1)%R /\ rr = r).
  { intros C. assert (Err0 : rr = r) by (unfold rr; destruct (seqb r s0) eqn:E; [apply seqb_R in E; elim C; exact E|reflexivity]).
    split; [|exact Err0]. unfold c, s. rewrite Err0. replace (aa / r * (aa / r) + bb / r * (bb / r))%R with ((aa * aa + bb * bb) / (r * r))%R by (field; auto).
    rewrite <- Hsq. field. auto. }
  assert (C0 : r = 0%R -> aa = 0%R /\ bb = 0%R).
  { intros C. rewrite C in Hsq. pose proof (Rle_0_sqr aa). pose proof (Rle_0_sqr bb). unfold Rsqr in *.
    split; [destruct (Rmult_integral aa aa)|destruct (Rmult_integral bb bb)]; auto; lra. }
  split; [|split].
  { rewrite Rabs_mult. rewrite Rabs_Ropp. assert (SL : (Rabs s <= 1)%R).
    { destruct (Req_dec r 0) as [C|C].
      - unfold s. rewrite (proj2 (C0 C)). unfold Rdiv. rewrite Rmult_0_l, Rabs_R0. lra.
      - destruct (CS C) as (CSs & _). pose proof (Rle_0_sqr c). unfold Rsqr in *. apply Rsqr_incr_0_var; [|lra]. rewrite <- Rsqr_abs. unfold Rsqr. lra. }
    pose proof (Rabs_pos u). rewrite <- (Rmult_1_l (Rabs u)) at 2. apply Rmult_le_compat_r; auto. }
  { apply Wno; [intros C; apply Vinj in C; lia|apply VZ; lia]. }
  destruct (Req_dec r 0) as [Cr|Cr].
  - (* no new direction at all *)
    destruct (C0 Cr) as (Ca & Cb). destruct (Bool.bool_dec st true) as [Hs|Hs].
    + exfalso. destruct (Hst Hs) as (Mf & M1 & M2 & M3).
      destruct (tri_solve (fun l k => znth 0%R (g_h g) (l + k * hd)) (fun l => znth 0%R h4 (l + (i - 1) * hd)) (i - 1)) as (y & Hy); [lia|intros k Hk; apply (cA k); lia|].
      set (yy := fun k => if k =? i - 1 then 1%R else (- y k)%R).
      set (f := fun j => sm 0 i (fun k => yy k * V k j)%R).
      assert (F0 : pe f (fun _ => 0%R)).
      { apply M3. intros j Hj. rewrite (Af_sum 0 i yy (fun k => Mf (V k)) (Mf f) j) by (apply (M2 0 i yy V f); intros ? ?; reflexivity).
        replace i with (i - 1 + 1) by lia. rewrite sm_snoc by lia. unfold yy at 2. rewrite Z.eqb_refl.
        assert (Ez : Af (Mf (V (i - 1))) j = Af (at_ z) j) by (apply Af_ext; intros a Ha; symmetry; apply (M1 iter w (V (i - 1)) Ew a Ha)).
        rewrite Ez, B3 by auto. fold aa. fold bb. rewrite Ca, Cb.
        rewrite (sm_ext 0 (i - 1) _ (fun k => -1 * (y k * Af (Zv k) j))%R).
        2:{ intros k Hk. unfold yy. destruct (Z.eqb_spec k (i - 1)); [lia|]. destruct (cz1 k Hk) as (it & w' & E1 & E2).
            rewrite (Af_ext (Mf (V k)) (Zv k)); [ring|]. intros a Ha. rewrite <- E2 by auto. symmetry. apply (M1 it w' (V k) E1 a Ha). }
        rewrite sm_scal. rewrite (solved_sum n q (fun l k => znth 0%R (g_h g) (l + k * hd)) (fun l => znth 0%R h4 (l + (i - 1) * hd)) y (fun k => Af (Zv k)) (i - 1)); [ring|lia| |exact Hy|exact Hj].
        intros k Hk j' Hj'. apply (cA k Hk). exact Hj'. }
      assert (on f (V (i - 1)) = 0%R) by (unfold ip; apply sm_zero; intros j Hj; rewrite F0 by auto; ring).
      assert (on f (V (i - 1)) = 1%R); [|lra].
      rewrite (ip_sum n 0 i yy V f) by reflexivity. rewrite (sm_single 0 i _ (i - 1)); [|lia|intros k Hk Nk; rewrite con' by lia; destruct (Z.eqb_spec k (i - 1)); [lia|ring]].
      unfold yy. rewrite Z.eqb_refl. rewrite Nw. ring.
    + right. split; [apply not_true_is_false; auto|]. unfold doomed. split; [lia|]. split; [auto|]. split; [auto|]. split; [auto|]. split; [|split].
      * unfold Wn. rewrite znth_zupd by lia. rewrite Z.eqb_refl. assert (E0 : t = 0%R) by congruence. rewrite E0.
        destruct (seqb (Scalar:=ScalarR) 0%R s0) eqn:E; [reflexivity|]. apply seqb_R0 in E. elim E; reflexivity.
      * rewrite Z6, Z.eqb_refl. rewrite Ca, Cb. ring.
      * rewrite Esi. unfold s. rewrite Cb. unfold Rdiv. ring.
  - left. destruct (CS Cr) as (CSs & Err). exists V', (fu q (i - 1) (fun j => c * qh (i - 1)%Z j + s * Vn j)%R), (fu qh i (fun j => - s * qh (i - 1)%Z j + c * Vn j)%R), (fu Zv (i - 1) (at_ z)).
    split; [|unfold V'; apply fu_other; lia].
    assert (H6o : forall l k, 0 <= l <= k -> 0 <= k < i - 1 -> znth 0%R h6 (l + k * hd) = znth 0%R (g_h g) (l + k * hd)).
    { intros l k Hl Hk. assert (k * hd <= (m - 1) * hd) by (apply Z.mul_le_mono_nonneg_r; lia). rewrite Z6. destruct (Z.eqb_spec (l + k * hd) (i - 1 + (i - 1) * hd)) as [C|]; [apply idx_inj in C; lia|].
      rewrite Z5. destruct (Z.eqb_spec (l + k * hd) (i - 1 + sn)); [lia|]. destruct (Z.eqb_spec (l + k * hd) (i - 1 + cs)); [lia|].
      rewrite B2, h3g; [reflexivity| |]; intros k' Hk' C; apply idx_inj in C; lia. }
    assert (H6r : forall k, 0 <= k < i - 1 -> znth 0%R h6 (k + cs) = znth 0%R (g_h g) (k + cs) /\ znth 0%R h6 (k + sn) = znth 0%R (g_h g) (k + sn)).
    { intros k Hk. rewrite !Z6, !Z5. destruct (Z.eqb_spec (k + cs) (i - 1 + (i - 1) * hd)); [lia|]. destruct (Z.eqb_spec (k + sn) (i - 1 + (i - 1) * hd)); [lia|].
      destruct (Z.eqb_spec (k + cs) (i - 1 + sn)); [lia|]. destruct (Z.eqb_spec (k + sn) (i - 1 + sn)); [lia|].
      destruct (Z.eqb_spec (k + cs) (i - 1 + cs)); [lia|]. destruct (Z.eqb_spec (k + sn) (i - 1 + cs)); [lia|].
      rewrite !B2, !h3g by (intros; lia). auto. }
    assert (Ediag : (c * aa + s * bb)%R = r) by (unfold c, s; rewrite Err; replace (aa / r * aa + bb / r * bb)%R with ((aa * aa + bb * bb) / r)%R by (field; auto); rewrite <- Hsq; field; auto).
    constructor; auto.
    + intros k Hk. unfold V'. rewrite fu_other by lia. apply (has_other W1); [|apply cv'; auto].
      assert (vr k <> vr i) by (intros C; apply Vinj in C; lia).
      unfold Wn. rewrite znth_zupd by lia. destruct (Z.eqb_spec (vr k) (vr i)); [lia|]. apply A3; auto.
    + intros a b Ha Hb. unfold V'. rewrite !fu_other by lia. apply con'; auto.
    + unfold V' at 1 2 3 4. rewrite fu_same. destruct (Req_dec t 0) as [E0|E0].
      * right. split; [lia|]. split; [|split].
        -- unfold Wn. rewrite znth_zupd by lia. rewrite Z.eqb_refl. destruct (seqb t s0) eqn:E; [reflexivity|]. apply seqb_R0 in E. contradiction.
        -- intros j Hj. unfold V'. rewrite fu_same. unfold Vn. destruct (Req_EM_T t 0); [reflexivity|contradiction].
        -- rewrite Esi. unfold s. rewrite Ebb, E0. unfold Rdiv. ring.
      * left. split; [|split].
        -- exists (scale n (sdiv s1 t) wn). split.
           ++ unfold Wn. rewrite znth_zupd by lia. rewrite Z.eqb_refl. destruct (seqb t s0) eqn:E; [apply seqb_R in E; elim E0; exact E|reflexivity].
           ++ intros j Hj. rewrite at_scale_R by auto. unfold Vn. destruct (Req_EM_T t 0); [contradiction|]. cbn [sdiv s1 ScalarR]. unfold Rdiv. ring.
        -- rewrite (ip_ext n Vn (fun j => / t * at_ wn j)%R Vn (fun j => / t * at_ wn j)%R) by (intros j Hj; unfold Vn; destruct (Req_EM_T t 0); [contradiction|reflexivity]).
           unfold ip. rewrite (sm_ext 0 n _ (fun j => (/ t * / t) * (at_ wn j * at_ wn j))%R) by (intros; ring). rewrite sm_scal. change (sm 0 n (fun j => at_ wn j * at_ wn j)%R) with (on (at_ wn) (at_ wn)). rewrite <- Htt. field. auto.
        -- intros a Ha. unfold V'. rewrite fu_other, fu_same by lia. apply OVn; auto.
    + intros j Hj. unfold V'. rewrite !fu_other by lia. apply cq0; auto.
    + intros k Hk. destruct (Z.eq_dec k (i - 1)) as [->|Nk].
      * replace (i - 1 + 1) with i by lia. unfold V'. rewrite !fu_same. rewrite (fu_other qh) by lia.
        replace (znth 0%R h6 (i - 1 + cs)) with c by (rewrite Z6; destruct (Z.eqb_spec (i - 1 + cs) (i - 1 + (i - 1) * hd)); [lia|auto]).
        replace (znth 0%R h6 (i - 1 + sn)) with s by (rewrite Z6; destruct (Z.eqb_spec (i - 1 + sn) (i - 1 + (i - 1) * hd)); [lia|auto]).
        split; [exact CSs|]. intros j Hj. split; reflexivity.
      * destruct (H6r k ltac:(lia)) as (-> & ->). unfold V'. rewrite !fu_other by lia. apply crot; lia.
    + intros k Hk. destruct (Z.eq_dec k (i - 1)) as [->|Nk].
      * split; [rewrite Z6, Z.eqb_refl, Ediag; exact Cr|]. intros j Hj. rewrite fu_same, B3 by auto. rewrite sm_snoc by lia. rewrite fu_same. rewrite Z6, Z.eqb_refl. fold aa. fold bb.
        unfold V'. rewrite fu_same. rewrite Ediag.
        rewrite (sm_ext 0 (i - 1) (fun l => znth 0%R h6 (l + (i - 1) * hd) * fu q (i - 1) (fun j0 => c * qh (i - 1)%Z j0 + s * Vn j0) l j)%R (fun l => znth 0%R h4 (l + (i - 1) * hd) * q l j)%R).
        2:{ intros l Hl. rewrite fu_other by lia. rewrite Z6. destruct (Z.eqb_spec (l + (i - 1) * hd) (i - 1 + (i - 1) * hd)); [lia|]. rewrite Z5.
            destruct (Z.eqb_spec (l + (i - 1) * hd) (i - 1 + sn)); [lia|]. destruct (Z.eqb_spec (l + (i - 1) * hd) (i - 1 + cs)); [lia|]. reflexivity. }
        unfold c, s. rewrite Err. field. auto.
      * destruct (cA k ltac:(lia)) as (K1 & K2). split; [rewrite H6o by lia; auto|]. intros j Hj. rewrite fu_other by lia. rewrite K2 by auto.
        apply sm_ext. intros l Hl. rewrite H6o by lia. rewrite fu_other by lia. reflexivity.
    + intros j Hj. rewrite cr by auto. rewrite fu_same. rewrite Esi. rewrite (fun f => sm_snoc' 0 i f ltac:(lia)). rewrite fu_same.
      rewrite (sm_ext 0 (i - 1) (fun l => znth 0%R sv l * fu q (i - 1) (fun j0 => c * qh (i - 1)%Z j0 + s * Vn j0) l j)%R (fun l => znth 0%R (g_s g) l * q l j)%R).
      2:{ intros l Hl. rewrite fu_other by lia. rewrite Zs. destruct (Z.eqb_spec l (i - 1)); [lia|]. destruct (Z.eqb_spec l i); [lia|]. reflexivity. }
      rewrite (Zs (i - 1)), Z.eqb_refl. fold u. replace (u * qh (i - 1)%Z j)%R with ((c * c + s * s) * u * qh (i - 1)%Z j)%R by (rewrite CSs; ring). ring.
    + intros k Hk. destruct (Z.eq_dec k (i - 1)) as [->|Nk].
      * exists iter, w. rewrite fu_same. unfold V'. rewrite fu_other by lia. split; [auto|]. intros ? ?; reflexivity.
      * destruct (cz1 k ltac:(lia)) as (it & w' & E1 & E2). exists it, w'. unfold V'. rewrite !fu_other by lia. auto.
    + intros Hz k Hk. destruct (Z.eq_dec k (i - 1)) as [->|Nk].
      * rewrite fu_same. exists z. split; [|intros ? ?; reflexivity]. unfold Wn. rewrite znth_zupd by lia. destruct (Z.eqb_spec (zr (i - 1)) (vr i)); [lia|]. rewrite A3 by auto. exact W1z.
      * rewrite fu_other by lia. apply (has_other (g_W g)); [|apply cz2; auto; lia]. apply Wno; [intros C; symmetry in C; apply VZ in C; lia|].
        intros C. apply Nk. apply (Hzi Hz) in C; lia.
Qed.
End P.
