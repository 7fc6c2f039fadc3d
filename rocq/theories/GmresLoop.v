(** The inner loop, back substitution and optimality of GMRES / FGMRES. *)
Require Import Reals Lra ZArith List Bool Lia.
From Verif Require Import Base Scalar ScalarReal Spec SpecSolver Krylov MatvecProof KrylovProof TermProof Gmres GmresMath GmresProof.
Import ListNotations.
Open Scope Z_scope.

Lemma sleb_R_t (a b : R) : sleb (Scalar:=ScalarR) a b = true <-> (a <= b)%R.
Proof. cbn [sleb ScalarR]. destruct (Rle_dec a b); split; auto; discriminate. Qed.
Lemma sleb_R_f (a b : R) : sleb (Scalar:=ScalarR) a b = false <-> (b < a)%R.
Proof. cbn [sleb ScalarR]. destruct (Rle_dec a b); split; intros; try discriminate; try lra; auto. Qed.

Section P.
Variables (st : bool) (e : env (T:=R)) (m L : Z) (vr zr : Z -> Z) (zinj : bool).
Notation n := (e_n e).
Hypothesis Hm : 1 <= m.
Hypothesis Vrange : forall k, 0 <= k <= m -> 0 <= vr k < L.
Hypothesis Zrange : forall k, 0 <= k < m -> 0 <= zr k < L.
Hypothesis Vinj : forall a b, 0 <= a <= m -> 0 <= b <= m -> vr a = vr b -> a = b.
Hypothesis VZ : forall a b, 0 <= a <= m -> 0 <= b < m -> vr a <> zr b.
Hypothesis Zinj : zinj = true -> forall a b, 0 <= a < m -> 0 <= b < m -> zr a = zr b -> a = b.
Notation hd := (m + 1).
Notation cs := ((m + 1) * (m + 1)).
Notation sn := ((m + 2) * (m + 1)).
Notation hlen := ((m + 2) * (m + 3)).
Notation pe := (peq n).
Notation on := (ip n).
Notation CI := (CInv e m L vr zr zinj).
Notation doom := (doomed m L vr).
Variables (nf : R -> R) (tol : R).
Hypothesis nf_mono : forall a b, (a <= b -> nf a <= nf b)%R.
Hypothesis Hst : st = true -> (exists Mf, good_op e Mf) /\ (nf 0 <= tol)%R.

Definition resf (x : list R) (j : Z) : R := (at_ (e_b e) j - mv e x j)%R.

(** [K k v]: a property of |s_k| *)
Section I.
Variables (r0 : Z -> R) (K : Z -> R -> Prop) (iter0 : Z) (rh0 : list R) (V0 : Z -> R) (rho : R) (x0 : list R).
Hypothesis HK : forall i W sv h V q qh Zv, CI r0 i W sv h V q qh Zv -> V 0 = V0 -> 0 <= i <= m -> K i (Rabs (znth 0%R sv i)).
Hypothesis HK0 : forall i, K i 0%R.
Hypothesis Hrh : e_mem e = true -> e_maxiter e < zlen rh0.
Hypothesis Hit0 : 0 <= iter0.

Definition Prog (i : Z) (g : gst (T:=R)) : Prop :=
  g_x g = x0 /\ zlen (g_rh g) = zlen rh0 /\ (Rabs (znth 0%R (g_s g) i) <= rho)%R /\
  (forall p, p <= iter0 \/ iter0 + i < p -> znth 0%R (g_rh g) p = znth 0%R rh0 p) /\ (e_mem e = false -> g_rh g = rh0) /\
  (1 <= i -> g_nrm g = Some (nf (Rabs (znth 0%R (g_s g) i)))) /\
  (e_mem e = true -> (1 <= i -> znth 0%R (g_rh g) (iter0 + i) = nf (Rabs (znth 0%R (g_s g) i))) /\
     (forall j, iter0 < j < iter0 + i -> (tol < znth 0%R (g_rh g) j)%R /\ (znth 0%R (g_rh g) (j + 1) <= znth 0%R (g_rh g) j)%R) /\
     (forall j, iter0 < j <= iter0 + i -> exists v, znth 0%R (g_rh g) j = nf v /\ (v <= rho)%R /\ K (j - iter0) v)).
Definition Cur (i : Z) (g : gst (T:=R)) : Prop :=
  (exists V q qh Zv, CI r0 i (g_W g) (g_s g) (g_h g) V q qh Zv /\ V 0 = V0) \/ st = false /\ doom i (g_W g) (g_s g) (g_h g).

Lemma inner_ok fuel : forall i g, 0 <= i < m -> iter0 + i < e_maxiter e -> e_maxiter e - (iter0 + i) <= Z.of_nat fuel ->
  Cur i g -> (st = true -> alive vr i (g_W g)) -> Prog i g -> (1 <= i -> (tol < nf (Rabs (znth 0%R (g_s g) i)))%R) ->
  okm st (inner fuel m vr zr nf tol e i (iter0 + i) g) (fun o => let '(i', iter', g') := o in
    i < i' <= m /\ iter' = iter0 + i' /\ iter' <= e_maxiter e /\ Prog i' g' /\ Cur i' g' /\ znth None (g_W g') (vr 0) = znth None (g_W g) (vr 0) /\
    ((nf (Rabs (znth 0%R (g_s g') i')) <= tol)%R \/ (i' = m \/ iter' = e_maxiter e) /\ (tol < nf (Rabs (znth 0%R (g_s g') i')))%R /\ (st = true -> alive vr i' (g_W g')))).
Proof.
  induction fuel as [|fuel IH]; intros i g Hi Hit Hf HC Hal HP Ht; [lia|].
  cbn [inner].
  assert (Step : okm st (gm_step m vr zr nf e (i + 1) (iter0 + i + 1) g) (fun g' => Prog (i + 1) g' /\ Cur (i + 1) g' /\ znth None (g_W g') (vr 0) = znth None (g_W g) (vr 0))).
  { destruct HC as [(V & q & qh & Zv & HC & E0)|(Hs & Hd)].
    - destruct HP as (P1 & P2 & P3 & P4 & P5 & P6 & P7).
      eapply okm_mono; [apply (gm_step_ok st e m L vr zr Hm Vrange Zrange Vinj VZ nf zinj r0 (i + 1) (iter0 + i + 1) g V q qh Zv)|]; try (replace (i + 1 - 1) with i by lia); auto; [lia| |intros Hs; apply (proj1 (Hst Hs))|].
      { intros Em. specialize (Hrh Em). rewrite P2. lia. }
      cbv zeta. intros g' (S1 & (S2 & S3) & S4 & S5 & S6). split; [|split; [|exact S5]].
      2:{ destruct S6 as [(V' & q' & qh' & Zv' & S6 & S7)|S6]; [left; exists V', q', qh', Zv'; split; [exact S6|congruence]|right; exact S6]. }
      assert (KK : K (i + 1) (Rabs (znth 0%R (g_s g') (i + 1)))).
      { destruct S6 as [(V' & q' & qh' & Zv' & S6 & S7)|(_ & S6)]; [apply (HK _ _ _ _ _ _ _ _ S6); [congruence|lia]|].
        destruct S6 as (_ & _ & _ & _ & _ & _ & S6). rewrite S6, Rabs_R0. apply HK0. }
      replace (iter0 + i + 1) with (iter0 + (i + 1)) in S3 by lia.
      assert (Rg : e_mem e = true -> 0 <= iter0 + (i + 1) < zlen (g_rh g)) by (intros Em; specialize (Hrh Em); rewrite P2; lia).
      split; [congruence|]. split; [rewrite S3; destruct (e_mem e); rewrite ?zlen_zupd; auto|]. split; [lra|]. split; [|split; [|split]].
      + intros p Hp. rewrite S3. destruct (e_mem e) eqn:Em; [|apply P4; lia]. rewrite znth_zupd by (apply Rg; auto). destruct (Z.eqb_spec p (iter0 + (i + 1))); [lia|]. apply P4; lia.
      + intros Em. rewrite S3, Em. auto.
      + intros _. exact S2.
      + intros Em. rewrite Em in S3. specialize (Rg Em). destruct (P7 Em) as (Q1 & Q2 & Q3).
        assert (Zr : forall p, znth 0%R (g_rh g') p = if p =? iter0 + (i + 1) then nf (Rabs (znth 0%R (g_s g') (i + 1))) else znth 0%R (g_rh g) p) by (intros p; rewrite S3; apply znth_zupd; auto).
        split; [intros _; rewrite Zr, Z.eqb_refl; reflexivity|]. split.
        * intros j Hj. rewrite !Zr. destruct (Z.eqb_spec j (iter0 + (i + 1))); [lia|]. destruct (Z.eqb_spec (j + 1) (iter0 + (i + 1))).
          -- assert (j = iter0 + i) as -> by lia. rewrite Q1 by lia. split; [apply Ht; lia|]. apply nf_mono. exact S4.
          -- apply Q2. lia.
        * intros j Hj. rewrite Zr. destruct (Z.eqb_spec j (iter0 + (i + 1))) as [->|].
          -- exists (Rabs (znth 0%R (g_s g') (i + 1))). split; [reflexivity|]. split; [lra|]. replace (iter0 + (i + 1) - iter0) with (i + 1) by lia. exact KK.
          -- apply Q3. lia.
    - unfold gm_step. cbv zeta. replace (i + 1 - 1) with i by lia. destruct Hd as (D0 & D1 & D2 & D3 & D4 & D5 & D6).
      apply okm_getv_none; [rewrite D1; apply Vrange; lia|exact D4|exact Hs]. }
  apply okm_bind. eapply okm_mono; [exact Step|]. intros g' (SP & SC & SV).
  assert (En : g_nrm g' = Some (nf (Rabs (znth 0%R (g_s g') (i + 1))))) by (apply SP; lia).
  rewrite En. destruct (sleb (nf (Rabs (znth 0%R (g_s g') (i + 1)))) tol) eqn:El.
  - cbn [orb okm]. apply sleb_R_t in El. split; [lia|]. split; [lia|]. split; [lia|]. split; [auto|]. split; [auto|]. split; [auto|]. left. exact El.
  - cbn [orb]. apply sleb_R_f in El.
    assert (Al : st = true -> alive vr (i + 1) (g_W g')).
    { intros Hs. destruct SC as [(V & q & qh & Zv & SC & _)|(C & _)]; [|congruence]. destruct (c_last _ _ _ _ _ _ _ _ _ _ _ _ _ _ _ SC) as [((w & Hw & _) & _)|(_ & _ & _ & D)].
      - unfold alive. rewrite Hw. discriminate.
      - exfalso. rewrite D, Rabs_R0 in El. pose proof (proj2 (Hst Hs)). lra. }
    destruct (Z.ltb_spec (i + 1) m); [destruct (Z.ltb_spec (iter0 + i + 1) (e_maxiter e))|]; cbn [andb negb].
    + replace (iter0 + i + 1) with (iter0 + (i + 1)) by lia. eapply okm_mono; [apply (IH (i + 1) g'); auto; lia|].
      intros [[i' iter'] g''] (A1 & A2 & A3 & A4 & A5 & A6 & A7). split; [lia|]. split; [auto|]. split; [auto|]. split; [auto|]. split; [auto|]. split; [congruence|]. exact A7.
    + cbn [okm]. split; [lia|]. split; [lia|]. split; [lia|]. split; [auto|]. split; [auto|]. split; [auto|]. right. split; [right; lia|]. auto.
    + cbn [okm]. split; [lia|]. split; [lia|]. split; [lia|]. split; [auto|]. split; [auto|]. split; [auto|]. right. split; [left; lia|]. auto.
Qed.
End I.

(** back substitution *)
Lemma back_ok ii h sv : 0 <= ii < m -> zlen sv = m + 1 -> zlen h = hlen -> (st = true -> forall k, 0 <= k <= ii -> znth 0%R h (k + k * hd) <> 0%R) ->
  okm st (back m ii h sv) (fun y => zlen y = m + 1 /\ znth 0%R h (ii + ii * hd) <> 0%R /\ (forall p, ii < p -> znth 0%R y p = znth 0%R sv p) /\
    forall l, 0 <= l < ii + 1 -> sm l (ii + 1) (fun k => znth 0%R h (l + k * hd) * znth 0%R y k)%R = znth 0%R sv l).
Proof.
  clear Hst. intros Hi Hs Hh Hd. unfold back. cbv zeta.
  assert (IX : forall l k, 0 <= l <= ii -> 0 <= k <= ii -> 0 <= l + k * hd < zlen h).
  { intros l k Hl Hk. pose proof (idx m l k Hm ltac:(lia) ltac:(lia)). lia. }
  apply (okm_rd st 0%R); [lia|]. apply (okm_rd st 0%R); [apply IX; lia|].
  apply okm_divz; [intros C; destruct st; auto; elim (Hd eq_refl ii ltac:(lia) C)|intros D0].
  apply okm_wr; [lia|]. set (s1 := zupd sv ii _).
  assert (Z1 : forall p, znth 0%R s1 p = if p =? ii then (znth 0%R sv ii / znth 0%R h (ii + ii * hd))%R else znth 0%R sv p) by (intros p; unfold s1; apply znth_zupd; lia).
  apply (okm_for st (fun k y => zlen y = m + 1 /\ (forall p, p < ii - k + 1 \/ ii < p -> znth 0%R y p = znth 0%R sv p) /\
      forall l, ii - k < l < ii + 1 -> sm l (ii + 1) (fun k => znth 0%R h (l + k * hd) * znth 0%R y k)%R = znth 0%R sv l)); [lia| | |].
  - split; [unfold s1; rewrite zlen_zupd; auto|]. split.
    + intros p Hp. rewrite Z1. destruct (Z.eqb_spec p ii); [lia|reflexivity].
    + intros l Hl. assert (l = ii) as -> by lia. rewrite sm_cons, sm_nil by lia. rewrite Z1, Z.eqb_refl. field. auto.
  - intros k y Hk (B1 & B2 & B3). apply (okm_rd st 0%R); [lia|]. rewrite B2 by lia. apply okm_bind.
    apply (okm_for st (fun j t => t = (znth 0%R sv (ii - k) - sm (ii - k + 1) j (fun k0 => znth 0%R h (ii - k + k0 * hd) * znth 0%R y k0))%R)); [lia| | |].
    + rewrite sm_nil by lia. ring.
    + intros j t Hj ->. apply (okm_rd st 0%R); [apply IX; lia|]. apply (okm_rd st 0%R); [lia|]. cbn [okm]. rewrite sm_snoc by lia. cbn [ssub smul ScalarR]. ring.
    + intros t ->. apply (okm_rd st 0%R); [apply IX; lia|].
      apply okm_divz; [intros C; destruct st; auto; elim (Hd eq_refl (ii - k) ltac:(lia) C)|intros D1]. apply okm_wr_end; [lia|].
      set (t := (_ / _)%R). assert (Z2 : forall p, znth 0%R (zupd y (ii - k) t) p = if p =? ii - k then t else znth 0%R y p) by (intros p; apply znth_zupd; lia).
      split; [rewrite zlen_zupd; auto|]. split.
      * intros p Hp. rewrite Z2. destruct (Z.eqb_spec p (ii - k)); [lia|]. apply B2. lia.
      * intros l Hl. destruct (Z.eq_dec l (ii - k)) as [->|].
        -- rewrite sm_cons by lia. rewrite Z2, Z.eqb_refl.
           rewrite (sm_ext (ii - k + 1) (ii + 1) (fun k0 => znth 0%R h (ii - k + k0 * hd) * znth 0%R (zupd y (ii - k) t) k0)%R (fun k0 => znth 0%R h (ii - k + k0 * hd) * znth 0%R y k0)%R) by (intros p Hp; rewrite Z2; destruct (Z.eqb_spec p (ii - k)); [lia|reflexivity]).
           unfold t. field. auto.
        -- rewrite <- (B3 l) by lia. apply sm_ext. intros p Hp. rewrite Z2. destruct (Z.eqb_spec p (ii - k)); [lia|reflexivity].
  - intros y (B1 & B2 & B3). split; [auto|]. split; [exact D0|]. split; [intros; apply B2; lia|]. intros l Hl. apply B3. lia.
Qed.

(** the least squares residual *)
Lemma ls_residual r0 i W sv h V q qh Zv (y : list R) : 0 <= i <= m -> CI r0 i W sv h V q qh Zv ->
  (forall l, 0 <= l < i -> sm l i (fun k => znth 0%R h (l + k * hd) * znth 0%R y k)%R = znth 0%R sv l) ->
  (forall j, 0 <= j < n -> (r0 j - sm 0 i (fun k => znth 0%R y k * Af e (Zv k) j))%R = (znth 0%R sv i * qh i j)%R) /\
  sqrt (on (fun j => znth 0%R sv i * qh i j)%R (fun j => znth 0%R sv i * qh i j)%R) = Rabs (znth 0%R sv i).
Proof.
  intros Hi C HY. destruct C as [cW cs_ ch cv con clast cq0 crot cA cr cz1 cz2]. split.
  - intros j Hj. rewrite cr by auto.
    rewrite (solved_sum n q (fun l k => znth 0%R h (l + k * hd)) (fun l => znth 0%R sv l) (fun k => znth 0%R y k) (fun k => Af e (Zv k)) i); [ring|lia| |exact HY|exact Hj].
    intros k Hk j' Hj'. apply (cA k Hk). auto.
  - unfold ip. rewrite (sm_ext 0 n _ (fun j => (znth 0%R sv i * znth 0%R sv i) * (qh i j * qh i j))%R) by (intros; ring). rewrite sm_scal.
    change (sm 0 n (fun j => qh i j * qh i j)%R) with (on (qh i) (qh i)).
    destruct clast as [(_ & Nw & Ow)|(_ & _ & _ & ->)].
    + assert (Hq : on (qh i) (qh i) = 1%R).
      { apply (qh_props n V q qh (fun k => znth 0%R h (k + cs)) (fun k => znth 0%R h (k + sn)) i); auto; try lia.
        intros a b Ha Hb. destruct (Z.eq_dec a i) as [->|], (Z.eq_dec b i) as [->|].
        - rewrite Z.eqb_refl. auto.
        - rewrite ip_sym, Ow by lia. destruct (Z.eqb_spec i b); [lia|reflexivity].
        - rewrite Ow by lia. destruct (Z.eqb_spec a i); [lia|reflexivity].
        - apply con; lia. }
      rewrite Hq, Rmult_1_r. apply sqrt_Rsqr_abs.
    + rewrite Rmult_0_l, Rmult_0_l, sqrt_0, Rabs_R0. reflexivity.
Qed.

(** *** optimality in the Krylov space *)
Variable Mf : (Z -> R) -> Z -> R.
Hypothesis M1 : forall it w f, pe (at_ w) f -> pe (at_ (e_psolve e it w)) (Mf f).
Hypothesis M2 : forall lo hi y (g : Z -> Z -> R) f, pe f (fun j => sm lo hi (fun k => y k * g k j)%R) -> pe (Mf f) (fun j => sm lo hi (fun k => y k * Mf (g k) j)%R).
Definition B (f : Z -> R) : Z -> R := Af e (Mf f).
Fixpoint Bp (k : nat) (f : Z -> R) : Z -> R := match k with O => f | S k => B (Bp k f) end.
Definition span (V : Z -> Z -> R) (l : Z) (f : Z -> R) : Prop := exists a, pe f (fun j => sm 0 (l + 1) (fun k => a k * V k j)%R).
Lemma span_lin V l f g h a b : span V l f -> span V l g -> (forall j, 0 <= j < n -> h j = (a * f j + b * g j)%R) -> span V l h.
Proof.
  intros (x & Hx) (y & Hy) H. exists (fun k => a * x k + b * y k)%R. intros j Hj. rewrite H, Hx, Hy by auto. rewrite <- !sm_scal, <- sm_plus. apply sm_ext. intros; ring.
Qed.
Lemma span_mono V l l' f : 0 <= l <= l' -> span V l f -> span V l' f.
Proof.
  intros H (x & Hx). exists (fun k => if k <=? l then x k else 0%R). intros j Hj. rewrite Hx by auto. rewrite (sm_split 0 (l + 1) (l' + 1)) by lia.
  rewrite (sm_zero (l + 1) (l' + 1)) by (intros k Hk; destruct (Z.leb_spec k l); [lia|ring]). rewrite Rplus_0_r. apply sm_ext. intros k Hk. destruct (Z.leb_spec k l); [reflexivity|lia].
Qed.
Lemma span_self (V : Z -> Z -> R) l : 0 <= l -> span V l (V l).
Proof.
  intros H. exists (fun k => if k =? l then 1%R else 0%R). intros j Hj. rewrite (sm_single 0 (l + 1) _ l); [rewrite Z.eqb_refl; ring|lia|].
  intros k Hk Nk. destruct (Z.eqb_spec k l); [contradiction|ring].
Qed.
Lemma span_sum V l lo hi y (g : Z -> Z -> R) f : (forall k, lo <= k < hi -> span V l (g k)) -> pe f (fun j => sm lo hi (fun k => y k * g k j)%R) -> span V l f.
Proof.
  intros H. destruct (Z.le_gt_cases hi lo) as [C|C].
  { intros Hf. exists (fun _ => 0%R). intros j Hj. rewrite Hf by auto. rewrite sm_nil by auto. rewrite sm_zero; [reflexivity|intros; ring]. }
  revert H f. replace hi with (lo + Z.of_nat (Z.to_nat (hi - lo))) by lia. generalize (Z.to_nat (hi - lo)). clear hi C. intros k. induction k; intros H f Hf.
  - exists (fun _ => 0%R). intros j Hj. rewrite Hf by auto. rewrite sm_nil by lia. rewrite sm_zero; [reflexivity|intros; ring].
  - apply (span_lin V l (fun j => sm lo (lo + Z.of_nat k) (fun k0 => y k0 * g k0 j)%R) (g (lo + Z.of_nat k)) f 1%R (y (lo + Z.of_nat k)%Z)).
    + apply IHk; [intros; apply H; lia|intros j Hj; reflexivity].
    + apply H; lia.
    + intros j Hj. rewrite Hf by auto. replace (lo + Z.of_nat (S k)) with (lo + Z.of_nat k + 1) by lia. rewrite sm_snoc by lia. ring.
Qed.
Lemma optimal r0 i W sv h V q qh Zv rho (c : Z -> R) : 0 <= i <= m -> CI r0 i W sv h V q qh Zv -> pe r0 (fun j => rho * V 0%Z j)%R ->
  let d := fun j => (r0 j - sm 0 i (fun l => c l * Bp (S (Z.to_nat l)) r0 j))%R in
  (Rabs (znth 0%R sv i) <= sqrt (on d d))%R.
Proof.
  intros Hi C HV0 d. pose proof C as CC. destruct C as [cW cs_ ch cv con clast cq0 crot cA cr cz1 cz2].
  destruct clast as [(_ & Nw & Ow)|(_ & _ & _ & ->)]; [|rewrite Rabs_R0; apply sqrt_pos].
  assert (con' : forall a b, 0 <= a <= i -> 0 <= b <= i -> on (V a) (V b) = if a =? b then 1%R else 0%R).
  { intros a b Ha Hb. destruct (Z.eq_dec a i) as [->|], (Z.eq_dec b i) as [->|].
    - rewrite Z.eqb_refl. auto.
    - rewrite ip_sym, Ow by lia. destruct (Z.eqb_spec i b); [lia|reflexivity].
    - rewrite Ow by lia. destruct (Z.eqb_spec a i); [lia|reflexivity].
    - apply con; lia. }
  destruct (qh_props n V q qh (fun k => znth 0%R h (k + cs)) (fun k => znth 0%R h (k + sn)) i ltac:(lia) con' cq0 crot i ltac:(lia) ltac:(lia)) as (Q1 & _ & Q3 & _).
  (* B of a vector in span(V_0..V_l) is a combination of q_0..q_l *)
  assert (HB : forall l f, 0 <= l < i -> span V l f -> exists b, pe (B f) (fun j => sm 0 (l + 1) (fun k => b k * q k j)%R)).
  { intros l f Hl (a & Ha). exists (fun k => sm k (l + 1) (fun p => znth 0%R h (k + p * hd) * a p)%R). intros j Hj. unfold B.
    rewrite (Af_sum e 0 (l + 1) a (fun k => Mf (V k)) (Mf f) j) by (apply (M2 0 (l + 1) a V f); exact Ha).
    rewrite (sm_ext 0 (l + 1) _ (fun k => a k * Af e (Zv k) j)%R).
    2:{ intros k Hk. destruct (cz1 k ltac:(lia)) as (it & w' & E1 & E2). f_equal. apply Af_ext. intros p Hp. rewrite <- E2 by auto. symmetry. apply (M1 it w' (V k) E1 p Hp). }
    apply (solved_sum n q (fun l k => znth 0%R h (l + k * hd)) (fun k => sm k (l + 1) (fun p => znth 0%R h (k + p * hd) * a p)%R) a (fun k => Af e (Zv k)) (l + 1)); [lia| |auto|exact Hj].
    intros k Hk j' Hj'. apply (cA k ltac:(lia)). auto. }
  assert (Hqh : forall k, 0 <= k -> k <= i -> span V k (qh k)).
  { intros k Hk. pattern k. apply natlike_ind; [| |exact Hk].
    - intros _. exists (fun _ => 1%R). intros j Hj. rewrite sm_snoc, sm_nil by lia. rewrite cq0 by auto. ring.
    - clear k Hk. intros k Hk IH Hk1. unfold Z.succ in *. apply (span_lin V (k + 1) (qh k) (V (k + 1)) (qh (k + 1)) (- znth 0%R h (k + sn))%R (znth 0%R h (k + cs))).
      + apply (span_mono V k); [lia|apply IH; lia].
      + apply span_self; lia.
      + intros j Hj. apply (proj2 (crot k ltac:(lia)) j Hj). }
  assert (Hq : forall k, 0 <= k < i -> span V (k + 1) (q k)).
  { intros k Hk. apply (span_lin V (k + 1) (qh k) (V (k + 1)) (q k) (znth 0%R h (k + cs)) (znth 0%R h (k + sn))).
    - apply (span_mono V k); [lia|apply Hqh; lia].
    - apply span_self; lia.
    - intros j Hj. apply (proj2 (crot k Hk) j Hj). }
  assert (HBp : forall l : nat, Z.of_nat l <= i -> span V (Z.of_nat l) (Bp l r0)).
  { induction l as [|l IH]; intros Hl.
    - exists (fun _ => rho). intros j Hj. cbn [Bp]. rewrite sm_snoc, sm_nil by lia. rewrite HV0 by auto. cbn [Z.of_nat]. ring.
    - cbn [Bp]. destruct (HB (Z.of_nat l) (Bp l r0)) as (b & Hb); [lia|apply IH; lia|].
      apply (span_sum V (Z.of_nat (S l)) 0 (Z.of_nat l + 1) b q (B (Bp l r0))); [|exact Hb].
      intros k Hk. apply (span_mono V (k + 1)); [lia|apply Hq; lia]. }
  assert (Orth : forall l, 0 <= l < i -> on (Bp (S (Z.to_nat l)) r0) (qh i) = 0%R).
  { intros l Hl. cbn [Bp]. destruct (HB l (Bp (Z.to_nat l) r0)) as (b & Hb); [lia| |].
    - pose proof (HBp (Z.to_nat l) ltac:(lia)) as X. rewrite Z2Nat.id in X by lia. exact X.
    - rewrite (ip_sum n 0 (l + 1) b q _ _ Hb). apply sm_zero. intros k Hk. rewrite ip_sym. rewrite (proj1 (Q3 k ltac:(lia))). ring. }
  set (s := znth 0%R sv i).
  assert (E1 : on d (qh i) = s).
  { rewrite (ip_lin n 1 (-1) d r0 (fun j => sm 0 i (fun l => c l * Bp (S (Z.to_nat l)) r0 j)%R)) by (intros j Hj; unfold d; ring).
    rewrite (ip_sum n 0 i c (fun l => Bp (S (Z.to_nat l)) r0) (fun j => sm 0 i (fun l => c l * Bp (S (Z.to_nat l)) r0 j)%R)) by reflexivity.
    rewrite (sm_zero 0 i) by (intros l Hl; rewrite Orth by auto; ring).
    rewrite (ip_lin n 1 s r0 (fun j => sm 0 i (fun l => znth 0%R sv l * q l j)%R) (qh i)) by (intros j Hj; rewrite cr by auto; unfold s; ring).
    rewrite (ip_sum n 0 i (fun l => znth 0%R sv l) q (fun j => sm 0 i (fun l => znth 0%R sv l * q l j)%R)) by reflexivity.
    rewrite (sm_zero 0 i) by (intros l Hl; rewrite ip_sym, (proj1 (Q3 l ltac:(lia))); ring). rewrite Q1. ring. }
  (* Bessel *)
  set (d2 := fun j => (d j - s * qh i j)%R).
  assert (E2 : on d2 d2 = (on d d - s * s)%R).
  { rewrite (ip_lin n 1 (- s) d2 d (qh i)) by (intros; unfold d2; ring).
    rewrite (ip_lin_r n 1 (- s) d2 d (qh i) d) by (intros; unfold d2; ring). rewrite (ip_lin_r n 1 (- s) d2 d (qh i) (qh i)) by (intros; unfold d2; ring).
    rewrite (ip_sym n (qh i) d), E1, Q1. ring. }
  pose proof (ip_nonneg n d2). rewrite <- sqrt_Rsqr_abs. apply sqrt_le_1_alt. unfold Rsqr. lra.
Qed.
End P.
