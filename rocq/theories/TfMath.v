(** TFQMR computes the smoothed CGS iterates. *)
Require Import Reals Lra ZArith List Bool Lia.
From Verif Require Import Base Scalar ScalarReal Spec SpecSolver SpecTerm SpecGmres Krylov Krylov3 MatvecProof ConvertExact KrylovProof TermProof GmresMath GmresProof MinresProof SpecTfqmr.
Import ListNotations.
Open Scope Z_scope.

Lemma wl_div {Q : R -> Prop} (a b : R) : ((b <> 0)%R -> Q (a / b)%R) -> wl (divz a b) Q.
Proof. intros H x Hx. unfold divz in Hx. destruct (seqb b s0) eqn:Es; [discriminate|]. injection Hx as <-. apply H. intros C. rewrite C in Es. assert (seqb (Scalar:=ScalarR) 0%R s0 = true) by (apply ScalarR_eqb; reflexivity). congruence. Qed.
Lemma wl_lt {A B} (a : A) (f : A -> res B) (Q : B -> Prop) : wl (f a) Q -> wl (lt a f) Q.
Proof. auto. Qed.

(** the rotation *)
Lemma rot_facts tau ww c th : (0 < tau)%R -> (0 <= ww)%R -> th = (ww / tau)%R -> c = (1 / sqrt (1 + th * th))%R ->
  (c * c = tau * tau / (tau * tau + ww * ww) /\ tau * th * c = tau * ww / sqrt (tau * tau + ww * ww) /\ c * c * (1 + th * th) = 1)%R.
Proof.
  intros Ht Hw -> ->. set (D := (tau * tau + ww * ww)%R). assert (HD : (0 < D)%R) by (unfold D; nra).
  assert (E : (1 + ww / tau * (ww / tau) = D / (tau * tau))%R) by (unfold D; field; lra). rewrite E.
  assert (HQ : (0 < D / (tau * tau))%R) by (apply Rdiv_lt_0_compat; nra).
  assert (SQ : sqrt (D / (tau * tau)) = (sqrt D / tau)%R).
  { rewrite sqrt_div_alt by nra. rewrite sqrt_square by lra. reflexivity. }
  pose proof (sqrt_lt_R0 D HD) as SD. pose proof (sqrt_sqrt D (Rlt_le _ _ HD)) as SS.
  rewrite SQ. split; [|split].
  - transitivity (tau * tau / (sqrt D * sqrt D))%R; [field; lra|rewrite SS; reflexivity].
  - field. lra.
  - transitivity (D / (sqrt D * sqrt D))%R; [field; lra|rewrite SS; field; lra].
Qed.

Section P.
Variables (e : env (T:=R)) (M : list (entry R)).
Notation n := (e_n e).
Notation pe := (peq n).
Hypothesis HM : is_matrix n (e_psolve e) M.
Notation Ag := (app n (e_E e)).
Notation Mg := (app n M).
Lemma app_ext A f g : pe f g -> pe (app n A f) (app n A g).
Proof. intros H j Hj. unfold app. apply (mv_ext_ e). exact H. Qed.
Lemma app_lin A a b f g h : pe h (fun j => a * f j + b * g j)%R -> pe (app n A h) (fun j => a * app n A f j + b * app n A g j)%R.
Proof. intros H j Hj. unfold app. apply (mv_lin_ e). exact H. Qed.
Lemma prec_at k v f : pe (at_ v) f -> pe (at_ (e_psolve e k v)) (Mg f).
Proof. intros H j Hj. etransitivity; [exact (HM k v j Hj)|]. exact (app_ext M _ _ H j Hj). Qed.
Lemma mul_at v f : pe (at_ v) f -> pe (at_ (matvec n (e_E e) v)) (Ag f).
Proof. intros H j Hj. etransitivity; [exact (at_tab n (fun i => mv_spec (e_E e) n (at_ v) i) j Hj)|]. exact (app_ext (e_E e) _ _ H j Hj). Qed.

Definition est (bn tau : R) (second : bool) : R := (tau * sqrt (if second then 1 + 1 else 1) * bn)%R.
Lemma half_at (bn tol : R) iter (m : bool) zz (ww alpha : R) (k : kst (T:=R)) (l : tst (T:=R)) (pt z : Z -> R) :
  zz = 2 \/ zz = 7 -> (0 <= t_tau l)%R -> (0 <= ww)%R -> (alpha <> 0)%R -> pe (at_ (k_W k zz)) z ->
  pe (fun j => t_theta l * t_theta l * t_eta l * Mg (at_ (k_W k 4%Z)) j)%R (fun j => pt j - at_ (k_W k X) j)%R ->
  wl (tf_half e bn tol iter m zz ww alpha k l) (fun r => let '(stop, k', l') := r in
    (forall i, i <> 4 -> i <> 6 -> i <> X -> k_W k' i = k_W k i) /\ t_rhoold l' = t_rhoold l /\ t_wold l' = t_wold l /\
    (let pt' := fun j => (pt j + alpha * Mg z j)%R in let D := (t_tau l * t_tau l + ww * ww)%R in let g := (t_tau l * t_tau l / D)%R in
     t_tau l' = (t_tau l * ww / sqrt D)%R /\ (0 <= t_tau l')%R /\
     pe (at_ (k_W k' X)) (fun j => at_ (k_W k X) j + g * (pt' j - at_ (k_W k X) j))%R /\
     pe (fun j => t_theta l' * t_theta l' * t_eta l' * Mg (at_ (k_W k' 4%Z)) j)%R (fun j => pt' j - at_ (k_W k' X) j)%R) /\
    k_nrm k' = Some (est bn (t_tau l') m)).
Proof.
  intros Hzz Ht Hw Ha Hz Hd. destruct k as [W nr rh], l as [rho tau wold theta eta]. cbn [k_W k_rh t_rhoold t_tau t_wold t_theta t_eta] in *. change X with (-1) in *.
  unfold tf_half. cbv zeta. cbn [k_W k_rh t_rhoold t_tau t_wold t_theta t_eta].
  eapply wl_bind; [apply (wl_div (Q := fun q => q = (theta * theta * eta / alpha)%R)); reflexivity|]. intros q Hq. cbv beta delta [lt]. cbv beta.
  eapply wl_bind; [apply (wl_div (Q := fun th => tau <> 0%R /\ th = (ww / tau)%R)); auto|]. intros th (Ht0 & Hth). cbv beta.
  eapply wl_bind; [apply (wl_div (Q := fun c => c = (1 / sqrt (1 + th * th))%R)); reflexivity|]. intros c Hc. cbv beta.
  assert (Tp : (0 < tau)%R) by lra. destruct (rot_facts tau ww c th Tp Hw Hth Hc) as (R1 & R2 & R3).
  set (W1 := upd W 4 (xpay n (W zz) q (W 4))).
  eapply wl_bind; [apply wl_true|]. intros rh' _. apply wl_ok. cbn [k_W k_nrm k_rh t_rhoold t_tau t_wold t_theta t_eta].
  assert (HD : pe (at_ (W1 4)) (fun j => at_ (W zz) j + q * at_ (W 4%Z) j)%R) by (intros j Hj; unfold W1; cbv [upd Z.eqb Pos.eqb]; exact (at_xpay n q (W zz) (W 4) j Hj)).
  set (t1 := e_psolve e iter (W1 4)). pose proof (prec_at iter (W1 4) _ HD) as HP. fold t1 in HP.
  assert (HM1 : pe (Mg (fun j => at_ (W zz) j + q * at_ (W 4%Z) j)%R) (fun j => Mg z j + q * Mg (at_ (W 4%Z)) j)%R).
  { intros j Hj. etransitivity; [apply (app_lin M 1 q z (at_ (W 4%Z)) (fun j => at_ (W zz) j + q * at_ (W 4%Z) j)%R); [|exact Hj]|ring]. intros i Hi. rewrite (Hz i Hi). ring. }
  assert (AD : forall j, 0 <= j < n -> (alpha * (Mg z j + q * Mg (at_ (W 4%Z)) j) = pt j + alpha * Mg z j - at_ (W (-1)%Z) j)%R).
  { intros j Hj. specialize (Hd j Hj). cbv beta in Hd. rewrite Hq. transitivity (alpha * Mg z j + theta * theta * eta * Mg (at_ (W 4%Z)) j)%R; [field; exact Ha|rewrite Hd; ring]. }
  split; [|split; [reflexivity|split; [reflexivity|split]]].
  - intros i H4 H6 HX. unfold W1, upd. change X with (-1). destruct (Z.eqb_spec i (-1)); [congruence|]. destruct (Z.eqb_spec i 6); [congruence|]. destruct (Z.eqb_spec i 4); [congruence|]. reflexivity.
  - cbv zeta. split; [exact R2|]. split; [|].
    { change (smul (smul tau th) c) with (tau * th * c)%R. rewrite R2. apply Rmult_le_pos; [apply Rmult_le_pos; lra|]. left. apply Rinv_0_lt_compat. apply sqrt_lt_R0. nra. }
    assert (HX : pe (at_ (axpy n (smul (smul c c) alpha) t1 (W (-1)%Z))) (fun j => at_ (W (-1)%Z) j + tau * tau / (tau * tau + ww * ww) * (pt j + alpha * Mg z j - at_ (W (-1)%Z) j))%R).
    { intros j Hj. rewrite at_axpy_R by auto. rewrite (HP j Hj), (HM1 j Hj), <- (AD j Hj), <- R1. change (@smul R ScalarR) with Rmult. ring. }
    split.
    + intros j Hj. rewrite <- (HX j Hj). reflexivity.
    + intros j Hj. cbv beta. pose proof (HX j Hj) as HXj. change (@smul R ScalarR) with Rmult in HXj |- *. change (@sadd R ScalarR) with Rplus in HXj |- *.
      transitivity (th * th * (c * c * alpha) * (Mg z j + q * Mg (at_ (W 4%Z)) j))%R.
      { f_equal. rewrite <- (HM1 j Hj). apply app_ext; [|exact Hj]. intros i Hi. exact (HD i Hi). }
      transitivity (pt j + alpha * Mg z j - (at_ (W (-1)%Z) j + tau * tau / (tau * tau + ww * ww) * (pt j + alpha * Mg z j - at_ (W (-1)%Z) j)))%R.
      { rewrite <- R1. transitivity (th * th * (c * c) * (alpha * (Mg z j + q * Mg (at_ (W 4%Z)) j)))%R; [ring|]. rewrite (AD j Hj).
        transitivity ((c * c * (1 + th * th) - c * c) * (pt j + alpha * Mg z j - at_ (W (-1)%Z) j))%R; [ring|]. rewrite R3. ring. }
      f_equal. symmetry. exact HXj.
  - reflexivity.
Qed.

(** *** the iteration *)
Variables (x0 rt : Z -> R).
Notation bb := (at_ (e_b e)).
Notation cg := (cgs_at n (e_E e) M bb x0 rt).
Notation tq := (tfqmr n (e_E e) M bb x0 rt).
Notation rs := (res_of n (e_E e) bb).
Notation al := (c_alpha n (e_E e) M rt).
Notation nrm := (norm n).
Lemma inner_ext f f' g g' : pe f f' -> pe g g' -> inner n f g = inner n f' g'.
Proof. intros H1 H2. exact (ip_ext n f f' g g' H1 H2). Qed.
Lemma norm_ext f f' : pe f f' -> nrm f = nrm f'.
Proof. intros H. unfold norm. rewrite (inner_ext f f' f f'); auto. Qed.
Lemma norm_pos f : (0 <= nrm f)%R.
Proof. apply sqrt_pos. Qed.
Lemma res_ext x x' : pe x x' -> pe (rs x) (rs x').
Proof. intros H j Hj. unfold res_of. rewrite (app_ext (e_E e) x x' H j Hj). reflexivity. Qed.
Lemma tq_even k : tq (Datatypes.S (2 * k)) = (fun i => fst (tq (2 * k)) i + snd (tq (2 * k)) * snd (tq (2 * k)) / (snd (tq (2 * k)) * snd (tq (2 * k)) + sqrt (nrm (rs (full n (e_E e) M rt (cg k))) * nrm (rs (c_x (cg k)))) * sqrt (nrm (rs (full n (e_E e) M rt (cg k))) * nrm (rs (c_x (cg k))))) * (half n (e_E e) M rt (cg k) i - fst (tq (2 * k)) i),
   snd (tq (2 * k)) * sqrt (nrm (rs (full n (e_E e) M rt (cg k))) * nrm (rs (c_x (cg k)))) / sqrt (snd (tq (2 * k)) * snd (tq (2 * k)) + sqrt (nrm (rs (full n (e_E e) M rt (cg k))) * nrm (rs (c_x (cg k)))) * sqrt (nrm (rs (full n (e_E e) M rt (cg k))) * nrm (rs (c_x (cg k))))))%R.
Proof.
  unfold tfqmr. cbn [smooth]. destruct (smooth x0 (tf_points n (e_E e) M bb x0 rt) (tf_weights n (e_E e) M bb x0 rt) (nrm (rs x0)) (2 * k)) as [xx t]. cbn [fst snd].
  unfold tf_points, tf_weights. rewrite Nat.div2_double. replace (Nat.even (2 * k)) with true by (symmetry; apply Nat.even_spec; exists k; reflexivity). reflexivity.
Qed.
Lemma tq_odd k : tq (2 * Datatypes.S k) = (fun i => fst (tq (Datatypes.S (2 * k))) i + snd (tq (Datatypes.S (2 * k))) * snd (tq (Datatypes.S (2 * k))) / (snd (tq (Datatypes.S (2 * k))) * snd (tq (Datatypes.S (2 * k))) + nrm (rs (full n (e_E e) M rt (cg k))) * nrm (rs (full n (e_E e) M rt (cg k)))) * (full n (e_E e) M rt (cg k) i - fst (tq (Datatypes.S (2 * k))) i),
   snd (tq (Datatypes.S (2 * k))) * nrm (rs (full n (e_E e) M rt (cg k))) / sqrt (snd (tq (Datatypes.S (2 * k))) * snd (tq (Datatypes.S (2 * k))) + nrm (rs (full n (e_E e) M rt (cg k))) * nrm (rs (full n (e_E e) M rt (cg k)))))%R.
Proof.
  replace (2 * Datatypes.S k)%nat with (Datatypes.S (Datatypes.S (2 * k))) by lia. unfold tfqmr.
  change (smooth x0 (tf_points n (e_E e) M bb x0 rt) (tf_weights n (e_E e) M bb x0 rt) (nrm (rs x0)) (Datatypes.S (Datatypes.S (2 * k)))) with
    (let (x, t) := smooth x0 (tf_points n (e_E e) M bb x0 rt) (tf_weights n (e_E e) M bb x0 rt) (nrm (rs x0)) (Datatypes.S (2 * k)) in
     let w := tf_weights n (e_E e) M bb x0 rt (Datatypes.S (2 * k)) in
     ((fun i => x i + t * t / (t * t + w * w) * (tf_points n (e_E e) M bb x0 rt (Datatypes.S (2 * k)) i - x i))%R, (t * w / sqrt (t * t + w * w))%R)).
  destruct (smooth x0 (tf_points n (e_E e) M bb x0 rt) (tf_weights n (e_E e) M bb x0 rt) (nrm (rs x0)) (Datatypes.S (2 * k))) as [xx t]. cbn [fst snd].
  unfold tf_points, tf_weights. rewrite Nat.div2_succ_double. replace (Nat.even (Datatypes.S (2 * k))) with false by (symmetry; rewrite Nat.even_succ; rewrite <- Nat.negb_even; replace (Nat.even (2 * k)) with true; [reflexivity|symmetry; apply Nat.even_spec; exists k; reflexivity]). reflexivity.
Qed.

Definition after (bn : R) (m : nat) (k : kst (T:=R)) : Prop := pe (at_ (k_W k X)) (fst (tq m)) /\ (m <> O -> k_nrm k = Some (est bn (snd (tq m)) (Nat.even m))).
Definition inv (bn : R) (k : nat) (s : kst (T:=R) * tst (T:=R)) : Prop :=
  let W := k_W (fst s) in let l := snd s in let c := cg k in
  pe (at_ (W 0)) (rs (c_x c)) /\ pe (at_ (W 1)) rt /\ pe (at_ (W 2)) (c_u c) /\ pe (at_ (W 3)) (c_p c) /\ pe (at_ (W 8)) (Ag (Mg (c_p c))) /\
  t_rhoold l = c_rho c /\ t_wold l = nrm (rs (c_x c)) /\ t_tau l = snd (tq (2 * k)) /\ (0 <= t_tau l)%R /\
  pe (fun j => t_theta l * t_theta l * t_eta l * Mg (at_ (W 4%Z)) j)%R (fun j => c_x c j - at_ (W X) j)%R /\ after bn (2 * k) (fst s).
Lemma body_at (bn tol : R) it k s : inv bn k s ->
  wl (tfqmr_body e bn tol it s) (fun c => match c with Next s' => inv bn (Datatypes.S k) s' | Stop ret s' =>
    exists m, after bn m (fst s') /\ (ret = LIS_SUCCESS /\ (m = Datatypes.S (2 * k) \/ m = (2 * Datatypes.S k)%nat) \/ ret = LIS_BREAKDOWN /\ (m = (2 * k)%nat \/ m = (2 * Datatypes.S k)%nat)) end).
Proof.
  intros HI. destruct s as [[W nr rh] l]. unfold inv in HI. cbn [fst snd k_W] in HI. destruct HI as (H0 & H1 & H2 & H3 & H8 & Hrho & Hw & Htau & Ht0 & Hd & HA). set (c := cg k) in *. change X with (-1) in *.
  unfold tfqmr_body. cbv zeta. apply wl_lt. cbv beta. cbn [k_W k_nrm k_rh].
  rewrite dot_R. assert (Esv : ip n (at_ (W 8)) (at_ (W 1)) = inner n (Ag (Mg (c_p c))) rt) by (apply (inner_ext _ _ _ _ H8 H1)).
  destruct (seqb _ s0). { apply wl_ok. exists (2 * k)%nat. split; [exact HA|]. right. auto. }
  rewrite Esv. eapply wl_bind; [apply (wl_div (Q := fun a => a = al c)); intros _; rewrite Hrho; reflexivity|]. intros alpha ->.
  apply wl_lt. cbv beta. set (vq := axpyz n (sopp (al c)) (W 8) (W 2)). set (W1 := upd W 7 vq).
  apply wl_lt. cbv beta. change (W1 2) with (W 2). change (W1 7) with vq. set (vt := axpyz n s1 (W 2) vq). set (W2 := upd W1 5 vt).
  apply wl_lt. cbv beta. change (W2 5) with vt. set (vp := e_psolve e it vt). set (W3 := upd W2 6 vp).
  apply wl_lt. cbv beta. change (W3 6) with vp. set (vv := matvec n (e_E e) vp). set (W4 := upd W3 8 vv).
  apply wl_lt. cbv beta. change (W4 8) with vv. change (W4 0) with (W 0). set (vr := axpy n (sopp (al c)) vv (W 0)). set (W5 := upd W4 0 vr).
  apply wl_lt. cbv beta. change (W5 0) with vr.
  change (@sopp R ScalarR) with Ropp in *. change (@s1 R ScalarR) with 1%R in *.
  assert (Hq : pe (at_ vq) (c_q n (e_E e) M rt c)).
  { intros j Hj. unfold vq. rewrite (at_axpyz n (- al c)%R (W 8) (W 2) j Hj). rewrite (H8 j Hj), (H2 j Hj). unfold c_q. change (@sadd R ScalarR) with Rplus. change (@smul R ScalarR) with Rmult. ring. }
  assert (Ht : pe (at_ vt) (fun j => c_u c j + c_q n (e_E e) M rt c j)%R).
  { intros j Hj. unfold vt. rewrite (at_axpyz n 1%R (W 2) vq j Hj). rewrite (H2 j Hj), (Hq j Hj). change (@sadd R ScalarR) with Rplus. change (@smul R ScalarR) with Rmult. ring. }
  assert (Hv : pe (at_ vv) (Ag (Mg (fun j => c_u c j + c_q n (e_E e) M rt c j)%R))) by (apply mul_at, prec_at; exact Ht).
  assert (Hr : pe (at_ vr) (rs (full n (e_E e) M rt c))).
  { intros j Hj. unfold vr. rewrite at_axpy_R by auto. rewrite (H0 j Hj), (Hv j Hj). unfold res_of.
    assert (L : Ag (full n (e_E e) M rt c) j = (1 * Ag (c_x c) j + al c * Ag (Mg (fun j => c_u c j + c_q n (e_E e) M rt c j)%R) j)%R).
    { apply app_lin; [|exact Hj]. intros i Hi. unfold full, half. rewrite (app_lin M 1 1 (c_u c) (c_q n (e_E e) M rt c) (fun j => c_u c j + c_q n (e_E e) M rt c j)%R); [ring| |exact Hi]. intros a Ha. ring. }
    rewrite L. ring. }
  rewrite nrm2_R. change (ip n (at_ vr) (at_ vr)) with (inner n (at_ vr) (at_ vr)). change (sqrt (inner n (at_ vr) (at_ vr))) with (nrm (at_ vr)). rewrite (norm_ext _ _ Hr).
  set (w := nrm (rs (full n (e_E e) M rt c))). assert (Hw0 : (0 <= w)%R) by apply norm_pos.
  destruct (Req_dec (al c) 0) as [Za|Na].
  { intros a Ea. exfalso. clear -Ea Za. unfold tf_half in Ea. cbv zeta in Ea. unfold divz at 1 in Ea. rewrite Za in Ea. replace (seqb (Scalar:=ScalarR) 0%R s0) with true in Ea; [discriminate|symmetry; apply ScalarR_eqb; reflexivity]. }
  change (ssqrt (smul w (t_wold l))) with (sqrt (w * t_wold l)). rewrite Hw. set (ww := sqrt (w * nrm (rs (c_x c)))). assert (Hww : (0 <= ww)%R) by apply sqrt_pos.
  eapply wl_bind; [apply (half_at bn tol it false 2 ww (al c) (mkK W5 nr rh) l (c_x c) (c_u c)); [auto|exact Ht0|exact Hww|exact Na|exact H2|exact Hd]|].
  intros [[stop1 k1] l1]. cbn [k_W]. intros (F1 & F2 & F3 & (F4 & F5 & F6 & F7) & F8). change (W5 X) with (W (-1)) in *. change X with (-1) in *.
  assert (M1 : tq (Datatypes.S (2 * k)) = tq (Datatypes.S (2 * k))) by reflexivity. rewrite tq_even in M1 at 1. fold c in M1. fold w in M1. fold ww in M1.
  assert (A1 : after bn (Datatypes.S (2 * k)) k1).
  { split.
    - intros j Hj. change X with (-1). rewrite (F6 j Hj). rewrite <- M1. cbn [fst]. rewrite Htau. destruct HA as (HA & _). change X with (-1) in HA. cbn [k_W] in HA. rewrite (HA j Hj). reflexivity.
    - intros _. rewrite F8. f_equal. rewrite <- M1. cbn [snd]. rewrite <- Htau, <- F4. unfold est. do 3 f_equal.
      rewrite Nat.even_succ, <- Nat.negb_even. replace (Nat.even (2 * k)) with true; [reflexivity|symmetry; apply Nat.even_spec; exists k; reflexivity]. }
  destruct stop1. { apply wl_ok. exists (Datatypes.S (2 * k)). split; [exact A1|]. left. auto. }
  assert (T1 : t_tau l1 = snd (tq (Datatypes.S (2 * k)))) by (rewrite <- M1; cbn [snd]; rewrite <- Htau; exact F4).
  eapply wl_bind; [apply (half_at bn tol it true 7 w (al c) k1 l1 (half n (e_E e) M rt c) (c_q n (e_E e) M rt c)); [auto|exact F5|exact Hw0|exact Na|rewrite F1 by (change X with (-1); lia); exact Hq|exact F7]|].
  intros [[stop2 k2] l2]. intros (G1 & G2 & G3 & (G4 & G5 & G6 & G7) & G8). change X with (-1) in *.
  assert (M2 : tq (2 * Datatypes.S k) = tq (2 * Datatypes.S k)) by reflexivity. rewrite tq_odd in M2 at 1. fold c in M2. fold w in M2.
  assert (A2 : after bn (2 * Datatypes.S k) k2).
  { split.
    - intros j Hj. change X with (-1). rewrite (G6 j Hj). rewrite <- M2. cbn [fst]. rewrite T1. destruct A1 as (A1 & _). change X with (-1) in A1. rewrite (A1 j Hj). reflexivity.
    - intros _. rewrite G8. f_equal. rewrite <- M2. cbn [snd]. rewrite <- T1, <- G4. unfold est. do 3 f_equal.
      replace (Nat.even (2 * Datatypes.S k)) with true; [reflexivity|symmetry; apply Nat.even_spec; exists (Datatypes.S k); reflexivity]. }
  destruct stop2. { apply wl_ok. exists (2 * Datatypes.S k)%nat. split; [exact A2|]. left. auto. }
  apply wl_lt. cbv beta. assert (K2 : forall i, i <> 4 -> i <> 6 -> i <> -1 -> k_W k2 i = W5 i) by (intros i I1 I2 I3; rewrite G1, F1 by auto; reflexivity).
  rewrite (K2 0), (K2 1) by lia. change (W5 0) with vr. change (W5 1) with (W 1).
  rewrite dot_R. assert (Erho : ip n (at_ vr) (at_ (W 1)) = inner n (rs (full n (e_E e) M rt c)) rt) by (apply (inner_ext _ _ _ _ Hr H1)). rewrite Erho.
  destruct (seqb _ s0). { apply wl_ok. exists (2 * Datatypes.S k)%nat. split; [exact A2|]. right. auto. }
  eapply wl_bind; [apply (wl_div (Q := fun a => a = (inner n (rs (full n (e_E e) M rt c)) rt / c_rho c)%R)); intros _; rewrite G2, F2, Hrho; reflexivity|]. intros beta Hb.
  cbv beta in Hb.
  apply wl_lt. cbv beta. rewrite (K2 7) by lia. change (W5 7) with vq. set (vu := axpyz n beta vq vr). set (V1 := upd (k_W k2) 2 vu).
  apply wl_lt. cbv beta. change (V1 7) with (k_W k2 7). change (V1 3) with (k_W k2 3). rewrite (K2 7), (K2 3) by lia. change (W5 7) with vq. change (W5 3) with (W 3). set (vp1 := xpay n vq beta (W 3)). set (V2 := upd V1 3 vp1).
  apply wl_lt. cbv beta. change (V2 2) with vu. change (V2 3) with vp1. set (vp2 := xpay n vu beta vp1). set (V3 := upd V2 3 vp2).
  apply wl_lt. cbv beta. change (V3 3) with vp2. set (vt2 := e_psolve e it vp2). set (V4 := upd V3 6 vt2).
  apply wl_lt. cbv beta. change (V4 6) with vt2. set (vv2 := matvec n (e_E e) vt2). set (V5 := upd V4 8 vv2).
  apply wl_ok. unfold inv. cbn [fst snd k_W t_rhoold t_tau t_wold t_theta t_eta].
  change (cg (Datatypes.S k)) with (cgs_next n (e_E e) M bb rt c). 
  assert (Hu : pe (at_ vu) (c_u (cgs_next n (e_E e) M bb rt c))).
  { intros j Hj. unfold vu. rewrite (at_axpyz n beta vq vr j Hj). rewrite (Hq j Hj), (Hr j Hj), Hb. unfold cgs_next. cbv zeta. cbn [c_u]. change (@sadd R ScalarR) with Rplus. change (@smul R ScalarR) with Rmult. ring. }
  assert (Hp2 : pe (at_ vp2) (c_p (cgs_next n (e_E e) M bb rt c))).
  { intros j Hj. unfold vp2, vp1. rewrite (at_xpay n beta vu _ j Hj), (at_xpay n beta vq (W 3) j Hj). rewrite (Hu j Hj), (Hq j Hj), (H3 j Hj), Hb. unfold cgs_next. cbv zeta. cbn [c_u c_p]. change (@sadd R ScalarR) with Rplus. change (@smul R ScalarR) with Rmult. ring. }
  change X with (-1).
  split; [change (V5 0) with (k_W k2 0); rewrite K2 by lia; exact Hr|]. split; [change (V5 1) with (k_W k2 1); rewrite K2 by lia; exact H1|]. split; [exact Hu|]. split; [exact Hp2|].
  split; [change (V5 8) with vv2; apply mul_at, prec_at; exact Hp2|]. split; [reflexivity|]. split; [reflexivity|].
  split; [rewrite <- M2; cbn [snd]; rewrite <- T1; exact G4|]. split; [exact G5|]. split; [exact G7|exact A2].
Qed.
Lemma loop_at (bn tol : R) fuel : forall it k s, inv bn k s -> wl (iterate fuel it (tfqmr_body e bn tol) s) (fun o => let '(ret, iter, s') := o in
  exists m, after bn m (fst s') /\
    (ret = LIS_SUCCESS /\ it <= iter /\ (m = Datatypes.S (2 * (k + Z.to_nat (iter - it))) \/ m = (2 * Datatypes.S (k + Z.to_nat (iter - it)))%nat) \/
     ret = LIS_BREAKDOWN /\ it <= iter /\ (m = (2 * (k + Z.to_nat (iter - it)))%nat \/ m = (2 * Datatypes.S (k + Z.to_nat (iter - it)))%nat) \/
     ret = LIS_MAXITER /\ iter = it + Z.of_nat fuel /\ m = (2 * (k + Z.to_nat (iter - it)))%nat)).
Proof.
  induction fuel as [|f IH]; intros it k s HI; cbn [iterate].
  - apply wl_ok. exists (2 * k)%nat. split; [exact (proj2 (proj2 (proj2 (proj2 (proj2 (proj2 (proj2 (proj2 (proj2 (proj2 HI))))))))))|]. right. right. rewrite Z.sub_diag. cbn [Z.to_nat]. rewrite Nat.add_0_r. split; [reflexivity|]. split; [lia|reflexivity].
  - eapply wl_bind; [apply (body_at bn tol it k s HI)|]. intros [s'|ret s'] H.
    + eapply wl_mono; [apply (IH (it + 1) _ _ H)|]. intros [[ret iter] s2] (m & A & B). exists m. split; [exact A|].
      destruct B as [(B1 & B2 & B3)|[(B1 & B2 & B3)|(B1 & B2 & B3)]]; [left|right; left|right; right]; (split; [exact B1|]; split; [lia|]);
        replace (k + Z.to_nat (iter - it))%nat with (Datatypes.S k + Z.to_nat (iter - (it + 1)))%nat by lia; exact B3.
    + apply wl_ok. destruct H as (m & A & B). exists m. split; [exact A|]. rewrite Z.sub_diag. cbn [Z.to_nat]. rewrite Nat.add_0_r.
      destruct B as [(B1 & B2)|(B1 & B2)]; [left|right; left]; (split; [exact B1|]; split; [lia|exact B2]).
Qed.
End P.
