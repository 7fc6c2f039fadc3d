Require Import ZArith List Bool Lia Reals Lra Field.
From Verif Require Import Base Scalar ScalarReal Spec SpecSolver SpecEsolver SpecSub Krylov RealVec MatvecProof EsolverProof EsolverProof2 EsolverFinal SpecGesolver.
Import ListNotations.
Open Scope Z_scope.

Section Math.
Open Scope R_scope.
Variable n : Z.
Notation mv E f := (fun i => mv_spec (T:=R) E n f i).
Lemma self_adjoint (E : Ent) f g : symmetric n E -> ip n f (mv E g) = ip n (mv E f) g.
Proof.
  intros SY. unfold ip, sm, mv_spec.
  rewrite (ssum_map_ext (S:=ScalarR) _ (fun i => ssum (map (fun j => f i * (coef E i j * g j)) (zrange 0 n)))) by (intros i Hi; symmetry; apply (ssum_map_mul_l ScalarR_ring)).
  rewrite (ssum_exchange ScalarR_ring). apply ssum_map_ext. intros j Hj. apply In_zrange in Hj.
  change (ssum (map (fun i => f i * (coef E i j * g j)) (zrange 0 n)) = ssum (map (fun k => smul (coef E j k) (f k)) (zrange 0 n)) * g j).
  rewrite Rmult_comm. rewrite <- (ssum_map_mul_l ScalarR_ring). apply ssum_map_ext. intros i Hi. apply In_zrange in Hi. rewrite (SY i j) by lia. cbn. ring.
Qed.
(** the form <f,E g> of a nonnegative symmetric matrix *)
Lemma form_cauchy (E : Ent) f g : symmetric n E -> (forall h, 0 <= ip n h (mv E h)) -> ip n f (mv E g) * ip n f (mv E g) <= ip n f (mv E f) * ip n g (mv E g).
Proof.
  intros SY P. set (a := ip n f (mv E f)). set (b := ip n f (mv E g)). set (c := ip n g (mv E g)).
  assert (Q : forall t, 0 <= a + 2 * t * b + t * t * c).
  { intros t. specialize (P (fun i => 1 * f i + t * g i)). rewrite (ip_ext n _ (fun i => 1 * f i + t * g i) _ (fun i => 1 * mv_spec E n f i + t * mv_spec E n g i)) in P; [|intros i Hi; auto|intros i Hi; apply mvR_lin].
    rewrite ip_lin, !ip_lin_r in P. change (ip n f (mv_spec E n f)) with a in P. change (ip n f (mv_spec E n g)) with b in P. change (ip n g (mv_spec E n g)) with c in P.
    assert (X : ip n g (mv_spec E n f) = b) by (unfold b; rewrite (self_adjoint E f g SY), ip_sym; reflexivity). rewrite X in P. lra. }
  assert (Pa : 0 <= a) by apply P. assert (Pc : 0 <= c) by apply P.
  destruct (Req_dec c 0) as [C0|C0].
  - rewrite C0 in *. destruct (Req_dec b 0) as [B0|B0]; [rewrite B0; lra|]. exfalso. specialize (Q (- (a + 1) / (2 * b))). replace (a + 2 * (- (a + 1) / (2 * b)) * b + - (a + 1) / (2 * b) * (- (a + 1) / (2 * b)) * 0) with (-1) in Q by (field; auto). lra.
  - specialize (Q (- b / c)). replace (a + 2 * (- b / c) * b + - b / c * (- b / c) * c) with (a - b * b / c) in Q by (field; auto). assert (0 < c) by lra.
    apply Rmult_le_reg_r with (/ c); [apply Rinv_0_lt_compat; auto|]. replace (a * c * / c) with a by (field; auto). unfold Rdiv in Q. lra.
Qed.
(** |E f|^2 <= K <f,E f> *)
Lemma image_form (E : Ent) f K : symmetric n E -> (forall h, 0 <= ip n h (mv E h)) -> (forall h, nm n (mv E h) <= K * nm n h) -> nm n (mv E f) * nm n (mv E f) <= K * ip n f (mv E f).
Proof.
  intros SY P HK. set (w := mv E f). pose proof (form_cauchy E f w SY P) as C. 
  assert (X : ip n f (mv E w) = nm n w * nm n w) by (rewrite (self_adjoint E f w SY), nm_sq; reflexivity). rewrite X in C.
  assert (Y : ip n w (mv E w) <= K * (nm n w * nm n w)).
  { eapply Rle_trans; [apply Rle_abs|]. eapply Rle_trans; [apply cauchy|]. specialize (HK w). pose proof (nm_pos n w). nra. }
  pose proof (nm_pos n w) as Pw. set (a := nm n w) in *. pose proof (P f) as Pf. fold w in Pf |- *. set (g := ip n f w) in *.
  destruct (Req_dec a 0) as [A0|A0].
  - rewrite A0. assert (0 <= K * g); [|lra]. destruct (Req_dec g 0) as [G0|G0]; [rewrite G0; lra|].
    assert (g = 0); [|lra]. apply Rle_antisym; [|exact Pf]. pose proof (Rle_abs g) as H1. assert (H2 : Rabs g <= nm n f * a) by (apply cauchy). rewrite A0, Rmult_0_r in H2. lra.
  - assert (0 < a) by lra. assert (a * a * (a * a) <= g * (K * (a * a))) by (eapply Rle_trans; [exact C|apply Rmult_le_compat_l; [exact Pf|exact Y]]). apply Rmult_le_reg_r with (a * a); [nra|]. lra.
Qed.

(** power: A y - theta B y = A (y - theta v) when B y = A v.  Here A is already shifted *)
Lemma gpi_math (A B : Ent) (v w y x : Z -> R) th r K : eqv n w (mv A v) -> ip n v w = 1 -> th = ip n w y -> th <> 0 -> nm n y <> 0 -> r = nm n (fun i => y i - th * v i) / Rabs th ->
  eqv n (mv B y) w -> eqv n x (fun i => 1 / nm n y * y i) -> (forall h, nm n (mv A h) <= K * nm n h) ->
  nm n (fun i => mv_spec A n x i - th * mv_spec B n x i) <= K * r * nm n w.
Proof.
  intros Hw Hvw Hth H0 Hy Hr HB Hx HK. pose proof (nm_pos n y) as Py. pose proof (Rabs_pos_lt th H0) as Pt. pose proof (nm_pos n w) as Pw.
  assert (E1 : nm n (fun i => mv_spec A n x i - th * mv_spec B n x i) = 1 / nm n y * nm n (mv A (fun j => y j - th * v j))).
  { rewrite <- (Rabs_pos_eq (1 / nm n y)) by (apply Rlt_le, Rdiv_lt_0_compat; lra). rewrite <- nm_scal. apply nm_ext. intros i Hi.
    rewrite (mvR_ext n A x _ i Hx), (mvR_ext n B x _ i Hx), !mvR_scal.
    rewrite (mvR_ext n A (fun j => y j - th * v j) (fun j => 1 * y j + (- th) * v j) i) by (intros j Hj; ring). rewrite mvR_lin.
    pose proof (HB i Hi) as B1. pose proof (Hw i Hi) as B2. cbv beta in B1, B2. rewrite B1, B2. ring. }
  rewrite E1. specialize (HK (fun j => y j - th * v j)). set (q := nm n (fun j => y j - th * v j)) in *.
  assert (Hq : q = r * Rabs th) by (rewrite Hr; field; lra).
  assert (C : Rabs th <= nm n w * nm n y) by (rewrite Hth; apply cauchy).
  set (t := nm n (mv A (fun j => y j - th * v j))) in *. assert (0 <= t) by apply nm_pos. rewrite Hq in HK.
  assert (Pr : 0 <= r) by (rewrite Hr; unfold Rdiv; apply Rmult_le_pos; [apply nm_pos|apply Rlt_le, Rinv_0_lt_compat; auto]).
  apply Rmult_le_reg_r with (nm n y); [lra|]. replace (1 / nm n y * t * nm n y) with t by (field; auto).
  assert (KR : 0 <= K * r) by (apply Rmult_le_reg_r with (Rabs th); [auto|lra]).
  eapply Rle_trans; [exact HK|]. replace (K * (r * Rabs th)) with (K * r * Rabs th) by ring. replace (K * r * nm n w * nm n y) with (K * r * (nm n w * nm n y)) by ring. apply Rmult_le_compat_l; auto.
Qed.
(** inverse: |w - A y| <= d, w = B v.  A already shifted *)
Lemma gii_math (A B : Ent) (v w y x : Z -> R) th r K d : eqv n w (mv B v) -> ip n v w = 1 -> th = ip n w y -> th <> 0 -> nm n y <> 0 -> r = nm n (fun i => y i - th * v i) / Rabs th ->
  nm n (fun i => w i - mv_spec A n y i) <= d -> eqv n x (fun i => 1 / nm n y * y i) -> (forall h, nm n (mv B h) <= K * nm n h) ->
  nm n (fun i => mv_spec A n x i - 1 / th * mv_spec B n x i) <= (K * r + d) * nm n w * Rabs (1 / th).
Proof.
  intros Hw Hvw Hth H0 Hy Hr Hd Hx HK. pose proof (nm_pos n y) as Py. pose proof (Rabs_pos_lt th H0) as Pt. pose proof (nm_pos n w) as Pw.
  assert (Pn : 0 < 1 / nm n y) by (apply Rdiv_lt_0_compat; lra).
  assert (E1 : nm n (fun i => mv_spec A n x i - 1 / th * mv_spec B n x i) = 1 / nm n y * nm n (fun i => (- (1 / th)) * mv_spec B n (fun j => y j - th * v j) i - (w i - mv_spec A n y i))).
  { rewrite <- (Rabs_pos_eq (1 / nm n y)) by lra. rewrite <- nm_scal. apply nm_ext. intros i Hi.
    rewrite (mvR_ext n A x _ i Hx), (mvR_ext n B x _ i Hx), !mvR_scal.
    rewrite (mvR_ext n B (fun j => y j - th * v j) (fun j => 1 * y j + (- th) * v j) i) by (intros j Hj; ring). rewrite mvR_lin.
    pose proof (Hw i Hi) as B2. cbv beta in B2. rewrite B2. field. split; auto. }
  rewrite E1. specialize (HK (fun j => y j - th * v j)). set (q := nm n (fun j => y j - th * v j)) in *.
  assert (Hq : q = r * Rabs th) by (rewrite Hr; field; lra).
  assert (C : Rabs th <= nm n w * nm n y) by (rewrite Hth; apply cauchy).
  assert (I1 : Rabs (1 / th) = / Rabs th) by (unfold Rdiv; rewrite Rmult_1_l, Rabs_inv; reflexivity).
  assert (Bd : nm n (fun i => (- (1 / th)) * mv_spec B n (fun j => y j - th * v j) i - (w i - mv_spec A n y i)) <= K * r + d).
  { eapply Rle_trans; [apply nm_sub_le|]. apply Rplus_le_compat; [|exact Hd]. rewrite nm_scal, Rabs_Ropp, I1. apply Rmult_le_reg_l with (Rabs th); [auto|]. rewrite <- Rmult_assoc, Rinv_r, Rmult_1_l by lra. rewrite Hq in HK.
    replace (Rabs th * (K * r)) with (K * (r * Rabs th)) by ring. exact HK. }
  set (t := nm n (fun i => (- (1 / th)) * mv_spec B n (fun j => y j - th * v j) i - (w i - mv_spec A n y i))) in *. assert (0 <= t) by apply nm_pos.
  rewrite I1. assert (W : 1 / nm n y <= nm n w * / Rabs th).
  { apply Rmult_le_reg_r with (nm n y * Rabs th); [apply Rmult_lt_0_compat; lra|]. replace (1 / nm n y * (nm n y * Rabs th)) with (Rabs th) by (field; auto). replace (nm n w * / Rabs th * (nm n y * Rabs th)) with (nm n w * nm n y) by (field; lra). exact C. }
  rewrite Rmult_assoc, (Rmult_comm (1 / nm n y)). apply Rmult_le_compat; lra.
Qed.
(** RQI, exact solve: A y - rho B y = B v *)
Lemma grq_rayleigh (A B : Ent) (v y x : Z -> R) rho c : let e2 := ip n y (mv B y) in e2 <> 0 -> c <> 0 -> eqv n (fun i => mv_spec A n y i - rho * mv_spec B n y i) (mv B v) -> eqv n x (fun i => c * y i) ->
  ip n x (mv A x) = (rho + ip n (mv B v) y / e2) * ip n x (mv B x) /\ ip n x (mv B x) <> 0.
Proof.
  intros e2 H0 Hc Hs Hx.
  assert (XB : ip n x (mv B x) = c * c * e2).
  { rewrite (ip_ext n x (fun i => c * y i) (mv B x) (fun i => c * mv_spec B n y i)); [rewrite ip_scal, ip_scal_r; change (c * (c * e2) = c * c * e2); ring|exact Hx|intros i Hi; rewrite (mvR_ext n B x _ i Hx), mvR_scal; reflexivity]. }
  assert (XA : ip n x (mv A x) = c * c * (ip n (mv B v) y + rho * e2)).
  { rewrite (ip_ext n x (fun i => c * y i) (mv A x) (fun i => c * (1 * mv_spec B n v i + rho * mv_spec B n y i))).
    - rewrite ip_scal, ip_scal_r, ip_lin_r, (ip_sym n y (mv_spec B n v)). change (c * (c * (1 * ip n (mv B v) y + rho * e2)) = c * c * (ip n (mv B v) y + rho * e2)). ring.
    - exact Hx.
    - intros i Hi. rewrite (mvR_ext n A x _ i Hx), mvR_scal. specialize (Hs i Hi). cbv beta in Hs. f_equal. lra. }
  split; [rewrite XA, XB; field; auto|rewrite XB; apply Rmult_integral_contrapositive_currified; auto; apply Rmult_integral_contrapositive_currified; auto].
Qed.
Lemma grq_math (A B : Ent) (v w y x : Z -> R) rho r K g : let e2 := ip n y (mv B y) in let th := ip n w y in eqv n w (mv B v) -> ip n v w = g -> th <> 0 -> 0 < e2 -> nm n y <> 0 -> r = 1 / Rabs th ->
  eqv n (fun i => mv_spec A n y i - rho * mv_spec B n y i) w -> eqv n x (fun i => 1 / nm n y * y i) ->
  symmetric n B -> (forall h, 0 <= ip n h (mv B h)) -> (forall h, nm n (mv B h) <= K * nm n h) ->
  nm n (fun i => mv_spec A n x i - (rho + th / e2) * mv_spec B n x i) <= K * g * r.
Proof.
  intros e2 th Hw Hg H0 He Hy Hr Hs Hx SY PB HK. pose proof (nm_pos n y) as Py. pose proof (Rabs_pos_lt th H0) as Pt.
  assert (Pn : 0 < 1 / nm n y) by (apply Rdiv_lt_0_compat; lra). set (t := th / e2). set (u := fun j => v j - t * y j).
  assert (E1 : nm n (fun i => mv_spec A n x i - (rho + t) * mv_spec B n x i) = 1 / nm n y * nm n (mv B u)).
  { rewrite <- (Rabs_pos_eq (1 / nm n y)) by lra. rewrite <- nm_scal. apply nm_ext. intros i Hi.
    rewrite (mvR_ext n A x _ i Hx), (mvR_ext n B x _ i Hx), !mvR_scal. unfold u.
    rewrite (mvR_ext n B (fun j => v j - t * y j) (fun j => 1 * v j + (- t) * y j) i) by (intros j Hj; ring). rewrite mvR_lin.
    pose proof (Hw i Hi) as B2. pose proof (Hs i Hi) as B3. cbv beta in B2, B3. rewrite <- B2, <- B3. ring. }
  rewrite E1.
  assert (Gv : ip n v (mv B v) = g) by (rewrite <- Hg; apply ip_ext; [intros i Hi; auto|intros i Hi; symmetry; apply Hw; auto]).
  assert (TH : ip n v (mv B y) = th) by (rewrite (self_adjoint B v y SY); unfold th; apply ip_ext; [intros i Hi; symmetry; apply Hw; auto|intros i Hi; auto]).
  assert (TH' : ip n y (mv B v) = th) by (rewrite (self_adjoint B y v SY), ip_sym; exact TH).
  assert (Fu : ip n u (mv B u) = g - th * th / e2).
  { rewrite (ip_ext n u (fun i => 1 * v i + (- t) * y i) (mv B u) (fun i => 1 * mv_spec B n v i + (- t) * mv_spec B n y i)).
    - rewrite ip_lin, !ip_lin_r. change (mv_spec B n v) with (mv B v). change (mv_spec B n y) with (mv B y). rewrite Gv, TH, TH'. fold e2. unfold t. field. lra.
    - intros i Hi. unfold u. ring.
    - intros i Hi. rewrite (mvR_ext n B u (fun i => 1 * v i + (- t) * y i) i) by (intros j Hj; unfold u; ring). apply mvR_lin. }
  assert (Pg : 0 <= g) by (rewrite <- Gv; apply PB).
  assert (K0 : 0 <= K). { destruct (Rle_dec 0 K) as [|N]; auto. exfalso. specialize (HK y). pose proof (nm_pos n (mv B y)). nra. }
  assert (U1 : nm n (mv B u) * nm n (mv B u) <= K * g).
  { eapply Rle_trans; [apply (image_form B u K SY PB HK)|]. rewrite Fu. assert (0 <= th * th / e2) by (unfold Rdiv; apply Rmult_le_pos; [nra|apply Rlt_le, Rinv_0_lt_compat; auto]). nra. }
  assert (W1 : nm n w * nm n w <= K * g).
  { rewrite (nm_ext n w (mv B v) Hw). pose proof (image_form B v K SY PB HK) as X. rewrite Gv in X. exact X. }
  assert (C : Rabs th <= nm n w * nm n y) by apply cauchy.
  pose proof (nm_pos n w) as Pw. pose proof (nm_pos n (mv B u)) as Pu. set (a := nm n w) in *. set (b := nm n (mv B u)) in *. set (m := nm n y) in *. set (s := Rabs th) in *.
  assert (AB : a * b <= K * g) by nra.
  rewrite Hr. apply Rmult_le_reg_r with (m * s); [apply Rmult_lt_0_compat; lra|]. replace (1 / m * b * (m * s)) with (b * s) by (field; auto). replace (K * g * (1 / s) * (m * s)) with (K * g * m) by (field; lra). nra.
Qed.
End Math.
