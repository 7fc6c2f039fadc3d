(** IDR(s) and IDR(1): r = b - A x throughout. *)
Require Import ZArith List Bool Lia Ring Field.
From Verif Require Import Base Scalar Spec SpecSolver Krylov Array LuFinal LuProof Krylov3 MatvecProof KrylovProof.
Import ListNotations.
Open Scope Z_scope.

Section P.
Context {T : Type} {S : Scalar T}.
Hypothesis FT : is_field S.
Hypothesis EQ : eqb_ok S.
Let RT : is_ring S := F_R FT.
Let RT' : @ring_theory T s0 s1 sadd smul ssub sopp (@eq T) := RT.
Add Ring Tr : RT'.
Notation vec := (vect (T:=T)).
Notation kst' := (kst (T:=T)).

Lemma upd_s (W : Z -> vec) k v : upd W k v k = v.
Proof. unfold upd. rewrite Z.eqb_refl. reflexivity. Qed.
Lemma upd_d (W : Z -> vec) k v j : j <> k -> upd W k v j = W j.
Proof. intros H. unfold upd. apply Z.eqb_neq in H. rewrite H. reflexivity. Qed.

(** *** rules for the loops *)
Lemma safe_for {A} lo hi (body : Z -> A -> res A) (I : Z -> A -> Prop) s : lo <= hi -> I lo s ->
  (forall j s, lo <= j < hi -> I j s -> safe (body j s) (I (j + 1))) -> safe (for_ lo hi body s) (I hi).
Proof.
  intros Hl H0 HB. unfold for_.
  assert (G : forall f j s, Z.of_nat f = hi - j -> lo <= j -> I j s -> safe (for_n f j body s) (I hi)).
  { induction f as [|f IH]; intros j s' Hf Hj Hs; cbn [for_n].
    - replace hi with j by lia. exact Hs.
    - apply safe_bind. eapply safe_mono; [apply HB; [lia|exact Hs]|]. intros s2 H2. apply IH; [lia|lia|exact H2]. }
  apply G; [lia|lia|exact H0].
Qed.
Lemma safe_ctl {A} (body : Z -> A -> res (ctl A)) (I : Z -> A -> Prop) (Q : Z -> A -> Prop) hi s : 0 <= hi -> I 0 s ->
  (forall j s, 0 <= j < hi -> I j s -> safe (body j s) (fun c => match c with Next s => I (j + 1) s | Stop ret s => Q ret s end)) ->
  safe (for_ctl (Z.to_nat hi) 0 body s) (fun c => match c with Next s => I hi s | Stop ret s => Q ret s end).
Proof.
  intros Hl H0 HB.
  assert (G : forall f j s, Z.of_nat f = hi - j -> 0 <= j -> I j s -> safe (for_ctl f j body s) (fun c => match c with Next s => I hi s | Stop ret s => Q ret s end)).
  { induction f as [|f IH]; intros j s' Hf Hj Hs; cbn [for_ctl].
    - replace hi with j by lia. exact Hs.
    - apply safe_bind. eapply safe_mono; [apply HB; [lia|exact Hs]|]. intros [s2|ret s2] H2; [apply IH; [lia|lia|exact H2]|exact H2]. }
  apply G; [lia|lia|exact H0].
Qed.
Lemma safe_repeat {A} maxiter (it : A -> Z) (body : A -> res (ctl A)) (I : A -> Prop) (Q : Z -> A -> Prop) fuel s :
  I s -> (Z.to_nat (maxiter + 1 - it s) < fuel)%nat ->
  (forall s, it s <= maxiter -> I s -> safe (body s) (fun c => match c with Next s' => I s' /\ it s < it s' | Stop ret s' => Q ret s' end)) ->
  (forall s, maxiter < it s -> I s -> Q LIS_MAXITER s) ->
  safe (repeat_ fuel maxiter it body s) (fun o => Q (fst o) (snd o)).
Proof.
  intros H0 Hf HB HQ. revert s H0 Hf. induction fuel as [|f IH]; intros s H0 Hf; [lia|]. cbn [repeat_].
  destruct (Z.leb_spec (it s) maxiter) as [C|C].
  - apply safe_bind. eapply safe_mono; [apply HB; [exact C|exact H0]|]. intros [s2|ret s2] H2; [|exact H2].
    destruct H2 as (H2 & H3). apply IH; [exact H2|lia].
  - cbn [safe fst snd]. apply HQ; [lia|exact H0].
Qed.

(** *** the residual history *)
Definition wrote (e : env (T:=T)) (tol : T) (it : Z) (rh0 rh : list T) (v : T) : Prop :=
  zlen rh = zlen rh0 /\ (forall j, j < 1 \/ it < j -> znth s0 rh j = znth s0 rh0 j) /\
  (e_mem e = true -> forall j, 1 <= j < it -> sleb (znth s0 rh j) tol = false) /\ (e_mem e = false -> rh = rh0) /\
  (e_mem e = true -> znth s0 rh it = v).
Lemma wrote_hist (e : env (T:=T)) tol it rh0 rh v : 1 <= it -> wrote e tol it rh0 rh v -> sleb v tol = false -> hist e tol (it + 1) rh0 rh.
Proof.
  intros Hi (H1 & H2 & H3 & H4 & H5) Hv. split; [exact H1|]. split; [intros j Hj; apply H2; lia|]. split; [|exact H4].
  intros Hm j Hj. destruct (Z.eq_dec j it) as [->|]; [rewrite H5 by auto; exact Hv|]. apply H3; [exact Hm|lia].
Qed.
Lemma safe_write {B} (e : env (T:=T)) tol it rh0 rh v (f : list T -> res B) Q : 1 <= it -> (e_mem e = true -> it < zlen rh0) -> hist e tol it rh0 rh ->
  (forall rh', wrote e tol it rh0 rh' v -> safe (f rh') Q) -> safe (bind (if e_mem e then wr rh it v else Ok rh) f) Q.
Proof.
  intros Hi Hl (H1 & H2 & H3 & H4) H. destruct (e_mem e) eqn:Em.
  - specialize (Hl eq_refl). rewrite wr_ok by lia. cbn [bind]. apply H. unfold wrote. rewrite zlen_zupd.
    split; [exact H1|]. split; [intros j Hj; rewrite znth_zupd by lia; destruct (Z.eqb_spec j it); [lia|apply H2; lia]|].
    split; [intros _ j Hj; rewrite znth_zupd by lia; destruct (Z.eqb_spec j it); [lia|apply H3; auto; lia]|].
    split; [congruence|]. intros _. rewrite znth_zupd by lia. rewrite Z.eqb_refl. reflexivity.
  - cbn [bind]. apply H. unfold wrote. rewrite Em. split; [exact H1|]. split; [intros j Hj; apply H2; lia|]. split; [discriminate|]. split; [exact H4|discriminate].
Qed.
(** how a run ends: after iteration it the value v of the residual of x is known *)
Definition ends (e : env (T:=T)) (bn tol : T) (it : Z) (rh0 : list T) (ret : Z) (k : kst') : Prop :=
  exists v, k_nrm k = Some v /\ v = get_residual e bn (tres e (k_W k X)) /\ wrote e tol it rh0 (k_rh k) v /\
    (ret = LIS_SUCCESS /\ sleb v tol = true \/ ret = LIS_MAXITER /\ sleb v tol = false).

Ltac lw W' :=
  lazymatch goal with
  | |- safe (lt (upd ?W ?k ?v) _) _ =>
      let Hs := fresh "Hs" in let Ho := fresh "Ho" in
      apply safe_lt; cbv beta;
      pose proof (upd_s W k v) as Hs; pose proof (fun j => upd_d W k v j) as Ho;
      generalize dependent (upd W k v); intros W' Hs Ho
  end.
Ltac lv := apply safe_lt; cbv beta.
Ltac look := repeat match goal with
  | Ho : forall j, j <> ?k -> ?W' j = _ |- context [?W' ?a] => rewrite (Ho a) by (unfold X in *; lia)
  | Hs : ?W' ?k = _ |- context [?W' ?k] => rewrite Hs
  end.

Section E.
Variable e : env (T:=T).
Variables (bn tol : T) (rh0 : list T).
Notation n := (e_n e).

Section IDRS.
Variable s : Z.
Hypothesis Hs : 1 <= s.
Notation dX j := (4 + j).
Notation dR j := (4 + 2 * s + j).
(** dR[j] = - A dX[j] *)
Definition pair (W : Z -> vec) (j : Z) : Prop := forall i, 0 <= i < n -> at_ (W (dR j)) i = sopp (mv e (W (dX j)) i).
Definition arrays (M m c MM : list T) : Prop := zlen M = s * s /\ zlen m = s /\ zlen c = s /\ zlen MM = s * s.
Definition first_inv (j : Z) (st : ist (T:=T)) : Prop :=
  let W := k_W (i_k st) in
  resid_ok e (W 0) (W X) /\ (forall j', 0 <= j' < j -> pair W j') /\ i_iter st = s /\ i_old st = 0 /\ arrays (i_M st) (i_m st) (i_c st) (i_MM st) /\
  hist e tol (j + 1) rh0 (k_rh (i_k st)) /\
  (1 <= j -> exists v, k_nrm (i_k st) = Some v /\ v = get_residual e bn (tres e (W X)) /\ sleb v tol = false /\ (e_mem e = true -> znth s0 (k_rh (i_k st)) j = v)).

Lemma resid_add (W : Z -> vec) (r x : Z) (d D : vec) r' x' : resid_ok e (W r) (W x) -> (forall i, 0 <= i < n -> at_ D i = sopp (mv e d i)) ->
  r' = axpy n s1 D (W r) -> x' = axpy n s1 d (W x) -> resid_ok e r' x'.
Proof.
  intros HR HD -> -> i Hi. rewrite at_axpy by auto. rewrite (mv_axpy RT). rewrite (HR i Hi), (HD i Hi). ring.
Qed.
Lemma honest_v (W : Z -> vec) (r x : Z) : resid_ok e (W r) (W x) -> get_residual e bn (W r) = get_residual e bn (tres e (W x)).
Proof. intros H. apply get_residual_ext. apply resid_tres. exact H. Qed.

Hypothesis Hlen : e_mem e = true -> s < zlen rh0.
Lemma first_ok j st : 0 <= j < s -> first_inv j st ->
  safe (idrs_first s e bn tol j st) (fun c => match c with Next st => first_inv (j + 1) st | Stop ret st => i_iter st = j + 1 /\ ret = LIS_SUCCESS /\ ends e bn tol (j + 1) rh0 ret (i_k st) end).
Proof.
  intros Hj (H1 & H2 & H3 & H4 & (H5 & H5' & H5'' & H5''') & H6 & H7). unfold idrs_first. cbv zeta. revert H1 H2 H6. generalize (k_W (i_k st)). intros W0 H1 H2 H6.
  lw W1. lw W2. lv. lv. apply safe_divz. intros om. lw W3. lw W4. lw W5. lw W6. lv.
  assert (PJ : pair W6 j).
  { intros i Hi. look. rewrite at_scale, at_matvec by auto. rewrite (mv_scale RT). ring. }
  assert (PO : forall j', 0 <= j' < j -> pair W6 j').
  { intros j' Hj' i Hi. look. apply H2; auto. }
  assert (RO : resid_ok e (W6 0) (W6 X)).
  { assert (D1 : W6 (dR j) = W4 (dR j)) by (look; reflexivity). assert (D2 : W6 (dX j) = W4 (dX j)) by (look; reflexivity).
    apply (resid_add W0 0 X (W4 (dX j)) (W4 (dR j))); [exact H1| | |].
    - intros i Hi. rewrite <- D1, <- D2. apply PJ; auto.
    - look. reflexivity.
    - look. reflexivity. }
  apply (safe_write e tol (j + 1) rh0); [lia|intros Hm; specialize (Hlen Hm); lia|exact H6|]. intros rh' Hw.
  destruct (sleb (get_residual e bn (W6 0)) tol) eqn:El.
  - split; [reflexivity|]. split; [reflexivity|]. exists (get_residual e bn (W6 0)). cbn [k_nrm k_W k_rh i_k]. split; [reflexivity|]. split; [apply honest_v; exact RO|]. split; [exact Hw|]. left. auto.
  - apply safe_bind. eapply safe_mono.
    { apply (safe_for 0 s _ (fun _ M => zlen M = s * s)); [lia|exact H5|]. intros i M Hi HM. assert (B : 0 <= j * s + i < s * s) by nia. rewrite wr_ok by lia. simpl. rewrite zlen_zupd. exact HM. }
    intros M HM. simpl. unfold first_inv. cbn [i_k i_iter i_old i_M i_m i_c i_MM k_W k_nrm k_rh].
    split; [exact RO|]. split; [intros j' Hj'; destruct (Z.eq_dec j' j) as [->|]; [exact PJ|apply PO; lia]|]. split; [exact H3|]. split; [exact H4|].
    split; [unfold arrays; auto|]. split; [apply (wrote_hist e tol (j + 1) rh0 rh' _ ltac:(lia) Hw El)|].
    intros _. exists (get_residual e bn (W6 0)). split; [reflexivity|]. split; [apply honest_v; exact RO|]. split; [exact El|]. apply Hw.
Qed.

(** *** the main loop *)
Definition pass_inv (st : ist (T:=T)) : Prop :=
  let W := k_W (i_k st) in
  s <= i_iter st /\ 0 <= i_old st < s /\
  resid_ok e (W 0) (W X) /\ (forall j, 0 <= j < s -> pair W j) /\ arrays (i_M st) (i_m st) (i_c st) (i_MM st) /\
  hist e tol (i_iter st + 1) rh0 (k_rh (i_k st)) /\
  (exists v, k_nrm (i_k st) = Some v /\ v = get_residual e bn (tres e (W X)) /\ sleb v tol = false /\ (e_mem e = true -> znth s0 (k_rh (i_k st)) (i_iter st) = v)).

Lemma combine_at om a (D : Z -> vec) c i : 0 <= i < n ->
  at_ (combine n s om a D c) i = ssub (smul om (at_ a i)) (ssum (map (fun j => smul (at_ (D j) i) (znth s0 c j)) (zrange 0 s))).
Proof.
  intros Hi. unfold combine. rewrite at_tab by auto. generalize (smul om (at_ a i)). generalize (zrange 0 s). intros l. induction l as [|j l IH]; intros t; cbn [fold_left map ssum fold_right].
  - ring.
  - rewrite IH. change (fold_right sadd s0 ?l) with (ssum l). ring.
Qed.
Lemma combine_pair om av t (DX DR : Z -> vec) c : (forall j, 0 <= j < s -> forall i, 0 <= i < n -> at_ (DR j) i = sopp (mv e (DX j) i)) ->
  (forall i, 0 <= i < n -> at_ t i = mv e av i) -> forall i, 0 <= i < n ->
  at_ (combine n s (sopp om) t DR c) i = sopp (mv e (combine n s om av DX c) i).
Proof.
  intros HP Ht i Hi. rewrite combine_at by auto.
  assert (HM : mv e (combine n s om av DX c) i = ssub (smul om (mv e av i)) (ssum (map (fun j => smul (mv e (DX j) i) (znth s0 c j)) (zrange 0 s)))).
  { unfold mv, mv_spec. rewrite <- (ssum_map_mul_l RT).
    transitivity (ssum (map (fun l => ssub (smul om (smul (coef (e_E e) i l) (at_ av l))) (ssum (map (fun j => smul (smul (coef (e_E e) i l) (at_ (DX j) l)) (znth s0 c j)) (zrange 0 s)))) (zrange 0 n))).
    - apply ssum_map_ext. intros l Hl. apply In_zrange in Hl. rewrite combine_at by lia.
      transitivity (ssub (smul om (smul (coef (e_E e) i l) (at_ av l))) (smul (coef (e_E e) i l) (ssum (map (fun j => smul (at_ (DX j) l) (znth s0 c j)) (zrange 0 s))))); [ring|].
      f_equal. rewrite <- (ssum_map_mul_l RT). apply ssum_map_ext. intros j _. ring.
    - transitivity (sadd (ssum (map (fun l => smul om (smul (coef (e_E e) i l) (at_ av l))) (zrange 0 n))) (ssum (map (fun l => smul (sopp s1) (ssum (map (fun j => smul (smul (coef (e_E e) i l) (at_ (DX j) l)) (znth s0 c j)) (zrange 0 s)))) (zrange 0 n)))).
      + rewrite <- (ssum_map_add RT). apply ssum_map_ext. intros l _. ring.
      + rewrite (ssum_map_mul_l RT (sopp s1)). rewrite (ssum_exchange RT).
        transitivity (ssub (ssum (map (fun l => smul om (smul (coef (e_E e) i l) (at_ av l))) (zrange 0 n))) (ssum (map (fun j => ssum (map (fun l => smul (smul (coef (e_E e) i l) (at_ (DX j) l)) (znth s0 c j)) (zrange 0 n))) (zrange 0 s)))); [ring|].
        f_equal. apply ssum_map_ext. intros j _. transitivity (smul (znth s0 c j) (ssum (map (fun l => smul (coef (e_E e) i l) (at_ (DX j) l)) (zrange 0 n)))); [|ring].
        rewrite <- (ssum_map_mul_l RT). apply ssum_map_ext. intros l _. ring. }
  rewrite HM, Ht by auto.
  assert (HS : ssum (map (fun j => smul (at_ (DR j) i) (znth s0 c j)) (zrange 0 s)) = sopp (ssum (map (fun j => smul (mv e (DX j) i) (znth s0 c j)) (zrange 0 s)))).
  { transitivity (smul (sopp s1) (ssum (map (fun j => smul (mv e (DX j) i) (znth s0 c j)) (zrange 0 s)))); [|ring]. rewrite <- (ssum_map_mul_l RT). apply ssum_map_ext. intros j Hj. apply In_zrange in Hj. rewrite (HP j) by lia. ring. }
  rewrite HS. ring.
Qed.

Lemma solve_safe {B} M m c MM (f : list T * list T -> res B) Q : arrays M m c MM ->
  (forall c' MM', zlen c' = s -> zlen MM' = s * s -> safe (f (c', MM')) Q) -> safe (bind (lis_array_solve s M m c MM) f) Q.
Proof.
  intros (A1 & A2 & A3 & A4) H. pose proof (solve_out FT EQ s M m c MM ltac:(lia) ltac:(lia) ltac:(lia) ltac:(lia) ltac:(lia)) as HO.
  destruct (lis_array_solve s M m c MM) as [[c' MM']| |]; cbn [out] in HO; [|apply HO|contradiction].
  cbn [bind]. destruct HO as ((B1 & B2 & _) & _). apply H; lia.
Qed.

Hypothesis Hmax : e_mem e = true -> e_maxiter e + 1 < zlen rh0.
Lemma pass_ok st : i_iter st <= e_maxiter e -> pass_inv st ->
  safe (idrs_pass (4 + 3 * s) s e bn tol st) (fun c => match c with Next st' => (pass_inv st' /\ i_iter st' = i_iter st + 1) /\ i_iter st < i_iter st' | Stop ret st' => i_iter st' = i_iter st + 1 /\ ret = LIS_SUCCESS /\ ends e bn tol (i_iter st') rh0 ret (i_k st') end).
Proof.
  intros Hit (H0 & H0' & H1 & H2 & HA & H6 & H7). unfold idrs_pass. cbv zeta. 
  apply (solve_safe _ _ _ _ _ _ HA). intros c MM Hc HMM.
  destruct st as [k iter old om0 M m c0 MM0]. cbn [i_k i_iter i_old i_om i_M i_m i_c i_MM] in *. destruct k as [W0 nr0 rh]. cbn [k_W k_nrm k_rh] in *.
  lw W1. apply safe_bind. eapply safe_mono.
  { apply (safe_for 0 s _ (fun _ W => forall j, j <> 2 -> W j = W0 j)); [lia|intros j Hj; apply Ho; exact Hj|].
    intros j W Hj HW. rewrite (rd_ok s0) by lia. cbn [bind safe]. intros j' Hj'. rewrite upd_d by auto. apply HW; auto. }
  intros W2 HW2. apply safe_bind. cbn beta.
  assert (NE : forall q, q = 4 + old \/ q = 4 + 2 * s + old -> need (4 + 3 * s) q = Ok tt).
  { intros q Hq. unfold need. destruct (Z.leb_spec 0 q); [|lia]. destruct (Z.ltb_spec q (4 + 3 * s)); [reflexivity|lia]. }
  apply safe_mono with (P := fun r => let '(W, om) := r in W 0 = W0 0 /\ W X = W0 X /\ forall j, 0 <= j < s -> pair W j).
  { destruct (iter mod (s + 1) =? s).
    - lw W3. lw W4. lv. lv. apply safe_divz. intros om. rewrite NE by auto. cbn [bind]. lw W5. rewrite NE by auto. cbn [bind]. lw W6. cbn [safe].
      split; [look; apply HW2; lia|]. split; [look; apply HW2; unfold X; lia|]. intros j Hj i Hi.
      destruct (Z.eq_dec j old) as [->|Hne].
      + look. refine (combine_pair om (e_psolve e iter (W2 2)) (matvec n (e_E e) (e_psolve e iter (W2 2))) (fun j => W4 (4 + j)) (fun j => W5 (4 + 2 * s + j)) c _ _ i Hi).
        * intros j Hj' l Hl. look. rewrite !HW2 by lia. apply H2; auto.
        * intros l Hl. apply at_matvec; auto.
      + look. rewrite !HW2 by lia. apply H2; auto.
    - lw W3. rewrite NE by auto. cbn [bind]. lw W4. rewrite NE by auto. cbn [bind]. lw W5. lw W6. cbn [safe].
      split; [look; apply HW2; lia|]. split; [look; apply HW2; unfold X; lia|]. intros j Hj i Hi.
      destruct (Z.eq_dec j old) as [->|Hne].
      + look. rewrite at_scale, at_matvec by auto. ring.
      + look. rewrite !HW2 by lia. apply H2; auto. }
  clear W1 Hs0 Ho HW2. intros [W3 om] (E0 & EX & HP). clear W2.
  lw W4. lw W5. lv.
  assert (RO : resid_ok e (W5 0) (W5 X)).
  { apply (resid_add W0 0 X (W3 (4 + old)) (W3 (4 + 2 * s + old))); [exact H1|apply HP; lia| |].
    - look. reflexivity.
    - look. reflexivity. }
  assert (PO : forall j, 0 <= j < s -> pair W5 j) by (intros j Hj i Hi; look; apply HP; auto).
  apply (safe_write e tol (iter + 1) rh0); [lia|intros Hm; specialize (Hmax Hm); lia|exact H6|]. intros rh' Hw.
  destruct (sleb (get_residual e bn (W5 0)) tol) eqn:El.
  - cbn [safe i_iter i_k]. split; [reflexivity|]. split; [reflexivity|]. exists (get_residual e bn (W5 0)). cbn [k_nrm k_W k_rh]. split; [reflexivity|]. split; [apply honest_v; exact RO|]. split; [exact Hw|left; auto].
  - destruct HA as (A1 & A2 & A3 & A4). apply safe_bind. eapply safe_mono.
    { apply (safe_for 0 s _ (fun _ Mm => zlen (fst Mm) = s * s /\ zlen (snd Mm) = s)); [lia|auto|]. intros i [M' m'] Hi (HM & Hm). cbn [fst snd] in *. lv.
      rewrite (rd_ok s0) by lia. cbn [bind]. rewrite wr_ok by lia. cbn [bind]. assert (B : 0 <= old * s + i < s * s) by nia. rewrite wr_ok by lia. cbn [bind safe fst snd]. rewrite !zlen_zupd. auto. }
    intros [M' m'] (HM & Hm). cbn [fst snd safe] in *. cbn [i_iter]. split; [|lia]. split; [|reflexivity]. unfold pass_inv. cbn [i_k i_iter i_old i_om i_M i_m i_c i_MM k_W k_nrm k_rh].
    split; [lia|]. split; [destruct (Z.eqb_spec (old + 1) s); lia|]. split; [exact RO|]. split; [exact PO|]. split; [unfold arrays; auto|].
    split; [apply (wrote_hist e tol (iter + 1) rh0 rh' _ ltac:(lia) Hw El)|].
    exists (get_residual e bn (W5 0)). split; [reflexivity|]. split; [apply honest_v; exact RO|]. split; [exact El|]. apply Hw.
Qed.
End IDRS.

(** *** IDR(1): one pass has two halves *)
Definition one_inv (W : Z -> vec) (st : jst (T:=T)) : Prop :=
  1 <= j_iter st /\ resid_ok e (W 0) (W X) /\ (forall i, 0 <= i < n -> at_ (W 6) i = sopp (mv e (W 5) i)) /\
  hist e tol (j_iter st + 1) rh0 (k_rh (j_k st)).
Definition known (st : jst (T:=T)) : Prop :=
  exists v, k_nrm (j_k st) = Some v /\ v = get_residual e bn (tres e (k_W (j_k st) X)) /\ sleb v tol = false /\ (e_mem e = true -> znth s0 (k_rh (j_k st)) (j_iter st) = v).
Definition one_post (st : jst (T:=T)) (c : ctl (jst (T:=T))) : Prop :=
  match c with
  | Next st' => one_inv (k_W (j_k st')) st' /\ known st' /\ j_iter st' = j_iter st + 1
  | Stop ret st' => j_iter st' = j_iter st + 1 /\ ret = LIS_SUCCESS /\ ends e bn tol (j_iter st') rh0 ret (j_k st')
  end.
Lemma check_ok W om st : one_inv W st -> (e_mem e = true -> j_iter st + 1 < zlen rh0) -> safe (idr1_check e bn tol W om st) (one_post st).
Proof.
  intros (H0 & H1 & H2 & H3) Hl. unfold idr1_check. cbv zeta. lw W1. lw W2. lv.
  assert (RO : resid_ok e (W2 0) (W2 X)).
  { apply (resid_add W 0 X (W 5) (W 6)); [exact H1|exact H2| |]; look; reflexivity. }
  apply (safe_write e tol (j_iter st + 1) rh0); [lia|exact Hl|exact H3|]. intros rh' Hw.
  destruct (sleb (get_residual e bn (W2 0)) tol) eqn:El.
  - cbn [safe one_post j_iter j_k]. split; [reflexivity|]. split; [reflexivity|]. exists (get_residual e bn (W2 0)). cbn [k_nrm k_W k_rh]. split; [reflexivity|]. split; [apply honest_v; exact RO|]. split; [exact Hw|left; auto].
  - lv. cbn [safe one_post]. unfold one_inv, known. cbn [j_iter j_k k_W k_nrm k_rh]. split; [|split; [|reflexivity]].
    + split; [lia|]. split; [exact RO|]. split; [intros i Hi; look; apply H2; exact Hi|]. apply (wrote_hist e tol (j_iter st + 1) rh0 rh' _ ltac:(lia) Hw El).
    + exists (get_residual e bn (W2 0)). split; [reflexivity|]. split; [apply honest_v; exact RO|]. split; [exact El|]. apply Hw.
Qed.
Lemma plain_safe {B} a b (f : T -> res B) Q : 1 <= n -> zlen a = n -> zlen b = n -> (forall h, safe (f h) Q) -> safe (bind (plain_dot n a b) f) Q.
Proof.
  intros Hn Ha Hb H. apply safe_bind. unfold plain_dot. rewrite !(rd_ok s0) by lia. cbn [bind]. eapply safe_mono; [apply (safe_for 1 n _ (fun _ _ => True)); [lia|exact I|]|intros h _; apply H].
  intros j h Hj _. rewrite !(rd_ok s0) by lia. cbn [bind safe]. exact I.
Qed.
Lemma zlen_tab (f : Z -> T) : 0 <= n -> zlen (tab n f) = n.
Proof. intros Hn. unfold tab, zlen. rewrite map_length. pose proof (zlen_zrange 0 n). unfold zlen in *. lia. Qed.
(** dX = om av - c dX, dR = - om t - c dR with t = A av *)
Lemma pair_step om c (av t dX dR : vec) : (forall i, 0 <= i < n -> at_ t i = mv e av i) -> (forall i, 0 <= i < n -> at_ dR i = sopp (mv e dX i)) ->
  forall i, 0 <= i < n -> at_ (tab n (fun i => ssub (smul (sopp om) (at_ t i)) (smul (at_ dR i) c))) i = sopp (mv e (tab n (fun i => ssub (smul om (at_ av i)) (smul (at_ dX i) c))) i).
Proof.
  intros Ht Hd i Hi. rewrite at_tab by auto. rewrite (mv_lin RT e om (sopp c) av dX).
  - rewrite Ht, Hd by auto. ring.
  - intros j Hj. rewrite at_tab by auto. ring.
Qed.
Lemma pass1_ok st : 1 <= n -> one_inv (k_W (j_k st)) st -> j_iter st <= e_maxiter e -> (e_mem e = true -> j_iter st + 2 < zlen rh0) ->
  safe (idr1_pass e bn tol st) (fun c => match c with
    | Next st' => one_inv (k_W (j_k st')) st' /\ known st' /\ j_iter st' = j_iter st + 2
    | Stop ret st' => (j_iter st' = j_iter st + 1 \/ j_iter st' = j_iter st + 2) /\ ret = LIS_SUCCESS /\ ends e bn tol (j_iter st') rh0 ret (j_k st') end).
Proof.
  intros Hn HI Hit Hl. unfold idr1_pass. cbv zeta. apply safe_divz. intros c.
  assert (H0 : 1 <= j_iter st) by apply HI. destruct HI as (_ & H1 & H2 & H3). revert H1 H2. generalize (k_W (j_k st)). intros W0 H1 H2.
  lw W1. lw W2. lw W3.
  apply plain_safe; [exact Hn|look; unfold matvec; apply zlen_tab; lia|look; unfold matvec; apply zlen_tab; lia|]. intros h.
  apply plain_safe; [exact Hn|look; unfold matvec; apply zlen_tab; lia|look; unfold axpy; apply zlen_tab; lia|]. intros om0.
  apply safe_divz. intros om. lw W4. lw W5. apply safe_bind. eapply safe_mono.
  { apply (check_ok W5 om st); [|intros Hm; specialize (Hl Hm); lia]. split; [exact H0|]. split; [look; exact H1|]. split; [|exact H3].
    assert (E1 : W5 6 = tab n (fun i => ssub (smul (sopp om) (at_ (matvec n (e_E e) (e_psolve e (j_iter st) (W1 2))) i)) (smul (at_ (W0 6) i) c))) by (rewrite Hs3; look; reflexivity).
    assert (E2 : W5 5 = tab n (fun i => ssub (smul om (at_ (e_psolve e (j_iter st) (W1 2)) i)) (smul (at_ (W0 5) i) c))) by (look; reflexivity).
    rewrite E1, E2. apply pair_step; [intros i Hi; apply at_matvec; exact Hi|exact H2]. }
  intros [st1|ret st1] HC; cbn [one_post] in HC.
  2:{ cbn [safe]. destruct HC as (C1 & C2 & C3). split; [left; exact C1|]. split; [exact C2|exact C3]. }
  destruct HC as ((_ & C1 & C2 & C3) & _ & C4). apply safe_divz. intros c1. revert C1 C2. generalize (k_W (j_k st1)). intros U0 C1 C2.
  lw U1. lw U2. lw U3. lw U4. lw U5. eapply safe_mono.
  { apply (check_ok U5 om st1); [|intros Hm; specialize (Hl Hm); lia]. split; [lia|]. split; [look; exact C1|]. split; [|exact C3].
    intros i Hi. look. rewrite at_scale, at_matvec by auto. ring. }
  intros [st2|ret st2] HC; cbn [one_post] in HC.
  - destruct HC as (D1 & D2 & D3). split; [exact D1|]. split; [exact D2|lia].
  - destruct HC as (D1 & D2 & D3). split; [right; lia|]. split; [exact D2|exact D3].
Qed.
End E.

(** *** the complete solvers *)
Definition sol_end (e : env (T:=T)) (x rh : list T) (P : Z -> Z -> Prop) (o : sol (T:=T)) : Prop :=
  let '(p, bn, tol, nr, acc) := get_initial_residual e x in
  if acc then o_ret o = LIS_SUCCESS /\ o_iter o = 1 /\ o_resid o = Some nr /\ o_x o = x /\ o_rh o = rh
  else P (o_ret o) (o_iter o) /\ exists v, o_resid o = Some v /\ v = get_residual e bn (tres e (o_x o)) /\ wrote e tol (o_iter o) rh (o_rh o) v /\
    (o_ret o = LIS_SUCCESS /\ sleb v tol = true \/ o_ret o = LIS_MAXITER /\ sleb v tol = false).
Lemma orth_ok n s P W : 0 <= s -> (forall j, 0 <= j < s -> 4 <= P j) -> safe (idrs_orth n s P W) (fun W' => W' 0 = W 0 /\ W' X = W X).
Proof.
  intros Hs HP. unfold idrs_orth. apply (safe_for 0 s _ (fun _ W' => W' 0 = W 0 /\ W' X = W X)); [lia|auto|].
  intros j W1 Hj (A1 & A2). pose proof (HP j Hj). apply safe_divz. intros q. apply safe_lt.
  apply (safe_for (j + 1) s _ (fun _ W' => W' 0 = W 0 /\ W' X = W X)); [lia| |].
  - rewrite !upd_d by (unfold X; lia). auto.
  - intros i W2 Hi (B1 & B2). pose proof (HP i ltac:(lia)). apply safe_lt. cbn [safe]. rewrite !upd_d by (unfold X; lia). auto.
Qed.
Lemma hist0 (e : env (T:=T)) tol rh : hist e tol 1 rh rh.
Proof. split; [reflexivity|]. split; [auto|]. split; [intros; lia|auto]. Qed.

Lemma lis_idrs_ok s rand junk (e : env (T:=T)) x rh : 1 <= s -> 0 <= e_maxiter e -> zlen rh = e_maxiter e + 2 -> zeros_ok e x ->
  (e_mem e = true -> s <= e_maxiter e + 1) ->
  safe (lis_idrs s rand junk e x rh) (sol_end e x rh (fun ret it => 1 <= it <= Z.max s (e_maxiter e + 1) /\ (ret = LIS_MAXITER -> it = Z.max s (e_maxiter e + 1)))).
Proof.
  intros Hs Hm Hrh HZ HL. unfold lis_idrs, sol_end. cbv zeta. destruct (Z.ltb_spec (4 + 3 * s) 0); [lia|].
  assert (N3 : need (4 + 3 * s) 3 = Ok tt) by (unfold need; destruct (Z.ltb_spec 3 (4 + 3 * s)); [reflexivity|lia]). rewrite N3. cbn [bind].
  pose proof (initial_resid RT e x HZ) as HI. destruct (get_initial_residual e x) as [[[[p bn] tol] nr] acc]. cbn [fst] in HI. destruct acc; [cbn [safe]; auto 10|].
  lw W1. assert (R1 : resid_ok e (W1 0) (W1 X)). { rewrite Hs0. rewrite Ho by (unfold X; lia). rewrite upd_s. exact HI. } clear Hs0 Ho.
  apply safe_bind. eapply safe_mono.
  { apply (safe_for 0 s _ (fun _ W => W 0 = W1 0 /\ W X = W1 X)); [lia|auto|]. intros j W Hj (A1 & A2). cbn [safe]. rewrite !upd_d by (unfold X; lia). auto. }
  intros W2 (A1 & A2). apply safe_bind. eapply safe_mono; [apply orth_ok; [lia|intros; lia]|]. intros W3 (A3 & A4).
  assert (R3 : resid_ok e (W3 0) (W3 X)) by (rewrite A3, A4, A1, A2; exact R1). clear A1 A2 A3 A4 R1 W1 W2.
  assert (ZT : forall k f, 0 <= k -> zlen (tab (T:=T) k f) = k) by (intros k f Hk; unfold tab, zlen; rewrite map_length; pose proof (zlen_zrange 0 k) as HQ; unfold zlen in HQ; lia).
  set (st0 := mkI _ _ _ _ _ _ _ _). apply safe_bind.
  eapply safe_mono.
  { apply (safe_ctl (idrs_first s e bn tol) (first_inv e bn tol rh s) (fun ret st => 1 <= i_iter st <= s /\ ret = LIS_SUCCESS /\ ends e bn tol (i_iter st) rh ret (i_k st)) s st0); [lia| |].
    - unfold first_inv, st0. cbn [i_k i_iter i_old i_M i_m i_c i_MM k_W k_nrm k_rh]. split; [exact R3|]. split; [intros; lia|]. split; [reflexivity|]. split; [reflexivity|].
      split; [unfold arrays; rewrite !ZT by nia; auto|]. split; [apply hist0|intros; lia].
    - intros j st Hj Hi. eapply safe_mono; [apply (first_ok e bn tol rh s Hs ltac:(intros Em; specialize (HL Em); lia) j st Hj Hi)|].
      intros [st1|ret st1] H1; [exact H1|]. destruct H1 as (H1 & H2 & H3). split; [lia|]. split; [exact H2|]. rewrite H1. exact H3. }
  intros [st1|ret st1] H1.
  - destruct H1 as (B1 & B2 & B3 & B4 & (B5 & B5' & B5'' & B5d) & B6 & B7). apply safe_bind. apply safe_bind. eapply safe_mono.
    { apply (safe_for 0 s _ (fun _ m => zlen m = s)); [lia|exact B5'|]. intros i m Hi HM. rewrite wr_ok by lia. cbn [safe]. rewrite zlen_zupd. exact HM. }
    intros m HM. cbv beta.
    set (I := fun st => pass_inv e bn tol rh s st /\ i_iter st <= Z.max s (e_maxiter e + 1)).
    set (Q := fun ret st => (1 <= i_iter st <= Z.max s (e_maxiter e + 1) /\ (ret = LIS_MAXITER -> i_iter st = Z.max s (e_maxiter e + 1))) /\ ends e bn tol (i_iter st) rh ret (i_k st)).
    eapply safe_mono.
    { apply (safe_repeat (e_maxiter e) i_iter _ I Q).
      - unfold I, pass_inv. cbn [i_k i_iter i_old i_om i_M i_m i_c i_MM]. rewrite B3, B4. split; [|lia]. split; [lia|]. split; [lia|]. split; [exact B1|]. split; [exact B2|].
        split; [unfold arrays; auto|]. split; [exact B6|]. apply B7. lia.
      - cbn [i_iter]. rewrite B3. lia.
      - intros st Hst (HI1 & HI2). eapply safe_mono; [apply (pass_ok e bn tol rh s Hs ltac:(intros Em; lia) st Hst HI1)|].
        intros [st2|ret2 st2] HC.
        + destruct HC as ((C1 & C2) & C3). split; [split; [exact C1|lia]|exact C3].
        + destruct HC as (C1 & C2 & C3). split; [|exact C3]. assert (s <= i_iter st) by apply HI1. split; [lia|]. rewrite C2. discriminate.
      - intros st Hst ((C0 & C0' & C1 & C2 & C3 & C4 & v & V1 & V2 & V3 & V4) & HI2). split; [split; [lia|intros _; lia]|].
        exists v. split; [exact V1|]. split; [exact V2|]. split; [|right; auto]. destruct C4 as (D1 & D2 & D3 & D4). split; [exact D1|]. split; [intros j Hj; apply D2; lia|]. split; [intros Em j Hj; apply D3; [exact Em|lia]|]. split; [exact D4|exact V4]. }
    intros [ret st] (C1 & v & V1 & V2 & V3 & V4). cbn [fst snd] in *. cbn [safe o_ret o_iter o_resid o_x o_rh]. split; [exact C1|]. exists v. auto.
  - destruct H1 as (C1 & C2 & v & V1 & V2 & V3 & V4). cbn [bind safe o_ret o_iter o_resid o_x o_rh]. split; [split; [lia|rewrite C2; discriminate]|]. exists v. auto.
Qed.

Lemma lis_idr1_ok s rand (e : env (T:=T)) x rh : 1 <= s -> 1 <= e_n e -> 0 <= e_maxiter e -> zlen rh = e_maxiter e + 2 -> zeros_ok e x ->
  (e_mem e = true -> Z.even (e_maxiter e) = true) ->
  safe (lis_idr1 s rand e x rh) (sol_end e x rh (fun ret it => 1 <= it <= e_maxiter e + 2 /\ (Z.even (e_maxiter e) = true -> it <= e_maxiter e + 1) /\
     (ret = LIS_MAXITER -> it = if Z.even (e_maxiter e) then e_maxiter e + 1 else e_maxiter e + 2))).
Proof.
  intros Hs Hn Hm Hrh HZ HE. unfold lis_idr1, sol_end. cbv zeta. destruct (Z.ltb_spec (4 + 3 * s) 0); [lia|].
  assert (NE : forall q, 0 <= q < 7 -> need (4 + 3 * s) q = Ok tt) by (intros q Hq; unfold need; destruct (Z.leb_spec 0 q); [|lia]; destruct (Z.ltb_spec q (4 + 3 * s)); [reflexivity|lia]).
  rewrite !NE by lia. cbn [bind].
  pose proof (initial_resid RT e x HZ) as HI. destruct (get_initial_residual e x) as [[[[p bn] tol] nr] acc]. cbn [fst] in HI. destruct acc; [cbn [safe]; auto 10|].
  lw W1. assert (R1 : resid_ok e (W1 0) (W1 X)). { rewrite Hs0. rewrite Ho by (unfold X; lia). rewrite upd_s. exact HI. } clear Hs0 Ho.
  lw W2. apply safe_bind. eapply safe_mono; [apply orth_ok; [lia|intros; lia]|]. intros W3 (A3 & A4). cbn beta.
  assert (R3 : resid_ok e (W3 0) (W3 X)) by (rewrite A3, A4; look; exact R1). clear A3 A4 R1 W1 W2 Hs0 Ho. cbn [bind].
  lw W4. lw W5. lv. lv. apply safe_divz. intros om. lw W6. lw W7. lw W8. lw W9. lv.
  assert (PJ : forall i, 0 <= i < e_n e -> at_ (W9 6) i = sopp (mv e (W9 5) i)).
  { intros i Hi. look. rewrite at_scale, at_matvec by auto. rewrite (mv_scale RT). ring. }
  assert (RO : resid_ok e (W9 0) (W9 X)).
  { assert (D1 : W9 6 = W7 6) by (look; reflexivity). assert (D2 : W9 5 = W7 5) by (look; reflexivity).
    apply (resid_add e W3 0 X (W7 5) (W7 6)); [exact R3| | |].
    - intros i Hi. rewrite <- D1, <- D2. apply PJ; auto.
    - look. reflexivity.
    - look. reflexivity. }
  apply (safe_write e tol 1 rh); [lia|intros; lia|apply hist0|]. intros rh' Hw.
  assert (HV : get_residual e bn (W9 0) = get_residual e bn (tres e (W9 X))) by (apply honest_v; exact RO).
  destruct (sleb (get_residual e bn (W9 0)) tol) eqn:El.
  - cbn [safe o_ret o_iter o_resid o_x o_rh]. split; [split; [lia|split; [lia|discriminate]]|]. exists (get_residual e bn (W9 0)). split; [reflexivity|]. split; [exact HV|]. split; [exact Hw|left; auto].
  - set (I := fun st => (one_inv e tol rh (k_W (j_k st)) st /\ known e bn tol st) /\ (exists h, j_iter st = 2 * h + 1) /\ j_iter st <= e_maxiter e + 2 /\ (Z.even (e_maxiter e) = true -> j_iter st <= e_maxiter e + 1)).
    set (Q := fun ret st => (1 <= j_iter st <= e_maxiter e + 2 /\ (Z.even (e_maxiter e) = true -> j_iter st <= e_maxiter e + 1) /\ (ret = LIS_MAXITER -> j_iter st = if Z.even (e_maxiter e) then e_maxiter e + 1 else e_maxiter e + 2)) /\ ends e bn tol (j_iter st) rh ret (j_k st)).
    apply safe_bind. eapply safe_mono.
    { apply (safe_repeat (e_maxiter e) j_iter _ I Q).
      - unfold I, one_inv, known. cbn [j_k j_iter k_W k_nrm k_rh]. split; [|split; [exists 0; lia|lia]]. split.
        + split; [lia|]. split; [exact RO|]. split; [exact PJ|]. apply (wrote_hist e tol 1 rh rh' _ ltac:(lia) Hw El).
        + exists (get_residual e bn (W9 0)). split; [reflexivity|]. split; [exact HV|]. split; [exact El|]. apply Hw.
      - cbn [j_iter]. lia.
      - intros st Hst ((I1 & I2) & (h & I3) & I4 & I5).
        assert (EV : Z.even (e_maxiter e) = true -> j_iter st + 2 <= e_maxiter e + 1).
        { intros Hev. apply Z.even_spec in Hev. destruct Hev as (k & Hk). lia. }
        eapply safe_mono; [apply (pass1_ok e bn tol rh st Hn I1 Hst); intros Em; specialize (EV (HE Em)); lia|].
        intros [st2|ret2 st2] HC.
        + destruct HC as (C1 & C2 & C3). split; [|lia]. split; [auto|]. split; [exists (h + 1); lia|]. split; [lia|]. intros Hev. specialize (EV Hev). lia.
        + destruct HC as (C1 & C2 & C3). split; [|exact C3]. assert (1 <= j_iter st) by apply I1. split; [lia|]. split; [intros Hev; specialize (EV Hev); lia|rewrite C2; discriminate].
      - intros st Hst (((J0 & J1 & J2 & J3) & (v & V1 & V2 & V3 & V4)) & (h & I3) & I4 & I5). split.
        + split; [lia|]. split; [exact I5|]. intros _. destruct (Z.even (e_maxiter e)) eqn:Ev; [specialize (I5 eq_refl); lia|].
          assert (Z.odd (e_maxiter e) = true) as Ho' by (rewrite <- Z.negb_even, Ev; reflexivity). apply Z.odd_spec in Ho'. destruct Ho' as (k & Hk). lia.
        + exists v. split; [exact V1|]. split; [exact V2|]. split; [|right; auto]. destruct J3 as (D1 & D2 & D3 & D4). split; [exact D1|]. split; [intros j Hj; apply D2; lia|]. split; [intros Em j Hj; apply D3; [exact Em|lia]|]. split; [exact D4|exact V4]. }
    intros [ret st] (C1 & v & V1 & V2 & V3 & V4). cbn [fst snd] in *. cbn [safe o_ret o_iter o_resid o_x o_rh]. split; [exact C1|]. exists v. auto.
Qed.
End P.
