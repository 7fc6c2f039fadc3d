(** One step of the Crout factorisation. *)
Require Import ZArith List Bool Lia Ring Permutation.
From Verif Require Import Base Scalar Spec SpecIlu Sort SortProof ConvFinal Csc Split Ilu IluProof IluProof2 Ilut IlutRow SainvMath SainvStep Iluc IlucLists IlucAcc IlucElim IlucDrop.
Import ListNotations.
Open Scope Z_scope.

Section P.
Context {T : Type} {S : Scalar T}.
Hypothesis RT : is_ring S.
Let RT' : @ring_theory T s0 s1 sadd smul ssub sopp (@eq T) := RT.
Add Ring TrIlucS : RT'.
Hypothesis Hswo : strict_weak_order (sltb (T:=T)).
Notation wrow := (wrow (T:=T)).

Lemma wclear_wp n k (s : wrow) : 0 <= k < n -> zlen (w_ix s) = n -> zlen (w_c s) = n -> 0 <= w_n s <= n -> (forall p, 0 <= p < w_n s -> k < znth 0 (w_ix s) p < n) ->
  (forall c, k < c < n -> znth 0 (w_c s) c = 0 \/ exists p, 0 <= p < w_n s /\ znth 0 (w_ix s) p = c) ->
  wp (wclear s) (fun s' => w_v s' = w_v s /\ w_ix s' = w_ix s /\ zlen (w_c s') = n /\ same_low k s s' /\ forall c, k < c < n -> znth 0 (w_c s') c = 0).
Proof.
  intros Hk L1 L2 Hn HR HM. unfold wclear. wbind.
  apply (for_wp' (fun j c' => zlen c' = n /\ (forall i, 0 <= i <= k -> znth 0 c' i = znth 0 (w_c s) i) /\ (forall c, k < c < n -> znth 0 c' c = 0 \/ exists p, j <= p < w_n s /\ znth 0 (w_ix s) p = c))).
  - lia.
  - auto.
  - intros j c' Hj (I1 & I2 & I3). specialize (HR j Hj). wrd 0; [lia|]. wwr; [lia|]. rewrite zlen_zupd. split; [exact I1|]. split.
    + intros i Hi. rewrite znth_zupd_neq by lia. apply I2; exact Hi.
    + intros c Hc. destruct (Z.eq_dec c (znth 0 (w_ix s) j)) as [->|N]; [left; apply znth_zupd_eq; lia|]. rewrite znth_zupd_neq by lia.
      destruct (I3 c Hc) as [H|(p & Hp & E)]; [left; exact H|]. right. exists p. split; [|exact E]. destruct (Z.eq_dec p j); [subst p; congruence|lia].
  - intros c' (I1 & I2 & I3). apply wp_ok. cbn [w_v w_ix w_c w_n]. split; [reflexivity|]. split; [reflexivity|]. split; [exact I1|]. split; [exact I2|].
    intros c Hc. destruct (I3 c Hc) as [H|(p & Hp & _)]; [exact H|lia].
Qed.

Lemma wenter_wp n k Lx rx (s : wrow) pl : 0 <= k < n -> k < zlen Lx -> rising rx -> (forall c, In c rx -> k < c < n) -> zlen (w_ix s) = n -> zlen (w_c s) = n ->
  znth 0 (w_c s) k = 0 -> (forall p, 0 <= p < zlen rx -> znth 0 (w_ix s) p = znth 0 rx p) -> lists n k k Lx (w_c s) pl [] ->
  wp (wenter k (zlen rx) s pl) (fun r => let '(s', pl') := r in w_v s' = w_v s /\ w_ix s' = w_ix s /\ zlen (w_c s') = n /\ (forall i, 0 <= i < n -> znth 0 (w_c s') i = znth 0 (w_c s) i) /\
    lists n (k + 1) k (zupd Lx k rx) (w_c s') pl' []).
Proof.
  intros Hk HL HR HI L1 L2 H0 HX HLS. unfold wenter.
  destruct (lists_enter n k Lx (w_c s) pl rx Hk HL HR HI H0 HLS) as (E1 & E2). pose proof (zlen_nonneg rx).
  assert (Lpl : zlen pl = n) by (apply HLS).
  destruct (Z.ltb_spec 0 (zlen rx)) as [Hl|Hl].
  - destruct (E1 Hl) as (Hj & LS). wrd 0; [lia|]. rewrite HX by lia. wwr; [lia|]. wrd 0; [lia|]. wwr; [lia|]. wwr; [rewrite zlen_zupd; lia|]. apply wp_ok. cbn [w_v w_ix w_c].
    rewrite zlen_zupd. split; [reflexivity|]. split; [reflexivity|]. split; [exact L2|].
    assert (SM : forall i, 0 <= i < n -> znth 0 (zupd (w_c s) k 0) i = znth 0 (w_c s) i).
    { intros i Hi. destruct (Z.eq_dec i k) as [->|N]; [rewrite znth_zupd_eq by lia; congruence|apply znth_zupd_neq; lia]. }
    split; [exact SM|]. eapply lists_ext; [|intros i Hi; apply SM; lia|exact LS]. rewrite zlen_zupd; exact L2.
  - apply wp_ok. split; [reflexivity|]. split; [reflexivity|]. split; [exact L2|]. split; [reflexivity|]. apply E2. lia.
Qed.

(** the entries of row (column) k of the triangular input *)
Definition input (n : Z) (ptr index : list Z) (value : list T) : Prop := forall k, 0 <= k < n ->
  k + 1 < zlen ptr /\ 0 <= znth 0 ptr k <= znth 0 ptr (k + 1) /\ znth 0 ptr (k + 1) <= zlen index /\ znth 0 ptr (k + 1) <= zlen value /\
  (forall j, znth 0 ptr k <= j < znth 0 ptr (k + 1) -> k < znth 0 index j < n) /\
  (forall a b, znth 0 ptr k <= a < znth 0 ptr (k + 1) -> znth 0 ptr k <= b < znth 0 ptr (k + 1) -> znth 0 index a = znth 0 index b -> a = b).

Section F.
Variables (n lfil : Z) (tol : T) (aU aL : Z -> Z -> T) (aD : Z -> T).

(** row k of U before dropping, column k of L before dropping and scaling *)
Definition zf (Lx : list (list Z)) Lv Ux Uv (k c : Z) : T := ssub (aU k c) (ssum (map (fun i => smul (fel Lx Lv i k) (fel Ux Uv i c)) (zrange 0 k))).
Definition wf (Lx : list (list Z)) Lv Ux Uv (k c : Z) : T := ssub (aL k c) (ssum (map (fun i => smul (fel Ux Uv i k) (fel Lx Lv i c)) (zrange 0 k))).
(** the diagonal after k steps *)
Definition df (Lx : list (list Z)) Lv Ux Uv (D : list T) (k j : Z) : T :=
  ssub (aD j) (ssum (map (fun m => smul (smul (zf Lx Lv Ux Uv m j) (wf Lx Lv Ux Uv m j)) (znth s0 D m)) (zrange 0 k))).

Definition rowspec (i : Z) (toldd : T) (f : Z -> T) (g : T -> T) (ix : list Z) (v : list T) : Prop :=
  rising ix /\ v = map (fun c => g (f c)) ix /\ zlen ix <= lfil /\ (forall c, In c ix -> i < c < n /\ big toldd f c = true) /\
  (zlen ix < lfil -> forall c, i < c < n -> f c <> s0 -> big toldd f c = true -> In c ix).

Definition math (k : Z) (Lx : list (list Z)) Lv Ux Uv (D : list T) : Prop :=
  zlen Lx = n /\ zlen Lv = n /\ zlen Ux = n /\ zlen Uv = n /\ zlen D = n /\
  (forall i, 0 <= i < k -> let p := df Lx Lv Ux Uv D i i in znth s0 D i = sdiv s1 p /\
     rowspec i (smul (sabs p) tol) (zf Lx Lv Ux Uv i) (fun a => a) (znth [] Ux i) (znth [] Uv i) /\
     rowspec i (smul (sabs p) tol) (wf Lx Lv Ux Uv i) (fun a => smul a (znth s0 D i)) (znth [] Lx i) (znth [] Lv i)) /\
  (forall j, k <= j < n -> znth s0 D j = df Lx Lv Ux Uv D k j).

Definition wok (k : Z) (s : wrow) : Prop := zlen (w_v s) = n /\ zlen (w_ix s) = n /\ zlen (w_c s) = n /\ forall j, k <= j < n -> znth 0 (w_c s) j = 0.

Definition inv (k : Z) (q : cst) : Prop :=
  math k (c_L q) (c_Lv q) (c_U q) (c_Uv q) (c_D q) /\ wok k (c_z q) /\ wok k (c_w q) /\
  lists n k (k - 1) (c_U q) (w_c (c_z q)) (c_zl q) [] /\ lists n k (k - 1) (c_L q) (w_c (c_w q)) (c_wl q) [] /\ zlen (c_tmp q) = n.

Lemma rowspec_ok i toldd f g ix v : rowspec i toldd f g ix v -> rising ix /\ (forall c, In c ix -> i < c < n) /\ zlen v = zlen ix.
Proof. intros (A & B & _ & D & _). split; [exact A|]. split; [intros c Hc; apply D; exact Hc|]. rewrite B, zlen_map. reflexivity. Qed.
Lemma rowspec_ext i toldd f f' g ix v : (forall c, i < c < n -> f c = f' c) -> rowspec i toldd f g ix v -> rowspec i toldd f' g ix v.
Proof.
  intros H (A & B & C & D & E). split; [exact A|]. split; [|split; [exact C|split]].
  - rewrite B. apply map_ext_in. intros c Hc. rewrite H; [reflexivity|apply D; exact Hc].
  - intros c Hc. destruct (D c Hc) as (D1 & D2). split; [exact D1|]. unfold big in *. rewrite <- H by exact D1. exact D2.
  - intros Hl c Hc H1 H2. apply E; [exact Hl|exact Hc|rewrite H; assumption|unfold big in *; rewrite H; assumption].
Qed.
Lemma math_rows k Lx Lv Ux Uv D : math k Lx Lv Ux Uv D -> rows_ok n k Lx Lv /\ rows_ok n k Ux Uv.
Proof.
  intros (A1 & A2 & A3 & A4 & A5 & A6 & _). split; (split; [assumption|split; [assumption|]]); intros i Hi; destruct (A6 i Hi) as (_ & B & C).
  - eapply rowspec_ok; exact C.
  - eapply rowspec_ok; exact B.
Qed.
Lemma stored_rowspec k toldd f g cols (s : wrow) ix v : acc n k f cols s -> stored lfil toldd f g cols ix v -> rowspec k toldd f g ix v.
Proof.
  intros (A1 & A2 & A3 & A4 & A5 & A6 & A7 & A8 & A9) (B1 & B2 & B3 & B4 & B5). split; [exact B1|]. split; [exact B2|]. split; [lia|]. split.
  - intros c Hc. destruct (B4 c Hc) as (C1 & C2). auto.
  - intros Hl c Hc H1 H2. apply B5; auto. destruct (in_dec Z.eq_dec c cols) as [C|C]; [exact C|]. exfalso. apply H1. apply A9; assumption.
Qed.

(** the same rows below k give the same functions up to k *)
Lemma zf_ext Lx Lv Ux Uv Lx' Lv' Ux' Uv' k : (forall i, 0 <= i < k -> forall c, fel Lx' Lv' i c = fel Lx Lv i c /\ fel Ux' Uv' i c = fel Ux Uv i c) ->
  forall i c, i <= k -> zf Lx' Lv' Ux' Uv' i c = zf Lx Lv Ux Uv i c /\ wf Lx' Lv' Ux' Uv' i c = wf Lx Lv Ux Uv i c.
Proof.
  intros H i c Hi. unfold zf, wf. split; f_equal; apply sum_ext; intros q Hq; destruct (H q ltac:(lia) c) as (E1 & E2); destruct (H q ltac:(lia) i) as (E3 & E4); rewrite ?E1, ?E2, ?E3, ?E4; reflexivity.
Qed.

Lemma math_step k Lx Lv Ux Uv D D' lx lv ux uv : 0 <= k < n -> math k Lx Lv Ux Uv D -> zlen D' = n ->
  znth s0 D' k = sdiv s1 (znth s0 D k) -> (forall j, 0 <= j < k -> znth s0 D' j = znth s0 D j) ->
  (forall j, k < j < n -> znth s0 D' j = ssub (znth s0 D j) (smul (smul (zf Lx Lv Ux Uv k j) (wf Lx Lv Ux Uv k j)) (sdiv s1 (znth s0 D k)))) ->
  rowspec k (smul (sabs (znth s0 D k)) tol) (zf Lx Lv Ux Uv k) (fun a => a) ux uv ->
  rowspec k (smul (sabs (znth s0 D k)) tol) (wf Lx Lv Ux Uv k) (fun a => smul a (sdiv s1 (znth s0 D k))) lx lv ->
  math (k + 1) (zupd Lx k lx) (zupd Lv k lv) (zupd Ux k ux) (zupd Uv k uv) D'.
Proof.
  intros Hk (M1 & M2 & M3 & M4 & M5 & M6 & M7) LD DK DL DH RU RL.
  set (Lx' := zupd Lx k lx). set (Lv' := zupd Lv k lv). set (Ux' := zupd Ux k ux). set (Uv' := zupd Uv k uv).
  assert (FE : forall i, 0 <= i < k -> forall c, fel Lx' Lv' i c = fel Lx Lv i c /\ fel Ux' Uv' i c = fel Ux Uv i c).
  { intros i Hi c. unfold fel, Lx', Lv', Ux', Uv'. rewrite !znth_zupd_neq by lia. auto. }
  pose proof (zf_ext Lx Lv Ux Uv Lx' Lv' Ux' Uv' k FE) as ZE.
  assert (DE : forall m j, m <= k -> df Lx' Lv' Ux' Uv' D' m j = df Lx Lv Ux Uv D m j).
  { intros m j Hm. unfold df. f_equal. apply sum_ext. intros q Hq. destruct (ZE q j ltac:(lia)) as (-> & ->). rewrite DL by lia. reflexivity. }
  assert (DS : forall j, df Lx' Lv' Ux' Uv' D' (k + 1) j = ssub (df Lx Lv Ux Uv D k j) (smul (smul (zf Lx Lv Ux Uv k j) (wf Lx Lv Ux Uv k j)) (znth s0 D' k))).
  { intros j. rewrite <- (DE k j) by lia. unfold df at 1 2. rewrite zrange_snoc by lia. rewrite map_app, (ssum_app RT). cbn [map ssum].
    destruct (ZE k j ltac:(lia)) as (-> & ->). ring. }
  unfold math. unfold Lx', Lv', Ux', Uv'. rewrite !zlen_zupd. do 5 (split; [assumption|]). split.
  - intros i Hi. fold Lx' Lv' Ux' Uv'. rewrite DE by lia. destruct (Z.eq_dec i k) as [->|N].
    + rewrite <- (M7 k) by lia. split; [exact DK|]. unfold Lx', Lv', Ux', Uv'. rewrite !znth_zupd_eq by lia. fold Lx' Lv' Ux' Uv'. rewrite DK. split.
      * eapply rowspec_ext; [|exact RU]. intros c Hc. symmetry. apply ZE. lia.
      * eapply rowspec_ext; [|exact RL]. intros c Hc. symmetry. apply ZE. lia.
    + destruct (M6 i ltac:(lia)) as (E1 & E2 & E3). rewrite DL by lia. split; [exact E1|]. unfold Lx', Lv', Ux', Uv'. rewrite !znth_zupd_neq by lia. fold Lx' Lv' Ux' Uv'. split.
      * eapply rowspec_ext; [|exact E2]. intros c Hc. symmetry. apply ZE. lia.
      * eapply rowspec_ext; [|exact E3]. intros c Hc. symmetry. apply ZE. lia.
  - intros j Hj. fold Lx' Lv' Ux' Uv'. rewrite DS, DK, DH by lia. rewrite (M7 j) by lia. reflexivity.
Qed.

Lemma iluc_step_wp (AU : csr T) (AL : csc T) k (q : cst) : 0 <= k < n -> 0 <= lfil ->
  input n (csr_ptr AU) (csr_index AU) (csr_value AU) -> input n (csc_ptr AL) (csc_index AL) (csc_value AL) ->
  (forall i c, aU i c = line (csr_ptr AU) (csr_index AU) (csr_value AU) i c) -> (forall i c, aL i c = line (csc_ptr AL) (csc_index AL) (csc_value AL) i c) ->
  inv k q -> wp (iluc_step n tol lfil AU AL k q) (inv (k + 1)).
Proof.
  intros Hk Hlf HU HL EU EL (HM & (Z1 & Z2 & Z3 & Z4) & (W1 & W2 & W3 & W4) & LZ & LW & Ltmp). unfold iluc_step.
  destruct (math_rows _ _ _ _ _ _ HM) as (ROL & ROU). pose proof HM as (M1 & M2 & M3 & M4 & M5 & _).
  destruct (HU k Hk) as (u1 & u2 & u3 & u4 & u5 & u6). destruct (HL k Hk) as (l1 & l2 & l3 & l4 & l5 & l6).
  wbind. eapply wp_mono; [apply (wload_wp RT n k); auto; intros c Hc; apply Z4; lia|]. intros z1 (cz1 & AZ1 & SZ1).
  wbind. eapply wp_mono; [apply (wload_wp RT n k); auto; intros c Hc; apply W4; lia|]. intros w1 (cw1 & AW1 & SW1).
  assert (LZ1 : lists n k (k - 1) (c_U q) (w_c z1) (c_zl q) []).
  { eapply lists_ext; [apply AZ1|intros i Hi; apply SZ1; lia|exact LZ]. }
  assert (LW1 : lists n k (k - 1) (c_L q) (w_c w1) (c_wl q) []).
  { eapply lists_ext; [apply AW1|intros i Hi; apply SW1; lia|exact LW]. }
  wbind. eapply wp_mono; [apply (wlist_wp RT true n k (c_L q) (c_Lv q) (c_U q) (c_Uv q) (w_c w1) (c_wl q) _ cz1 z1 Hk ROL ROU LW1 AZ1)|].
  { intros i Hi. cbv zeta. destruct LZ1 as (_ & _ & G & _). destruct (G i Hi) as (G1 & G2 & G3). split; [exact G1|]. split.
    - intros t Ht. specialize (G2 t Ht). lia.
    - intros t Ht. specialize (G3 ltac:(auto) t Ht). lia. }
  intros [[z2 wc] wl] (cz2 & AZ2 & SZ2 & LW2 & FW2).
  assert (AW2 : acc n k (line (csc_ptr AL) (csc_index AL) (csc_value AL) k) cw1 (setc w1 wc)).
  { destruct AW1 as (A1 & A2 & A3 & A4 & A5 & A6 & A7 & A8 & A9). unfold acc. cbn [setc w_v w_ix w_c w_n]. split; [exact A1|]. split; [exact A2|]. split; [apply LW2|].
    do 4 (split; [assumption|]). split.
    - intros c Hc. specialize (A7 c Hc). rewrite FW2 by lia. apply A8; exact Hc.
    - intros c Hc Hn. rewrite FW2 by lia. apply A9; assumption. }
  assert (LZ2 : lists n k (k - 1) (c_U q) (w_c z2) (c_zl q) []).
  { eapply lists_ext; [apply AZ2|intros i Hi; apply SZ2; lia|exact LZ1]. }
  wbind. eapply wp_mono; [apply (wlist_wp RT false n k (c_U q) (c_Uv q) (c_L q) (c_Lv q) (w_c z2) (c_zl q) _ cw1 (setc w1 wc) Hk ROU ROL LZ2 AW2)|].
  { intros i Hi. cbv zeta. cbn [setc w_c]. destruct LW2 as (_ & _ & G & _). destruct (G i Hi) as (G1 & G2 & G3). split; [exact G1|]. split; [exact G2|].
    intros t Ht. exact (G3 ltac:(auto) t Ht). }
  intros [[w3 zc] zl] (cw3 & AW3 & SW3 & LZ3 & FZ3). cbv zeta.
  assert (AZ3 : acc n k (zf (c_L q) (c_Lv q) (c_U q) (c_Uv q) k) cz2 (setc z2 zc)).
  { apply (acc_ext n k (fun c => ssub (line (csr_ptr AU) (csr_index AU) (csr_value AU) k c) (ssum (map (fun i => smul (fel (c_L q) (c_Lv q) i k) (fel (c_U q) (c_Uv q) i c)) (zrange 0 k))))); [intros c Hc; unfold zf; rewrite EU; reflexivity|].
    destruct AZ2 as (A1 & A2 & A3 & A4 & A5 & A6 & A7 & A8 & A9). unfold acc. cbn [setc w_v w_ix w_c w_n]. split; [exact A1|]. split; [exact A2|]. split; [apply LZ3|].
    do 4 (split; [assumption|]). split.
    - intros c Hc. specialize (A7 c Hc). rewrite FZ3 by lia. apply A8; exact Hc.
    - intros c Hc Hn. rewrite FZ3 by lia. apply A9; assumption. }
  assert (AW4 : acc n k (wf (c_L q) (c_Lv q) (c_U q) (c_Uv q) k) cw3 w3).
  { eapply acc_ext; [|exact AW3]. intros c Hc. unfold wf. rewrite EL. reflexivity. }
  set (z3 := setc z2 zc) in *. set (fz := zf (c_L q) (c_Lv q) (c_U q) (c_Uv q) k) in *. set (fw := wf (c_L q) (c_Lv q) (c_U q) (c_Uv q) k) in *.
  assert (ZK : znth 0 (w_c z3) k = 0).
  { unfold z3. cbn [setc w_c]. rewrite FZ3 by lia. rewrite SZ2 by lia. rewrite SZ1 by lia. apply Z4. lia. }
  assert (WK : znth 0 (w_c w3) k = 0).
  { rewrite SW3 by lia. cbn [setc w_c]. rewrite FW2 by lia. rewrite SW1 by lia. apply W4. lia. }
  assert (LW3 : lists n k k (c_L q) (w_c w3) wl []).
  { eapply lists_ext; [apply AW4| |exact LW2]. intros i Hi. rewrite SW3 by lia. reflexivity. }
  assert (LZ3' : lists n k k (c_U q) (w_c z3) zl []) by exact LZ3.
  wbind. eapply wp_mono; [apply (wdiag_wp RT n k tol (c_D q) fz fw cz2 cw3 z3 w3 Hk M5 AZ3 AW4)|].
  intros [[toldd t] D'] (-> & -> & LD & DK & DL & DH).
  set (toldd := smul (sabs (znth s0 (c_D q) k)) tol). set (t := sdiv s1 (znth s0 (c_D q) k)).
  wbind. eapply wp_mono; [apply (wdrop_wp Hswo true n k lfil toldd (fun a => a) fz cz2 z3 (c_tmp q) Hk Hlf AZ3 Ltmp)|].
  intros [[[z4 tmp1] ux] uv] (T1 & V1 & V2 & V3 & V4 & V5 & V6 & V7 & V8 & V9).
  wwr; [lia|]. wwr; [lia|].
  wbind. eapply wp_mono; [apply (wdrop_wp Hswo false n k lfil toldd (fun a => smul a t) fw cw3 w3 tmp1 Hk Hlf AW4 T1)|].
  intros [[[w4 tmp2] lx] lv] (T2 & Y1 & Y2 & Y3 & Y4 & Y5 & Y6 & Y7 & Y8 & Y9).
  wwr; [lia|]. wwr; [lia|].
  pose proof (stored_rowspec k _ _ _ _ _ _ _ AZ3 V5) as RU. pose proof (stored_rowspec k _ _ _ _ _ _ _ AW4 Y5) as RL.
  destruct (rowspec_ok _ _ _ _ _ _ RU) as (RU1 & RU2 & RU3). destruct (rowspec_ok _ _ _ _ _ _ RL) as (RL1 & RL2 & RL3).
  pose proof (zlen_nonneg ux) as U0. pose proof (zlen_nonneg lx) as L0.
  wbind. eapply wp_mono; [apply (wclear_wp n k z4 Hk V2 V3); [lia|exact V7|exact V9]|]. intros z5 (X1 & X2 & X3 & X4 & X5).
  wbind. eapply wp_mono; [apply (wclear_wp n k w4 Hk Y2 Y3); [lia|exact Y7|exact Y9]|]. intros w5 (X1' & X2' & X3' & X4' & X5').
  assert (LZ5 : lists n k k (c_U q) (w_c z5) zl []).
  { eapply lists_ext; [exact X3| |exact LZ3']. intros i Hi. rewrite X4, V8 by lia. reflexivity. }
  assert (LW5 : lists n k k (c_L q) (w_c w5) wl []).
  { eapply lists_ext; [exact X3'| |exact LW3]. intros i Hi. rewrite X4', Y8 by lia. reflexivity. }
  assert (ZK5 : znth 0 (w_c z5) k = 0) by (rewrite X4, V8 by lia; exact ZK).
  assert (WK5 : znth 0 (w_c w5) k = 0) by (rewrite X4', Y8 by lia; exact WK).
  wbind. eapply wp_mono; [apply (wenter_wp n k (c_U q) ux z5 zl Hk ltac:(lia) RU1 RU2 ltac:(rewrite X2; exact V2) X3 ZK5 ltac:(rewrite X2; exact V6) LZ5)|].
  intros [z6 zl'] (E1 & E2 & E3 & E4 & E5).
  wbind. eapply wp_mono; [apply (wenter_wp n k (c_L q) lx w5 wl Hk ltac:(lia) RL1 RL2 ltac:(rewrite X2'; exact Y2) X3' WK5 ltac:(rewrite X2'; exact Y6) LW5)|].
  intros [w6 wl'] (E1' & E2' & E3' & E4' & E5').
  apply wp_ok. unfold inv. cbn [c_L c_Lv c_U c_Uv c_D c_z c_w c_zl c_wl c_tmp]. replace (k + 1 - 1) with k by lia.
  split; [|split; [|split; [|split; [exact E5|split; [exact E5'|exact T2]]]]].
  - apply (math_step k _ _ _ _ (c_D q)); auto.
  - split; [rewrite E1, X1; exact V1|]. split; [rewrite E2, X2; exact V2|]. split; [exact E3|]. intros j Hj. rewrite E4 by lia. apply X5. lia.
  - split; [rewrite E1', X1'; exact Y1|]. split; [rewrite E2', X2'; exact Y2|]. split; [exact E3'|]. intros j Hj. rewrite E4' by lia. apply X5'. lia.
Qed.
End F.
End P.
