(** Proofs about Memory.v *)
Require Import ZArith List Bool Lia Permutation.
From Verif Require Import Base Memory SpecMemory.
Import ListNotations.
Open Scope Z_scope.

Lemma align16_bound a : a <= align16 a <= a + 15.
Proof. unfold align16. pose proof (Z.div_mod (a + 15) 16 ltac:(lia)). pose proof (Z.mod_pos_bound (a + 15) 16 ltac:(lia)). lia. Qed.

Definition sys_of (r : reg) : Z * Z := (r_real r, r_size r + 16).
Definition pair_of (r : reg) : Z * Z := (r_address r, r_size r).
Definition disj (a b : Z * Z) : Prop := fst a + snd a <= fst b \/ fst b + snd b <= fst a.

Inductive all_disj : list (Z * Z) -> Prop :=
| ad_nil : all_disj []
| ad_cons b l : (forall c, In c l -> disj b c) -> all_disj l -> all_disj (b :: l).

Definition minv (live : list (Z * Z)) (s : mem) : Prop :=
  Permutation (m_sys s) (map sys_of (m_regs s)) /\ all_disj (map sys_of (m_regs s)) /\
  (forall r, In r (m_regs s) -> 0 < r_real r /\ 0 <= r_size r /\ r_address r = align16 (r_real r)) /\
  Permutation live (map pair_of (m_regs s)).

Lemma all_disj_perm l l' : Permutation l l' -> all_disj l -> all_disj l'.
Proof.
  induction 1; intros H'; auto.
  - inversion H'; subst. constructor; auto. intros c Hc. apply H2. apply (Permutation_in _ (Permutation_sym H)); auto.
  - inversion H'; subst. inversion H2; subst. constructor.
    + intros c [<-|Hc]; [|auto]. specialize (H1 x ltac:(left; auto)). unfold disj in *. lia.
    + constructor; auto. intros c Hc. apply H1. right; auto.
Qed.

(** addresses of registered blocks are distinct *)
Lemma addr_inj l : all_disj (map sys_of l) -> (forall r, In r l -> 0 < r_real r /\ 0 <= r_size r /\ r_address r = align16 (r_real r)) ->
  NoDup (map r_address l).
Proof.
  induction l as [|r l IH]; cbn [map]; intros HD H; [constructor|]. inversion HD; subst. constructor.
  - intros Hin. apply in_map_iff in Hin. destruct Hin as (r' & E & Hr'). specialize (H2 (sys_of r') ltac:(apply in_map; auto)).
    unfold disj, sys_of in H2. cbn [fst snd] in H2.
    destruct (H r ltac:(left; auto)) as (P1 & P2 & P3). destruct (H r' ltac:(right; auto)) as (Q1 & Q2 & Q3).
    pose proof (align16_bound (r_real r)). pose proof (align16_bound (r_real r')). lia.
  - apply IH; auto. intros; apply H; right; auto.
Qed.

Lemma find_reg_spec p l : match find_reg p l with
  | Some r => exists l1 l2, l = l1 ++ r :: l2 /\ r_address r = p /\ drop_reg p l = l1 ++ l2 /\ (forall r', set_reg p r' l = l1 ++ r' :: l2)
  | None => forall r, In r l -> r_address r <> p end.
Proof.
  induction l as [|a l IH]; cbn [find_reg drop_reg set_reg]; [intros r []|]. destruct (Z.eqb_spec (r_address a) p).
  - exists [], l. auto.
  - destruct (find_reg p l).
    + destruct IH as (l1 & l2 & -> & E & D & U). exists (a :: l1), l2. split; [auto|]. split; [auto|]. split; [rewrite D; auto|]. intros. rewrite U; auto.
    + intros r' [<-|Hr']; auto.
Qed.

Lemma sys_free_spec p z s : In (p, z) s -> (forall z', In (p, z') s -> z' = z) -> exists s', sys_free p s = Ok s' /\ Permutation s ((p, z) :: s').
Proof.
  induction s as [|[b w] s IH]; intros Hin Hu; [destruct Hin|]. cbn [sys_free]. destruct (Z.eqb_spec b p).
  - subst b. exists s. split; [auto|]. rewrite (Hu w ltac:(left; auto)). auto.
  - destruct Hin as [E|Hin]; [inversion E; contradiction|]. destruct (IH Hin ltac:(intros; apply Hu; right; auto)) as (s' & E & HP).
    rewrite E. cbn [bind]. exists ((b, w) :: s'). split; [auto|]. rewrite HP. apply perm_swap.
Qed.

Lemma filter_perm {A} (f : A -> bool) l l' : Permutation l l' -> Permutation (filter f l) (filter f l').
Proof.
  induction 1; cbn [filter]; auto.
  - destruct (f x); auto.
  - destruct (f x), (f y); auto. apply perm_swap.
  - etransitivity; eauto.
Qed.

Lemma filter_addr l1 r l2 : NoDup (map r_address (l1 ++ r :: l2)) ->
  filter (fun b => negb (fst b =? r_address r)) (map pair_of (l1 ++ r :: l2)) = map pair_of (l1 ++ l2).
Proof.
  intros ND. rewrite map_app in ND. cbn [map] in ND. apply NoDup_remove in ND. destruct ND as (_ & NI).
  rewrite <- map_app in NI.
  rewrite !map_app, filter_app. cbn [map filter pair_of fst]. rewrite Z.eqb_refl. cbn [negb].
  assert (K : forall l, (forall x, In x l -> In x (l1 ++ l2)) -> filter (fun b => negb (fst b =? r_address r)) (map pair_of l) = map pair_of l).
  { induction l as [|a l IH]; intros Hs; cbn [map filter]; auto. cbn [pair_of fst]. destruct (Z.eqb_spec (r_address a) (r_address r)) as [E|].
    - exfalso. apply NI. rewrite <- E. apply in_map. apply Hs. left; auto.
    - cbn [negb]. f_equal. apply IH. intros; apply Hs; right; auto. }
  rewrite !K; auto; intros; apply in_or_app; auto.
Qed.

(** the system block of a registered block can be freed *)
Lemma free_real live s l1 r l2 extra : minv live s -> m_regs s = l1 ++ r :: l2 ->
  (forall z, In (r_real r, z) extra -> False) ->
  exists sys', sys_free0 (r_real r) (extra ++ m_sys s) = Ok sys' /\ Permutation sys' (extra ++ map sys_of (l1 ++ l2)).
Proof.
  intros (HP & HD & HR & HL) E Hex. rewrite E in *.
  destruct (HR r ltac:(apply in_or_app; right; left; auto)) as (R1 & R2 & R3).
  unfold sys_free0. destruct (Z.eqb_spec (r_real r) 0); [lia|].
  assert (HPm : Permutation (map sys_of (l1 ++ r :: l2)) (sys_of r :: map sys_of (l1 ++ l2))).
  { rewrite !map_app. cbn [map]. symmetry. apply Permutation_middle. }
  assert (HPm' : Permutation (m_sys s) (sys_of r :: map sys_of (l1 ++ l2))) by (rewrite HP; auto).
  destruct (sys_free_spec (r_real r) (r_size r + 16) (extra ++ m_sys s)) as (s' & Es & HPs).
  - apply in_or_app. right. apply (Permutation_in _ (Permutation_sym HPm')). left. reflexivity.
  - intros z Hz. apply in_app_or in Hz. destruct Hz as [Hz|Hz]; [destruct (Hex z Hz)|].
    apply (Permutation_in _ HPm') in Hz. destruct Hz as [Hz|Hz]; [inversion Hz; auto|].
    apply (all_disj_perm _ _ HPm) in HD. inversion HD; subst. specialize (H1 _ Hz). unfold disj, sys_of in H1. cbn [fst snd] in H1.
    apply in_map_iff in Hz. destruct Hz as (r' & Er' & Hr'). unfold sys_of in Er'. inversion Er'.
    destruct (HR r') as (S1 & S2 & S3); [apply in_or_app; apply in_app_or in Hr'; destruct Hr'; [left|right; right]; auto|]. lia.
  - exists s'. split; [auto|]. apply (Permutation_cons_inv (a := (r_real r, r_size r + 16))). rewrite <- HPs. rewrite HPm'.
    change (sys_of r) with (r_real r, r_size r + 16). symmetry. apply Permutation_middle.
Qed.

Lemma live_found live s p z : minv live s -> In (p, z) live ->
  exists r l1 l2, find_reg p (m_regs s) = Some r /\ m_regs s = l1 ++ r :: l2 /\ r_address r = p /\ r_size r = z /\ drop_reg p (m_regs s) = l1 ++ l2 /\ (forall r', set_reg p r' (m_regs s) = l1 ++ r' :: l2).
Proof.
  intros (HP & HD & HR & HL) Hin. apply (Permutation_in _ HL) in Hin. apply in_map_iff in Hin. destruct Hin as (r0 & E0 & Hr0).
  unfold pair_of in E0. inversion E0; subst. pose proof (find_reg_spec (r_address r0) (m_regs s)) as F.
  destruct (find_reg (r_address r0) (m_regs s)) as [r|] eqn:EF.
  - destruct F as (l1 & l2 & E & Ea & D & U). exists r, l1, l2. do 3 (split; [auto|]). split; [|auto].
    pose proof (addr_inj _ HD HR) as ND. 
    assert (r = r0); [|subst; auto]. rewrite E in Hr0, ND.
    rewrite map_app in ND. cbn [map] in ND. apply NoDup_remove_2 in ND. rewrite <- map_app in ND.
    apply in_app_or in Hr0. destruct Hr0 as [Hr0|[Hr0|Hr0]]; auto; exfalso; apply ND; rewrite Ea; apply in_map; apply in_or_app; auto.
  - exfalso. apply (F r0); auto.
Qed.

Lemma step_ok live s o :
  minv live s ->
  match o with
  | MAlloc base size => 0 <= size /\ fresh_block base (size + 16) (m_sys s)
  | MFree p => exists z, In (p, z) live
  | MRealloc base p size => (exists z, In (p, z) live /\ z <= size) /\ fresh_block base (size + 16) (m_sys s)
  end ->
  exists s', mem_step o s = Ok s' /\ minv (user_step live o) s'.
Proof.
  intros HI Ho. pose proof HI as (HP & HD & HR & HL). destruct o as [base size|p|base p size]; cbn [mem_step user_step].
  - destruct Ho as (Hs & F1 & F2 & F3). eexists. split; [reflexivity|]. unfold lis_malloc. cbn [snd m_sys m_regs].
    split; [|split; [|split]]; cbn [m_sys m_regs].
    + rewrite map_app. cbn [map sys_of r_real r_size]. rewrite <- Permutation_cons_append. constructor. auto.
    + apply (all_disj_perm ((base, size + 16) :: map sys_of (m_regs s))).
      * rewrite map_app. cbn [map]. apply Permutation_cons_append.
      * constructor; auto. intros c Hc. apply (Permutation_in _ (Permutation_sym HP)) in Hc. specialize (F3 c Hc). unfold disj. cbn [fst snd]. auto.
    + intros r Hr. apply in_app_or in Hr. destruct Hr as [Hr|[<-|[]]]; auto.
    + rewrite map_app. cbn [map pair_of r_address r_size]. rewrite <- Permutation_cons_append. constructor. auto.
  - destruct Ho as (z & Hz). destruct (live_found _ _ _ _ HI Hz) as (r & l1 & l2 & EF & E & Ea & Ez & D & U).
    unfold lis_free. rewrite EF. destruct (free_real live s l1 r l2 [] HI E ltac:(intros ? [])) as (sys' & Es & HPs). cbn [app] in Es, HPs.
    rewrite Es. cbn [bind]. eexists. split; [reflexivity|]. rewrite D. rewrite E in *.
    split; [auto|]. split; [|split]; cbn [m_regs].
    + apply (all_disj_perm _ (sys_of r :: map sys_of (l1 ++ l2))) in HD; [inversion HD; auto|]. rewrite !map_app. cbn [map]. symmetry. apply Permutation_middle.
    + intros r' Hr'. apply HR. apply in_or_app. apply in_app_or in Hr'. destruct Hr'; [left|right; right]; auto.
    + rewrite <- (filter_addr l1 r l2) by (apply addr_inj; auto). rewrite Ea. apply filter_perm. auto.
  - destruct Ho as ((z & Hz & Hle) & F1 & F2 & F3). destruct (live_found _ _ _ _ HI Hz) as (r & l1 & l2 & EF & E & Ea & Ez & D & U).
    unfold lis_realloc. rewrite EF. cbv zeta. pose proof (align16_bound base) as HA.
    destruct (Z.ltb_spec (base + (size + 16)) (align16 base + r_size r)); [lia|].
    assert (Hex : forall z0, In (r_real r, z0) [(base, size + 16)] -> False).
    { intros z0 [Hc|[]]. inversion Hc. assert (Hin : In (sys_of r) (m_sys s)). { apply (Permutation_in _ (Permutation_sym HP)). apply in_map. rewrite E. apply in_or_app. right. left. auto. }
      specialize (F3 _ Hin). unfold sys_of in F3. cbn [fst snd] in F3. destruct (HR r) as (? & ? & ?); [rewrite E; apply in_or_app; right; left; auto|]. lia. }
    destruct (free_real live s l1 r l2 [(base, size + 16)] HI E Hex) as (sys' & Es & HPs). cbn [app] in Es, HPs. rewrite Es. cbn [bind].
    eexists. split; [reflexivity|]. rewrite U. rewrite E in *.
    assert (HPn : forall (B : Type) (f : reg -> B) x, Permutation (map f (l1 ++ x :: l2)) (f x :: map f (l1 ++ l2))).
    { intros. rewrite !map_app. cbn [map]. symmetry. apply Permutation_middle. }
    split; [|split; [|split]]; cbn [m_sys m_regs].
    + rewrite HPs. rewrite HPn. reflexivity.
    + apply (all_disj_perm (sys_of (mkReg (align16 base) base size) :: map sys_of (l1 ++ l2))); [symmetry; apply HPn|].
      apply (all_disj_perm _ _ (HPn _ sys_of r)) in HD. inversion HD; subst. constructor; auto. intros c Hc.
      assert (Hc' : In c (m_sys s)). { apply (Permutation_in _ (Permutation_sym HP)). apply (Permutation_in _ (Permutation_sym (HPn _ sys_of r))). right; auto. }
      specialize (F3 c Hc'). unfold disj, sys_of. cbn [fst snd r_real r_size]. auto.
    + intros r' Hr'. apply in_app_or in Hr'. destruct Hr' as [Hr'|[<-|Hr']].
      * apply HR. apply in_or_app. auto.
      * cbn [r_real r_size r_address]. split; [auto|]. split; [|auto]. destruct (HR r) as (? & ? & ?); [apply in_or_app; right; left; auto|]. lia.
      * apply HR. apply in_or_app. right; right; auto.
    + rewrite HPn. cbn [pair_of r_address r_size]. constructor. rewrite <- (filter_addr l1 r l2) by (apply addr_inj; auto). rewrite Ea. apply filter_perm. auto.
Qed.

Lemma run_ok : forall ops live s, minv live s -> good_history ops live s -> exists s', mem_run ops s = Ok s' /\ minv (fold_left user_step ops live) s'.
Proof.
  induction ops as [|o ops IH]; intros live s HI HG; cbn [mem_run fold_left].
  - eauto.
  - cbn [good_history] in HG. destruct HG as (Ho & Hrest). destruct (step_ok live s o HI Ho) as (s1 & E1 & HI1). rewrite E1. cbn [bind].
    apply IH; auto.
Qed.

Lemma minv_init : minv [] mem_init.
Proof. repeat split; cbn; try constructor; try (destruct H). Qed.

Lemma is_malloc_live live s p : minv live s -> (lis_is_malloc p s = true <-> exists z, In (p, z) live).
Proof.
  intros HI. pose proof HI as (HP & HD & HR & HL). unfold lis_is_malloc. split.
  - intros H. pose proof (find_reg_spec p (m_regs s)) as F. destruct (find_reg p (m_regs s)) as [r|]; [|discriminate].
    destruct F as (l1 & l2 & E & Ea & _). exists (r_size r). apply (Permutation_in _ (Permutation_sym HL)). rewrite <- Ea.
    change (In (pair_of r) (map pair_of (m_regs s))). apply in_map. rewrite E. apply in_or_app. right; left; auto.
  - intros (z & Hz). destruct (live_found _ _ _ _ HI Hz) as (r & l1 & l2 & EF & _). rewrite EF. auto.
Qed.

Theorem registry_correct ops : good_history ops [] mem_init ->
  exists s, mem_run ops mem_init = Ok s /\
    (forall p, lis_is_malloc p s = true <-> exists z, In (p, z) (user_blocks ops)) /\
    NoDup (map fst (user_blocks ops)) /\
    (forall p z, In (p, z) (user_blocks ops) -> exists b w, In (b, w) (m_sys s) /\ b <= p /\ p + z <= b + w) /\
    zlen (m_sys s) = zlen (user_blocks ops).
Proof.
  intros HG. destruct (run_ok ops [] mem_init minv_init HG) as (s & E & HI). fold (user_blocks ops) in HI. exists s. split; [auto|].
  pose proof HI as (HP & HD & HR & HL). split; [intros; apply is_malloc_live; auto|]. split; [|split].
  - apply (Permutation_NoDup (Permutation_sym (Permutation_map fst HL))). rewrite map_map. apply addr_inj; auto.
  - intros p z Hin. apply (Permutation_in _ HL) in Hin. apply in_map_iff in Hin. destruct Hin as (r & Er & Hr). unfold pair_of in Er. inversion Er; subst.
    exists (r_real r), (r_size r + 16). split; [apply (Permutation_in _ (Permutation_sym HP)); apply (in_map sys_of _ _ Hr)|].
    destruct (HR r Hr) as (_ & _ & ->). pose proof (align16_bound (r_real r)). lia.
  - unfold zlen. rewrite (Permutation_length HP), (Permutation_length HL), !map_length. auto.
Qed.
