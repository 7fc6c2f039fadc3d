(** Proofs about Diag2.v: scaling of VBR matrices, and lis_matrix_scale for d of any length *)
Require Import ZArith List Bool Lia Permutation Ring Field.
From Verif Require Import Base Scalar Spec Items Fmt Diag Diag2 SpecDiag SpecDiag2 DiagProof DiagProof2 DiagProof3 DiagProof4 DiagProof5 JadProof.
Import ListNotations.
Open Scope Z_scope.

Section P.
Context {T : Type} {S : Scalar T}.
Hypothesis RT : is_ring S.
Let RT' : @ring_theory T s0 s1 sadd smul ssub sopp (@eq T) := RT.
Add Ring scalar_ring_d6 : RT'.

Lemma vblock_loop base r0 r1 c0 c1 (F : Z -> Z -> T) (body : Z -> Z -> Z * list T -> res (Z * list T)) v0 (Q : Z * list T -> Prop) :
  r0 <= r1 -> c0 <= c1 -> 0 <= base -> base + (r1 - r0) * (c1 - c0) <= zlen v0 ->
  (forall j i k v, c0 <= j < c1 -> r0 <= i < r1 -> zlen v = zlen v0 -> 0 <= k < zlen v ->
     wp (body j i (k, v)) (fun r => r = (k + 1, zupd v k (smul (znth s0 v k) (F j i))))) ->
  (forall v', pass (fun p => base <= p < base + (r1 - r0) * (c1 - c0)) (fun p a => smul a (F (c0 + (p - base) / (r1 - r0)) (r0 + (p - base) mod (r1 - r0)))) v0 v' -> Q (base + (r1 - r0) * (c1 - c0), v')) ->
  wp (for_ c0 c1 (fun j kv => for_ r0 r1 (body j) kv) (base, v0)) Q.
Proof.
  intros Hr Hc Hb HL Hbody HQ. set (h := r1 - r0) in *. set (g := fun p a => smul a (F (c0 + (p - base) / h) (r0 + (p - base) mod h))) in *.
  apply (for_wp' (fun j (kv : Z * list T) => fst kv = base + h * (j - c0) /\ pass (fun p => base <= p < fst kv) g v0 (snd kv))); auto.
  - cbn [fst snd]. split; [lia|]. split; auto. split; auto. intros p Hp. lia.
  - intros j [k v] Hj (Ek & Hpass). cbn [fst snd] in *. 
    apply (for_wp' (fun i (kv : Z * list T) => fst kv = base + h * (j - c0) + (i - r0) /\ pass (fun p => base <= p < fst kv) g v0 (snd kv))); auto.
    + cbn [fst snd]. split; [lia|auto].
    + intros i [k1 v1] Hi (Ek1 & Hp1). cbn [fst snd] in *. pose proof (proj1 Hp1) as L. assert (0 <= k1 < zlen v1) by (rewrite L; unfold h in *; nia).
      eapply wp_mono; [apply Hbody; auto|]. intros [k2 v2] [= -> ->]. cbn [fst snd]. split; [lia|].
      apply (pass_join base k1 (k1 + 1) g v0 v1); [unfold h in *; nia|auto|]. split; [len|]. split; intros p Hp.
      * assert (p = k1) by lia. subst p. rewrite znth_zupd_eq by lia. unfold g.
        replace (k1 - base) with ((j - c0) * h + (i - r0)) by lia. rewrite Z.div_add_l by (unfold h; lia). rewrite Z.div_small by (unfold h; lia).
        rewrite (Z.add_comm ((j - c0) * h)), Z_mod_plus_full, Z.mod_small by (unfold h; lia). replace (c0 + (j - c0 + 0)) with j by lia. replace (r0 + (i - r0)) with i by lia. auto.
      * rewrite znth_zupd_neq by lia. auto.
    + intros [k1 v1] (Ek1 & Hp1). cbn [fst snd] in *. split; [unfold h in *; lia|auto].
  - intros [k v] (Ek & Hp). cbn [fst snd] in *. subst k. apply HQ. exact Hp.
Qed.

Definition vbr_f (symm : bool) (d : list T) j i : T := if symm then smul (znth s0 d i) (znth s0 d j) else znth s0 d i.
Lemma scale_vbr_core symm (A : vbr T) d : vbr_ok A -> vbr_packed A -> vbr_n A <= zlen d -> (symm = true -> vbr_np A <= zlen d) ->
  exists A', scale_vbr_ symm A d = Ok A' /\ vbr_ok A' /\ vbr_packed A' /\
    vbr_entries A' = map (if symm then sym_scaled d else row_scaled d) (vbr_entries A).
Proof.
  intros HA HK Hd Hd2. pose proof HA as (Hn & Hr & Er & Hc & Ec & Hb & Eb & Hbi & Hpt & Hx & Hv). pose proof HK as (Hpl & Hpk).
  pose proof Hb as (Hnr & Hlb & Hb0 & Hbm). pose proof Hr as (_ & Hlr & Hr0 & Hrm). pose proof Hc as (Hnc & Hlc & Hc0 & Hcm).
  apply wp_inv. unfold scale_vbr_. wbind.
  pose (P := fun bj p => znth 0 (vbr_ptr A) bj <= p < znth 0 (vbr_ptr A) (bj + 1)).
  pose (h := fun bi => znth 0 (vbr_row A) (bi + 1) - znth 0 (vbr_row A) bi).
  pose (c0 := fun bj => znth 0 (vbr_col A) (znth 0 (vbr_bindex A) bj)). pose (c1 := fun bj => znth 0 (vbr_col A) (znth 0 (vbr_bindex A) bj + 1)).
  pose (g := fun bi bj p a => smul a (vbr_f symm d (c0 bj + (p - znth 0 (vbr_ptr A) bj) / h bi) (znth 0 (vbr_row A) bi + (p - znth 0 (vbr_ptr A) bj) mod h bi))).
  assert (Hh : forall bi, 0 <= bi < vbr_nr A -> 0 <= h bi) by (intros bi Hbi'; specialize (Hrm bi Hbi'); unfold h; lia).
  assert (Hw : forall bj, 0 <= bj < vbr_bnnz A -> 0 <= c0 bj <= c1 bj /\ c1 bj <= vbr_np A).
  { intros bj Hbj. specialize (Hx bj Hbj). specialize (Hcm _ Hx). pose proof (ptr_pos _ _ (znth 0 (vbr_bindex A) bj) Hc ltac:(lia)). pose proof (ptr_pos _ _ (znth 0 (vbr_bindex A) bj + 1) Hc ltac:(lia)). unfold c0, c1. lia. }
  assert (Hmono : forall bj, 0 <= bj < vbr_bnnz A -> znth 0 (vbr_ptr A) bj <= znth 0 (vbr_ptr A) (bj + 1)).
  { intros bj Hbj. destruct (ptr_find _ _ bj Hb ltac:(lia)) as (bi & Hbi1 & Hbi2). rewrite (Hpk bi bj Hbi1 Hbi2). pose proof (Hh bi Hbi1) as A1. pose proof (Hw bj Hbj) as A2. unfold h in A1. unfold c0, c1 in A2. nia. }
  assert (Hmono2 : forall bj m, 0 <= m -> 0 <= bj -> bj + m <= vbr_bnnz A -> znth 0 (vbr_ptr A) bj <= znth 0 (vbr_ptr A) (bj + m)).
  { intros bj m Hm0. pattern m. apply natlike_ind; auto.
    - intros. replace (bj + 0) with bj by lia. lia.
    - intros x Hx0 IH H1 H2. replace (bj + Z.succ x) with (bj + x + 1) by lia. specialize (Hmono (bj + x) ltac:(lia)). specialize (IH H1 ltac:(lia)). lia. }
  assert (Pd : forall bj bj' p, 0 <= bj < vbr_bnnz A -> 0 <= bj' < vbr_bnnz A -> P bj p -> P bj' p -> bj = bj').
  { intros bj bj' p H1 H2 Q1 Q2. unfold P in *. destruct (Z.lt_trichotomy bj bj') as [G|[G|G]]; auto.
    - specialize (Hmono2 (bj + 1) (bj' - (bj + 1)) ltac:(lia) ltac:(lia) ltac:(lia)). replace (bj + 1 + (bj' - (bj + 1))) with bj' in Hmono2 by lia. lia.
    - specialize (Hmono2 (bj' + 1) (bj - (bj' + 1)) ltac:(lia) ltac:(lia) ltac:(lia)). replace (bj' + 1 + (bj - (bj' + 1))) with bj in Hmono2 by lia. lia. }
  apply (rows_done P g _ (vbr_bptr A)); auto.
  { intros bj bj' p H1 H2. apply Pd; lia. }
  - intros bi v Hbi' HL. pose proof (ptr_pos _ _ bi Hb ltac:(lia)). pose proof (ptr_pos _ _ (bi + 1) Hb ltac:(lia)). specialize (Hbm bi Hbi').
    pose proof (ptr_pos _ _ bi Hr ltac:(lia)) as Rb. pose proof (ptr_pos _ _ (bi + 1) Hr ltac:(lia)) as Rb1. specialize (Hrm bi Hbi').
    wrd 0; [lia|]. wrd 0; [lia|]. wrd 0; [lia|]. wrd 0; [lia|]. wrd 0; [lia|]. wbind.
    apply (for_wp' (fun bj (kv : Z * list T) => fst kv = znth 0 (vbr_ptr A) bj /\ done P g (fun b j => b = bi /\ znth 0 (vbr_bptr A) bi <= j < bj) v (snd kv))); auto.
    + cbn [fst snd]. split; auto. apply done_none. intros b j (_ & H1). lia.
    + intros bj [k w] Hbj (Ek & Hd0). cbn [fst snd] in *. subst k. pose proof (Hx bj ltac:(lia)) as Hxb. pose proof (Hw bj ltac:(lia)) as Hwb. wrd 0; [lia|]. wrd 0; [lia|]. wrd 0; [lia|].
      destruct (Hv bi bj Hbi' ltac:(lia)) as [Hv1 Hv2]. pose proof (Hpk bi bj Hbi' ltac:(lia)) as Hpk'. fold (c0 bj) (c1 bj) in *. pose proof (proj1 Hd0) as L0.
      apply (vblock_loop (znth 0 (vbr_ptr A) bj) (znth 0 (vbr_row A) bi) (znth 0 (vbr_row A) (bi + 1)) (c0 bj) (c1 bj) (vbr_f symm d)); auto; try lia.
      * intros j i k u Hj Hi' HLu Hk. wrd s0; [lia|]. wbind. unfold vbr_f. destruct symm.
        -- specialize (Hd2 eq_refl). wrd s0; [lia|]. apply upd_wp; [auto|]. apply wp_ok. rewrite mul3 by auto. auto.
        -- apply upd_wp; [auto|]. apply wp_ok. auto.
      * intros u (L & G1 & G2). cbn [fst snd]. split; [lia|]. rewrite <- Hpk' in G1, G2.
        eapply done_union with (D1 := fun b j => b = bi /\ j = bj); [| |exact Hd0|].
        -- intros b j. cbv beta. lia.
        -- intros b j b' j' p (-> & H1) (-> & ->) HP HP'. assert (j = bj) by (apply (Pd j bj p); auto; lia). lia.
        -- split; auto. split.
           ++ intros b j p (-> & ->) HP. apply G1. exact HP.
           ++ intros p Hpp. apply G2. intro HP. apply (Hpp bi bj); auto.
    + intros [k w] (_ & Hd0). apply wp_ok. exact Hd0.
  - intros v' L H. apply wp_ok. split; [|split].
    + unfold vbr_ok; cbn [vbr_n vbr_np vbr_nr vbr_nc vbr_bnnz vbr_nnz vbr_row vbr_col vbr_ptr vbr_bptr vbr_bindex vbr_value]. rewrite L. auto 20.
    + exact HK.
    + unfold vbr_entries; cbn [vbr_n vbr_np vbr_nr vbr_nc vbr_bnnz vbr_nnz vbr_row vbr_col vbr_ptr vbr_bptr vbr_bindex vbr_value].
      rewrite map_flat_map. apply flat_map_ext_in. intros bi Hbi'. apply In_zrange in Hbi'. rewrite map_flat_map. apply flat_map_ext_in. intros bj Hbj. apply In_zrange in Hbj.
      rewrite map_flat_map. apply flat_map_ext_in. intros j Hj. apply In_zrange in Hj. rewrite map_map. apply map_ext_in. intros i Hi. apply In_zrange in Hi.
      fold (h bi) in Hi |- *. fold (c0 bj) (c1 bj) in Hj |- *.
      rewrite (H bi bj (znth 0 (vbr_ptr A) bj + j * h bi + i)); auto.
      2:{ unfold P. rewrite (Hpk bi bj) by auto. fold (h bi) (c0 bj) (c1 bj). nia. }
      unfold g. replace (znth 0 (vbr_ptr A) bj + j * h bi + i - znth 0 (vbr_ptr A) bj) with (j * h bi + i) by lia. rewrite Z.div_add_l by lia. rewrite Z.div_small by lia. rewrite Z.add_0_r.
      rewrite (Z.add_comm (j * h bi)), Z_mod_plus_full, Z.mod_small by lia. unfold vbr_f. destruct symm; reflexivity.
Qed.

(** lis_matrix_scale, the scaled d has the length of the d passed in *)
Section Field.
Hypothesis FT : is_field S.
Lemma scale_jacobi_len {M} (E : M -> list (entry T)) (okM : M -> Prop) get sc scs n (A : M) b d :
  0 <= n -> n <= zlen b -> n <= zlen d ->
  (exists d', get A d = Ok d' /\ zlen d' = zlen d /\ is_diagonal n (E A) d') ->
  (forall d', zlen d' = zlen d -> (forall i, 0 <= i < n -> znth s0 d' i = sdiv s1 (coef (E A) i i)) ->
     exists A', sc A d' = Ok A' /\ E A' = map (row_scaled d') (E A) /\ okM A') ->
  (forall i, 0 <= i < n -> coef (E A) i i <> s0) ->
  exists A' b' d', matrix_scale get sc scs n n A b d false = Ok (A', b', d') /\ okM A' /\
    jacobi_scaled n (E A) (E A') (znth s0 b) (znth s0 b') (znth s0 d').
Proof.
  intros Hn Hb Hd (d1 & Eg & L1 & Hg) Hsc Hnz.
  assert (G : wp (matrix_scale get sc scs n n A b d false) (fun r => let '(A', b', d') := r in okM A' /\ jacobi_scaled n (E A) (E A') (znth s0 b) (znth s0 b') (znth s0 d'))).
  { unfold matrix_scale. rewrite Eg; cbn [bind]. wbind.
    apply (upd_all n (fun _ a => sdiv s1 a)); [lia| |].
    { intros; apply upd_wp; [lia|auto]. }
    intros d2 L2 H2. destruct (Hsc d2) as (A' & Es & EE & Hok); [lia|intros; rewrite H2, Hg by auto; auto|]. rewrite Es; cbn [bind]. wbind.
    apply (upd_all n (fun i a => smul a (znth s0 d2 i))); [lia| |].
    { intros. wrd s0; [lia|]. apply upd_wp; [lia|auto]. }
    intros b' Lb H3. apply wp_ok. split; auto.
    assert (Hd2 : forall i, 0 <= i < n -> znth s0 d2 i = sdiv s1 (coef (E A) i i)) by (intros; rewrite H2, Hg by auto; auto).
    split; [auto|]. split; [|split; [auto|]].
    - intros i j Hi. rewrite EE. apply (coef_row_scaled RT).
    - apply (jacobi_solutions RT FT) with (d := znth s0 d2); auto.
      + intros i Hi. rewrite Hd2 by auto. apply (inv_nonzero FT); auto.
      + intros i j Hi. rewrite EE. apply (coef_row_scaled RT). }
  apply wp_inv in G. destruct G as ([[A' b'] d'] & E1 & H). eauto.
Qed.
Lemma scale_symm_len {M} (E : M -> list (entry T)) (okM : M -> Prop) get sc scs n (A : M) b d :
  0 <= n -> n <= zlen b -> n <= zlen d ->
  (exists d', get A d = Ok d' /\ zlen d' = zlen d /\ is_diagonal n (E A) d') ->
  (forall d', zlen d' = zlen d -> (forall i, 0 <= i < n -> znth s0 d' i = sdiv s1 (ssqrt (sabs (coef (E A) i i)))) ->
     exists A', scs A d' = Ok A' /\ E A' = map (sym_scaled d') (E A) /\ okM A') ->
  (forall i, 0 <= i < n -> ssqrt (sabs (coef (E A) i i)) <> s0) ->
  exists A' b' d', matrix_scale get sc scs n n A b d true = Ok (A', b', d') /\ okM A' /\
    symm_scaled n (E A) (E A') (znth s0 b) (znth s0 b') (znth s0 d').
Proof.
  intros Hn Hb Hd (d1 & Eg & L1 & Hg) Hsc Hnz.
  assert (G : wp (matrix_scale get sc scs n n A b d true) (fun r => let '(A', b', d') := r in okM A' /\ symm_scaled n (E A) (E A') (znth s0 b) (znth s0 b') (znth s0 d'))).
  { unfold matrix_scale. rewrite Eg; cbn [bind]. wbind.
    apply (upd_all n (fun _ a => sdiv s1 (ssqrt (sabs a)))); [lia| |].
    { intros; apply upd_wp; [lia|auto]. }
    intros d2 L2 H2. destruct (Hsc d2) as (A' & Es & EE & Hok); [lia|intros; rewrite H2, Hg by auto; auto|]. rewrite Es; cbn [bind]. wbind.
    apply (upd_all n (fun i a => smul a (znth s0 d2 i))); [lia| |].
    { intros. wrd s0; [lia|]. apply upd_wp; [lia|auto]. }
    intros b' Lb H3. apply wp_ok. split; auto.
    assert (Hd2 : forall i, 0 <= i < n -> znth s0 d2 i = sdiv s1 (ssqrt (sabs (coef (E A) i i)))) by (intros; rewrite H2, Hg by auto; auto).
    assert (Hb' : forall i, 0 <= i < n -> znth s0 b' i = smul (znth s0 d2 i) (znth s0 b i)) by (intros; rewrite H3 by auto; ring).
    split; [auto|]. split; [|split; [auto|]].
    - intros i j Hi Hj. rewrite EE. apply (coef_sym_scaled RT).
    - apply (symm_solutions RT FT); auto.
      + intros i Hi. rewrite Hd2 by auto. apply (inv_nonzero FT); auto.
      + intros i j Hi Hj. rewrite EE. apply (coef_sym_scaled RT). }
  apply wp_inv in G. destruct G as ([[A' b'] d'] & E1 & H). eauto.
Qed.
End Field.
End P.
