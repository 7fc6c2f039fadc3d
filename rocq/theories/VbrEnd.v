(** VBR: the block triangular solves put together *)
Require Import ZArith List Bool Lia Ring.
From Verif Require Import Base Scalar Spec Items CscProof Fmt MatvecProof SpecArray Array LuFinal BsrSolve BsrTri SplitFmt TriLoops VbrSplit VbrSolve SpecVbrSolve VbrTri.
Import ListNotations.
Open Scope Z_scope.

Section S.
Context {T : Type} {S : Scalar T}.
Hypothesis RT : is_ring S.
Let RT' : @ring_theory T s0 s1 sadd smul ssub sopp (@eq T) := RT.
Add Ring scalar_ring_ve : RT'.
Hypothesis FT : is_field S.
Hypothesis EQ : eqb_ok S.
Variables (jw : Z -> T) (P : vsplit T).
Hypothesis HP : split_form P.
Notation n := (vs_n P). Notation nr := (vs_nr P).
Notation R := (fun i => znth 0 (vbr_row (vs_L P)) i).
Notation dim i := (znth 0 (vbr_row (vs_L P)) (i + 1) - znth 0 (vbr_row (vs_L P)) i).

Lemma row_ok : ptr_ok nr (vbr_row (vs_L P)) /\ znth 0 (vbr_row (vs_L P)) nr = n.
Proof using HP. destruct HP as ((H & H1 & H2 & H3 & H4 & _) & _). destruct H as (_ & A & B & _). rewrite H1, H3 in *. auto. Qed.
Lemma nr_nonneg : 0 <= nr. Proof using HP. destruct row_ok as [(H & _) _]. auto. Qed.
Lemma R_0 : R 0 = 0. Proof using HP. destruct row_ok as [(_ & _ & H & _) _]. auto. Qed.
Lemma R_mono i j : 0 <= i <= j -> j <= nr -> R i <= R j.
Proof using HP. intros. destruct row_ok as [H1 _]. apply (ptr_ok_mono nr); auto. Qed.
Lemma side_fits (B : vbr T) : vbr_ok B /\ vbr_nr B = nr /\ vbr_nc B = nr /\ vbr_n B = n /\ vbr_np B = n /\
     (forall i, 0 <= i <= nr -> znth 0 (vbr_row B) i = R i /\ znth 0 (vbr_col B) i = R i) -> vfits nr R B.
Proof using HP.
  intros ((_ & Hr & Hrn & Hc & Hcn & Hb & Hbn & Hbi & Hp & Hx & Hv) & H1 & H2 & H3 & H4 & H5). rewrite H1, H2 in *. rewrite <- Hbn in *. unfold vfits. split; auto. split; auto. split; auto. 
  split; [destruct Hr as (_ & Hr & _); lia|]. split; [destruct Hc as (_ & Hc & _); lia|]. split; auto. split; auto.
  intros i k Hi Hk. specialize (Hv i k Hi Hk). pose proof (ptr_ok_bounds _ _ i k Hb Hi Hk) as Hk'. specialize (Hx k ltac:(lia)). set (jj := znth 0 (vbr_bindex B) k) in *.
  rewrite (proj1 (H5 (i + 1) ltac:(lia))), (proj1 (H5 i ltac:(lia))), (proj2 (H5 (jj + 1) ltac:(lia))), (proj2 (H5 jj ltac:(lia))) in Hv. auto.
Qed.
Lemma L_fits : vfits nr R (vs_L P). Proof using HP. apply side_fits. destruct HP as (H & _). exact H. Qed.
Lemma U_fits : vfits nr R (vs_U P). Proof using HP. apply side_fits. destruct HP as (_ & H & _). exact H. Qed.

(** *** rows *)
Lemma find_row m : 0 <= m <= nr -> forall i, 0 <= i < R m -> exists r, 0 <= r < m /\ R r <= i < R (r + 1).
Proof using HP.
  intros Hm. assert (Hm0 : 0 <= m) by lia. revert Hm. pattern m. apply Zlt_0_ind; [|exact Hm0]. clear m Hm0. intros m IH _ Hm i Hi. destruct (Z.eq_dec m 0) as [->|Hne]; [pose proof R_0; cbv beta in *; lia|].
  destruct (Z.lt_ge_cases i (R (m - 1))) as [H|H].
  - destruct (IH (m - 1) ltac:(lia) ltac:(lia) i ltac:(lia)) as (r & Hr & H'). exists r. split; [lia|auto].
  - exists (m - 1). split; [lia|]. replace (m - 1 + 1) with m by lia. lia.
Qed.
Lemma fm_ext {A B} (f g : A -> list B) l : (forall a, In a l -> f a = g a) -> flat_map f l = flat_map g l.
Proof using. intros H. induction l as [|a l IH]; cbn [flat_map]; auto. rewrite H by (left; auto). rewrite IH; auto. intros; apply H; right; auto. Qed.
Definition gen (lk : Z -> list Z) (wd g : Z -> Z) (v : Z -> Z -> Z -> Z -> T) : list (entry T) :=
  flat_map (fun bi => flat_map (fun k => flat_map (fun j => map (fun p => (R bi + p, g k + j, v bi k j p)) (zrange 0 (dim bi))) (zrange 0 (wd k))) (lk bi)) (zrange 0 nr).
Notation blks B := (fun i => zrange (znth 0 (vbr_bptr B) i) (znth 0 (vbr_bptr B) (i + 1))).
Notation el a lda p i j := (znth s0 a (p + i + j * lda)).
Lemma entries_gen B : vfits nr R B -> vbr_nr B = nr -> vbr_entries B =
  gen (blks B) (fun k => dim (znth 0 (vbr_bindex B) k)) (fun k => R (znth 0 (vbr_bindex B) k)) (fun bi k j p => el (vbr_value B) (dim bi) (znth 0 (vbr_ptr B) k) p j).
Proof using.
  intros HB Hn. unfold vbr_entries, gen. rewrite Hn. apply fm_ext. intros i Hi. apply In_zrange in Hi. apply fm_ext. intros k Hk. apply In_zrange in Hk.
  pose proof (vfits_pos nr R B i k HB Hi Hk) as Hk'. destruct HB as (_ & _ & _ & _ & _ & H5 & H6 & _). specialize (H6 k Hk'). set (jj := znth 0 (vbr_bindex B) k) in *.
  rewrite (proj1 (H5 (i + 1) ltac:(lia))), (proj1 (H5 i ltac:(lia))), (proj2 (H5 (jj + 1) ltac:(lia))), (proj2 (H5 jj ltac:(lia))).
  apply fm_ext. intros j _. apply map_ext. intros p. do 2 f_equal. cbv beta. ring_simplify. f_equal; try lia. 
Qed.
Lemma gen_in lk wd g v : (forall i k, 0 <= i < nr -> In k (lk i) -> 0 <= g k /\ g k + wd k <= n) -> forall e, In e (gen lk wd g v) -> 0 <= ecol e < n.
Proof using.
  intros H e He. unfold gen in He. apply in_flat_map in He. destruct He as (i & Hi & He). apply In_zrange in Hi. apply in_flat_map in He. destruct He as (k & Hk & He). apply in_flat_map in He. destruct He as (j & Hj & He). apply In_zrange in Hj.
  apply in_map_iff in He. destruct He as (p & <- & _). unfold ecol. cbn [fst snd]. specialize (H i k Hi Hk). lia.
Qed.
Lemma side_mv B x i ii : vfits nr R B -> vbr_nr B = nr -> 0 <= i < nr -> 0 <= ii < dim i -> mvE (vbr_entries B) x (R i + ii) = vsum R B i ii x.
Proof using RT HP.
  intros HB Hn Hi Hii. rewrite entries_gen by auto. unfold gen. rewrite (blocks_mv RT nr R R_mono); auto.
Qed.
Lemma side_in B e : vfits nr R B -> vbr_nr B = nr -> In e (vbr_entries B) -> 0 <= ecol e < n.
Proof using HP.
  intros HB Hn He. rewrite entries_gen in He by auto. revert e He. apply gen_in. intros i k Hi Hk. apply In_zrange in Hk. pose proof (col_range nr R B i k HB Hi Hk) as Hc.
  destruct row_ok as [_ Hn']. pose proof R_0 as H0. pose proof (R_mono 0 (znth 0 (vbr_bindex B) k) ltac:(lia) ltac:(lia)). pose proof (R_mono (znth 0 (vbr_bindex B) k + 1) nr ltac:(lia) ltac:(lia)). cbv beta in *. lia.
Qed.
Lemma diag_gen : vdiag_entries P = gen (fun i => [i]) (fun i => dim i) R (fun bi k j p => elt (znth [] (vs_D P) bi) (dim bi) p j).
Proof using. unfold vdiag_entries, gen, border. apply fm_ext. intros i _. cbn [flat_map]. rewrite app_nil_r. auto. Qed.
Lemma diag_mv x i ii : 0 <= i < nr -> 0 <= ii < dim i -> mvE (vdiag_entries P) x (R i + ii) = vdrow R (vs_D P) i ii x.
Proof using RT HP. intros Hi Hii. rewrite diag_gen. unfold gen. rewrite (blocks_mv RT nr R R_mono); auto. cbn [map ssum]. unfold vdrow. ring. Qed.
Lemma diag_in e : In e (vdiag_entries P) -> 0 <= ecol e < n.
Proof using HP.
  intros He. rewrite diag_gen in He. revert e He. apply gen_in. intros i k Hi [<-|[]]. destruct row_ok as [_ Hn']. pose proof R_0 as H0. pose proof (R_mono 0 i ltac:(lia) ltac:(lia)). pose proof (R_mono (i + 1) nr ltac:(lia) ltac:(lia)). cbv beta in *. lia.
Qed.

(** *** inverses *)
Hypothesis HLU : blocks_have_lu P.
Lemma inverse_vbr : exists wd, diag_inverse_vbr nr (vs_bns P) (vs_D P) = Ok wd /\ nr <= zlen wd /\
  (forall i, 0 <= i < nr -> dim i * dim i <= zlen (znth [] wd i)) /\ forall i, 0 <= i < nr -> is_inverse (dim i) (elt (znth [] (vs_D P) i) (dim i)) (elt (znth [] wd i) (dim i)).
Proof using HP HLU FT EQ.
  apply wp_inv. pose proof nr_nonneg. destruct HP as (_ & _ & _ & _ & HD & HB & HD2). unfold diag_inverse_vbr.
  apply (for_wp' (fun m W => zlen W = zlen (vs_D P) /\ (forall i, m <= i < nr -> znth [] W i = znth [] (vs_D P) i) /\ (forall i, 0 <= i < m -> dim i * dim i <= zlen (znth [] W i)) /\ forall i, 0 <= i < m -> is_inverse (dim i) (elt (znth [] (vs_D P) i) (dim i)) (elt (znth [] W i) (dim i)))); [lia| | |].
  - split; auto. split; auto. split; intros; lia.
  - intros i W Hi (L & H1 & H2 & H3). wrd 0; [lia|]. wrd (@nil T); [lia|]. rewrite H1 by lia. destruct (HD2 i Hi) as [E1 E2]. rewrite E1. unfold border in *.
    assert (Hd : 0 <= dim i). { pose proof (R_mono i (i + 1) ltac:(lia) ltac:(lia)). cbv beta in *. lia. }
    destruct (ge_final FT EQ (dim i) (znth [] (vs_D P) i) Hd E2) as [(a & Ea & La & Ia & _)|(_ & Hno)].
    + rewrite Ea. cbn [bind]. apply wp_wr; [lia|]. split; [len|]. split; [|split].
      * intros k Hk. rewrite znth_zupd_neq by lia. apply H1. lia.
      * intros k Hk. rewrite znth_zupd by lia. destruct (Z.eqb_spec k i) as [->|]; [lia|apply H2; lia].
      * intros k Hk. rewrite znth_zupd by lia. destruct (Z.eqb_spec k i) as [->|]; [auto|apply H3; lia].
    + exfalso. apply Hno. apply (HLU i Hi).
  - intros W (L & _ & H2 & H3). split; [lia|]. split; auto.
Qed.

Hypothesis small : forall i, 0 <= i < nr -> border P i <= 1024.
Theorem vbr_solve_final : exists wd, diag_inverse_vbr nr (vs_bns P) (vs_D P) = Ok wd /\
  vsolves n (vbr_entries (vs_L P) ++ vdiag_entries P) (solve_lower_vbr jw P wd) /\
  vsolves n (vdiag_entries P ++ vbr_entries (vs_U P)) (solve_upper_vbr jw P wd) /\
  vsolves_ssor n (vbr_entries (vs_L P)) (vdiag_entries P) (vbr_entries (vs_U P)) (solve_ssor_vbr jw P wd).
Proof using RT FT EQ HP HLU small.
  destruct inverse_vbr as (W & E & HW & HWl & HI). exists W. split; auto.
  pose proof nr_nonneg as Hnr. pose proof R_0 as H0. destruct row_ok as [_ Hn]. pose proof L_fits as FL. pose proof U_fits as FU.
  assert (SL := proj1 (proj2 (proj2 HP))). assert (SU := proj1 (proj2 (proj2 (proj2 HP)))). 
  assert (NL : vbr_nr (vs_L P) = nr) by (destruct HP as ((_ & H & _) & _); auto). assert (NU : vbr_nr (vs_U P) = nr) by (destruct HP as (_ & (_ & H & _) & _); auto).
  assert (n0 : 0 <= n) by (pose proof (R_mono 0 nr ltac:(lia) ltac:(lia)); cbv beta in *; lia).
  assert (Hw : 1024 <= zlen (vwork jw)) by (unfold vwork; rewrite zlen_alloc by lia; lia).
  assert (Row : forall i, 0 <= i < n -> exists r ii, 0 <= r < nr /\ 0 <= ii < dim r /\ i = R r + ii).
  { intros i Hi. destruct (find_row nr ltac:(lia) i ltac:(cbv beta; lia)) as (r & Hr & Hi'). exists r, (i - R r). cbv beta in *. split; auto. split; lia. }
  assert (Pre : forall (b x : list T) (k : list T -> res (list T)) (Q : list T -> Prop), n <= zlen b -> n <= zlen x -> (forall y, n <= zlen y -> zlen y = zlen x -> (forall i, 0 <= i < n -> znth s0 y i = znth s0 b i) -> wp (k y) Q) -> wp (y <- copy_to n b x ;; k y) Q).
  { intros b x k Q Hb Hx Hk. wbind. apply (copy_to_wp n n0); auto. intros y Ly Hy. apply Hk; auto. lia. }
  split; [|split].
  - intros b x Hb Hx. apply wp_inv. unfold solve_lower_vbr. apply Pre; auto. intros y Ly1 Ly2 Hy. wbind.
    eapply wp_mono; [apply (lower_loop RT n nr R Hnr H0 Hn R_mono (vs_D P) W HW HWl HI small (vs_L P) FL SL y (vwork jw)); auto|]. cbv beta. intros [x' w']. cbn [fst snd]. intros (L1 & _ & H). apply wp_ok. split; [lia|].
    intros i Hi. destruct (Row i Hi) as (r & ii & Hr & Hii & ->). rewrite (mv_spec_mvE RT). 2:{ intros e He _. apply in_app_or in He. destruct He as [He|He]; [apply (side_in (vs_L P)); auto|apply diag_in; auto]. }
    rewrite (mvE_app RT), side_mv, diag_mv by auto. rewrite H by auto. apply Hy. auto.
  - intros b x Hb Hx. apply wp_inv. unfold solve_upper_vbr. apply Pre; auto. intros y Ly1 Ly2 Hy. wbind.
    eapply wp_mono; [apply (upper_loop RT n nr R Hnr H0 Hn R_mono (vs_D P) W HW HWl HI small (vs_U P) FU SU y (vwork jw)); auto|]. cbv beta. intros [x' w']. cbn [fst snd]. intros (L1 & H). apply wp_ok. split; [lia|].
    intros i Hi. destruct (Row i Hi) as (r & ii & Hr & Hii & ->). rewrite (mv_spec_mvE RT). 2:{ intros e He _. apply in_app_or in He. destruct He as [He|He]; [apply diag_in; auto|apply (side_in (vs_U P)); auto]. }
    rewrite (mvE_app RT), side_mv, diag_mv by auto. rewrite <- Hy by auto. rewrite <- H by auto. ring.
  - intros b x Hb Hx. assert (Go : wp (solve_ssor_vbr jw P W b x) (fun x' => exists z, zlen x' = zlen x /\ (forall i, 0 <= i < n -> mv_spec (vbr_entries (vs_L P) ++ vdiag_entries P) n z i = znth s0 b i) /\
       (forall i, 0 <= i < n -> mv_spec (vdiag_entries P ++ vbr_entries (vs_U P)) n (znth s0 x') i = mv_spec (vdiag_entries P) n z i))); [|destruct (wp_inv _ _ Go) as (x' & E1 & z & E2 & E3 & E4); exists x', z; auto].
    unfold solve_ssor_vbr. apply Pre; auto. intros y Ly1 Ly2 Hy. wbind.
    eapply wp_mono; [apply (lower_loop RT n nr R Hnr H0 Hn R_mono (vs_D P) W HW HWl HI small (vs_L P) FL SL y (vwork jw)); auto|]. cbv beta. intros [z w']. cbn [fst snd]. intros (L1 & L2 & H). wbind.
    eapply wp_mono; [apply (correct_loop RT n nr R Hnr H0 Hn R_mono (vs_D P) W HW HWl HI small (vs_U P) FU SU z w'); auto; lia|]. cbv beta. intros [x' w'']. cbn [fst snd]. intros (L1' & H'). apply wp_ok. exists (znth s0 z). split; [lia|]. split.
    + intros i Hi. destruct (Row i Hi) as (r & ii & Hr & Hii & ->). rewrite (mv_spec_mvE RT). 2:{ intros e He _. apply in_app_or in He. destruct He as [He|He]; [apply (side_in (vs_L P)); auto|apply diag_in; auto]. }
      rewrite (mvE_app RT), side_mv, diag_mv by auto. rewrite H by auto. apply Hy. auto.
    + intros i Hi. destruct (Row i Hi) as (r & ii & Hr & Hii & ->). rewrite !(mv_spec_mvE RT). 2:{ intros e He _. apply diag_in; auto. } 2:{ intros e He _. apply in_app_or in He. destruct He as [He|He]; [apply diag_in; auto|apply (side_in (vs_U P)); auto]. }
      rewrite (mvE_app RT), side_mv, !diag_mv by auto. rewrite <- H' by auto. ring.
Qed.
End S.
