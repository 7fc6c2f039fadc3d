Require Import ZArith List Bool Lia Ring.
From Verif Require Import Base Scalar Spec Items Matvec MatvecProof MatvecFinal Mpi SpecMpi G2lProof Net NetProof.
Import ListNotations.
Open Scope Z_scope.

(** ** generic *)
Lemma all_ok_map {A B} (f : A -> res B) (g : A -> B) l : (forall a, In a l -> f a = Ok (g a)) -> all_ok f l = Ok (map g l).
Proof.
  induction l as [|a l IH]; intros H; [reflexivity|]. cbn [all_ok map]. rewrite H by (left; auto). cbn [bind]. rewrite IH by (intros; apply H; right; auto). reflexivity.
Qed.

Lemma firstn_app_exact {A} (l m : list A) : firstn (length l) (l ++ m) = l.
Proof. rewrite firstn_app, Nat.sub_diag, firstn_all. simpl. apply app_nil_r. Qed.
Lemma skipn_app_exact {A} (l m : list A) : skipn (length l) (l ++ m) = m.
Proof. rewrite skipn_app, Nat.sub_diag, skipn_all. reflexivity. Qed.
Lemma to_nat_zlen {A} (l : list A) : Z.to_nat (zlen l) = length l.
Proof. unfold zlen. lia. Qed.

Definition off {B} (g : Z -> list B) (t : Z) : Z := zlen (flat_map g (zrange 0 t)).
Lemma off_0 {B} (g : Z -> list B) : off g 0 = 0. Proof. reflexivity. Qed.
Lemma off_S {B} (g : Z -> list B) t : 0 <= t -> off g (t + 1) = off g t + zlen (g t).
Proof. intros. unfold off. rewrite flat_map_snoc, zlen_app by lia. reflexivity. Qed.
Lemma off_mono {B} (g : Z -> list B) t u : 0 <= t <= u -> off g t <= off g u.
Proof.
  intros H. unfold off. rewrite (zrange_app 0 t u) by lia. rewrite flat_map_app, zlen_app. pose proof (zlen_nonneg (flat_map g (zrange t u))). lia.
Qed.
Lemma off_nonneg {B} (g : Z -> list B) t : 0 <= off g t. Proof. apply zlen_nonneg. Qed.
Lemma off_ext {B C} (g : Z -> list B) (h : Z -> list C) t : (forall i, 0 <= i < t -> zlen (g i) = zlen (h i)) -> off g t = off h t.
Proof.
  intros H. destruct (Z.le_gt_cases 0 t) as [Ht|Ht]; [|unfold off; rewrite !zrange_empty by lia; reflexivity].
  replace t with (Z.of_nat (Z.to_nat t)) in * by lia. induction (Z.to_nat t) as [|m IH]; [reflexivity|].
  replace (Z.of_nat (S m)) with (Z.of_nat m + 1) in * by lia. rewrite !off_S by lia. rewrite IH by (try lia; intros; apply H; lia). rewrite H by lia. reflexivity.
Qed.

Lemma slice_ok {B} (g : Z -> list B) n t : 0 <= t < n -> slice (flat_map g (zrange 0 n)) (off g t) (off g (t + 1) - off g t) = Ok (g t).
Proof.
  intros Ht. unfold slice. pose proof (off_nonneg g t). rewrite off_S by lia. pose proof (zlen_nonneg (g t)). pose proof (off_mono g (t + 1) n ltac:(lia)) as H1. rewrite off_S in H1 by lia. fold (off g n).
  replace (off g t + zlen (g t) - off g t) with (zlen (g t)) by lia.
  destruct (Z.leb_spec 0 (off g t)); [|lia]. destruct (Z.leb_spec 0 (zlen (g t))); [|lia]. destruct (Z.leb_spec (off g t + zlen (g t)) (off g n)); [|lia]. cbn [andb].
  rewrite (flat_map_split g 0 t n) by lia. unfold off. rewrite !to_nat_zlen. rewrite skipn_app_exact, firstn_app_exact. reflexivity.
Qed.

(** a pointer table *)
Definition is_off {B} (g : Z -> list B) (n : Z) (ptr : list Z) : Prop := zlen ptr = n + 1 /\ forall t, 0 <= t <= n -> znth 0 ptr t = off g t.

Lemma receive_wp {B} (g : Z -> list B) n ptr ms buf : 0 <= n -> is_off g n ptr -> zlen ms = n -> (forall t, 0 <= t < n -> znth [] ms t = g t) ->
  zlen buf = off g n -> receive ptr ms buf = Ok (flat_map g (zrange 0 n)).
Proof.
  intros Hn [Hl Hp] Hm Hms Hb. unfold receive. rewrite Hm.
  assert (W : wp (for_ 0 n (fun i buf => a <- rd ptr i ;; b <- rd ptr (i + 1) ;; m <- rd ms i ;; blit buf a (b - a) m) buf) (fun r => r = flat_map g (zrange 0 n))).
  { apply (for_wp' (fun t r => exists rest, r = flat_map g (zrange 0 t) ++ rest /\ zlen r = off g n)).
    - lia.
    - exists buf. rewrite zrange_empty by lia. auto.
    - intros t r Ht (rest & -> & HL). wbind. apply (wp_rd 0); [lia|]. wbind. apply (wp_rd 0); [lia|]. wbind. apply (wp_rd []); [lia|]. rewrite !Hp, Hms by lia.
      rewrite off_S by lia. pose proof (off_mono g (t + 1) n ltac:(lia)) as H1. rewrite off_S in H1 by lia. pose proof (off_nonneg g t).
      unfold blit. rewrite HL.
      destruct (Z.leb_spec 0 (off g t)); [|lia]. destruct (Z.leb_spec (off g t + (off g t + zlen (g t) - off g t)) (off g n)); [|lia].
      destruct (Z.leb_spec (zlen (g t)) (off g t + zlen (g t) - off g t)); [|lia]. cbn [andb]. apply wp_ok.
      assert (E1 : firstn (Z.to_nat (off g t)) (flat_map g (zrange 0 t) ++ rest) = flat_map g (zrange 0 t)) by (unfold off; rewrite to_nat_zlen; apply firstn_app_exact).
      assert (E2 : skipn (Z.to_nat (off g t + zlen (g t))) (flat_map g (zrange 0 t) ++ rest) = skipn (length (g t)) rest).
      { unfold off. rewrite Z2Nat.inj_add by apply zlen_nonneg. rewrite !to_nat_zlen. rewrite skipn_app. rewrite skipn_all2 by lia. simpl. f_equal. lia. }
      rewrite E1, E2. exists (skipn (length (g t)) rest). rewrite flat_map_snoc by lia. split; [rewrite app_assoc; reflexivity|].
      rewrite zlen_app in HL. fold (off g t) in HL. rewrite !zlen_app. fold (off g t). unfold zlen at 2. rewrite skipn_length. unfold zlen in *. lia.
    - intros r (rest & -> & HL). rewrite zlen_app in HL. fold (off g n) in HL. assert (zlen rest = 0) by lia. destruct rest; [apply app_nil_r|]. rewrite zlen_cons in H. pose proof (zlen_nonneg rest). lia. }
  apply wp_inv in W. destruct W as (r & E & ->). exact E.
Qed.

Lemma flat_map_znth {B} (f : Z -> list B) l : flat_map f l = flat_map (fun t => f (znth 0 l t)) (zrange 0 (zlen l)).
Proof. rewrite (list_table 0 l) at 1. rewrite flat_map_map. reflexivity. Qed.
Lemma flat_map_filter {B} (f : Z -> list B) (c : Z -> bool) l : (forall x, In x l -> c x = false -> f x = []) -> flat_map f (filter c l) = flat_map f l.
Proof.
  induction l as [|a l IH]; intros H; [reflexivity|]. cbn [filter flat_map]. destruct (c a) eqn:E; cbn [flat_map]; rewrite IH by (intros; apply H; auto; right; auto); auto.
  rewrite (H a) by (auto; left; auto). reflexivity.
Qed.

(** ** ownership *)
Section Owner.
Variables (P gn : Z) (ranges : list Z).
Hypothesis RB : row_blocks P gn ranges.
Notation rg := (znth 0 ranges).

Lemma rg_mono p q : 0 <= p <= q -> q <= P -> rg p <= rg q.
Proof.
  intros [Hp Hpq] Hq. destruct RB as (_ & _ & _ & _ & Hm).
  replace q with (p + Z.of_nat (Z.to_nat (q - p))) in * by lia. induction (Z.to_nat (q - p)) as [|m IH]; [rewrite Z.add_0_r; lia|].
  replace (p + Z.of_nat (S m)) with (p + Z.of_nat m + 1) in * by lia. specialize (Hm (p + Z.of_nat m)). lia.
Qed.
Definition own (q g : Z) : bool := (rg q <=? g) && (g <? rg (q + 1)).
Lemma own_spec q g : own q g = true <-> rg q <= g < rg (q + 1).
Proof. unfold own. rewrite andb_true_iff, Z.leb_le, Z.ltb_lt. reflexivity. Qed.
Lemma own_unique q q' g : 0 <= q < P -> 0 <= q' < P -> own q g = true -> own q' g = true -> q = q'.
Proof.
  intros H H' H1 H2. apply own_spec in H1. apply own_spec in H2. destruct (Z.lt_trichotomy q q') as [L|[L|L]]; auto.
  - pose proof (rg_mono (q + 1) q'). lia.
  - pose proof (rg_mono (q' + 1) q). lia.
Qed.
Lemma own_exists g : 0 <= g < gn -> exists q, 0 <= q < P /\ own q g = true.
Proof.
  intros Hg. pose proof RB as (HP & Hl & H0 & H1 & Hm).
  assert (G : forall m : nat, Z.of_nat m <= P -> g < rg (Z.of_nat m) -> exists q, 0 <= q < P /\ own q g = true).
  { induction m; intros Hle Hlt; [change (Z.of_nat 0) with 0 in Hlt; lia|]. replace (Z.of_nat (S m)) with (Z.of_nat m + 1) in * by lia.
    destruct (Z.lt_ge_cases g (rg (Z.of_nat m))); [apply IHm; lia|]. exists (Z.of_nat m). split; [lia|]. apply own_spec. lia. }
  specialize (G (Z.to_nat P)). replace (Z.of_nat (Z.to_nat P)) with P in G by lia. apply G; lia.
Qed.
Definition owner (g : Z) : Z := match find (fun q => own q g) (zrange 0 P) with Some q => q | None => 0 end.
Lemma owner_spec g : 0 <= g < gn -> 0 <= owner g < P /\ rg (owner g) <= g < rg (owner g + 1).
Proof.
  intros Hg. unfold owner. destruct (find (fun q => own q g) (zrange 0 P)) as [q|] eqn:F.
  - apply find_some in F. destruct F as [F1 F2]. apply In_zrange in F1. apply own_spec in F2. auto.
  - destruct (own_exists g Hg) as (q & Hq & O). pose proof (find_none _ _ F q) as N. cbv beta in N. rewrite O in N. discriminate N. apply In_zrange. auto.
Qed.
Lemma owner_eq g q : 0 <= g < gn -> 0 <= q < P -> rg q <= g < rg (q + 1) -> owner g = q.
Proof. intros Hg Hq H. destruct (owner_spec g Hg) as [H1 H2]. apply (own_unique _ _ g); auto; apply own_spec; auto. Qed.
Lemma owner_mono g h : 0 <= g <= h -> h < gn -> owner g <= owner h.
Proof.
  intros H1 H2. destruct (owner_spec g) as [A1 A2]; [lia|]. destruct (owner_spec h) as [B1 B2]; [lia|].
  destruct (Z.le_gt_cases (owner g) (owner h)); auto. pose proof (rg_mono (owner h + 1) (owner g)). lia.
Qed.
Lemma owner_from_ok g k : 0 <= g < gn -> 0 <= k <= owner g -> owner_from (Z.to_nat P) ranges g k = Ok (owner g).
Proof.
  intros Hg Hk. destruct (owner_spec g Hg) as [O1 O2]. pose proof RB as (HP & Hl & _).
  assert (W : wp (owner_from (Z.to_nat P) ranges g k) (fun r => r = owner g)).
  { unfold owner_from. apply (while_wp (fun k => 0 <= k <= owner g) (fun k => P - 1 - k)); [auto|lia|].
    intros s Hs. split; [lia|]. wbind. apply (wp_rd 0); [lia|]. apply wp_ok. destruct (Z.leb_spec (rg (s + 1)) g).
    - apply wp_ok. split; [|lia]. destruct (Z.eq_dec s (owner g)); [subst s; lia|lia].
    - destruct (Z.eq_dec s (owner g)); [auto|]. pose proof (rg_mono (s + 1) (owner g)). lia. }
  apply wp_inv in W. destruct W as (r & E & ->). exact E.
Qed.
End Owner.

Section Run.
Context {T : Type} {S : Scalar T}.
Hypothesis RT : is_ring S.
Let RT' : @ring_theory T s0 s1 sadd smul ssub sopp (@eq T) := RT.
Add Ring RTr : RT'.
Variables (ijunk : Z -> Z) (vjunk : Z -> T) (slack : option Z) (P gn : Z) (ranges : list Z).
Variable (A : Z -> csr T).
Hypothesis D : distributed P gn ranges A.
Notation rg := (znth 0 ranges).

Let RB : row_blocks P gn ranges := proj1 D.
Let own_ := owner P ranges.
Definition nn (p : Z) : Z := rg (p + 1) - rg p.
Definition Lg (p : Z) : list Z := wanted gn (rg p) (rg (p + 1)) (used_upto (rg p) (rg (p + 1)) (csr_index (A p)) (csr_nnz (A p))).
Definition rq (p q : Z) : list Z := bucket (owner P ranges) q (Lg p).
Definition idx (p : Z) : list Z := match g2l_csr ijunk (nn p) gn (rg p) (rg (p + 1)) (csr_ptr (A p)) (csr_index (A p)) with Ok (i, _, _) => i | _ => [] end.
Definition Aloc (p : Z) : csr T := mkCsr (csr_n (A p)) (nn p + zlen (Lg p)) (csr_nnz (A p)) (csr_ptr (A p)) (idx p) (csr_value (A p)).

Lemma range_facts p : 0 <= p < P -> 0 <= rg p <= rg (p + 1) /\ rg (p + 1) <= gn.
Proof.
  intros Hp. pose proof RB as (HP & Hl & H0 & H1 & Hm). pose proof (rg_mono P gn ranges RB 0 p ltac:(lia) ltac:(lia)). pose proof (rg_mono P gn ranges RB p (p + 1) ltac:(lia) ltac:(lia)).
  pose proof (rg_mono P gn ranges RB (p + 1) P ltac:(lia) ltac:(lia)). lia.
Qed.
Lemma nn_eq p : 0 <= p < P -> csr_n (A p) = nn p.
Proof. intros Hp. apply (proj2 D p Hp). Qed.

Lemma g2l_facts p : 0 <= p < P ->
  g2l_csr ijunk (nn p) gn (rg p) (rg (p + 1)) (csr_ptr (A p)) (csr_index (A p)) = Ok (idx p, nn p + zlen (Lg p), Lg p) /\
  zlen (idx p) = zlen (csr_index (A p)) /\
  (forall k, 0 <= k < csr_nnz (A p) -> 0 <= znth 0 (idx p) k < nn p + zlen (Lg p) /\ to_global (rg p) (nn p) (Lg p) (znth 0 (idx p) k) = znth 0 (csr_index (A p)) k).
Proof.
  intros Hp. destruct (proj2 D p Hp) as (Hok & Hnp & Hn). destruct Hok as (Hptr & _ & Hnz & Hi & _ & Hrg). rewrite Hn in Hptr, Hnz. rewrite Hnp in Hrg.
  pose proof (g2l_csr_wp gn (rg p) (rg (p + 1)) (range_facts p Hp) ijunk (csr_ptr (A p)) (csr_index (A p)) Hptr) as W.
  rewrite Hnz in W. specialize (W Hi Hrg). fold (nn p) in W. fold (Lg p) in W. apply wp_inv in W. destruct W as ([[ix np] l] & E & -> & -> & W1 & W2 & _).
  assert (Eix : idx p = ix) by (unfold idx; rewrite E; reflexivity). rewrite Eix. split; [exact E|]. split; auto.
Qed.

Lemma Lg_In p g : In g (Lg p) <-> 0 <= g < gn /\ (g < rg p \/ rg (p + 1) <= g) /\ exists k, 0 <= k < csr_nnz (A p) /\ znth 0 (csr_index (A p)) k = g.
Proof.
  unfold Lg. rewrite wanted_In, used_upto_true. unfold outside. rewrite orb_true_iff, Z.ltb_lt, Z.leb_le. intuition.
Qed.
Lemma Lg_inc p : increasing (Lg p). Proof. apply filter_increasing. Qed.
Lemma Lg_range p g : In g (Lg p) -> 0 <= g < gn. Proof. intros H. apply Lg_In in H. apply H. Qed.
Lemma rq_In p q g : 0 <= q < P -> (In g (rq p q) <-> In g (Lg p) /\ rg q <= g < rg (q + 1)).
Proof.
  intros Hq. unfold rq, bucket. rewrite filter_In, Z.eqb_eq. split; intros [H1 H2]; split; auto.
  - subst q. apply (owner_spec P gn ranges RB). apply (Lg_range p); auto.
  - apply (owner_eq P gn ranges RB); auto. apply (Lg_range p); auto.
Qed.
Lemma Lg_split p : flat_map (rq p) (zrange 0 P) = Lg p.
Proof.
  apply sorted_buckets.
  - intros g Hg. apply (owner_spec P gn ranges RB). apply (Lg_range p); auto.
  - intros d i j Hij Hj. rewrite !(znth_indep d 0) by lia.
    pose proof (Lg_range p _ (znth_In 0 (Lg p) i ltac:(lia))). pose proof (Lg_range p _ (znth_In 0 (Lg p) j ltac:(lia))).
    apply (owner_mono P gn ranges RB); [|lia]. destruct (Z.eq_dec i j); [subst; lia|]. pose proof (Lg_inc p i j). lia.
Qed.

(** ** the synchronous states *)
Definition imc (p : Z) : list Z := map (fun q => zlen (rq p q)) (zrange 0 P).
Definition exc (p : Z) : list Z := map (fun q => zlen (rq q p)) (zrange 0 P).
Definition nbr (p q : Z) : bool := negb (zlen (rq p q) =? 0) || negb (zlen (rq q p) =? 0).
Definition nb (p : Z) : list Z := filter (nbr p) (zrange 0 P).
Definition gi (p t : Z) : list Z := rq p (znth 0 (nb p) t).
Definition ge (p t : Z) : list Z := rq (znth 0 (nb p) t) p.
Definition loc (g : Z) : Z := g - rg (owner P ranges g).
Definition iptr (p : Z) : list Z := map (off (gi p)) (zrange 0 (zlen (nb p) + 1)).
Definition eptr (p : Z) : list Z := map (off (ge p)) (zrange 0 (zlen (nb p) + 1)).
Definition exch (p : Z) : list Z := flat_map (fun t => map loc (ge p t)) (zrange 0 (zlen (nb p))).

Lemma nb_In p q : In q (nb p) <-> 0 <= q < P /\ (zlen (rq p q) <> 0 \/ zlen (rq q p) <> 0).
Proof.
  unfold nb. rewrite filter_In, In_zrange. unfold nbr. rewrite orb_true_iff, !negb_true_iff, !Z.eqb_neq. reflexivity.
Qed.
Lemma nb_sym p q : 0 <= p < P -> In q (nb p) -> 0 <= q < P /\ In p (nb q).
Proof. intros Hp H. apply nb_In in H. destruct H as [H1 H2]. split; auto. apply nb_In. split; auto. tauto. Qed.
Lemma NoDup_nb p : NoDup (nb p). Proof. apply NoDup_filter. apply NoDup_zrange. Qed.
Lemma nb_range p t : 0 <= t < zlen (nb p) -> 0 <= znth 0 (nb p) t < P.
Proof. intros H. apply (nb_In p). apply znth_In. auto. Qed.
Lemma Lg_nb p : flat_map (gi p) (zrange 0 (zlen (nb p))) = Lg p.
Proof.
  unfold gi. rewrite <- (flat_map_znth (rq p) (nb p)). unfold nb. rewrite flat_map_filter; [apply Lg_split|].
  intros q _ H. unfold nbr in H. apply orb_false_iff in H. destruct H as [H _]. apply negb_false_iff, Z.eqb_eq in H.
  destruct (rq p q) as [|a l]; auto. rewrite zlen_cons in H. pose proof (zlen_nonneg l). lia.
Qed.
Lemma off_gi_total p : off (gi p) (zlen (nb p)) = zlen (Lg p).
Proof. unfold off. rewrite Lg_nb. reflexivity. Qed.

Definition st0 (p : Z) : pst := mkPst (Aloc p) (Lg p) (imc p) [] [] [] [] [].
Lemma prepare_ok p : 0 <= p < P -> prepare ijunk P gn ranges p (A p) = Ok (st0 p).
Proof.
  intros Hp. pose proof RB as (HP & Hl & _). unfold prepare.
  rewrite !(rd_ok 0) by lia. cbn [bind]. rewrite nn_eq by auto. destruct (g2l_facts p Hp) as (E & _ & _). rewrite E. cbn [bind].
  replace (nn p + zlen (Lg p) - nn p) with (zlen (Lg p)) by lia. set (ns := zlen (Lg p)).
  assert (Hns : 0 <= ns) by apply zlen_nonneg.
  assert (W : wp (for_ 0 ns (fun i im => v <- rd (Lg p) i ;; wr im i v) (alloc ns ijunk)) (fun im => im = Lg p)).
  { apply (for_wp' (fun i im => zlen im = ns /\ forall t, 0 <= t < i -> znth 0 im t = znth 0 (Lg p) t)).
    - lia.
    - split; [rewrite zlen_alloc; lia|lia].
    - intros i im Hi [H1 H2]. wbind. apply (wp_rd 0); [fold ns; lia|]. apply wp_wr; [lia|]. rewrite zlen_zupd. split; auto. intros t Ht. rewrite znth_zupd by lia. destruct (Z.eqb_spec t i); [subst; auto|apply H2; lia].
    - intros im [H1 H2]. apply (list_ext 0); [auto|]. intros; apply H2; lia. }
  apply wp_inv in W. destruct W as (im0 & E0 & ->). rewrite E0. cbn [bind].
  assert (Rg : forall i, 0 <= i < ns -> 0 <= znth 0 (Lg p) i < gn) by (intros; apply (Lg_range p); apply znth_In; auto).
  assert (W : wp (for_ 0 ns (fun i '(im, k) => v <- rd (Lg p) i ;; k <- owner_from (Z.to_nat P) ranges v k ;; im <- incr im k ;; Ok (im, k)) (repeat 0 (Z.to_nat P), 0))
     (fun '(im, k) => im = imc p)).
  { apply (for_wp' (fun i '(im, k) => zlen im = P /\ 0 <= k /\ (i < ns -> k <= owner P ranges (znth 0 (Lg p) i)) /\
       forall q, 0 <= q < P -> znth 0 im q = cntk (owner P ranges) q (map (znth 0 (Lg p)) (zrange 0 i)))).
    - lia.
    - split; [rewrite zlen_repeat; lia|]. split; [lia|]. split; [intros; pose proof (owner_spec P gn ranges RB _ (Rg 0 ltac:(lia))); lia|].
      intros q Hq. rewrite znth_repeat by lia. reflexivity.
    - intros i [im k] Hi (H1 & H2 & H3 & H4). wbind. apply (wp_rd 0); [fold ns; lia|]. specialize (H3 ltac:(lia)).
      rewrite (owner_from_ok P gn ranges RB) by (try apply Rg; lia). cbn [bind]. pose proof (owner_spec P gn ranges RB _ (Rg i ltac:(lia))) as [O1 O2].
      set (w := owner P ranges (znth 0 (Lg p) i)) in *. wbind. unfold incr. wbind. apply (wp_rd 0); [lia|]. apply wp_wr; [lia|]. apply wp_ok.
      rewrite zlen_zupd. split; [auto|]. split; [lia|]. split.
      + intros Hn. apply (owner_mono P gn ranges RB); [|apply Rg; lia]. pose proof (Lg_inc p i (i + 1)). pose proof (Rg i). unfold ns in *. lia.
      + intros q Hq. rewrite znth_zupd by lia. rewrite zrange_snoc, map_app, cntk_app by lia. cbn [map]. rewrite cntk_single. fold w.
        destruct (Z.eqb_spec q w); [subst q; rewrite Z.eqb_refl; rewrite H4 by lia; lia|]. destruct (Z.eqb_spec w q); [congruence|]. rewrite H4 by lia. lia.
    - intros [im k] (H1 & _ & _ & H4). apply (list_ext 0).
      + unfold imc. rewrite zlen_map_zrange by lia. lia.
      + intros q Hq. rewrite H4 by lia. unfold imc. rewrite (znth_map _ 0) by (rewrite zlen_zrange; lia). rewrite znth_zrange by lia.
        unfold rq, cntk. f_equal. f_equal. unfold ns. rewrite <- (list_table 0 (Lg p)). reflexivity. }
  apply wp_inv in W. destruct W as ([im k] & E1 & ->).
  match goal with |- bind ?m _ = _ => change m with (for_ 0 ns (fun i '(im, k) => v <- rd (Lg p) i ;; k <- owner_from (Z.to_nat P) ranges v k ;; im <- incr im k ;; Ok (im, k)) (repeat 0 (Z.to_nat P), 0)) end.
  rewrite E1. cbn [bind]. unfold st0, Aloc. rewrite nn_eq by auto. reflexivity.
Qed.

Lemma zlen_imc p : zlen (imc p) = P.
Proof. pose proof RB as (HP & _). unfold imc. rewrite zlen_map_zrange by lia. lia. Qed.
Lemma zlen_exc p : zlen (exc p) = P.
Proof. pose proof RB as (HP & _). unfold exc. rewrite zlen_map_zrange by lia. lia. Qed.
Lemma imc_nth p q : 0 <= q < P -> znth 0 (imc p) q = zlen (rq p q).
Proof. intros. unfold imc. rewrite (znth_map _ 0) by (rewrite zlen_zrange; lia). rewrite znth_zrange by lia. reflexivity. Qed.
Lemma exc_nth p q : 0 <= q < P -> znth 0 (exc p) q = zlen (rq q p).
Proof. intros. unfold exc. rewrite (znth_map _ 0) by (rewrite zlen_zrange; lia). rewrite znth_zrange by lia. reflexivity. Qed.

Definition st1 (p : Z) : pst := mkPst (Aloc p) (map loc (Lg p)) (imc p) (nb p) (iptr p) (eptr p) (alloc (off (ge p) (zlen (nb p))) ijunk) [].

Lemma zrange_filter_prefix (c : Z -> bool) i n : 0 <= i <= n -> filter c (zrange 0 n) = filter c (zrange 0 i) ++ filter c (zrange i n).
Proof. intros. rewrite (zrange_app 0 i n) by lia. apply filter_app. Qed.

Lemma tables_ok p : 0 <= p < P -> tables ijunk P ranges (st0 p) (exc p) = Ok (st1 p).
Proof.
  intros Hp. pose proof RB as (HP & Hl & _).
  assert (W : wp (tables ijunk P ranges (st0 p) (exc p)) (fun s => s = st1 p)).
  2:{ apply wp_inv in W. destruct W as (s & E & ->). exact E. }
  unfold tables. cbn [s_im s_A s_import s_out st0].
  assert (Cond : forall i, 0 <= i < P -> negb (znth 0 (imc p) i =? 0) || negb (znth 0 (exc p) i =? 0) = nbr p i) by (intros; rewrite imc_nth, exc_nth by lia; reflexivity).
  pose proof (zlen_imc p) as Zi. pose proof (zlen_exc p) as Ze.
  wbind. apply (for_wp' (fun i '(c, e) => c = zlen (filter (nbr p) (zrange 0 i)) /\ e = zlen (flat_map (fun q => rq q p) (filter (nbr p) (zrange 0 i))))).
  - lia.
  - split; reflexivity.
  - intros i [c e] Hi [H1 H2]. wbind. apply (wp_rd 0); [lia|]. wbind. apply (wp_rd 0); [lia|]. rewrite Cond by lia.
    rewrite zrange_snoc, filter_app, flat_map_app by lia. cbn [filter]. destruct (nbr p i); apply wp_ok.
    + rewrite !zlen_app. cbn [flat_map]. rewrite app_nil_r, exc_nth by lia. change (zlen [i]) with 1. lia.
    + cbn [flat_map]. rewrite !app_nil_r. auto.
  - intros [N e] [H1 H2]. fold (nb p) in H1, H2. rewrite (flat_map_znth (fun q => rq q p)) in H2. fold (off (ge p) (zlen (nb p))) in H2.
    assert (HN : 0 <= N) by (rewrite H1; apply zlen_nonneg).
    wbind. apply wp_wr; [rewrite zlen_alloc; lia|]. wbind. apply wp_wr; [rewrite zlen_alloc; lia|].
    set (ip0 := zupd (alloc (N + 1) ijunk) 0 0). assert (Hip0 : zlen ip0 = N + 1 /\ znth 0 ip0 0 = 0).
    { unfold ip0. rewrite zlen_zupd, znth_zupd by (rewrite zlen_alloc; lia). rewrite zlen_alloc by lia. auto. }
    destruct Hip0 as [Hip1 Hip2].
    set (cnt := fun i => zlen (filter (nbr p) (zrange 0 i))).
    assert (Cle : forall i, 0 <= i <= P -> cnt i <= N).
    { intros i Hi. rewrite H1. unfold cnt, nb. rewrite (zrange_filter_prefix _ i P) by lia. rewrite zlen_app. pose proof (zlen_nonneg (filter (nbr p) (zrange i P))). lia. }
    assert (Cpos : forall i, 0 <= cnt i) by (intros; apply zlen_nonneg).
    assert (Cnth : forall i t, 0 <= i <= P -> 0 <= t < cnt i -> znth 0 (filter (nbr p) (zrange 0 i)) t = znth 0 (nb p) t).
    { intros i t Hi Ht. unfold nb. rewrite (zrange_filter_prefix _ i P) by lia. rewrite znth_app by lia. fold (cnt i). destruct (Z.ltb_spec t (cnt i)); [auto|lia]. }
    wbind. apply (for_wp' (fun i '(neib, ip, ep, n1) => n1 = cnt i /\ zlen neib = N /\ zlen ip = N + 1 /\ zlen ep = N + 1 /\
      (forall t, 0 <= t < n1 -> znth 0 neib t = znth 0 (nb p) t) /\
      (forall t, 0 <= t <= n1 -> znth 0 ip t = off (gi p) t) /\ (forall t, 0 <= t <= n1 -> znth 0 ep t = off (ge p) t))).
    + lia.
    + assert (E0 : cnt 0 = 0) by reflexivity. rewrite E0. split; [auto|]. split; [rewrite zlen_alloc; lia|]. split; [auto|]. split; [auto|].
      split; [intros; lia|]. split; intros t Ht; replace t with 0 by lia; rewrite Hip2; reflexivity.
    + intros i [[[neib ip] ep] n1] Hi (I1 & I2 & I3 & I4 & I5 & I6 & I7).
      assert (Es : cnt (i + 1) = cnt i + if nbr p i then 1 else 0).
      { unfold cnt. rewrite zrange_snoc, filter_app, zlen_app by lia. cbn [filter]. destruct (nbr p i); reflexivity. }
      pose proof (Cle (i + 1) ltac:(lia)) as C1. pose proof (Cle i ltac:(lia)) as C0. pose proof (Cpos i) as Cp.
      destruct (Z.ltb_spec n1 N) as [Ln|Ln].
      * wbind. apply (wp_rd 0); [lia|]. wbind. apply (wp_rd 0); [lia|]. rewrite Cond by lia.
        destruct (nbr p i) eqn:B.
        { assert (En : znth 0 (nb p) n1 = i).
          { rewrite <- (Cnth (i + 1)) by lia. rewrite zrange_snoc, filter_app by lia. cbn [filter]. rewrite B. rewrite znth_app by lia. fold (cnt i).
            destruct (Z.ltb_spec n1 (cnt i)); [lia|]. rewrite I1, Z.sub_diag. reflexivity. }
          wbind. apply wp_wr; [lia|]. wbind. apply (wp_rd 0); [lia|]. wbind. apply wp_wr; [lia|]. wbind. apply (wp_rd 0); [lia|]. wbind. apply wp_wr; [lia|]. apply wp_ok.
          rewrite !zlen_zupd. split; [lia|]. split; [auto|]. split; [auto|]. split; [auto|]. split; [|split].
          - intros t Ht. rewrite znth_zupd by lia. destruct (Z.eqb_spec t n1); [subst t; auto|apply I5; lia].
          - intros t Ht. rewrite znth_zupd by lia. destruct (Z.eqb_spec t (n1 + 1)); [|apply I6; lia]. subst t. rewrite I6, off_S, imc_nth by lia. unfold gi at 3. rewrite En. reflexivity.
          - intros t Ht. rewrite znth_zupd by lia. destruct (Z.eqb_spec t (n1 + 1)); [|apply I7; lia]. subst t. rewrite I7, off_S, exc_nth by lia. unfold ge at 3. rewrite En. reflexivity. }
        { apply wp_ok. split; [lia|]. auto 10. }
      * apply wp_ok. destruct (nbr p i); [lia|]. split; [lia|]. auto 10.
    + intros [[[neib ip] ep] n1] (I1 & I2 & I3 & I4 & I5 & I6 & I7).
      assert (En1 : n1 = N) by (rewrite I1, H1; reflexivity).
      assert (E1 : neib = nb p) by (apply (list_ext 0); [lia|intros; apply I5; lia]).
      assert (E2 : ip = iptr p).
      { apply (list_ext 0); [unfold iptr; rewrite zlen_map_zrange by lia; lia|]. intros t Ht. rewrite I6 by lia. unfold iptr.
        rewrite (znth_map _ 0) by (rewrite zlen_zrange; lia). rewrite znth_zrange by lia. reflexivity. }
      assert (E3 : ep = eptr p).
      { apply (list_ext 0); [unfold eptr; rewrite zlen_map_zrange by lia; lia|]. intros t Ht. rewrite I7 by lia. unfold eptr.
        rewrite (znth_map _ 0) by (rewrite zlen_zrange; lia). rewrite znth_zrange by lia. reflexivity. }
      cbn [Aloc csr_np csr_n]. rewrite nn_eq by auto. replace (nn p + zlen (Lg p) - nn p) with (zlen (Lg p)) by lia. set (ns := zlen (Lg p)).
      assert (Hns : 0 <= ns) by apply zlen_nonneg.
      assert (Rg : forall i, 0 <= i < ns -> 0 <= znth 0 (Lg p) i < gn) by (intros; apply (Lg_range p); apply znth_In; auto).
      wbind. apply (for_wp' (fun i '(im, k) => zlen im = ns /\ 0 <= k /\ (i < ns -> k <= owner P ranges (znth 0 (Lg p) i)) /\
        (forall t, 0 <= t < i -> znth 0 im t = loc (znth 0 (Lg p) t)) /\ (forall t, i <= t < ns -> znth 0 im t = znth 0 (Lg p) t))).
      * lia.
      * split; [auto|]. split; [lia|]. split; [intros; pose proof (owner_spec P gn ranges RB _ (Rg 0 ltac:(lia))); lia|]. split; [intros; lia|auto].
      * intros i [im k] Hi (J1 & J2 & J3 & J4 & J5). wbind. apply (wp_rd 0); [lia|]. specialize (J3 ltac:(lia)). rewrite J5 by lia.
        rewrite (owner_from_ok P gn ranges RB) by (try apply Rg; lia). cbn [bind]. pose proof (owner_spec P gn ranges RB _ (Rg i ltac:(lia))) as [O1 O2].
        wbind. apply (wp_rd 0); [lia|]. wbind. apply wp_wr; [lia|]. apply wp_ok. rewrite zlen_zupd. split; [auto|]. split; [lia|]. split.
        { intros Hn. apply (owner_mono P gn ranges RB); [|apply Rg; lia]. pose proof (Lg_inc p i (i + 1)). pose proof (Rg i). unfold ns in *. lia. }
        split; intros t Ht; rewrite znth_zupd by lia; destruct (Z.eqb_spec t i); [subst t; reflexivity|apply J4; lia|lia|apply J5; lia].
      * intros [im k] (J1 & _ & _ & J4 & _). apply wp_ok. unfold st1. rewrite E1, E2, E3, H2. f_equal.
        apply (list_ext 0); [rewrite zlen_map; auto|]. intros i Hi. rewrite (znth_map _ 0) by lia. apply J4. lia.
Qed.

Lemma iptr_off p : is_off (gi p) (zlen (nb p)) (iptr p).
Proof.
  pose proof (zlen_nonneg (nb p)). split; [unfold iptr; rewrite zlen_map_zrange by lia; lia|]. intros t Ht. unfold iptr.
  rewrite (znth_map _ 0) by (rewrite zlen_zrange; lia). rewrite znth_zrange by lia. reflexivity.
Qed.
Lemma eptr_off p : is_off (ge p) (zlen (nb p)) (eptr p).
Proof.
  pose proof (zlen_nonneg (nb p)). split; [unfold eptr; rewrite zlen_map_zrange by lia; lia|]. intros t Ht. unfold eptr.
  rewrite (znth_map _ 0) by (rewrite zlen_zrange; lia). rewrite znth_zrange by lia. reflexivity.
Qed.
Lemma is_off_map {B C} (g : Z -> list B) (f : B -> C) n ptr : is_off g n ptr -> is_off (fun t => map f (g t)) n ptr.
Proof. intros [H1 H2]. split; auto. intros t Ht. rewrite H2 by auto. apply off_ext. intros. rewrite zlen_map. reflexivity. Qed.

(** ** the state after lis_commtable_create *)
Definition stn (p : Z) (out : list (list T)) : pst :=
  mkPst (Aloc p) (map (fun i => nn p + i) (zrange 0 (zlen (Lg p)))) (imc p) (nb p) (iptr p) (eptr p) (exch p) out.

Lemma round1_msg p t : 0 <= p < P -> 0 <= t < zlen (nb p) ->
  (a <- rd (iptr p) t ;; b <- rd (iptr p) (t + 1) ;; l <- slice (map loc (Lg p)) a (b - a) ;; Ok (MInt l)) = Ok (@MInt T (map loc (rq p (znth 0 (nb p) t)))).
Proof.
  intros Hp Ht. pose proof (is_off_map _ loc _ _ (iptr_off p)) as [H1 H2]. rewrite !(rd_ok 0) by lia. cbn [bind]. rewrite !H2 by lia.
  rewrite <- (Lg_nb p). rewrite map_flat_map. rewrite slice_ok by lia. reflexivity.
Qed.

Lemma znth_map_nb {B} (d : B) (f : Z -> B) p t : 0 <= t < zlen (nb p) -> znth d (map f (nb p)) t = f (znth 0 (nb p) t).
Proof. intros. rewrite (znth_map _ 0) by lia. reflexivity. Qed.

Lemma round1_digest p : 0 <= p < P ->
  receive (eptr p) (map (fun q => map loc (rq q p)) (nb p)) (alloc (off (ge p) (zlen (nb p))) ijunk) = Ok (exch p).
Proof.
  intros Hp. apply (receive_wp (fun t => map loc (ge p t)) (zlen (nb p))).
  - apply zlen_nonneg.
  - apply is_off_map, eptr_off.
  - apply zlen_map.
  - intros t Ht. rewrite znth_map_nb by auto. reflexivity.
  - rewrite zlen_alloc by apply off_nonneg. apply off_ext. intros. rewrite zlen_map. reflexivity.
Qed.

Lemma renumber_ok p : for_ 0 (zlen (Lg p)) (fun i im => wr im i (nn p + i)) (map loc (Lg p)) = Ok (map (fun i => nn p + i) (zrange 0 (zlen (Lg p)))).
Proof.
  assert (W : wp (for_ 0 (zlen (Lg p)) (fun i im => wr im i (nn p + i)) (map loc (Lg p))) (fun r => r = map (fun i => nn p + i) (zrange 0 (zlen (Lg p))))).
  { apply (for_set 0 (fun i => nn p + i)); [pose proof (zlen_nonneg (Lg p)); lia|rewrite zlen_map; lia|]. intros r H1 H2 _. rewrite zlen_map in H1.
    pose proof (zlen_nonneg (Lg p)). apply (list_ext 0); [rewrite zlen_map_zrange by lia; lia|]. intros i Hi. rewrite H2 by lia.
    rewrite (znth_map _ 0) by (rewrite zlen_zrange; lia). rewrite znth_zrange by lia. reflexivity. }
  apply wp_inv in W. destruct W as (r & E & ->). exact E.
Qed.

(** the exported rows, as seen by the receiver *)
Lemma exch_seg p t : 0 <= t < zlen (nb p) ->
  map (znth 0 (exch p)) (zrange (off (ge p) t) (off (ge p) (t + 1))) = map loc (ge p t).
Proof.
  intros Ht. unfold exch. pose proof (flat_map_segment 0 (fun t => map loc (ge p t)) (zlen (nb p)) t Ht) as H.
  assert (E : forall u, zlen (flat_map (fun t => map loc (ge p t)) (zrange 0 u)) = off (ge p) u) by (intros; apply (off_ext (fun t => map loc (ge p t)) (ge p)); intros; apply zlen_map).
  rewrite !E in H. exact H.
Qed.
Lemma zlen_exch p : zlen (exch p) = off (ge p) (zlen (nb p)).
Proof. apply (off_ext (fun t => map loc (ge p t)) (ge p)); intros; apply zlen_map. Qed.
Lemma exch_range p t i : 0 <= p < P -> 0 <= t < zlen (nb p) -> off (ge p) t <= i < off (ge p) (t + 1) -> 0 <= i < zlen (exch p) /\ 0 <= znth 0 (exch p) i < nn p.
Proof.
  intros Hp Ht Hi. pose proof (off_nonneg (ge p) t). pose proof (off_mono (ge p) (t + 1) (zlen (nb p)) ltac:(lia)). rewrite zlen_exch. split; [lia|].
  assert (Hin : In (znth 0 (exch p) i) (map loc (ge p t))) by (rewrite <- exch_seg by auto; apply in_map; apply In_zrange; auto).
  apply in_map_iff in Hin. destruct Hin as (g & <- & Hg). unfold ge in Hg. apply rq_In in Hg; auto. destruct Hg as [Hg1 Hg2].
  unfold loc. rewrite (owner_eq P gn ranges RB g p); auto; [unfold nn; lia|]. apply Lg_range in Hg1. auto.
Qed.

Lemma gather_ok p out (x : list T) g t : 0 <= p < P -> 0 <= t < zlen (nb p) -> part_of (rg p) (nn p) g x ->
  gather_out (stn p out) (grow vjunk (csr_np (Aloc p)) x) t = Ok (map g (rq (znth 0 (nb p) t) p)).
Proof.
  intros Hp Ht [Hx1 Hx2]. unfold gather_out. cbn [s_eptr s_export stn]. destruct (eptr_off p) as [H1 H2]. rewrite !(rd_ok 0) by lia. cbn [bind]. rewrite !H2 by lia.
  rewrite (all_ok_map _ (fun i => znth s0 x (znth 0 (exch p) i))).
  - f_equal. rewrite <- (map_map (znth 0 (exch p)) (znth s0 x)). rewrite exch_seg by auto. rewrite map_map. apply map_ext_in. intros gg Hg. unfold ge in Hg.
    apply rq_In in Hg; auto. destruct Hg as [Hg1 Hg2]. unfold loc. rewrite (owner_eq P gn ranges RB gg p); auto; [|apply Lg_range in Hg1; auto].
    rewrite Hx2 by (unfold nn; lia). f_equal. lia.
  - intros i Hi. apply In_zrange in Hi. destruct (exch_range p t i Hp Ht Hi) as [R1 R2]. rewrite (rd_ok 0) by auto. cbn [bind]. unfold grow.
    assert (LL : forall (a b : list T) j, 0 <= j < zlen a -> rd (a ++ b) j = Ok (znth s0 a j)).
    { intros a b j Hj. pose proof (zlen_nonneg b). rewrite (rd_ok s0) by (rewrite zlen_app; lia). rewrite znth_app by lia. destruct (Z.ltb_spec j (zlen a)); [auto|lia]. }
    apply LL. lia.
Qed.

Lemma zlen_grow np (x : list T) : zlen (grow vjunk np x) = Z.max (zlen x) np.
Proof. unfold grow. rewrite zlen_app, zlen_map, zlen_zrange. lia. Qed.
Lemma grow_nth np (x : list T) i : 0 <= i < zlen x -> znth s0 (grow vjunk np x) i = znth s0 x i.
Proof. intros Hi. unfold grow. rewrite znth_app by lia. destruct (Z.ltb_spec i (zlen x)); [auto|lia]. Qed.

Lemma nn_nonneg p : 0 <= p < P -> 0 <= nn p.
Proof. intros Hp. pose proof (range_facts p Hp). unfold nn. lia. Qed.

Lemma scatter_ok p out (x : list T) g : 0 <= p < P -> part_of (rg p) (nn p) g x -> (slack <> None \/ Lg p <> []) ->
  wp (scatter_in slack vjunk (stn p out) (grow vjunk (csr_np (Aloc p)) x) (map (fun q => map g (rq p q)) (nb p)))
     (fun x' => csr_np (Aloc p) <= zlen x' /\ forall l, 0 <= l < csr_np (Aloc p) -> znth s0 x' l = g (to_global (rg p) (nn p) (Lg p) l)).
Proof.
  intros Hp [Hx1 Hx2] Hs. unfold scatter_in. cbn [s_iptr s_neib s_import stn]. destruct (iptr_off p) as [H1 H2]. pose proof (zlen_nonneg (nb p)). pose proof (zlen_nonneg (Lg p)) as HL.
  rewrite (rd_ok 0) by lia. cbn [bind]. rewrite H2 by lia. rewrite off_gi_total.
  rewrite (receive_wp (fun t => map g (gi p t)) (zlen (nb p))).
  2:{ lia. } 2:{ apply is_off_map, iptr_off. } 2:{ apply zlen_map. } 2:{ intros t Ht. rewrite znth_map_nb by auto. reflexivity. }
  2:{ rewrite zlen_alloc by lia. rewrite <- off_gi_total. apply off_ext. intros. rewrite zlen_map. reflexivity. }
  cbn [bind]. rewrite <- map_flat_map, Lg_nb. cbn [Aloc csr_np]. set (np := nn p + zlen (Lg p)).
  set (x0 := grow vjunk np x). pose proof (zlen_grow np x) as Zx. fold x0 in Zx. pose proof (nn_nonneg p Hp) as Hnn.
  assert (X0 : forall i, 0 <= i < nn p -> znth s0 x0 i = g (rg p + i)) by (intros i Hi; unfold x0; rewrite grow_nth by lia; apply Hx2; auto).
  assert (F : exists k0, first_import slack (stn p out) = Ok k0 /\ (0 < zlen (Lg p) -> k0 = nn p)).
  { unfold first_import. cbn [stn s_import]. destruct (Z.eq_dec (zlen (Lg p)) 0) as [E|E].
    - rewrite E. cbn [zrange map]. replace (map (fun i => nn p + i) (zrange 0 0)) with (@nil Z) by reflexivity. destruct slack as [v|]; [exists v; split; [auto|lia]|].
      destruct Hs as [Hs|Hs]; [congruence|]. destruct (Lg p); [congruence|]. rewrite zlen_cons in E. pose proof (zlen_nonneg l). lia.
    - rewrite zrange_cons by lia. cbn [map]. exists (nn p + 0). split; [auto|lia]. }
  destruct F as (k0 & Ek & Hk0). rewrite Ek. cbn [bind]. rewrite (rd_ok 0) by lia. cbn [bind]. rewrite H2 by lia. rewrite off_0.
  wbind. apply (for_wp' (fun i '(x', k) => zlen x' = zlen x0 /\ k = k0 + i /\ (forall l, 0 <= l < nn p -> znth s0 x' l = g (rg p + l)) /\
     forall t, 0 <= t < i -> znth s0 x' (nn p + t) = g (znth 0 (Lg p) t))).
  - lia.
  - split; [auto|]. split; [lia|]. split; [auto|]. intros; lia.
  - intros i [x' k] Hi (I1 & I2 & I3 & I4). specialize (Hk0 ltac:(lia)). wbind. apply (wp_rd s0); [rewrite zlen_map; lia|]. wbind. apply wp_wr; [unfold np in *; lia|]. apply wp_ok.
    rewrite zlen_zupd. split; [auto|]. split; [lia|]. split.
    + intros l Hl. rewrite znth_zupd by (unfold np in *; lia). destruct (Z.eqb_spec l k); [lia|auto].
    + intros t Ht. rewrite znth_zupd by (unfold np in *; lia). destruct (Z.eqb_spec (nn p + t) k); [|apply I4; lia]. rewrite (znth_map _ 0) by lia. f_equal. f_equal. lia.
  - intros [x' k] (I1 & I2 & I3 & I4). apply wp_ok. split; [unfold np in *; lia|]. intros l Hl. unfold to_global. destruct (Z.ltb_spec l (nn p)); [apply I3; lia|].
    replace l with (nn p + (l - nn p)) at 1 by lia. apply I4. unfold np in *. lia.
Qed.

(** ** the local matrix *)
Lemma Aloc_ok p : 0 <= p < P -> csr_ok (Aloc p).
Proof.
  intros Hp. destruct (proj2 D p Hp) as (Hok & Hnp & Hn). destruct (g2l_facts p Hp) as (_ & G1 & G2). pose proof (zlen_nonneg (Lg p)).
  destruct Hok as (H1 & H2 & H3 & H4 & H5 & H6). unfold csr_ok, Aloc. cbn [csr_n csr_np csr_nnz csr_ptr csr_index csr_value].
  split; [auto|]. split; [rewrite Hn; unfold nn; lia|]. split; [auto|]. split; [lia|]. split; [auto|]. intros k Hk. apply G2; auto.
Qed.

Lemma Aloc_entries p : 0 <= p < P ->
  csr_entries (A p) = map (fun e => (erow e, to_global (rg p) (nn p) (Lg p) (ecol e), eval e)) (csr_entries (Aloc p)).
Proof.
  intros Hp. destruct (proj2 D p Hp) as (Hok & Hnp & Hn). destruct (g2l_facts p Hp) as (_ & G1 & G2). unfold csr_entries. rewrite map_flat_map.
  cbn [Aloc csr_n csr_ptr csr_index csr_value]. apply flat_map_ext_in. intros i Hi. apply In_zrange in Hi. rewrite map_map. apply map_ext_in. intros k Hk. apply In_zrange in Hk.
  destruct Hok as (H1 & H2 & H3 & H4 & H5 & H6). pose proof (ptr_ok_bounds _ _ i k H1 Hi Hk) as Hb. rewrite H3 in Hb.
  unfold erow, ecol, eval. cbn [fst snd]. rewrite (proj2 (G2 k Hb)). reflexivity.
Qed.

Lemma entries_shape p e : 0 <= p < P -> In e (csr_entries (Aloc p)) -> 0 <= erow e < nn p /\ 0 <= ecol e < csr_np (Aloc p).
Proof.
  intros Hp He. pose proof (Aloc_ok p Hp) as (H1 & H2 & H3 & H4 & H5 & H6). unfold csr_entries in He. apply in_flat_map in He. destruct He as (i & Hi & He).
  apply In_zrange in Hi. apply in_map_iff in He. destruct He as (k & <- & Hk). apply In_zrange in Hk. pose proof (ptr_ok_bounds _ _ i k H1 Hi Hk) as Hb.
  unfold erow, ecol. cbn [fst snd]. cbn [Aloc csr_n] in Hi. rewrite nn_eq in Hi by auto. split; [auto|]. apply H6. lia.
Qed.

(** ** relating the local products to the global ones *)
Lemma mvE_flat {B} (f : B -> list (entry T)) l x i : mvE (flat_map f l) x i = ssum (map (fun b => mvE (f b) x i) l).
Proof. induction l as [|b l IH]; [reflexivity|]. cbn [flat_map map ssum]. rewrite (mvE_app RT), IH. reflexivity. Qed.

Lemma ssum_single (F : Z -> T) n p : 0 <= p < n -> (forall q, 0 <= q < n -> q <> p -> F q = s0) -> ssum (map F (zrange 0 n)) = F p.
Proof.
  intros Hp H. rewrite (zrange_app 0 p n) by lia. rewrite (zrange_cons p n) by lia. rewrite map_app, (ssum_app RT). cbn [map ssum].
  rewrite (ssum_map_ext F (fun _ => s0)) by (intros q Hq; apply In_zrange in Hq; apply H; lia).
  rewrite (ssum_map_ext F (fun _ => s0) (zrange (p + 1) n)) by (intros q Hq; apply In_zrange in Hq; apply H; lia). rewrite !(ssum_map_zero RT). ring.
Qed.

Lemma global_row p i g : 0 <= p < P -> 0 <= i < nn p -> mvE (global_entries P ranges A) g (rg p + i) = mvE (csr_entries (A p)) g i.
Proof.
  intros Hp Hi. unfold global_entries. rewrite mvE_flat. rewrite (ssum_single _ P p Hp).
  - unfold mvE, bucket. rewrite filter_map, map_map. rewrite (filter_ext_in _ (fun e : entry T => erow e =? i)).
    + reflexivity.
    + intros e _. unfold erow at 1. cbn [fst snd]. destruct (Z.eqb_spec (erow e) i) as [E|E]; [rewrite E; apply Z.eqb_refl|apply Z.eqb_neq; lia].
  - intros q Hq Hne. apply mvE_disj. intros e He. apply in_map_iff in He. destruct He as (e' & <- & He'). unfold erow at 1. cbn [fst snd].
    rewrite Aloc_entries in He' by auto. apply in_map_iff in He'. destruct He' as (e2 & <- & He2). apply entries_shape in He2; auto. unfold erow at 1; cbn [fst snd].
    unfold nn in *. destruct He2 as [He2 _]. intros E.
    destruct (Z.lt_trichotomy q p) as [L|[L|L]]; [|congruence|].
    + pose proof (rg_mono P gn ranges RB (q + 1) p ltac:(lia) ltac:(lia)). lia.
    + pose proof (rg_mono P gn ranges RB (p + 1) q ltac:(lia) ltac:(lia)). lia.
Qed.

Lemma global_shape e : In e (global_entries P ranges A) -> 0 <= erow e < gn /\ 0 <= ecol e < gn.
Proof.
  intros He. unfold global_entries in He. apply in_flat_map in He. destruct He as (p & Hp & He). apply In_zrange in Hp.
  apply in_map_iff in He. destruct He as (e' & <- & He). pose proof (range_facts p Hp). destruct (proj2 D p Hp) as (Hok & Hnp & Hn).
  unfold csr_entries in He. apply in_flat_map in He. destruct He as (i & Hi & He). apply In_zrange in Hi. apply in_map_iff in He. destruct He as (k & <- & Hk). apply In_zrange in Hk.
  destruct Hok as (H1 & H2 & H3 & H4 & H5 & H6). pose proof (ptr_ok_bounds _ _ i k H1 Hi Hk) as Hb.
  unfold erow, ecol. cbn [fst snd]. rewrite Hnp in H6. rewrite H3 in Hb. split; [lia|apply H6; lia].
Qed.

Lemma mv_local p x' g i : 0 <= p < P -> 0 <= i < nn p ->
  (forall l, 0 <= l < csr_np (Aloc p) -> x' l = g (to_global (rg p) (nn p) (Lg p) l)) ->
  mv_spec (csr_entries (Aloc p)) (csr_np (Aloc p)) x' i = mv_spec (global_entries P ranges A) gn g (rg p + i).
Proof.
  intros Hp Hi Hx. rewrite (mv_spec_mvE RT) by (intros e He _; apply entries_shape in He; tauto).
  rewrite (mv_spec_mvE RT) by (intros e He _; apply global_shape in He; tauto). rewrite global_row by auto. rewrite Aloc_entries by auto.
  unfold mvE, bucket. rewrite filter_map, map_map. unfold erow at 2. cbn [fst snd]. apply ssum_map_ext.
  intros e He. apply filter_In in He. destruct He as [He _]. apply entries_shape in He; auto. unfold eval at 2, ecol at 2. cbn [fst snd]. rewrite Hx by tauto. reflexivity.
Qed.

(** contribution of process q to component c of the conjugate transposed product *)
Definition Hc (g : Z -> T) (q c : Z) : T := mvE (map trc (csr_entries (A q))) (fun i => g (rg q + i)) c.
Lemma mvh_global (HC : conj_ok S) g c : mvh_spec (global_entries P ranges A) gn g c = ssum (map (fun q => Hc g q c) (zrange 0 P)).
Proof.
  rewrite mvh_mv by auto. rewrite (mv_spec_mvE RT).
  - unfold global_entries. rewrite map_flat_map, mvE_flat. apply ssum_map_ext. intros q _. unfold Hc, mvE, bucket. rewrite !map_map, !filter_map, !map_map. reflexivity.
  - intros e He _. apply in_map_iff in He. destruct He as (e' & <- & He). apply global_shape in He. unfold trc, ecol at 1. cbn [fst snd]. tauto.
Qed.
Lemma to_global_inj p l l' : 0 <= p < P -> 0 <= l < csr_np (Aloc p) -> 0 <= l' < csr_np (Aloc p) ->
  to_global (rg p) (nn p) (Lg p) l = to_global (rg p) (nn p) (Lg p) l' -> l = l'.
Proof.
  intros Hp H H'. cbn [Aloc csr_np] in H, H'. unfold to_global.
  assert (O : forall t, 0 <= t < zlen (Lg p) -> znth 0 (Lg p) t < rg p \/ rg (p + 1) <= znth 0 (Lg p) t) by (intros t Ht; apply (Lg_In p); apply znth_In; auto).
  destruct (Z.ltb_spec l (nn p)); destruct (Z.ltb_spec l' (nn p)); intros E.
  - lia.
  - pose proof (O (l' - nn p)). unfold nn in *. lia.
  - pose proof (O (l - nn p)). unfold nn in *. lia.
  - apply increasing_inj in E; [lia|apply Lg_inc|lia|lia].
Qed.
Lemma mvh_local (HC : conj_ok S) p x g l : 0 <= p < P -> 0 <= l < csr_np (Aloc p) -> (forall i, 0 <= i < nn p -> x i = g (rg p + i)) ->
  mvh_spec (csr_entries (Aloc p)) (nn p) x l = Hc g p (to_global (rg p) (nn p) (Lg p) l).
Proof.
  intros Hp Hl Hx. rewrite mvh_mv by auto. rewrite (mv_spec_mvE RT).
  - unfold Hc. rewrite Aloc_entries by auto. unfold mvE, bucket. rewrite !map_map, !filter_map, !map_map.
    rewrite (filter_ext_in (fun a : entry T => erow (trc (erow a, to_global (rg p) (nn p) (Lg p) (ecol a), eval a)) =? to_global (rg p) (nn p) (Lg p) l) (fun x0 : entry T => erow (trc x0) =? l)).
    + apply ssum_map_ext. intros e He. apply filter_In in He. destruct He as [He _]. apply entries_shape in He; auto. unfold trc, eval, ecol, erow in *. cbn [fst snd] in *. rewrite Hx by tauto. reflexivity.
    + intros e He. apply entries_shape in He; auto. unfold trc, erow, ecol, eval in *. cbn [fst snd] in *.
      destruct (Z.eqb_spec (snd (fst e)) l) as [->|N]; [apply Z.eqb_refl|]. apply Z.eqb_neq. intros E. apply N. apply (to_global_inj p); tauto.
  - intros e He _. apply in_map_iff in He. destruct He as (e' & <- & He). apply entries_shape in He; auto. unfold trc, ecol at 1. cbn [fst snd]. tauto.
Qed.
Lemma Hc_zero g q c : 0 <= q < P -> ~ (rg q <= c < rg (q + 1)) -> ~ In c (Lg q) -> Hc g q c = s0.
Proof.
  intros Hq Hc1 Hc2. unfold Hc. apply mvE_disj. intros e He. apply in_map_iff in He. destruct He as (e' & <- & He). unfold trc, erow at 1. cbn [fst snd]. intros E.
  apply Hc2. destruct (proj2 D q Hq) as (Hok & Hnp & Hn). unfold csr_entries in He. apply in_flat_map in He. destruct He as (i & Hi & He). apply In_zrange in Hi. apply in_map_iff in He. destruct He as (k & Ek & Hk). apply In_zrange in Hk.
  destruct Hok as (H1 & H2 & H3 & H4 & H5 & H6). pose proof (ptr_ok_bounds _ _ i k H1 Hi Hk) as Hb. rewrite H3 in Hb. rewrite Hnp in H6.
  subst e'. unfold ecol in E. cbn [fst snd] in E. apply Lg_In. rewrite <- E. pose proof (H6 k Hb). split; [lia|]. split; [lia|]. exists k. auto.
Qed.

Definition hprod (g : Z -> T) (p : Z) (y : list T) : Prop :=
  csr_np (Aloc p) <= zlen y /\ forall l, 0 <= l < csr_np (Aloc p) -> znth s0 y l = Hc g p (to_global (rg p) (nn p) (Lg p) l).

Lemma hprod_ok (HC : conj_ok S) p x y g : 0 <= p < P -> part_of (rg p) (nn p) g x -> 
  exists y', matvech_csr (Aloc p) x (grow vjunk (csr_np (Aloc p)) y) = Ok y' /\ hprod g p y'.
Proof.
  intros Hp [Hx1 Hx2]. destruct (matvech_csr_final RT HC (Aloc p) x (grow vjunk (csr_np (Aloc p)) y)) as (y' & E & H1 & H2).
  - apply Aloc_ok; auto.
  - cbn [Aloc csr_n]. rewrite nn_eq by auto. lia.
  - rewrite zlen_grow. lia.
  - exists y'. split; [exact E|]. rewrite zlen_grow in H1. split; [lia|]. intros l Hl. rewrite H2 by auto.
    replace (csr_n (Aloc p)) with (nn p) by (cbn [Aloc csr_n]; rewrite nn_eq by auto; reflexivity). apply mvh_local; auto.
Qed.

Lemma Lg_seg p t : 0 <= t < zlen (nb p) -> map (znth 0 (Lg p)) (zrange (off (gi p) t) (off (gi p) (t + 1))) = gi p t.
Proof. intros Ht. rewrite <- (Lg_nb p). apply (flat_map_segment 0 (gi p)); auto. Qed.

Lemma reduce_out_ok p out y g t : 0 <= p < P -> 0 <= t < zlen (nb p) -> hprod g p y ->
  reduce_out (stn p out) y t = Ok (map (Hc g p) (rq p (znth 0 (nb p) t))).
Proof.
  intros Hp Ht [Hy1 Hy2]. unfold reduce_out. cbn [s_iptr s_import stn]. destruct (iptr_off p) as [H1 H2]. rewrite !(rd_ok 0) by lia. cbn [bind]. rewrite !H2 by lia.
  pose proof (off_nonneg (gi p) t). pose proof (off_mono (gi p) (t + 1) (zlen (nb p)) ltac:(lia)) as Ho. rewrite off_gi_total in Ho. pose proof (nn_nonneg p Hp).
  rewrite (all_ok_map _ (fun i => Hc g p (znth 0 (Lg p) i))).
  - f_equal. rewrite <- (map_map (znth 0 (Lg p)) (Hc g p)). rewrite Lg_seg by auto. reflexivity.
  - intros i Hi. apply In_zrange in Hi. rewrite (rd_ok 0) by (rewrite zlen_map_zrange; lia). cbn [bind]. rewrite (znth_map _ 0) by (rewrite zlen_zrange; lia). rewrite znth_zrange by lia.
    cbn [Aloc csr_np] in Hy1, Hy2. rewrite (rd_ok s0) by lia. rewrite Hy2 by lia. unfold to_global. destruct (Z.ltb_spec (nn p + (0 + i)) (nn p)); [lia|]. do 3 f_equal. lia.
Qed.

Lemma sum_one (F : Z -> T) c l : NoDup l -> ssum (map F (filter (Z.eqb c) l)) = if existsb (Z.eqb c) l then F c else s0.
Proof.
  induction l as [|a l IH]; intros ND; [reflexivity|]. inversion ND; subst. cbn [filter existsb]. destruct (Z.eqb_spec c a) as [->|N].
  - cbn [map ssum orb]. rewrite filter_none; [cbn [map ssum]; ring|]. intros x Hx. apply Z.eqb_neq. congruence.
  - cbn [orb]. apply IH; auto.
Qed.

Lemma NoDup_rq p q : NoDup (rq p q).
Proof. unfold rq, bucket. apply NoDup_filter. unfold Lg, wanted. apply NoDup_filter. apply NoDup_zrange. Qed.
Lemma rq_self p : 0 <= p < P -> rq p p = [].
Proof.
  intros Hp. destruct (rq p p) as [|a l] eqn:E; auto. assert (H : In a (rq p p)) by (rewrite E; left; auto). apply rq_In in H; auto. destruct H as [H1 H2]. apply Lg_In in H1. lia.
Qed.
Lemma nb_self p : 0 <= p < P -> ~ In p (nb p).
Proof. intros Hp H. apply nb_In in H. rewrite rq_self in H by auto. change (zlen (@nil Z)) with 0 in H. lia. Qed.

Lemma reduce_in_ok p out y g : 0 <= p < P -> hprod g p y ->
  wp (reduce_in vjunk (stn p out) y (map (fun q => map (Hc g q) (rq q p)) (nb p)))
     (fun y' => zlen y' = zlen y /\ forall i, 0 <= i < nn p -> znth s0 y' i = ssum (map (fun q => Hc g q (rg p + i)) (zrange 0 P))).
Proof.
  intros Hp [Hy1 Hy2]. unfold reduce_in. cbn [s_eptr s_neib s_export stn]. destruct (eptr_off p) as [H1 H2]. pose proof (zlen_nonneg (nb p)) as HN. pose proof (zlen_nonneg (Lg p)) as HL.
  set (hv := fun t gg => Hc g (znth 0 (nb p) t) gg). set (N := zlen (nb p)) in *.
  rewrite (rd_ok 0) by lia. cbn [bind]. rewrite H2 by lia.
  rewrite (receive_wp (fun t => map (hv t) (ge p t)) N).
  2:{ lia. } 2:{ split; [auto|]. intros t Ht. rewrite H2 by auto. apply off_ext. intros. rewrite zlen_map. reflexivity. } 2:{ apply zlen_map. }
  2:{ intros t Ht. rewrite znth_map_nb by auto. reflexivity. }
  2:{ rewrite zlen_alloc by apply off_nonneg. apply off_ext. intros. rewrite zlen_map. reflexivity. }
  cbn [bind]. pose proof (nn_nonneg p Hp) as Hnn. cbn [Aloc csr_np] in Hy1, Hy2.
  set (items := fun t => map (fun gg => (loc gg, hv t gg)) (ge p t)). set (total := flat_map items (zrange 0 N)).
  assert (Ex : exch p = map fst total) by (unfold total, exch; rewrite map_flat_map; apply flat_map_ext_in; intros t _; unfold items; rewrite map_map; reflexivity).
  assert (Ew : flat_map (fun t => map (hv t) (ge p t)) (zrange 0 N) = map snd total) by (unfold total; rewrite map_flat_map; apply flat_map_ext_in; intros t _; unfold items; rewrite map_map; reflexivity).
  rewrite Ew. set (d0 := (0, s0) : Z * T).
  assert (Oi : forall t, off items t = off (ge p) t) by (intros t; apply off_ext; intros; unfold items; apply zlen_map).
  assert (Tl : zlen total = off (ge p) N) by (rewrite <- Oi; reflexivity).
  assert (Seg : forall t, 0 <= t < N -> map (znth d0 total) (zrange (off (ge p) t) (off (ge p) (t + 1))) = items t) by (intros t Ht; rewrite <- !Oi; apply (flat_map_segment d0 items); auto).
  set (R := fun (d : list (Z * T)) (y' : list T) => zlen y' = zlen y /\ forall i, 0 <= i < nn p -> znth s0 y' i = sadd (znth s0 y i) (ssum (map snd (filter (fun e => fst e =? i) d)))).
  apply (for_items R total items 0 N _ []).
  - lia.
  - apply prefix_refl.
  - split; auto. intros i Hi. cbn. ring.
  - intros t y' d Ht Hd Hpre HR. wbind. apply (wp_rd 0); [lia|]. wbind. apply (wp_rd 0); [lia|]. rewrite !H2 by lia. rewrite <- (Seg t Ht) in Hpre |- *.
    pose proof (off_nonneg (ge p) t).
    apply (for_list R total (znth d0 total) (off (ge p) t) (off (ge p) (t + 1)) _ d); auto; [apply off_mono; lia|].
    intros k y2 d' Hk _ _ [R1 R2]. destruct (exch_range p t k Hp Ht Hk) as [K1 K2]. pose proof (zlen_exch p) as Ze. fold N in Ze.
    wbind. apply (wp_rd 0); [auto|]. wbind. apply (wp_rd s0); [rewrite zlen_map; lia|]. wbind. apply (wp_rd s0); [lia|]. apply wp_wr; [lia|].
    split; [rewrite zlen_zupd; auto|]. intros i Hi. rewrite filter_app, map_app, (ssum_app RT). cbn [filter].
    rewrite Ex in *. rewrite (znth_map fst d0 0) in * by lia. rewrite (znth_map snd d0 s0) by lia. rewrite znth_zupd by lia.
    destruct (Z.eqb_spec i (fst (znth d0 total k))) as [->|NE].
    + rewrite Z.eqb_refl. cbn [map ssum]. rewrite R2 by lia. ring.
    + destruct (Z.eqb_spec (fst (znth d0 total k)) i); [congruence|]. cbn [map ssum]. rewrite R2 by lia. ring.
  - intros y' [R1 R2]. split; [auto|]. intros i Hi. rewrite R2 by auto. rewrite Hy2 by lia. unfold to_global. destruct (Z.ltb_spec i (nn p)); [|lia].
    set (c := rg p + i). cbn [app]. unfold total. rewrite filter_flat_map, map_flat_map.
    pose proof (range_facts p Hp) as Rp. assert (Hc0 : 0 <= c < gn) by (unfold c, nn in *; lia). assert (Hc1 : rg p <= c < rg (p + 1)) by (unfold c, nn in *; lia).
    assert (Out : forall q, 0 <= q < P -> q <> p -> ~ (rg q <= c < rg (q + 1))).
    { intros q Hq Hne E. apply Hne. apply (own_unique P gn ranges RB q p c); auto; apply own_spec; auto. }
    rewrite (flat_map_ext_in _ (fun t => map (hv t) (filter (Z.eqb c) (ge p t)))).
    2:{ intros t Ht. apply In_zrange in Ht. unfold items. rewrite filter_map, map_map. f_equal. apply filter_ext_in. intros gg Hg. cbn [fst].
        unfold ge in Hg. apply rq_In in Hg; auto. destruct Hg as [Hg1 Hg2]. unfold loc. rewrite (owner_eq P gn ranges RB gg p); auto; [|apply Lg_range in Hg1; auto].
        unfold c. destruct (Z.eqb_spec (rg p + i) gg); [apply Z.eqb_eq; lia|apply Z.eqb_neq; lia]. }
    assert (Ef : ssum (flat_map (fun t => map (hv t) (filter (Z.eqb c) (ge p t))) (zrange 0 N)) = ssum (map (fun q => Hc g q c) (nb p))).
    { rewrite <- (map_id (flat_map _ _)). rewrite (ssum_flat_map RT). rewrite (list_table 0 (nb p)) at 1. rewrite map_map. fold N. apply ssum_map_ext. intros t Ht. apply In_zrange in Ht. rewrite map_id.
      rewrite (sum_one (hv t)) by apply NoDup_rq. unfold hv. destruct (existsb (Z.eqb c) (ge p t)) eqn:Eb; [reflexivity|]. symmetry.
      pose proof (nb_range p t Ht) as Hq. apply Hc_zero; auto.
      - apply Out; auto. intros E. apply (nb_self p Hp). rewrite <- E at 1. apply znth_In. auto.
      - intros Hin. assert (Hc2 : In c (ge p t)) by (unfold ge; apply rq_In; auto). assert (Et : existsb (Z.eqb c) (ge p t) = true) by (apply existsb_exists; exists c; split; auto; apply Z.eqb_refl). congruence. }
    rewrite Ef. unfold nb.
    rewrite (ssum_map_ext (fun q => Hc g q c) (fun q => if q =? p then s0 else Hc g q c) (filter (nbr p) (zrange 0 P))).
    2:{ intros q Hq. destruct (Z.eqb_spec q p); [subst q; exfalso; apply (nb_self p Hp); auto|reflexivity]. }
    rewrite (ssum_filter RT).
    2:{ intros q Hq Hn. apply In_zrange in Hq. destruct (Z.eqb_spec q p); auto. apply Hc_zero; auto. intros Hin.
        assert (Hr : In c (rq q p)) by (apply rq_In; auto). unfold nbr in Hn. apply orb_false_iff in Hn. destruct Hn as [_ Hn]. apply negb_false_iff, Z.eqb_eq in Hn.
        destruct (rq q p) as [|z zs]; [destruct Hr|]. rewrite zlen_cons in Hn. pose proof (zlen_nonneg zs). lia. }
    assert (Sp : Hc g p c = ssum (map (fun q => if q =? p then Hc g p c else s0) (zrange 0 P))).
    { rewrite (ssum_single (fun q => if q =? p then Hc g p c else s0) P p Hp); [rewrite Z.eqb_refl; auto|]. intros q _ Hne. apply Z.eqb_neq in Hne. rewrite Hne. reflexivity. }
    rewrite Sp. rewrite <- (ssum_map_add RT). apply ssum_map_ext. intros q _. destruct (Z.eqb_spec q p); [subst q; ring|ring].
Qed.

(** ** the whole run *)
Variables (op : nat -> bool) (X Y : nat -> Z -> list T) (G : nat -> Z -> T) (eager : nat -> Z -> bool).
Hypothesis HC : forall k, op k = false -> conj_ok S.
Hypothesis HX : forall k p, 0 <= p < P -> part_of (rg p) (nn p) (G k) (X k p).
Hypothesis HY : forall k p, 0 <= p < P -> nn p <= zlen (Y k p).
Hypothesis Hs : forall p, 0 <= p < P -> slack <> None \/ Lg p <> [].

Definition expected (k : nat) (p : Z) : list (list T) := map (fun q => if op k then map (G k) (rq p q) else map (Hc (G k) q) (rq q p)) (nb p).
Definition OUT (k : nat) (p : Z) : list T := match product vjunk slack op X Y k p (stn p []) (expected k p) with Ok y => y | _ => [] end.
Definition result_ok (k : nat) (p : Z) (y : list T) : Prop :=
  nn p <= zlen y /\ forall i, 0 <= i < nn p -> znth s0 y i = (if op k then mv_spec else mvh_spec) (global_entries P ranges A) gn (G k) (rg p + i).

Lemma product_out k p out ls : product vjunk slack op X Y k p (stn p out) ls = product vjunk slack op X Y k p (stn p []) ls.
Proof. reflexivity. Qed.
Lemma product_ok k p out : 0 <= p < P -> product vjunk slack op X Y k p (stn p out) (expected k p) = Ok (OUT k p) /\ result_ok k p (OUT k p).
Proof.
  intros Hp. assert (W : wp (product vjunk slack op X Y k p (stn p []) (expected k p)) (result_ok k p)).
  { unfold product, expected, result_ok. cbn [s_A stn]. destruct (op k) eqn:O.
    - wbind. eapply wp_mono; [apply (scatter_ok p [] (X k p) (G k)); auto|]. intros x' [X1 X2].
      destruct (matvec_csr_final RT (Aloc p) x' (Y k p)) as (y & E & Y1 & Y2); [apply Aloc_ok; auto|auto|cbn [Aloc csr_n]; rewrite nn_eq by auto; apply HY; auto|].
      rewrite E. apply wp_ok. split; [rewrite Y1; apply HY; auto|]. intros i Hi. rewrite Y2 by (cbn [Aloc csr_n]; rewrite nn_eq by auto; auto). apply mv_local; auto.
    - destruct (hprod_ok (HC k O) p (X k p) (Y k p) (G k) Hp (HX k p Hp)) as (y0 & E & Hy). rewrite E. cbn [bind].
      eapply wp_mono; [apply (reduce_in_ok p [] y0 (G k)); auto|]. intros y [Y1 Y2]. split.
      + destruct Hy as [Hy _]. cbn [Aloc csr_np] in Hy. pose proof (zlen_nonneg (Lg p)). lia.
      + intros i Hi. rewrite Y2 by auto. symmetry. apply mvh_global. apply (HC k O). }
  apply wp_inv in W. destruct W as (y & E & Hy). rewrite product_out. unfold OUT. rewrite E. auto.
Qed.

Definition ST (r : nat) (p : Z) : pst :=
  match r with O => st0 p | Datatypes.S O => st1 p | Datatypes.S (Datatypes.S k) => stn p (map (fun j => OUT j p) (seq 0 k)) end.
Definition MM (r : nat) (p q : Z) : msg :=
  match r with O => MInt [zlen (rq p q)] | Datatypes.S O => MInt (map loc (rq p q))
  | Datatypes.S (Datatypes.S k) => MVal (if op k then map (G k) (rq q p) else map (Hc (G k) p) (rq p q)) end.

Lemma nbs r p : 0 <= p < P -> partners P r p (ST r p) = match r with O => zrange 0 P | _ => nb p end.
Proof. intros _. destruct r as [|[|k]]; reflexivity. Qed.

Lemma Hmsg r p t : 0 <= p < P -> 0 <= t < zlen (partners P r p (ST r p)) ->
  message vjunk op X Y r p (ST r p) t = Ok (MM r p (znth 0 (partners P r p (ST r p)) t)).
Proof.
  intros Hp Ht. pose proof RB as (HP & _). rewrite nbs in * by auto. destruct r as [|[|k]]; cbn [message ST MM].
  - rewrite zlen_zrange in Ht. cbn [s_im st0]. rewrite (rd_ok 0) by (rewrite zlen_imc; lia). cbn [bind]. rewrite imc_nth, znth_zrange by lia. reflexivity.
  - cbn [s_iptr s_import st1]. apply round1_msg; auto.
  - cbn [s_A stn]. destruct (op k) eqn:O.
    + rewrite (gather_ok p _ (X k p) (G k)); auto.
    + destruct (hprod_ok (HC k O) p (X k p) (Y k p) (G k) Hp (HX k p Hp)) as (y0 & E & Hy). rewrite E. cbn [bind]. rewrite (reduce_out_ok p _ y0 (G k)); auto.
Qed.

Lemma Hdig r p : 0 <= p < P -> digest ijunk vjunk slack P ranges op X Y r p (ST r p) (map (fun q => MM r q p) (partners P r p (ST r p))) = Ok (ST (Datatypes.S r) p).
Proof.
  intros Hp. pose proof RB as (HP & _). rewrite nbs by auto. destruct r as [|[|k]]; cbn [digest ST MM].
  - rewrite (all_ok_map ints (fun m => match m with MInt l => l | MVal _ => [] end)) by (intros a Ha; apply in_map_iff in Ha; destruct Ha as (q & <- & _); reflexivity).
    rewrite map_map. cbn [bind]. rewrite (all_ok_map (fun l => rd l 0) (fun l => znth 0 l 0)) by (intros a Ha; apply in_map_iff in Ha; destruct Ha as (q & <- & _); reflexivity).
    rewrite map_map. cbn [bind]. change (map (fun x => znth 0 [zlen (rq x p)] 0) (zrange 0 P)) with (exc p). apply tables_ok; auto.
  - rewrite (all_ok_map ints (fun m => match m with MInt l => l | MVal _ => [] end)) by (intros a Ha; apply in_map_iff in Ha; destruct Ha as (q & <- & _); reflexivity).
    rewrite map_map. cbn [bind s_eptr s_export st1]. rewrite round1_digest by auto. cbn [bind st1 s_A s_import s_im s_neib s_iptr s_eptr s_out Aloc csr_n csr_np]. rewrite nn_eq by auto.
    replace (nn p + zlen (Lg p) - nn p) with (zlen (Lg p)) by lia. rewrite renumber_ok. reflexivity.
  - rewrite (all_ok_map vals (fun m => match m with MVal l => l | MInt _ => [] end)) by (intros a Ha; apply in_map_iff in Ha; destruct Ha as (q & <- & _); reflexivity).
    rewrite map_map. cbn [bind]. change (map (fun x => if op k then map (G k) (rq p x) else map (Hc (G k) x) (rq x p)) (nb p)) with (expected k p).
    rewrite (proj1 (product_ok k p _ Hp)). cbn [bind stn s_A s_import s_im s_neib s_iptr s_eptr s_export s_out]. unfold ST, stn. f_equal. f_equal.
    rewrite seq_S, map_app. reflexivity.
Qed.

Lemma Hsym r p q : 0 <= p < P -> In q (partners P r p (ST r p)) -> 0 <= q < P /\ In p (partners P r q (ST r q)).
Proof.
  intros Hp Hq. destruct r as [|[|k]].
  - apply In_zrange in Hq. split; auto. apply In_zrange. auto.
  - apply nb_sym; auto.
  - apply nb_sym; auto.
Qed.
Lemma Hnd r p : 0 <= p < P -> NoDup (partners P r p (ST r p)).
Proof. intros Hp. destruct r as [|[|k]]; [apply NoDup_zrange|apply NoDup_nb|apply NoDup_nb]. Qed.

Definition rch := reach P (partners (T:=T) P) (message vjunk op X Y) (digest ijunk vjunk slack P ranges op X Y) eager.

Theorem run_ok : exists s0, (forall p, 0 <= p < P -> prepare ijunk P gn ranges p (A p) = Ok (s0 p)) /\
  forall o, rch (initial (partners (T:=T) P) s0) o -> exists c, o = Some c /\
    (forall p, 0 <= p < P -> zlen (s_out (p_st (c_proc c p))) = Z.of_nat (p_round (c_proc c p) - 2) /\
       forall k, (Datatypes.S (Datatypes.S k) < p_round (c_proc c p))%nat -> result_ok k p (nth k (s_out (p_st (c_proc c p))) [])) /\
    forall R, exists c', rch c (Some c') /\ forall p, 0 <= p < P -> (R <= p_round (c_proc c' p))%nat.
Proof.
  pose proof RB as (HP & _). exists st0. split; [intros; apply prepare_ok; auto|]. intros o Ho.
  destruct (reach_inv P (partners P) (message vjunk op X Y) (digest ijunk vjunk slack P ranges op X Y) eager ST MM Hmsg Hdig Hsym Hnd (initial (partners P) st0) o) as (c & -> & Hinv); auto.
  { apply (initial_inv P (partners P) ST MM). auto. }
  exists c. split; auto. split.
  - intros p Hp. destruct Hinv as [Hpr _]. destruct (Hpr p Hp) as [Est _]. rewrite Est. destruct (p_round (c_proc c p)) as [|[|k]]; cbn [ST st0 st1 stn s_out].
    + split; [reflexivity|]. intros; lia.
    + split; [reflexivity|]. intros; lia.
    + split; [unfold zlen; rewrite map_length, seq_length; lia|]. intros j Hj.
      rewrite (nth_indep _ [] (OUT 0 p)) by (rewrite map_length, seq_length; lia). rewrite (map_nth (fun j => OUT j p) (seq 0 k) 0%nat). rewrite seq_nth by lia. apply (product_ok j p [] Hp).
  - intros R. destruct (all_reach P (partners P) (message vjunk op X Y) (digest ijunk vjunk slack P ranges op X Y) eager ST MM Hmsg Hdig Hsym Hnd c R HP Hinv) as (c' & H1 & _ & H2). exists c'. auto.
Qed.
End Run.
