Require Import ZArith List Bool Lia.
From Verif Require Import Base Scalar Spec Items Matvec Mpi SpecMpi G2lProof Net NetProof MpiProof.
Import ListNotations.
Open Scope Z_scope.

Lemma outside_iff lo hi g : outside lo hi g = true <-> (g < lo \/ hi <= g).
Proof. unfold outside. rewrite orb_true_iff, Z.ltb_lt, Z.leb_le. reflexivity. Qed.

Lemma to_global_inj' lo n l2g l l' : 0 <= n -> increasing l2g -> (forall g, In g l2g -> g < lo \/ lo + n <= g) ->
  0 <= l < n + zlen l2g -> 0 <= l' < n + zlen l2g -> to_global lo n l2g l = to_global lo n l2g l' -> l = l'.
Proof.
  intros Hn Inc Out H H'. unfold to_global.
  assert (O : forall t, 0 <= t < zlen l2g -> znth 0 l2g t < lo \/ lo + n <= znth 0 l2g t) by (intros; apply Out; apply znth_In; auto).
  destruct (Z.ltb_spec l n); destruct (Z.ltb_spec l' n); intros E.
  - lia.
  - pose proof (O (l' - n)). lia.
  - pose proof (O (l - n)). lia.
  - apply increasing_inj in E; auto; lia.
Qed.

Lemma g2l_csr_final junk n gn lo hi ptr index : 0 <= lo <= hi -> hi <= gn -> n = hi - lo ->
  ptr_ok n ptr -> znth 0 ptr n <= zlen index -> (forall k, 0 <= k < znth 0 ptr n -> 0 <= znth 0 index k < gn) ->
  exists index' np l2g, g2l_csr junk n gn lo hi ptr index = Ok (index', np, l2g) /\
    np = n + zlen l2g /\ increasing l2g /\
    (forall g, In g l2g <-> (g < lo \/ hi <= g) /\ exists k, 0 <= k < znth 0 ptr n /\ znth 0 index k = g) /\
    (forall k, 0 <= k < znth 0 ptr n -> 0 <= znth 0 index' k < np /\ to_global lo n l2g (znth 0 index' k) = znth 0 index k) /\
    (forall l l', 0 <= l < np -> 0 <= l' < np -> to_global lo n l2g l = to_global lo n l2g l' -> l = l').
Proof.
  intros H1 H2 -> Hp Hl Hr. pose proof (g2l_csr_wp gn lo hi (conj H1 H2) junk ptr index Hp Hl Hr) as W. cbv zeta in W.
  apply wp_inv in W. destruct W as ([[ix np] l] & E & -> & -> & W1 & W2 & W3). do 3 eexists. split; [exact E|].
  set (u := used_upto lo hi index (znth 0 ptr (hi - lo))) in *.
  assert (IN : forall g, In g (wanted gn lo hi u) <-> (g < lo \/ hi <= g) /\ exists k, 0 <= k < znth 0 ptr (hi - lo) /\ znth 0 index k = g).
  { intros g. rewrite wanted_In. unfold u. rewrite used_upto_true. rewrite outside_iff. split; [tauto|]. intros (A & k & B & C). pose proof (Hr k B). subst g. intuition; exists k; auto. }
  split; [reflexivity|]. split; [apply filter_increasing|]. split; [exact IN|]. split; [exact W2|].
  intros l l' Hl1 Hl2. apply to_global_inj'; auto; [lia|apply filter_increasing|]. intros g Hg. apply IN in Hg. lia.
Qed.

Lemma g2l_rco_final junk n gn lo hi w_row w_index : 0 <= lo <= hi -> hi <= gn -> n = hi - lo ->
  n <= zlen w_row -> n <= zlen w_index ->
  (forall i, 0 <= i < n -> 0 <= znth 0 w_row i <= zlen (znth [] w_index i)) ->
  (forall i j, 0 <= i < n -> 0 <= j < znth 0 w_row i -> 0 <= znth 0 (znth [] w_index i) j < gn) ->
  exists w' np l2g, g2l_rco junk n gn lo hi w_row w_index = Ok (w', np, l2g) /\
    np = n + zlen l2g /\ increasing l2g /\
    (forall g, In g l2g <-> (g < lo \/ hi <= g) /\ exists i j, 0 <= i < n /\ 0 <= j < znth 0 w_row i /\ znth 0 (znth [] w_index i) j = g) /\
    (forall i j, 0 <= i < n -> 0 <= j < znth 0 w_row i ->
       0 <= znth 0 (znth [] w' i) j < np /\ to_global lo n l2g (znth 0 (znth [] w' i) j) = znth 0 (znth [] w_index i) j) /\
    (forall l l', 0 <= l < np -> 0 <= l' < np -> to_global lo n l2g l = to_global lo n l2g l' -> l = l').
Proof.
  intros H1 H2 -> Hr Hi Hc Hg. pose proof (g2l_rco_wp gn lo hi (conj H1 H2) junk w_row w_index Hr Hi Hc Hg) as W. cbv zeta in W.
  apply wp_inv in W. destruct W as ([[ix np] l] & E & -> & -> & W1 & W2 & W3). do 3 eexists. split; [exact E|].
  set (u := used_of lo hi _) in *.
  assert (IN : forall g, In g (wanted gn lo hi u) <-> (g < lo \/ hi <= g) /\ exists i j, 0 <= i < hi - lo /\ 0 <= j < znth 0 w_row i /\ znth 0 (znth [] w_index i) j = g).
  { intros g. rewrite wanted_In. unfold u. rewrite used_of_true, outside_iff, in_flat_map. split.
    - intros (A & (B & i & I1 & I2) & C). split; [auto|]. apply In_zrange in I1. unfold row_cols in I2. apply in_map_iff in I2. destruct I2 as (j & J1 & J2). apply In_zrange in J2. exists i, j. auto.
    - intros (A & i & j & I & J & E'). pose proof (Hg i j I J) as B. rewrite E' in B. split; [auto|]. split; [|auto]. split; [auto|]. exists i. split; [apply In_zrange; auto|].
      unfold row_cols. apply in_map_iff. exists j. split; auto. apply In_zrange. auto. }
  split; [reflexivity|]. split; [apply filter_increasing|]. split; [exact IN|]. split; [exact W3|].
  intros l l' Hl1 Hl2. apply to_global_inj'; auto; [lia|apply filter_increasing|]. intros g Hgg. apply IN in Hgg. lia.
Qed.

Section Final.
Context {T : Type} {S : Scalar T}.
Lemma run_final (RT : is_ring S) (ijunk : Z -> Z) (vjunk : Z -> T) (slack : option Z) (P gn : Z) (ranges : list Z) (A : Z -> csr T)
    (op : nat -> bool) (X Y : nat -> Z -> list T) (G : nat -> Z -> T) (eager : nat -> Z -> bool) :
  distributed P gn ranges A ->
  (forall k, op k = false -> conj_ok S) ->
  (forall k p, 0 <= p < P -> part_of (znth 0 ranges p) (csr_n (A p)) (G k) (X k p) /\ csr_n (A p) <= zlen (Y k p)) ->
  (slack <> None \/ forall p, 0 <= p < P -> exists e, In e (csr_entries (A p)) /\ (ecol e < znth 0 ranges p \/ znth 0 ranges (p + 1) <= ecol e)) ->
  exists s0, (forall p, 0 <= p < P -> prepare ijunk P gn ranges p (A p) = Ok (s0 p)) /\
  forall o, reach P (partners P) (message vjunk op X Y) (digest ijunk vjunk slack P ranges op X Y) eager (initial (partners P) s0) o ->
  exists c, o = Some c /\
    (forall p, 0 <= p < P ->
       let done := p_round (c_proc c p) in let out := s_out (p_st (c_proc c p)) in
       zlen out = Z.of_nat (done - 2) /\
       forall k i, (k + 2 < done)%nat -> 0 <= i < csr_n (A p) ->
         csr_n (A p) <= zlen (nth k out []) /\
         znth Scalar.s0 (nth k out []) i = (if op k then mv_spec else mvh_spec) (global_entries P ranges A) gn (G k) (znth 0 ranges p + i)) /\
    forall R, exists c', reach P (partners P) (message vjunk op X Y) (digest ijunk vjunk slack P ranges op X Y) eager c (Some c') /\
      forall p, 0 <= p < P -> (R <= p_round (c_proc c' p))%nat.
Proof.
  intros D HC HXY Hs.
  assert (Hn : forall p, 0 <= p < P -> csr_n (A p) = nn ranges p) by (intros p Hp; apply (nn_eq P gn ranges A D p Hp)).
  destruct (run_ok RT ijunk vjunk slack P gn ranges A D op X Y G eager HC) as (st & H1 & H2).
  - intros k p Hp. rewrite <- Hn by auto. apply HXY; auto.
  - intros k p Hp. rewrite <- Hn by auto. apply HXY; auto.
  - intros p Hp. destruct Hs as [Hs|Hs]; [left; auto|right]. destruct (Hs p Hp) as (e & He & Ho).
    destruct (proj2 D p Hp) as (Hok & Hnp & _). unfold csr_entries in He. apply in_flat_map in He. destruct He as (i & Hi & He). apply In_zrange in Hi. apply in_map_iff in He. destruct He as (k & <- & Hk). apply In_zrange in Hk.
    destruct Hok as (Q1 & Q2 & Q3 & Q4 & Q5 & Q6). pose proof (ptr_ok_bounds _ _ i k Q1 Hi Hk) as Hb. rewrite Q3 in Hb. rewrite Hnp in Q6.
    unfold ecol in Ho. cbn [fst snd] in Ho. intros E.
    assert (Hin : In (znth 0 (csr_index (A p)) k) (Lg gn ranges A p)) by (unfold Lg; apply wanted_In; rewrite used_upto_true, outside_iff; split; [auto|]; split; [|auto]; split; [auto|]; exists k; auto). rewrite E in Hin. destruct Hin.
  - exists st. split; [exact H1|]. intros o Ho. destruct (H2 o Ho) as (c & -> & Hc & HR). exists c. split; [reflexivity|]. split; [|exact HR].
    intros p Hp. destruct (Hc p Hp) as [C1 C2]. cbv zeta. split; [exact C1|]. intros k i Hk Hi. destruct (C2 k ltac:(lia)) as [C3 C4]. rewrite Hn in * by auto. split; auto.
Qed.
End Final.
