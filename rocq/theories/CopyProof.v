Require Import ZArith List Bool Lia Permutation.
From Verif Require Import Base Items Scalar Spec Split SpecSplit Copy SpecCopy.
Import ListNotations.
Open Scope Z_scope.

Definition agree {A} (d : A) (lo hi : Z) (a o : list A) : Prop := forall k, lo <= k < hi -> znth d o k = znth d a k.

Lemma cp_wp {A} (d : A) a k o lo (Q : list A -> Prop) : 0 <= k < zlen a -> 0 <= k < zlen o -> agree d lo k a o ->
  (forall o', zlen o' = zlen o -> agree d lo (k + 1) a o' -> Q o') -> wp (cp a k o) Q.
Proof.
  intros Ha Ho Hag H. unfold cp. wrd d; [auto|]. apply wp_wr; [auto|]. apply H; [len|]. intros j Hj. rewrite znth_zupd by auto. destruct (Z.eqb_spec j k) as [->|]; [auto|apply Hag; lia].
Qed.
Lemma cp_loop_wp {A} (d : A) a lo b hi o (Q : list A -> Prop) : 0 <= b <= hi -> hi <= zlen a -> hi <= zlen o -> agree d lo b a o ->
  (forall o', zlen o' = zlen o -> agree d lo hi a o' -> Q o') -> wp (for_ b hi (fun k o => cp a k o) o) Q.
Proof.
  intros Hb Ha Ho Hag H. apply (for_wp' (fun k o' => zlen o' = zlen o /\ agree d lo k a o')); [lia|auto| |].
  - intros k o' Hk (L & G). apply (cp_wp d _ _ _ lo); [lia|lia|auto|]. intros o'' L' G'. split; [lia|auto].
  - intros o' (L & G). apply H; auto.
Qed.

Section P.
Context {T : Type} {S : Scalar T}.
Variable ji : Z -> Z.
Variable jv : Z -> T.

(** a state made of an index array and a value array *)
Definition Both (lo hi N : Z) (index : list Z) (value : list T) (s : list Z * list T) : Prop :=
  zlen (fst s) = N /\ zlen (snd s) = N /\ agree 0 lo hi index (fst s) /\ agree s0 lo hi value (snd s).

Lemma pair_wp lo b hi N index value s (Q : list Z * list T -> Prop) : 0 <= b <= hi -> hi <= N -> hi <= zlen index -> hi <= zlen value -> Both lo b N index value s ->
  (forall s', Both lo hi N index value s' -> Q s') ->
  wp (for_ b hi (fun j s => vl <- cp value j (snd s) ;; ix <- cp index j (fst s) ;; Ok (ix, vl)) s) Q.
Proof.
  intros Hb HN Hi Hv HB H. apply (for_wp' (fun k s => Both lo k N index value s)); [lia|auto| |auto].
  intros k [ix vl] Hk (L1 & L2 & G1 & G2). cbn [fst snd] in *. apply wp_bind. apply (cp_wp s0 _ _ _ lo); [lia|lia|auto|]. intros vl' L2' G2'.
  apply wp_bind. apply (cp_wp 0 _ _ _ lo); [lia|lia|auto|]. intros ix' L1' G1'. split; [cbn; lia|]. split; [cbn; lia|auto].
Qed.
Lemma pair_wp' lo b hi N index value s (Q : list Z * list T -> Prop) : 0 <= b <= hi -> hi <= N -> hi <= zlen index -> hi <= zlen value -> Both lo b N index value s ->
  (forall s', Both lo hi N index value s' -> Q s') ->
  wp (for_ b hi (fun j s => ix <- cp index j (fst s) ;; vl <- cp value j (snd s) ;; Ok (ix, vl)) s) Q.
Proof.
  intros Hb HN Hi Hv HB H. apply (for_wp' (fun k s => Both lo k N index value s)); [lia|auto| |auto].
  intros k [ix vl] Hk (L1 & L2 & G1 & G2). cbn [fst snd] in *. apply wp_bind. apply (cp_wp 0 _ _ _ lo); [lia|lia|auto|]. intros ix' L1' G1'.
  apply wp_bind. apply (cp_wp s0 _ _ _ lo); [lia|lia|auto|]. intros vl' L2' G2'. split; [cbn; lia|]. split; [cbn; lia|auto].
Qed.

Lemma both_alloc N (index : list Z) (value : list T) : 0 <= N -> Both 0 0 N index value (alloc N ji, alloc N jv).
Proof. intros H. unfold Both, agree. cbn [fst snd]. rewrite !zlen_alloc by auto. do 2 (split; [lia|]). split; intros; lia. Qed.

(** rows delimited by a monotone pointer array *)
Lemma rows_wp n N lo (ptr index : list Z) (value : list T) s (Q : list Z * list T -> Prop) :
  0 <= n -> n + 1 <= zlen ptr -> 0 <= znth 0 ptr 0 -> (forall i, 0 <= i < n -> znth 0 ptr i <= znth 0 ptr (i + 1)) -> (forall i, 0 <= i <= n -> 0 <= znth 0 ptr i <= N) ->
  N <= zlen index -> N <= zlen value -> Both lo (znth 0 ptr 0) N index value s ->
  (forall s', Both lo (znth 0 ptr n) N index value s' -> Q s') ->
  wp (for_ 0 n (fun i s => js <- rd ptr i ;; je <- rd ptr (i + 1) ;;
      for_ js je (fun j s => vl <- cp value j (snd s) ;; ix <- cp index j (fst s) ;; Ok (ix, vl)) s) s) Q.
Proof.
  intros Hn Hl H0 Hm Hb Hi Hv HB H. apply (for_wp' (fun i s => Both lo (znth 0 ptr i) N index value s)); [lia|auto| |auto].
  intros i s' Hi' HB'. wrd 0; [lia|]. wrd 0; [lia|]. pose proof (Hm i Hi'). pose proof (Hb (i + 1) ltac:(lia)). pose proof (Hb i ltac:(lia)).
  apply (pair_wp lo _ _ N); try lia; auto.
Qed.

Lemma ptr_all n p i : ptr_ok n p -> 0 <= i <= n -> 0 <= znth 0 p i <= znth 0 p n.
Proof. intros H Hi. pose proof (ptr_ok_mono n p 0 i H). pose proof (ptr_ok_mono n p i n H). destruct H as (_ & _ & Hz & _). lia. Qed.

Lemma elements_copy_wp n nnz ptr index (value : list T) (Q : list Z * list Z * list T -> Prop) : ptr_ok n ptr -> znth 0 ptr n = nnz -> nnz <= zlen index -> nnz <= zlen value ->
  (forall p ix vl, zlen p = n + 1 -> zlen ix = nnz -> zlen vl = nnz -> agree 0 0 (n + 1) ptr p -> agree 0 0 nnz index ix -> agree s0 0 nnz value vl -> Q (p, ix, vl)) ->
  wp (elements_copy ji jv n nnz ptr index value) Q.
Proof.
  intros Hp Hnnz Hi Hv H. pose proof Hp as (Hn & Hl & H0 & Hm). assert (Hz : 0 <= nnz) by (rewrite <- Hnnz; apply (ptr_all n); auto; lia).
  unfold elements_copy. apply wp_bind. apply (cp_loop_wp 0 _ 0); [lia|lia|rewrite zlen_alloc; lia|intros k Hk; lia|]. intros p Lp Gp. rewrite zlen_alloc in Lp by lia.
  apply wp_bind. apply (rows_wp n nnz 0); auto; try lia.
  - intros i Hi'. rewrite <- Hnnz. apply ptr_all; auto.
  - rewrite H0. apply both_alloc; auto.
  - intros [ix vl] (L1 & L2 & G1 & G2). cbn [fst snd] in *. rewrite Hnnz in *. cbn. apply H; auto.
Qed.

Lemma csr_entries_ext (A B : csr T) : ptr_ok (csr_n A) (csr_ptr A) -> csr_n B = csr_n A -> agree 0 0 (csr_n A + 1) (csr_ptr A) (csr_ptr B) ->
  agree 0 0 (znth 0 (csr_ptr A) (csr_n A)) (csr_index A) (csr_index B) -> agree s0 0 (znth 0 (csr_ptr A) (csr_n A)) (csr_value A) (csr_value B) -> csr_entries B = csr_entries A.
Proof.
  intros Hp En Gp Gi Gv. unfold csr_entries. rewrite En. apply flat_map_ext_in. intros i Hi. apply In_zrange in Hi. rewrite !Gp by lia. apply map_ext_in. intros k Hk. apply In_zrange in Hk.
  pose proof (ptr_all _ _ i Hp ltac:(lia)). pose proof (ptr_all _ _ (i + 1) Hp ltac:(lia)). rewrite Gi, Gv by lia. auto.
Qed.
Lemma ptr_ok_ext n p p' : ptr_ok n p -> zlen p' = n + 1 -> agree 0 0 (n + 1) p p' -> ptr_ok n p'.
Proof. intros (Hn & Hl & H0 & Hm) L G. unfold ptr_ok. split; [auto|]. split; [lia|]. split; [rewrite G by lia; auto|]. intros i Hi. rewrite !G by lia. auto. Qed.

Definition copied {X} (ok : X -> Prop) (en : X -> list (entry T)) (n np : X -> Z) (A B : X) : Prop := ok B /\ en B = en A /\ n B = n A /\ np B = np A.

Lemma copy_csr_wp (A : csr T) : csr_ok A -> wp (copy_elements_csr ji jv A) (fun B => csr_nnz B = csr_nnz A /\ copied csr_ok csr_entries csr_n csr_np A B).
Proof.
  intros (Hp & Hnp & Hz & Hi & Hv & Hx). unfold copy_elements_csr. apply wp_bind. apply elements_copy_wp; auto. intros p ix vl L1 L2 L3 G1 G2 G3. cbn. split; [auto|].
  split; [|split; [apply csr_entries_ext; cbn; auto; rewrite Hz; auto|auto]]. unfold csr_ok. cbn [csr_n csr_np csr_nnz csr_ptr csr_index csr_value]. split; [apply (ptr_ok_ext _ (csr_ptr A)); auto|]. split; [auto|]. pose proof Hp as (Hn & _).
  split; [rewrite G1 by lia; auto|]. split; [lia|]. split; [lia|]. intros k Hk. rewrite G2 by lia. auto.
Qed.
Lemma copy_csc_wp (A : csc T) : csc_ok A -> wp (copy_elements_csc ji jv A) (copied csc_ok csc_entries csc_n csc_np A).
Proof.
  intros (Hp & Hnp & Hz & Hi & Hv & Hx). unfold copy_elements_csc. apply wp_bind. apply elements_copy_wp; auto. intros p ix vl L1 L2 L3 G1 G2 G3. cbn. pose proof Hp as (Hn & _).
  split; [|split; [|auto]].
  - unfold csc_ok. cbn [csc_n csc_np csc_nnz csc_ptr csc_index csc_value]. split; [apply (ptr_ok_ext _ (csc_ptr A)); auto|]. split; [auto|].
    split; [rewrite G1 by lia; auto|]. split; [lia|]. split; [lia|]. intros k Hk. rewrite G2 by lia. auto.
  - unfold csc_entries. cbn [csc_n csc_np csc_nnz csc_ptr csc_index csc_value]. apply flat_map_ext_in. intros i Hi'. apply In_zrange in Hi'. rewrite !G1 by lia. apply map_ext_in. intros k Hk. apply In_zrange in Hk.
    pose proof (ptr_all _ _ i Hp ltac:(lia)). pose proof (ptr_all _ _ (i + 1) Hp ltac:(lia)). rewrite G2, G3 by lia. auto.
Qed.
Lemma mono_le (f : Z -> Z) n i j : (forall i, 0 <= i < n -> f i <= f (i + 1)) -> 0 <= i <= j -> j <= n -> f i <= f j.
Proof. intros H Hi Hj. revert Hj. pattern j. apply Zlt_lower_bound_ind with (z := i); [|lia]. intros x IH Hx Hn. destruct (Z.eq_dec x i) as [->|]; [lia|]. specialize (IH (x - 1) ltac:(lia) ltac:(lia)). specialize (H (x - 1) ltac:(lia)). replace (x - 1 + 1) with x in H by lia. lia. Qed.
Lemma copy_msr_wp (A : msr T) : msr_ok A -> wp (copy_elements_msr ji jv A) (copied msr_ok msr_entries msr_n msr_np A).
Proof.
  intros (Hn & Hz & Hd & Hi & Hv & H0 & Hm & He & Hx). unfold copy_elements_msr. cbv zeta.
  assert (Hb : forall i, 0 <= i <= msr_n A -> msr_n A + 1 <= znth 0 (msr_index A) i <= znth 0 (msr_index A) (msr_n A)).
  { intros i Hi'. rewrite <- H0. split; apply (mono_le (znth 0 (msr_index A)) (msr_n A)); auto; lia. }
  pose proof (Hb (msr_n A) ltac:(lia)).
  apply wp_bind. apply (pair_wp' 0 _ _ (msr_nnz A + msr_ndz A + 1)); try lia; [apply both_alloc; lia|]. intros s HB.
  apply wp_bind. apply (rows_wp _ (msr_nnz A + msr_ndz A + 1) 0); auto; try lia.
  - intros i Hi'. specialize (Hb i Hi'). lia.
  - rewrite H0. auto.
  - intros [ix vl] (L1 & L2 & G1 & G2). cbn [fst snd] in *. cbn. split; [|split; [|auto]].
    + unfold msr_ok. cbn [msr_n msr_np msr_nnz msr_ndz msr_index msr_value]. do 3 (split; [auto|]). split; [lia|]. split; [lia|]. split; [rewrite G1 by lia; auto|].
      split; [intros i Hi'; pose proof (Hb i ltac:(lia)); pose proof (Hb (i + 1) ltac:(lia)); rewrite !G1 by lia; auto|]. rewrite G1 by lia. split; [auto|]. intros k Hk. rewrite G1 by lia. auto.
    + unfold msr_entries. cbn [msr_n msr_np msr_nnz msr_ndz msr_index msr_value]. apply flat_map_ext_in. intros i Hi'. apply In_zrange in Hi'. pose proof (Hb i ltac:(lia)). pose proof (Hb (i + 1) ltac:(lia)).
      rewrite !G1, G2 by lia. f_equal. apply map_ext_in. intros k Hk. apply In_zrange in Hk. rewrite G1, G2 by lia. auto.
Qed.

Lemma copy_ell_wp (A : ell T) : ell_ok A -> wp (copy_elements_ell ji jv A) (copied ell_ok ell_entries ell_n ell_np A).
Proof.
  intros (Hn & Hm & Hi & Hv & Hx). unfold copy_elements_ell. cbv zeta. set (n := ell_n A) in *. set (m := ell_maxnzr A) in *.
  apply wp_bind. apply (for_wp' (fun j s => Both 0 (j * n) (n * m) (ell_index A) (ell_value A) s)); [lia|apply both_alloc; nia| |].
  - intros j s Hj HB. apply (for_wp' (fun i s => Both 0 (j * n + i) (n * m) (ell_index A) (ell_value A) s)); [lia|rewrite Z.add_0_r; auto| |intros s' HB'; replace ((j + 1) * n) with (j * n + n) by lia; auto].
    intros i [ix vl] Hi' (L1 & L2 & G1 & G2). cbn [fst snd] in *. assert (0 <= j * n + i < n * m) by nia.
    apply wp_bind. apply (cp_wp s0 _ _ _ 0); [lia|lia|auto|]. intros vl' L2' G2'. apply wp_bind. apply (cp_wp 0 _ _ _ 0); [lia|lia|auto|]. intros ix' L1' G1'.
    replace (j * n + (i + 1)) with (j * n + i + 1) by lia. split; [cbn; lia|]. split; [cbn; lia|auto].
  - intros [ix vl] (L1 & L2 & G1 & G2). cbn [fst snd] in *. cbn. split; [|split; [|auto]].
    + unfold ell_ok. cbn [ell_n ell_np ell_maxnzr ell_index ell_value]. fold n m. split; [auto|]. split; [auto|]. split; [lia|]. split; [lia|]. intros k Hk. rewrite G1 by lia. auto.
    + unfold ell_entries. cbn [ell_n ell_np ell_maxnzr ell_index ell_value]. fold n m. apply flat_map_ext_in. intros j Hj. apply In_zrange in Hj. apply map_ext_in. intros i Hi'. apply In_zrange in Hi'.
      assert (0 <= j * n + i < m * n) by nia. rewrite G1, G2 by lia. auto.
Qed.
Lemma copy_dia_wp (A : dia T) : dia_ok A -> 0 < dia_n A -> wp (copy_elements_dia ji jv A) (copied dia_ok dia_entries dia_n dia_np A).
Proof.
  intros (Hn & Hnp & Hd & Hi & Hv) Hpos. unfold copy_elements_dia, cp_range.
  apply wp_bind. apply (cp_loop_wp 0 _ 0); [lia|lia|rewrite zlen_alloc; nia|intros k Hk; lia|]. intros ix L1 G1. rewrite zlen_alloc in L1 by nia.
  apply wp_bind. apply (cp_loop_wp s0 _ 0); [nia|nia|rewrite zlen_alloc; nia|intros k Hk; lia|]. intros vl L2 G2. rewrite zlen_alloc in L2 by nia. cbn. split; [|split; [|auto]].
  - unfold dia_ok. cbn [dia_n dia_np dia_nnd dia_index dia_value]. do 3 (split; [auto|]). split; [nia|nia].
  - unfold dia_entries. cbn [dia_n dia_np dia_nnd dia_index dia_value]. apply flat_map_ext_in. intros d Hd'. apply In_zrange in Hd'. rewrite !G1 by lia. apply map_ext_in. intros i Hi'. apply In_zrange in Hi'.
    rewrite G2 by nia. auto.
Qed.
Lemma copy_jad_wp (A : jad T) : jad_ok A -> wp (copy_elements_jad ji jv A) (copied jad_ok jad_entries jad_n jad_np A).
Proof.
  intros (Hn & Hp & Hz & Hl & Hperm & Hi & Hv & Hx & Hlen). pose proof Hp as (Hm & Hlp & H0 & Hmono). unfold copy_elements_jad.
  assert (Hz0 : 0 <= jad_nnz A) by (rewrite <- Hz; apply (ptr_all _ _ _ Hp); lia).
  apply wp_bind. apply (cp_loop_wp 0 _ 0); [lia|lia|rewrite zlen_alloc; lia|intros k Hk; lia|]. intros p Lp Gp. rewrite zlen_alloc in Lp by lia.
  apply wp_bind. apply (cp_loop_wp 0 _ 0); [lia|lia|rewrite zlen_alloc; lia|intros k Hk; lia|]. intros pm Lm Gm. rewrite zlen_alloc in Lm by lia.
  apply wp_bind. apply (rows_wp _ (jad_nnz A) 0); auto; try lia.
  - intros i Hi'. rewrite <- Hz. apply ptr_all; auto.
  - rewrite H0. apply both_alloc; auto.
  - intros [ix vl] (L1 & L2 & G1 & G2). cbn [fst snd] in *. rewrite Hz in *. cbn. split; [|split; [|auto]].
    + unfold jad_ok. cbn [jad_n jad_np jad_nnz jad_maxnzr jad_perm jad_ptr jad_index jad_value]. split; [auto|]. split; [apply (ptr_ok_ext _ (jad_ptr A)); auto|]. split; [rewrite Gp by lia; auto|]. split; [lia|].
      split; [rewrite (map_ext_in _ (znth 0 (jad_perm A))); [auto|intros k Hk; apply In_zrange in Hk; apply Gm; auto]|]. split; [lia|]. split; [lia|]. split; [intros k Hk; rewrite G1 by lia; auto|]. intros j Hj. rewrite !Gp by lia. auto.
    + unfold jad_entries. cbn [jad_n jad_np jad_nnz jad_maxnzr jad_perm jad_ptr jad_index jad_value]. apply flat_map_ext_in. intros j Hj. apply In_zrange in Hj. rewrite !Gp by lia. apply map_ext_in. intros k Hk. apply In_zrange in Hk.
      pose proof (ptr_all _ _ j Hp ltac:(lia)). pose proof (ptr_all _ _ (j + 1) Hp ltac:(lia)). pose proof (Hlen j ltac:(lia)). rewrite G1, G2, Gm by lia. auto.
Qed.
Lemma copy_coo_wp (A : coo T) : coo_ok A -> wp (copy_elements_coo ji jv A) (copied coo_ok coo_entries coo_n coo_np A).
Proof.
  intros (Hn & Hz & H1 & H2 & H3 & Hx). unfold copy_elements_coo. set (z := coo_nnz A) in *.
  apply wp_bind. apply (for_wp' (fun k s => let '(r, c, v) := s in zlen r = z /\ zlen c = z /\ zlen v = z /\ agree 0 0 k (coo_row A) r /\ agree 0 0 k (coo_col A) c /\ agree s0 0 k (coo_value A) v)); [lia| | |].
  - rewrite !zlen_alloc by lia. do 3 (split; [lia|]). split; [|split]; intros k Hk; lia.
  - intros k [[r c] v] Hk (L1 & L2 & L3 & G1 & G2 & G3). apply wp_bind. apply (cp_wp 0 _ _ _ 0); [lia|lia|auto|]. intros r' L1' G1'.
    apply wp_bind. apply (cp_wp 0 _ _ _ 0); [lia|lia|auto|]. intros c' L2' G2'. apply wp_bind. apply (cp_wp s0 _ _ _ 0); [lia|lia|auto|]. intros v' L3' G3'. cbn. do 3 (split; [lia|]). auto.
  - intros [[r c] v] (L1 & L2 & L3 & G1 & G2 & G3). cbn. split; [|split; [|auto]].
    + unfold coo_ok. cbn [coo_n coo_np coo_nnz coo_row coo_col coo_value]. split; [auto|]. split; [auto|]. do 3 (split; [lia|]). intros k Hk. rewrite G1, G2 by lia. auto.
    + unfold coo_entries. cbn [coo_n coo_np coo_nnz coo_row coo_col coo_value]. apply map_ext_in. intros k Hk. apply In_zrange in Hk. rewrite G1, G2, G3 by auto. auto.
Qed.
Lemma copy_dns_wp (A : dns T) : dns_ok A -> wp (copy_elements_dns jv A) (copied dns_ok dns_entries dns_n dns_np A).
Proof.
  intros (Hn & Hv). unfold copy_elements_dns. set (n := dns_n A) in *. set (np := dns_np A) in *.
  apply wp_bind. apply (for_wp' (fun j v => zlen v = n * np /\ agree s0 0 (j * n) (dns_value A) v)); [lia|rewrite zlen_alloc by nia; split; [lia|intros k Hk; lia]| |].
  - intros j v Hj (L & G). apply (for_wp' (fun i v => zlen v = n * np /\ agree s0 0 (j * n + i) (dns_value A) v)); [lia|rewrite Z.add_0_r; auto| |intros v' (L' & G'); split; auto; replace ((j + 1) * n) with (j * n + n) by lia; auto].
    intros i v' Hi (L' & G'). assert (0 <= j * n + i < n * np) by nia. apply (cp_wp s0 _ _ _ 0); [lia|lia|auto|]. intros v'' L'' G''. replace (j * n + (i + 1)) with (j * n + i + 1) by lia. split; [lia|auto].
  - intros v (L & G). cbn. split; [|split; [|auto]].
    + unfold dns_ok. cbn [dns_n dns_np dns_value]. fold n np. split; [auto|lia].
    + unfold dns_entries. cbn [dns_n dns_np dns_value]. fold n np. apply flat_map_ext_in. intros j Hj. apply In_zrange in Hj. apply map_ext_in. intros i Hi. apply In_zrange in Hi. rewrite G by nia. auto.
Qed.
End P.
