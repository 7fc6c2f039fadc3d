(** get_diagonal, shift_diagonal and lis_matrix_scale as a whole *)
Require Import ZArith List Bool Lia Permutation Ring Field.
From Verif Require Import Base Scalar Spec Items Fmt AssembleProof Diag SpecDiag DiagProof.
Import ListNotations.
Open Scope Z_scope.

Section P.
Context {T : Type} {S : Scalar T}.
Hypothesis RT : is_ring S.
Let RT' : @ring_theory T s0 s1 sadd smul ssub sopp (@eq T) := RT.
Add Ring scalar_ring3 : RT'.

(** ** coefficients *)
Lemma coef_cons (e : entry T) E i j : coef (e :: E) i j = if at_ij i j e then sadd (eval e) (coef E i j) else coef E i j.
Proof. unfold coef; cbn [filter]. destruct (at_ij i j e); reflexivity. Qed.
Lemma coef_nil i j : coef (@nil (entry T)) i j = s0. Proof. reflexivity. Qed.
Lemma coef_absent (E : list (entry T)) i j : ~ In (i, j) (map fst E) -> coef E i j = s0.
Proof.
  induction E as [|e E IH]; intros H; [reflexivity|]. rewrite coef_cons. destruct (at_ij i j e) eqn:Ea.
  - exfalso; apply H. left. unfold at_ij, erow, ecol in Ea. apply andb_prop in Ea. destruct Ea as [E1 E2]. apply Z.eqb_eq in E1, E2. destruct e as [[a b] v]; cbn in *; congruence.
  - apply IH. intro; apply H; right; auto.
Qed.
Lemma at_ij_iff i j (e : entry T) : at_ij i j e = true <-> fst e = (i, j).
Proof.
  unfold at_ij, erow, ecol. rewrite andb_true_iff, !Z.eqb_eq. destruct e as [[a b] v]; cbn. split; [intros [-> ->]; auto|intros [= -> ->]; auto].
Qed.
Lemma coef_unique (E : list (entry T)) e : no_dup_pos E -> In e E -> coef E (erow e) (ecol e) = eval e.
Proof.
  induction E as [|a E IH]; intros Hn Hin; [destruct Hin|]. inversion Hn as [|x l Hx Hl]; subst. rewrite coef_cons.
  destruct Hin as [->|Hin].
  - assert (Ea : at_ij (erow e) (ecol e) e = true) by (unfold at_ij; rewrite !Z.eqb_refl; auto). rewrite Ea.
    rewrite coef_absent; [ring|]. destruct e as [[r c] v]; auto.
  - destruct (at_ij (erow e) (ecol e) a) eqn:Ea; [|apply IH; auto].
    exfalso; apply Hx. apply at_ij_iff in Ea. rewrite Ea. apply in_map_iff. exists e; split; auto. destruct e as [[r c] v]; auto.
Qed.
Lemma has_diag_In (E : list (entry T)) i : has_diag E i = true <-> In (i, i) (map fst E).
Proof.
  unfold has_diag. rewrite existsb_exists, in_map_iff. split; intros [e [H1 H2]]; exists e; [apply at_ij_iff in H2|apply at_ij_iff in H1]; auto.
Qed.

Lemma coef_row_scaled (d : list T) E i j : coef (map (row_scaled d) E) i j = smul (coef E i j) (znth s0 d i).
Proof.
  induction E as [|e E IH]; cbn [map]; [rewrite !coef_nil; ring|]. rewrite !coef_cons, IH.
  change (at_ij i j (row_scaled d e)) with (at_ij i j e). destruct (at_ij i j e) eqn:Ea; [|auto].
  unfold at_ij in Ea. apply andb_prop in Ea. destruct Ea as [E1 _]. apply Z.eqb_eq in E1. unfold row_scaled, eval at 1; cbn [snd]. rewrite E1. ring.
Qed.
Lemma coef_sym_scaled (d : list T) E i j : coef (map (sym_scaled d) E) i j = smul (smul (znth s0 d i) (coef E i j)) (znth s0 d j).
Proof.
  induction E as [|e E IH]; cbn [map]; [rewrite !coef_nil; ring|]. rewrite !coef_cons, IH.
  change (at_ij i j (sym_scaled d e)) with (at_ij i j e). destruct (at_ij i j e) eqn:Ea; [|auto].
  unfold at_ij in Ea. apply andb_prop in Ea. destruct Ea as [E1 E2]. apply Z.eqb_eq in E1, E2. unfold sym_scaled, eval at 1; cbn [snd]. rewrite E1, E2. ring.
Qed.
Definition shift_e (sigma : T) (e : entry T) : entry T := (erow e, ecol e, if erow e =? ecol e then ssub (eval e) sigma else eval e).
Lemma coef_shift (sigma : T) E : no_dup_pos E -> shifted E (map (shift_e sigma) E) sigma.
Proof.
  intros Hn i j. induction E as [|e E IH]; cbn [map].
  - unfold has_diag; cbn [existsb]. rewrite andb_false_r. reflexivity.
  - inversion Hn as [|x l Hx Hl]; subst. rewrite !coef_cons, IH by auto. change (at_ij i j (shift_e sigma e)) with (at_ij i j e).
    unfold has_diag; cbn [existsb]. fold (has_diag E i).
    destruct (at_ij i j e) eqn:Ea.
    + pose proof Ea as Eb. apply at_ij_iff in Ea. assert (Hd : erow e = i /\ ecol e = j) by (unfold erow, ecol; rewrite Ea; auto). destruct Hd as [<- <-].
      unfold shift_e, eval at 1; cbn [snd].
      destruct (Z.eqb_spec (erow e) (ecol e)) as [Eq|]; cbn [andb].
      * assert (Ed : at_ij (erow e) (erow e) e = true) by (unfold at_ij; rewrite Z.eqb_refl, <- Eq, Z.eqb_refl; auto). rewrite Ed; cbn [orb].
        destruct (has_diag E (erow e)) eqn:Eh; [|unfold eval; ring].
        exfalso; apply Hx. apply has_diag_In in Eh. replace (fst e) with (erow e, erow e); auto. unfold erow in *. rewrite Eq at 2. unfold ecol. destruct e as [[? ?] ?]; auto.
      * reflexivity.
    + destruct (Z.eqb_spec i j) as [->|]; cbn [andb]; [|auto]. rewrite Ea. cbn [orb]. auto.
Qed.

(** ** finding the diagonal entry of a segment *)
Lemma find_wp (idx : list Z) (vl : list T) (pos : Z -> Z) lo hi i d (Q : list T -> Prop) :
  lo <= hi -> 0 <= i < zlen d ->
  (forall j, lo <= j < hi -> 0 <= pos j < zlen idx /\ pos j < zlen vl) ->
  (forall j, lo <= j < hi -> znth 0 idx (pos j) = i -> (forall j', lo <= j' < j -> znth 0 idx (pos j') <> i) -> Q (zupd d i (znth s0 vl (pos j)))) ->
  ((forall j, lo <= j < hi -> znth 0 idx (pos j) <> i) -> Q d) ->
  wp (for_brk lo hi (fun j d => c <- rd idx (pos j) ;; if i =? c then v <- rd vl (pos j) ;; d <- wr d i v ;; Ok (true, d) else Ok (false, d)) d) Q.
Proof.
  intros Hl Hi Hb Hy Hno.
  apply (for_brk_wp (fun j d' => d' = d /\ forall j', lo <= j' < j -> znth 0 idx (pos j') <> i)); auto.
  - split; auto. intros; lia.
  - intros j d' Hj (-> & Hn). pose proof (Hb j Hj). wrd 0; [lia|]. destruct (Z.eqb_spec i (znth 0 idx (pos j))) as [E|E].
    + wrd s0; [lia|]. wwr; [lia|]. apply wp_ok. cbn [fst snd]. apply Hy; auto.
    + apply wp_ok. cbn [fst snd]. split; auto. intros j' Hj'. destruct (Z.eq_dec j' j) as [->|]; [auto|apply Hn; lia].
  - intros d' (-> & Hn). auto.
Qed.

(** row by row: d[i] := 0, then the first match *)
Lemma get_loop n (idx : list Z) (vl : list T) (pos : Z -> Z -> Z) (lo hi : Z -> Z) (body : Z -> list T -> res (list T)) d (g : Z -> T) (Q : list T -> Prop) :
  0 <= n <= zlen d ->
  (forall i, 0 <= i < n -> lo i <= hi i) ->
  (forall i j, 0 <= i < n -> lo i <= j < hi i -> 0 <= pos i j < zlen idx /\ pos i j < zlen vl) ->
  (forall i j, 0 <= i < n -> lo i <= j < hi i -> znth 0 idx (pos i j) = i -> (forall j', lo i <= j' < j -> znth 0 idx (pos i j') <> i) -> g i = znth s0 vl (pos i j)) ->
  (forall i, 0 <= i < n -> (forall j, lo i <= j < hi i -> znth 0 idx (pos i j) <> i) -> g i = s0) ->
  (forall i d, 0 <= i < n -> body i d = for_brk (lo i) (hi i) (fun j d => c <- rd idx (pos i j) ;; if i =? c then v <- rd vl (pos i j) ;; d <- wr d i v ;; Ok (true, d) else Ok (false, d)) d) ->
  (forall d', zlen d' = zlen d -> (forall i, 0 <= i < n -> znth s0 d' i = g i) -> Q d') ->
  wp (for_ 0 n (fun i d => d <- wr d i s0 ;; body i d) d) Q.
Proof.
  intros Hn Hl Hb Hy Hno Hbody HQ.
  apply (for_wp' (fun i d' => zlen d' = zlen d /\ forall k, 0 <= k < i -> znth s0 d' k = g k)); auto; [lia|split; [auto|intros; lia]| |].
  - intros i d' Hi (L & H). wwr; [lia|]. rewrite Hbody by auto.
    apply find_wp; auto; [len| |].
    + intros j Hj E Hf. split; [len|]. intros k Hk. rewrite znth_zupd by len. destruct (Z.eqb_spec k i) as [->|].
      * symmetry; apply Hy; auto.
      * rewrite znth_zupd_neq by lia. apply H; lia.
    + intros Hf. split; [len|]. intros k Hk. rewrite znth_zupd by lia. destruct (Z.eqb_spec k i) as [->|]; [symmetry; apply Hno; auto|apply H; lia].
  - intros d' (L & H). apply HQ; auto.
Qed.

Lemma In_csr_entries (A : csr T) e : In e (csr_entries A) <-> exists i k, 0 <= i < csr_n A /\ znth 0 (csr_ptr A) i <= k < znth 0 (csr_ptr A) (i + 1) /\
   e = (i, znth 0 (csr_index A) k, znth s0 (csr_value A) k).
Proof.
  unfold csr_entries. rewrite in_flat_map. split.
  - intros (i & Hi & He). apply in_map_iff in He. destruct He as (k & <- & Hk). apply In_zrange in Hi, Hk. eauto.
  - intros (i & k & Hi & Hk & ->). exists i. split; [apply In_zrange; auto|]. apply in_map_iff. exists k. split; auto. apply In_zrange; auto.
Qed.
Lemma In_csc_entries (A : csc T) e : In e (csc_entries A) <-> exists j k, 0 <= j < csc_np A /\ znth 0 (csc_ptr A) j <= k < znth 0 (csc_ptr A) (j + 1) /\
   e = (znth 0 (csc_index A) k, j, znth s0 (csc_value A) k).
Proof.
  unfold csc_entries. rewrite in_flat_map. split.
  - intros (i & Hi & He). apply in_map_iff in He. destruct He as (k & <- & Hk). apply In_zrange in Hi, Hk. eauto.
  - intros (i & k & Hi & Hk & ->). exists i. split; [apply In_zrange; auto|]. apply in_map_iff. exists k. split; auto. apply In_zrange; auto.
Qed.
Lemma In_coo_entries (A : coo T) e : In e (coo_entries A) <-> exists k, 0 <= k < coo_nnz A /\ e = (znth 0 (coo_row A) k, znth 0 (coo_col A) k, znth s0 (coo_value A) k).
Proof.
  unfold coo_entries. rewrite in_map_iff. split.
  - intros (k & <- & Hk). apply In_zrange in Hk. eauto.
  - intros (k & Hk & ->). exists k. split; auto. apply In_zrange; auto.
Qed.
Lemma In_msr_entries (A : msr T) e : In e (msr_entries A) <-> exists i, 0 <= i < msr_n A /\
   (e = (i, i, znth s0 (msr_value A) i) \/ exists k, znth 0 (msr_index A) i <= k < znth 0 (msr_index A) (i + 1) /\ e = (i, znth 0 (msr_index A) k, znth s0 (msr_value A) k)).
Proof.
  unfold msr_entries. rewrite in_flat_map. split.
  - intros (i & Hi & He). apply In_zrange in Hi. exists i. split; auto. destruct He as [<-|He]; [auto|]. right. apply in_map_iff in He. destruct He as (k & <- & Hk). apply In_zrange in Hk. eauto.
  - intros (i & Hi & [->|(k & Hk & ->)]); exists i; (split; [apply In_zrange; auto|]); [left; auto|right]. apply in_map_iff. exists k. split; auto. apply In_zrange; auto.
Qed.
Lemma In_dns_entries (A : dns T) e : In e (dns_entries A) <-> exists i j, 0 <= i < dns_n A /\ 0 <= j < dns_np A /\ e = (i, j, znth s0 (dns_value A) (j * dns_n A + i)).
Proof.
  unfold dns_entries. rewrite in_flat_map. split.
  - intros (j & Hj & He). apply in_map_iff in He. destruct He as (i & <- & Hi). apply In_zrange in Hi, Hj. eauto.
  - intros (i & j & Hi & Hj & ->). exists j. split; [apply In_zrange; auto|]. apply in_map_iff. exists i. split; auto. apply In_zrange; auto.
Qed.
Lemma In_dia_entries (A : dia T) e : In e (dia_entries A) <-> exists j i, 0 <= j < dia_nnd A /\
   Z.max 0 (- znth 0 (dia_index A) j) <= i < Z.min (dia_n A) (dia_n A - znth 0 (dia_index A) j) /\ e = (i, i + znth 0 (dia_index A) j, znth s0 (dia_value A) (j * dia_n A + i)).
Proof.
  unfold dia_entries. rewrite in_flat_map. split.
  - intros (j & Hj & He). apply in_map_iff in He. destruct He as (i & <- & Hi). apply In_zrange in Hi, Hj. eauto.
  - intros (j & i & Hj & Hi & ->). exists j. split; [apply In_zrange; auto|]. apply in_map_iff. exists i. split; auto. apply In_zrange; auto.
Qed.
Lemma In_ell_entries (A : ell T) e : In e (ell_entries A) <-> exists j i, 0 <= j < ell_maxnzr A /\ 0 <= i < ell_n A /\
   e = (i, znth 0 (ell_index A) (j * ell_n A + i), znth s0 (ell_value A) (j * ell_n A + i)).
Proof.
  unfold ell_entries. rewrite in_flat_map. split.
  - intros (j & Hj & He). apply in_map_iff in He. destruct He as (i & <- & Hi). apply In_zrange in Hi, Hj. eauto.
  - intros (j & i & Hj & Hi & ->). exists j. split; [apply In_zrange; auto|]. apply in_map_iff. exists i. split; auto. apply In_zrange; auto.
Qed.

Lemma coef_eq (E : list (entry T)) i j v : no_dup_pos E -> In (i, j, v) E -> coef E i j = v.
Proof. intros Hn Hi. pose proof (coef_unique E _ Hn Hi) as H. exact H. Qed.

(** ** get_diagonal *)
Lemma get_diagonal_csr_wp (A : csr T) d : csr_ok A -> csr_n A <= zlen d -> no_dup_pos (csr_entries A) ->
  exists d', get_diagonal_csr A d = Ok d' /\ zlen d' = zlen d /\ is_diagonal (csr_n A) (csr_entries A) d'.
Proof.
  intros (Hp & Hnp & Hz & Hi & Hv & Hx) Hd Hu. apply wp_inv. unfold get_diagonal_csr. pose proof Hp as (Hn & Hlp & _ & Hm).
  apply (get_loop (csr_n A) (csr_index A) (csr_value A) (fun _ j => j) (fun i => znth 0 (csr_ptr A) i) (fun i => znth 0 (csr_ptr A) (i + 1)) _ d (fun i => coef (csr_entries A) i i)); auto.
  - intros i j Hi' Hj. pose proof (ptr_pos _ _ i Hp ltac:(lia)). pose proof (ptr_pos _ _ (i + 1) Hp ltac:(lia)). lia.
  - intros i j Hi' Hj E _. apply coef_eq; auto. apply In_csr_entries. exists i, j. rewrite E. auto.
  - intros i Hi' Hno. apply coef_absent. intro Hc. apply in_map_iff in Hc. destruct Hc as (e & Ee & He). apply In_csr_entries in He. destruct He as (i' & k & H1 & H2 & ->). cbn [fst] in Ee.
    injection Ee as E1 E2. subst i'. apply (Hno k); auto.
  - intros i d' Hi'. rewrite (rd_ok 0) by lia. cbn [bind]. rewrite (rd_ok 0) by lia. reflexivity.
Qed.
Lemma get_diagonal_csc_wp (A : csc T) d : csc_ok A -> csc_np A <= zlen d -> no_dup_pos (csc_entries A) ->
  exists d', get_diagonal_csc A d = Ok d' /\ zlen d' = zlen d /\ is_diagonal (csc_np A) (csc_entries A) d'.
Proof.
  intros (Hp & Hnp & Hz & Hi & Hv & Hx) Hd Hu. apply wp_inv. unfold get_diagonal_csc. pose proof Hp as (Hn & Hlp & _ & Hm).
  apply (get_loop (csc_np A) (csc_index A) (csc_value A) (fun _ j => j) (fun i => znth 0 (csc_ptr A) i) (fun i => znth 0 (csc_ptr A) (i + 1)) _ d (fun i => coef (csc_entries A) i i)); auto.
  - intros i j Hi' Hj. pose proof (ptr_pos _ _ i Hp ltac:(lia)). pose proof (ptr_pos _ _ (i + 1) Hp ltac:(lia)). lia.
  - intros i j Hi' Hj E _. apply coef_eq; auto. apply In_csc_entries. exists i, j. rewrite E. auto.
  - intros i Hi' Hno. apply coef_absent. intro Hc. apply in_map_iff in Hc. destruct Hc as (e & Ee & He). apply In_csc_entries in He. destruct He as (i' & k & H1 & H2 & ->). cbn [fst] in Ee.
    injection Ee as E1 E2. subst i'. apply (Hno k); auto.
  - intros i d' Hi'. rewrite (rd_ok 0) by lia. cbn [bind]. rewrite (rd_ok 0) by lia. reflexivity.
Qed.

Lemma for_fill n (vl : list T) (pos : Z -> Z) d (Q : list T -> Prop) :
  0 <= n <= zlen d -> (forall i, 0 <= i < n -> 0 <= pos i < zlen vl) ->
  (forall d', zlen d' = zlen d -> (forall i, 0 <= i < n -> znth s0 d' i = znth s0 vl (pos i)) -> Q d') ->
  wp (for_ 0 n (fun i d => v <- rd vl (pos i) ;; wr d i v) d) Q.
Proof.
  intros Hn Hb HQ. apply (for_wp' (fun i d' => zlen d' = zlen d /\ forall k, 0 <= k < i -> znth s0 d' k = znth s0 vl (pos k))); auto; [lia|split; [auto|intros; lia]| |].
  - intros i d' Hi (L & H). pose proof (Hb i Hi). wrd s0; [lia|]. wwr; [lia|]. split; [len|]. intros k Hk. rewrite znth_zupd by lia. destruct (Z.eqb_spec k i) as [->|]; [auto|apply H; lia].
  - intros d' (L & H). apply HQ; auto.
Qed.
Lemma get_diagonal_msr_wp (A : msr T) d : msr_ok A -> msr_n A <= zlen d -> no_dup_pos (msr_entries A) ->
  exists d', get_diagonal_msr A d = Ok d' /\ zlen d' = zlen d /\ is_diagonal (msr_n A) (msr_entries A) d'.
Proof.
  intros HA Hd Hu. pose proof HA as (Hn & Hz1 & Hz2 & Hi & Hv & H0 & Hm & Ht & Hx). pose proof (msr_bounds A (msr_n A) HA ltac:(lia)). apply wp_inv. unfold get_diagonal_msr.
  apply (for_fill (msr_n A) (msr_value A) (fun i => i)); [lia|intros; lia|]. intros d' L H1. split; auto. intros i Hi'. rewrite H1 by auto. symmetry. apply coef_eq; auto.
  apply In_msr_entries. exists i. auto.
Qed.
Lemma dns_no_dup (A : dns T) : no_dup_pos (dns_entries A).
Proof.
  unfold no_dup_pos, dns_entries. rewrite map_flat_map.
  assert (G : forall l, NoDup l -> NoDup (flat_map (fun a => map fst (map (fun i => (i, a, znth s0 (dns_value A) (a * dns_n A + i))) (zrange 0 (dns_n A)))) l)).
  { induction l as [|j l IH]; intros Hl; cbn [flat_map]; [constructor|]. inversion Hl as [|x y Hx Hy]; subst.
    rewrite map_map; cbn [fst].
    assert (N1 : NoDup (map (fun i => (i, j)) (zrange 0 (dns_n A)))) by (apply FinFun.Injective_map_NoDup; [intros a b [= ->]; auto|apply NoDup_zrange]).
    apply NoDup_app_intro; auto.
    intros [i j'] H1 H2. apply in_map_iff in H1. destruct H1 as (a & [= <- <-] & _). apply in_flat_map in H2. destruct H2 as (b & Hb & H2). rewrite map_map in H2. apply in_map_iff in H2. destruct H2 as (c & [= <- <-] & _). auto. }
  apply G, NoDup_zrange.
Qed.
Lemma get_diagonal_dns_wp (A : dns T) d : dns_ok A -> dns_n A <= zlen d ->
  exists d', get_diagonal_dns A d = Ok d' /\ zlen d' = zlen d /\ is_diagonal (dns_n A) (dns_entries A) d'.
Proof.
  intros (Hn & Hv) Hd. apply wp_inv. unfold get_diagonal_dns.
  apply (for_fill (dns_n A) (dns_value A) (fun i => i * dns_n A + i)); [lia| |].
  - intros i Hi. pose proof (mul_range (dns_n A) (dns_np A) i i ltac:(lia) ltac:(lia)). lia.
  - intros d' L H1. split; auto. intros i Hi. rewrite H1 by auto. symmetry. apply coef_eq; [apply dns_no_dup|]. apply In_dns_entries. exists i, i. split; auto. split; [lia|auto].
Qed.
Lemma main_diagonal_wp (A : dia T) : dia_ok A -> dia_has_main A ->
  wp (main_diagonal A) (fun j => 0 <= j < dia_nnd A /\ znth 0 (dia_index A) j = 0).
Proof.
  intros (Hn & Hnp & Hm & Hi & Hv) (m & Hm1 & Hm2). unfold main_diagonal.
  apply (for_brk_wp (fun j r => r = j /\ j <= m)); [lia|lia| |].
  - intros j r Hj (-> & Hjm). wrd 0; [lia|]. destruct (Z.eqb_spec (znth 0 (dia_index A) j) 0) as [E|E]; apply wp_ok; cbn [fst snd]; [auto|].
    split; auto. destruct (Z.eq_dec j m); [subst; contradiction|lia].
  - intros r (-> & H). lia.
Qed.
Lemma get_diagonal_dia_wp (A : dia T) d : dia_ok A -> dia_n A <= zlen d -> dia_has_main A -> no_dup_pos (dia_entries A) ->
  exists d', get_diagonal_dia A d = Ok d' /\ zlen d' = zlen d /\ is_diagonal (dia_n A) (dia_entries A) d'.
Proof.
  intros HA Hd Hmain Hu. pose proof HA as (Hn & Hnp & Hm & Hi & Hv). apply wp_inv. unfold get_diagonal_dia. wbind.
  eapply wp_mono; [apply main_diagonal_wp; auto|]. intros j (Hj & Ej).
  apply (for_fill (dia_n A) (dia_value A) (fun i => j * dia_n A + i)); [lia| |].
  - intros i Hi'. pose proof (mul_range (dia_n A) (dia_nnd A) j i ltac:(lia) ltac:(lia)). lia.
  - intros d' L H1. split; auto. intros i Hi'. rewrite H1 by auto. symmetry. apply coef_eq; auto. apply In_dia_entries. exists j, i. rewrite Ej.
    split; [auto|]. split; [lia|]. replace (i + 0) with i by lia. auto.
Qed.
Lemma get_diagonal_ell_wp (A : ell T) d : ell_ok A -> ell_n A <= zlen d -> ell_diag_first A ->
  exists d', get_diagonal_ell A d = Ok d' /\ zlen d' = zlen d /\ is_diagonal (ell_n A) (ell_entries A) d'.
Proof.
  intros (Hn & Hm & Hi & Hv & Hx) Hd Hu. apply wp_inv. unfold get_diagonal_ell. cbv zeta.
  apply (get_loop (ell_n A) (ell_index A) (ell_value A) (fun i j => j * ell_n A + i) (fun _ => 0) (fun _ => ell_maxnzr A) _ d (fun i => coef (ell_entries A) i i)); auto; [lia| | |].
  - intros i j Hi' Hj. pose proof (mul_range (ell_n A) (ell_maxnzr A) j i ltac:(lia) ltac:(lia)). lia.
  - intros i j Hi' Hj E Hf. unfold coef, ell_entries.
    rewrite filter_flat_map. rewrite (ssum_flat_map RT).
    rewrite (zrange_app 0 j (ell_maxnzr A)) by lia. rewrite map_app, (ssum_app RT). rewrite (zrange_cons j) by lia. cbn [map ssum].
    assert (Row : forall j0, 0 <= j0 < ell_maxnzr A -> ssum (map eval (filter (at_ij i i) (map (fun i0 => (i0, znth 0 (ell_index A) (j0 * ell_n A + i0), znth s0 (ell_value A) (j0 * ell_n A + i0)) : entry T) (zrange 0 (ell_n A)))))
       = if znth 0 (ell_index A) (j0 * ell_n A + i) =? i then znth s0 (ell_value A) (j0 * ell_n A + i) else s0).
    { intros j0 Hj0. rewrite (zrange_app 0 i) by lia. rewrite (zrange_cons i) by lia. rewrite map_app, filter_app. cbn [map filter].
      rewrite (filter_none (at_ij i i) (map _ (zrange 0 i))). 2:{ intros x Hin. apply in_map_iff in Hin. destruct Hin as (k & <- & Hk). apply In_zrange in Hk. unfold at_ij, erow; cbn [fst]. destruct (Z.eqb_spec k i); [lia|auto]. }
      rewrite (filter_none (at_ij i i) (map _ (zrange (i + 1) (ell_n A)))). 2:{ intros x Hin. apply in_map_iff in Hin. destruct Hin as (k & <- & Hk). apply In_zrange in Hk. unfold at_ij, erow; cbn [fst]. destruct (Z.eqb_spec k i); [lia|auto]. }
      unfold at_ij at 1, erow, ecol; cbn [fst snd]. rewrite Z.eqb_refl; cbn [andb app]. destruct (_ =? i); cbn [map ssum eval snd]; [unfold eval; cbn [snd]; ring|reflexivity]. }
    rewrite (ssum_map_ext _ (fun _ => s0) (zrange 0 j)). 2:{ intros j0 Hj0. apply In_zrange in Hj0. rewrite Row by lia. destruct (Z.eqb_spec (znth 0 (ell_index A) (j0 * ell_n A + i)) i) as [E0|]; auto. exfalso; apply (Hf j0); auto. }
    rewrite (ssum_map_zero RT). rewrite Row by lia. rewrite E, Z.eqb_refl.
    rewrite (ssum_map_ext _ (fun _ => s0) (zrange (j + 1) _)). 2:{ intros j0 Hj0. apply In_zrange in Hj0. rewrite Row by lia. destruct (Z.eqb_spec (znth 0 (ell_index A) (j0 * ell_n A + i)) i) as [E0|]; auto. apply (Hu i j j0); auto; lia. }
    rewrite (ssum_map_zero RT). ring.
  - intros i Hi' Hno. apply coef_absent. intro Hc. apply in_map_iff in Hc. destruct Hc as (e & Ee & He). apply In_ell_entries in He. destruct He as (j & i' & H1 & H2 & ->). cbn [fst] in Ee.
    injection Ee as E1 E2. subst i'. apply (Hno j); auto.
Qed.
Lemma get_diagonal_coo_wp (A : coo T) d : coo_ok A -> coo_n A <= zlen d -> no_dup_pos (coo_entries A) ->
  exists d', get_diagonal_coo A d = Ok d' /\ zlen d' = zlen d /\
    forall i, 0 <= i < coo_n A -> znth s0 d' i = if has_diag (coo_entries A) i then coef (coo_entries A) i i else znth s0 d i.
Proof.
  intros (Hn & Hz & Hr & Hc & Hv & Hx) Hd Hu. apply wp_inv. unfold get_diagonal_coo.
  apply (for_wp' (fun k d' => zlen d' = zlen d /\
     (forall k', 0 <= k' < k -> znth 0 (coo_row A) k' = znth 0 (coo_col A) k' -> znth s0 d' (znth 0 (coo_row A) k') = coef (coo_entries A) (znth 0 (coo_row A) k') (znth 0 (coo_row A) k')) /\
     (forall i, 0 <= i < coo_n A -> (forall k', 0 <= k' < k -> znth 0 (coo_row A) k' = i -> znth 0 (coo_col A) k' = i -> False) -> znth s0 d' i = znth s0 d i))); [lia| | |].
  - split; auto. split; [intros; lia|auto].
  - intros k d' Hk (L & H1 & H2). pose proof (Hx k Hk). wrd 0; [lia|]. wrd 0; [lia|].
    assert (Hin : In (znth 0 (coo_row A) k, znth 0 (coo_col A) k, znth s0 (coo_value A) k) (coo_entries A)) by (apply In_coo_entries; eauto).
    destruct (Z.eqb_spec (znth 0 (coo_row A) k) (znth 0 (coo_col A) k)) as [E|E].
    + wrd s0; [lia|]. wwr; [lia|]. split; [len|]. rewrite <- E in Hin. pose proof (coef_eq _ _ _ _ Hu Hin) as Hce. split.
      * intros k' Hk' E'. pose proof (Hx k' ltac:(lia)). rewrite znth_zupd by lia.
        destruct (Z.eqb_spec (znth 0 (coo_row A) k') (znth 0 (coo_row A) k)) as [Eq|Ne]; [rewrite Eq; auto|].
        apply H1; auto. destruct (Z.eq_dec k' k); [subst; congruence|lia].
      * intros i Hi Hno. rewrite znth_zupd by lia. destruct (Z.eqb_spec i (znth 0 (coo_row A) k)) as [Eq|Ne]; [exfalso; apply (Hno k); auto; lia|]. apply H2; auto. intros k' Hk'; apply Hno; lia.
    + apply wp_ok. split; auto. split.
      * intros k' Hk' E'. destruct (Z.eq_dec k' k); [subst; congruence|apply H1; auto; lia].
      * intros i Hi Hno. apply H2; auto. intros k' Hk'; apply Hno; lia.
  - intros d' (L & H1 & H2). split; auto. intros i Hi. destruct (has_diag (coo_entries A) i) eqn:Eh.
    + apply has_diag_In in Eh. apply in_map_iff in Eh. destruct Eh as (e & Ee & He). apply In_coo_entries in He. destruct He as (k & Hk & ->). cbn [fst] in Ee. injection Ee as E1 E2.
      rewrite <- E1. apply H1; auto. congruence.
    + apply H2; auto. intros k Hk E1 E2. assert (has_diag (coo_entries A) i = true); [|congruence]. apply has_diag_In, in_map_iff. exists (i, i, znth s0 (coo_value A) k). split; auto.
      apply In_coo_entries. exists k. rewrite E1, E2. auto.
Qed.

(** ** shift_diagonal *)
Lemma find_shift (idx : list Z) lo hi i sigma (v : list T) :
  lo <= hi -> 0 <= lo -> hi <= zlen idx -> hi <= zlen v ->
  (forall j j', lo <= j < hi -> lo <= j' < hi -> znth 0 idx j = i -> znth 0 idx j' = i -> j = j') ->
  wp (for_brk lo hi (fun j v => c <- rd idx j ;; if i =? c then v <- upd v j (fun a => ssub a sigma) ;; Ok (true, v) else Ok (false, v)) v)
    (pass (fun k => lo <= k < hi /\ znth 0 idx k = i) (fun _ a => ssub a sigma) v).
Proof.
  intros Hl Hlo H1 H2 Hu.
  apply (for_brk_wp (fun j v' => v' = v /\ forall j', lo <= j' < j -> znth 0 idx j' <> i)); auto.
  - split; auto. intros; lia.
  - intros j v' Hj (-> & Hn). wrd 0; [lia|]. destruct (Z.eqb_spec i (znth 0 idx j)) as [E|E].
    + wbind. apply upd_wp; [lia|]. apply wp_ok. cbn [fst snd]. split; [len|]. split.
      * intros k (Hk & Ek). assert (k = j) by (apply Hu; auto). subst k. rewrite znth_zupd_eq by lia. auto.
      * intros k Hk. destruct (Z.eq_dec k j) as [->|]; [exfalso; apply Hk; auto|]. rewrite znth_zupd_neq by lia. auto.
    + apply wp_ok. cbn [fst snd]. split; auto. intros j' Hj'. destruct (Z.eq_dec j' j) as [->|]; [auto|apply Hn; lia].
  - intros v' (-> & Hn). split; auto. split; auto. intros k (Hk & Ek). exfalso; apply (Hn k); auto.
Qed.
Lemma NoDup_map_inj {A B} (f : A -> B) l a b : NoDup (map f l) -> In a l -> In b l -> f a = f b -> a = b.
Proof.
  induction l as [|x l IH]; cbn [map In]; intros Hn Ha Hb E; [contradiction|]. inversion Hn as [|y m Hy Hm]; subst.
  destruct Ha as [->|Ha], Hb as [->|Hb]; auto; exfalso; apply Hy; [rewrite E|rewrite <- E]; apply in_map; auto.
Qed.
Lemma NoDup_app_remove_l {A} (l m : list A) : NoDup (l ++ m) -> NoDup m.
Proof. induction l; cbn [app]; auto. intros H; inversion H; auto. Qed.
Lemma NoDup_app_remove_r {A} (l m : list A) : NoDup (l ++ m) -> NoDup l.
Proof. induction l as [|x l IH]; cbn [app]; intros H; constructor; inversion H; subst; auto. intro; apply H2. apply in_or_app; auto. Qed.
Lemma NoDup_flat_map_in {A B} (f : A -> list B) l a : NoDup (flat_map f l) -> In a l -> NoDup (f a).
Proof.
  induction l as [|x l IH]; cbn [flat_map In]; intros Hn Ha; [contradiction|]. apply NoDup_app_remove_l in Hn as Hn2. destruct Ha as [->|Ha]; [apply NoDup_app_remove_r in Hn; auto|auto].
Qed.
Lemma csr_pos_unique (A : csr T) i j j' : no_dup_pos (csr_entries A) -> 0 <= i < csr_n A ->
  znth 0 (csr_ptr A) i <= j < znth 0 (csr_ptr A) (i + 1) -> znth 0 (csr_ptr A) i <= j' < znth 0 (csr_ptr A) (i + 1) ->
  znth 0 (csr_index A) j = znth 0 (csr_index A) j' -> j = j'.
Proof.
  unfold no_dup_pos, csr_entries. rewrite map_flat_map. intros Hn Hi Hj Hj' E.
  eapply NoDup_flat_map_in in Hn; [|apply In_zrange; exact Hi]. cbv beta in Hn. rewrite map_map in Hn. cbn [fst] in Hn.
  eapply NoDup_map_inj in Hn; [exact Hn|apply In_zrange; auto|apply In_zrange; auto|]. cbv beta. congruence.
Qed.
Lemma csc_pos_unique (A : csc T) i j j' : no_dup_pos (csc_entries A) -> 0 <= i < csc_np A ->
  znth 0 (csc_ptr A) i <= j < znth 0 (csc_ptr A) (i + 1) -> znth 0 (csc_ptr A) i <= j' < znth 0 (csc_ptr A) (i + 1) ->
  znth 0 (csc_index A) j = znth 0 (csc_index A) j' -> j = j'.
Proof.
  unfold no_dup_pos, csc_entries. rewrite map_flat_map. intros Hn Hi Hj Hj' E.
  eapply NoDup_flat_map_in in Hn; [|apply In_zrange; exact Hi]. cbv beta in Hn. rewrite map_map in Hn. cbn [fst] in Hn.
  eapply NoDup_map_inj in Hn; [exact Hn|apply In_zrange; auto|apply In_zrange; auto|]. cbv beta. congruence.
Qed.

Lemma shift_seg n p (idx : list Z) sigma (v0 : list T) (Q : list T -> Prop) :
  ptr_ok n p -> znth 0 p n <= zlen idx -> znth 0 p n <= zlen v0 ->
  (forall i j j', 0 <= i < n -> znth 0 p i <= j < znth 0 p (i + 1) -> znth 0 p i <= j' < znth 0 p (i + 1) -> znth 0 idx j = znth 0 idx j' -> j = j') ->
  (forall v', zlen v' = zlen v0 -> (forall i k, 0 <= i < n -> znth 0 p i <= k < znth 0 p (i + 1) ->
     znth s0 v' k = if znth 0 idx k =? i then ssub (znth s0 v0 k) sigma else znth s0 v0 k) -> Q v') ->
  wp (for_ 0 n (fun i v => js <- rd p i ;; je <- rd p (i + 1) ;;
    for_brk js je (fun j v => c <- rd idx j ;; if i =? c then v <- upd v j (fun a => ssub a sigma) ;; Ok (true, v) else Ok (false, v)) v) v0) Q.
Proof.
  intros Hp Hi Hv Hu HQ. pose proof Hp as (Hn & Hlp & _ & Hm).
  apply (outer_upd n (fun i k => znth 0 p i <= k < znth 0 p (i + 1) /\ znth 0 idx k = i) (fun _ _ a => ssub a sigma)); auto.
  - intros; lia.
  - intros i j k Hi' Hj (H1 & _) (H2 & _). apply (ptr_disj n p i j k); auto.
  - intros i v Hi' HL. wrd 0; [lia|]. wrd 0; [lia|]. pose proof (ptr_pos _ _ i Hp ltac:(lia)). pose proof (ptr_pos _ _ (i + 1) Hp ltac:(lia)).
    apply find_shift; auto; try lia. intros j j' Hj Hj' E E'. apply (Hu i); auto. congruence.
  - intros v' L H1 H2. apply HQ; auto. intros i k Hi' Hk. destruct (Z.eqb_spec (znth 0 idx k) i) as [E|E].
    + apply (H1 i); auto.
    + apply H2. intros i' Hi2 (H3 & H4). assert (i = i') by (apply (ptr_disj n p i i' k); auto). congruence.
Qed.
Lemma shift_diagonal_csr_wp (A : csr T) sigma : csr_ok A -> no_dup_pos (csr_entries A) ->
  exists A', shift_diagonal_csr A sigma = Ok A' /\ csr_ok A' /\ csr_entries A' = map (shift_e sigma) (csr_entries A).
Proof.
  intros (Hp & Hnp & Hz & Hi & Hv & Hx) Hu. apply wp_inv. unfold shift_diagonal_csr. wbind.
  apply shift_seg; auto; [lia|lia|intros; apply (csr_pos_unique A i); auto|].
  intros v' HL H. apply wp_ok. split.
  - unfold csr_ok; cbn [csr_n csr_np csr_nnz csr_ptr csr_index csr_value]. rewrite HL. auto 10.
  - unfold csr_entries. cbn [csr_n csr_ptr csr_index csr_value]. apply seg_map. intros i k Hi' Hk. rewrite (H i k) by auto.
    unfold shift_e, erow, ecol, eval; cbn [fst snd]. rewrite (Z.eqb_sym i). auto.
Qed.
Lemma shift_diagonal_csc_wp (A : csc T) sigma : csc_ok A -> no_dup_pos (csc_entries A) ->
  exists A', shift_diagonal_csc A sigma = Ok A' /\ csc_ok A' /\ csc_entries A' = map (shift_e sigma) (csc_entries A).
Proof.
  intros (Hp & Hnp & Hz & Hi & Hv & Hx) Hu. apply wp_inv. unfold shift_diagonal_csc. wbind.
  apply shift_seg; auto; [lia|lia|intros; apply (csc_pos_unique A i); auto|].
  intros v' HL H. apply wp_ok. split.
  - unfold csc_ok; cbn [csc_n csc_np csc_nnz csc_ptr csc_index csc_value]. rewrite HL. auto 10.
  - unfold csc_entries. cbn [csc_np csc_ptr csc_index csc_value]. apply seg_map. intros i k Hi' Hk. rewrite (H i k) by auto.
    unfold shift_e, erow, ecol, eval; cbn [fst snd]. auto.
Qed.
Lemma shift_diagonal_coo_wp (A : coo T) sigma : coo_ok A ->
  exists A', shift_diagonal_coo A sigma = Ok A' /\ coo_ok A' /\ coo_entries A' = map (shift_e sigma) (coo_entries A).
Proof.
  intros HA. pose proof HA as (Hn & Hz & Hr & Hc & Hv & Hx). apply wp_inv. unfold shift_diagonal_coo. wbind.
  apply (coo_loop A (fun k a => if znth 0 (coo_row A) k =? znth 0 (coo_col A) k then ssub a sigma else a)); auto.
  - intros k v Hk HL. wrd 0; [lia|]. wrd 0; [lia|]. destruct (_ =? _); [apply upd_wp; [lia|auto]|]. apply wp_ok. rewrite zupd_id by lia. auto.
  - intros v' HL H. apply wp_ok. split.
    + unfold coo_ok; cbn [coo_n coo_np coo_nnz coo_row coo_col coo_value]. rewrite HL. auto.
    + unfold coo_entries. cbn [coo_nnz coo_row coo_col coo_value]. rewrite map_map. apply map_ext_in. intros k Hk. apply In_zrange in Hk. rewrite H by auto. reflexivity.
Qed.
Lemma shift_diagonal_msr_wp (A : msr T) sigma : msr_ok A -> no_dup_pos (msr_entries A) ->
  exists A', shift_diagonal_msr A sigma = Ok A' /\ msr_ok A' /\ msr_entries A' = map (shift_e sigma) (msr_entries A).
Proof.
  intros HA Hu. pose proof HA as (Hn & Hz1 & Hz2 & Hi & Hv & H0 & Hm & Ht & Hx). pose proof (msr_bounds A (msr_n A) HA ltac:(lia)) as B0. apply wp_inv. unfold shift_diagonal_msr. wbind.
  apply (inner_upd 0 _ _ (fun _ a => ssub a sigma)).
  - intros i v Hi' HL. apply upd_wp; [lia|]. cbn [Z.add]. split; [lia|auto].
  - intros v' (L & H1 & H2). apply wp_ok. split.
    + unfold msr_ok; cbn [msr_n msr_np msr_nnz msr_ndz msr_index msr_value]. rewrite L. auto 20.
    + apply msr_map; auto.
      * intros i Hi'. rewrite H1 by lia. unfold shift_e, erow, ecol, eval; cbn [fst snd]. rewrite Z.eqb_refl. auto.
      * intros i k Hi' Hk. pose proof (msr_bounds A i HA ltac:(lia)). rewrite H2 by lia. unfold shift_e, erow, ecol, eval; cbn [fst snd].
        destruct (Z.eqb_spec i (znth 0 (msr_index A) k)) as [E|]; auto. exfalso.
        unfold no_dup_pos, msr_entries in Hu. rewrite map_flat_map in Hu. eapply NoDup_flat_map_in in Hu; [|apply In_zrange; exact Hi']. cbv beta in Hu. cbn [map fst] in Hu. apply NoDup_cons_iff in Hu. destruct Hu as [Hx' _].
        apply Hx'. rewrite map_map. apply in_map_iff. exists k. cbn [fst]. rewrite <- E. split; auto. apply In_zrange; auto.
Qed.
Lemma shift_diagonal_dns_wp (A : dns T) sigma : dns_ok A ->
  exists A', shift_diagonal_dns A sigma = Ok A' /\ dns_ok A' /\ dns_entries A' = map (shift_e sigma) (dns_entries A).
Proof.
  intros (Hn & Hv). apply wp_inv. unfold shift_diagonal_dns. wbind.
  apply (outer_upd (dns_n A) (fun i k => k = i * dns_n A + i) (fun _ _ a => ssub a sigma)); [lia|intros; lia| | |].
  - intros i j k Hi Hj -> E. destruct (mul_inj (dns_n A) i i j j); auto.
  - intros i v Hi HL. pose proof (mul_range (dns_n A) (dns_np A) i i ltac:(lia) ltac:(lia)). apply upd_wp; [lia|]. split; [len|]. split; intros k Hk; [subst k; rewrite znth_zupd_eq by lia; auto|rewrite znth_zupd_neq by lia; auto].
  - intros v' L H1 H2. apply wp_ok. split.
    + unfold dns_ok; cbn [dns_n dns_np dns_value]. rewrite L. auto.
    + unfold dns_entries; cbn [dns_n dns_np dns_value]. apply (seg_map _ (fun _ => 0) (fun _ => dns_n A)). intros j i Hj Hi. unfold shift_e, erow, ecol, eval; cbn [fst snd].
      destruct (Z.eqb_spec i j) as [->|Ne]; [rewrite (H1 j) by (auto; lia); auto|]. rewrite H2; auto. intros i' Hi' E. destruct (mul_inj (dns_n A) j i i' i'); auto; lia.
Qed.
Lemma shift_diagonal_dia_wp (A : dia T) sigma : dia_ok A -> dia_has_main A -> no_dup_pos (dia_entries A) ->
  exists A', shift_diagonal_dia A sigma = Ok A' /\ dia_ok A' /\ dia_entries A' = map (shift_e sigma) (dia_entries A).
Proof.
  intros HA Hmain Hu. pose proof HA as (Hn & Hnp & Hm & Hi & Hv). apply wp_inv. unfold shift_diagonal_dia. wbind.
  eapply wp_mono; [apply main_diagonal_wp; auto|]. intros j (Hj & Ej). wbind.
  apply (inner_upd (j * dia_n A) _ _ (fun _ a => ssub a sigma)).
  - intros i v Hi' HL. pose proof (mul_range (dia_n A) (dia_nnd A) j i ltac:(lia) ltac:(lia)). apply upd_wp; [lia|]. split; [lia|auto].
  - intros v' (L & H1 & H2). apply wp_ok. split.
    + unfold dia_ok; cbn [dia_n dia_np dia_nnd dia_index dia_value]. rewrite L. auto.
    + unfold dia_entries; cbn [dia_n dia_nnd dia_index dia_value]. apply seg_map. intros j' i Hj' Hi'. unfold shift_e, erow, ecol, eval; cbn [fst snd].
      destruct (Z.eqb_spec i (i + znth 0 (dia_index A) j')) as [E|Ne].
      * assert (j' = j); [|subst j'; rewrite H1 by lia; auto].
        assert (In (i, i + znth 0 (dia_index A) j', znth s0 (dia_value A) (j' * dia_n A + i)) (dia_entries A)) by (apply In_dia_entries; exists j', i; auto).
        destruct (Z.eq_dec j j') as [->|Ne]; auto. exfalso.
        unfold no_dup_pos, dia_entries in Hu. rewrite map_flat_map in Hu.
        assert (G : forall l (f : Z -> list (Z * Z)) a b x, NoDup (flat_map f l) -> In a l -> In b l -> a <> b -> In x (f a) -> In x (f b) -> False).
        { clear. induction l as [|y l IH]; cbn [flat_map In]; intros f a b x Hn Ha Hb Hab Hxa Hxb; [contradiction|].
          assert (D : forall u, In u (f y) -> In u (flat_map f l) -> False).
          { intros u Hu1 Hu2. clear -Hn Hu1 Hu2. induction (f y) as [|z m IHm]; cbn in *; [contradiction|]. inversion Hn as [|q r Hq Hr]; subst. destruct Hu1 as [->|Hu1]; [apply Hq; apply in_or_app; auto|auto]. }
          destruct Ha as [->|Ha], Hb as [->|Hb]; [congruence| | |].
          - apply (D x Hxa). apply in_flat_map. eauto.
          - apply (D x Hxb). apply in_flat_map. eauto.
          - apply NoDup_app_remove_l in Hn. eauto. }
        apply (G _ _ j j' (i, i) Hu); auto; [apply In_zrange; auto|apply In_zrange; auto| |].
        -- rewrite map_map. apply in_map_iff. exists i. cbn [fst]. rewrite Ej. split; [f_equal; lia|apply In_zrange; lia].
        -- rewrite map_map. apply in_map_iff. exists i. cbn [fst]. split; [f_equal; lia|apply In_zrange; lia].
      * rewrite H2; auto. intros Hk. destruct (Z.eq_dec j' j) as [->|Ne']; [rewrite Ej in Ne; lia|]. destruct (mul_inj (dia_n A) j' i j (j' * dia_n A + i - j * dia_n A)); lia.
Qed.

(** ** lis_matrix_scale *)
Lemma upd_all n (f : Z -> T -> T) body (v : list T) (Q : list T -> Prop) : 0 <= n <= zlen v ->
  (forall i w, 0 <= i < n -> zlen w = zlen v -> wp (body i w) (fun w' => w' = zupd w i (f i (znth s0 w i)))) ->
  (forall v', zlen v' = zlen v -> (forall i, 0 <= i < n -> znth s0 v' i = f i (znth s0 v i)) -> Q v') -> wp (for_ 0 n body v) Q.
Proof.
  intros Hn Hb HQ. apply (inner_upd 0 _ _ f).
  - intros i w Hi HL. eapply wp_mono; [apply Hb; auto|]. intros w' ->. cbn [Z.add]. split; [lia|auto].
  - intros v' (L & H1 & H2). apply HQ; auto.
Qed.

Section Field.
Hypothesis FT : is_field S.
Let FT' : @field_theory T s0 s1 sadd smul ssub sopp sdiv (fun x => sdiv s1 x) (@eq T) := FT.
Add Field scalar_field : FT'.

Lemma jacobi_solutions n E (b d b' : Z -> T) E' :
  (forall i, 0 <= i < n -> d i <> s0) ->
  (forall i j, 0 <= i < n -> coef E' i j = smul (coef E i j) (d i)) ->
  (forall i, 0 <= i < n -> b' i = smul (b i) (d i)) ->
  forall x, solves n E' b' x <-> solves n E b x.
Proof.
  intros Hd HE Hb x. unfold solves.
  assert (M : forall i, 0 <= i < n -> mv_spec E' n x i = smul (mv_spec E n x i) (d i)).
  { intros i Hi. unfold mv_spec. rewrite <- (ssum_map_mul_r RT). apply ssum_map_ext. intros j _. rewrite HE by auto. ring. }
  split; intros H i Hi; specialize (H i Hi).
  - rewrite M, Hb in H by auto. assert (E1 : mv_spec E n x i = smul (smul (mv_spec E n x i) (d i)) (sdiv s1 (d i))) by (field; auto). rewrite E1, H. field; auto.
  - rewrite M, Hb, H by auto. auto.
Qed.
Lemma symm_solutions n E (b d b' : Z -> T) E' :
  (forall i, 0 <= i < n -> d i <> s0) ->
  (forall i j, 0 <= i < n -> 0 <= j < n -> coef E' i j = smul (smul (d i) (coef E i j)) (d j)) ->
  (forall i, 0 <= i < n -> b' i = smul (d i) (b i)) ->
  forall y, solves n E' b' y <-> solves n E b (fun j => smul (d j) (y j)).
Proof.
  intros Hd HE Hb y. unfold solves.
  assert (M : forall i, 0 <= i < n -> mv_spec E' n y i = smul (d i) (mv_spec E n (fun j => smul (d j) (y j)) i)).
  { intros i Hi. unfold mv_spec. rewrite <- (ssum_map_mul_l RT). apply ssum_map_ext. intros j Hj. apply In_zrange in Hj. rewrite HE by auto. ring. }
  split; intros H i Hi; specialize (H i Hi).
  - rewrite M, Hb in H by auto. set (q := mv_spec E n (fun j => smul (d j) (y j)) i) in *.
    assert (E1 : q = smul (smul (d i) q) (sdiv s1 (d i))) by (field; auto). rewrite E1, H. field; auto.
  - rewrite M, Hb, H by auto. auto.
Qed.
Lemma inv_nonzero a : a <> s0 -> sdiv s1 a <> s0.
Proof.
  intros Ha E. apply (F_1_neq_0 FT). assert (s1 = smul (sdiv s1 a) a) by (field; auto). rewrite H, E. ring.
Qed.

Lemma scale_jacobi {M} (E : M -> list (entry T)) (okM : M -> Prop) get sc scs n (A : M) b d :
  0 <= n -> n <= zlen b -> n <= zlen d ->
  (exists d', get A d = Ok d' /\ zlen d' = zlen d /\ is_diagonal n (E A) d') ->
  (forall d', n <= zlen d' -> (forall i, 0 <= i < n -> znth s0 d' i = sdiv s1 (coef (E A) i i)) ->
     exists A', sc A d' = Ok A' /\ E A' = map (row_scaled d') (E A) /\ okM A') ->
  (forall i, 0 <= i < n -> coef (E A) i i <> s0) ->
  exists A' b' d', matrix_scale get sc scs n n A b d false = Ok (A', b', d') /\ okM A' /\
    jacobi_scaled n (E A) (E A') (znth s0 b) (znth s0 b') (znth s0 d').
Proof.
  intros Hn Hb Hd (d1 & Eg & L1 & Hg) Hsc Hnz.
  assert (G : wp (matrix_scale get sc scs n n A b d false) (fun r => let '(A', b', d') := r in okM A' /\ jacobi_scaled n (E A) (E A') (znth s0 b) (znth s0 b') (znth s0 d'))).
  { unfold matrix_scale. rewrite Eg; cbn [bind]. wbind.
    apply (upd_all n (fun _ a => sdiv s1 a)); [lia| |].
    { intros; apply upd_wp; [lia|auto]. }
    intros d2 L2 H2. destruct (Hsc d2) as (A' & Es & EE & Hok); [lia|intros; rewrite H2, Hg by auto; auto|]. rewrite Es; cbn [bind]. wbind.
    apply (upd_all n (fun i a => smul a (znth s0 d2 i))); [lia| |].
    { intros. wrd s0; [lia|]. apply upd_wp; [lia|auto]. }
    intros b' Lb H3. apply wp_ok. split; auto.
    assert (Hd2 : forall i, 0 <= i < n -> znth s0 d2 i = sdiv s1 (coef (E A) i i)) by (intros; rewrite H2, Hg by auto; auto).
    split; [auto|]. split; [|split; [auto|]].
    - intros i j Hi. rewrite EE. apply coef_row_scaled.
    - apply jacobi_solutions with (d := znth s0 d2); auto.
      + intros i Hi. rewrite Hd2 by auto. apply inv_nonzero; auto.
      + intros i j Hi. rewrite EE. apply coef_row_scaled. }
  apply wp_inv in G. destruct G as ([[A' b'] d'] & E1 & H). eauto.
Qed.
Lemma scale_symm {M} (E : M -> list (entry T)) (okM : M -> Prop) get sc scs n (A : M) b d :
  0 <= n -> n <= zlen b -> n <= zlen d ->
  (exists d', get A d = Ok d' /\ zlen d' = zlen d /\ is_diagonal n (E A) d') ->
  (forall d', n <= zlen d' -> (forall i, 0 <= i < n -> znth s0 d' i = sdiv s1 (ssqrt (sabs (coef (E A) i i)))) ->
     exists A', scs A d' = Ok A' /\ E A' = map (sym_scaled d') (E A) /\ okM A') ->
  (forall i, 0 <= i < n -> ssqrt (sabs (coef (E A) i i)) <> s0) ->
  exists A' b' d', matrix_scale get sc scs n n A b d true = Ok (A', b', d') /\ okM A' /\
    symm_scaled n (E A) (E A') (znth s0 b) (znth s0 b') (znth s0 d').
Proof.
  intros Hn Hb Hd (d1 & Eg & L1 & Hg) Hsc Hnz.
  assert (G : wp (matrix_scale get sc scs n n A b d true) (fun r => let '(A', b', d') := r in okM A' /\ symm_scaled n (E A) (E A') (znth s0 b) (znth s0 b') (znth s0 d'))).
  { unfold matrix_scale. rewrite Eg; cbn [bind]. wbind.
    apply (upd_all n (fun _ a => sdiv s1 (ssqrt (sabs a)))); [lia| |].
    { intros; apply upd_wp; [lia|auto]. }
    intros d2 L2 H2. destruct (Hsc d2) as (A' & Es & EE & Hok); [lia|intros; rewrite H2, Hg by auto; auto|]. rewrite Es; cbn [bind]. wbind.
    apply (upd_all n (fun i a => smul a (znth s0 d2 i))); [lia| |].
    { intros. wrd s0; [lia|]. apply upd_wp; [lia|auto]. }
    intros b' Lb H3. apply wp_ok. split; auto.
    assert (Hd2 : forall i, 0 <= i < n -> znth s0 d2 i = sdiv s1 (ssqrt (sabs (coef (E A) i i)))) by (intros; rewrite H2, Hg by auto; auto).
    assert (Hb' : forall i, 0 <= i < n -> znth s0 b' i = smul (znth s0 d2 i) (znth s0 b i)) by (intros; rewrite H3 by auto; ring).
    split; [auto|]. split; [|split; [auto|]].
    - intros i j Hi Hj. rewrite EE. apply coef_sym_scaled.
    - apply symm_solutions; auto.
      + intros i Hi. rewrite Hd2 by auto. apply inv_nonzero; auto.
      + intros i j Hi Hj. rewrite EE. apply coef_sym_scaled. }
  apply wp_inv in G. destruct G as ([[A' b'] d'] & E1 & H). eauto.
Qed.
End Field.
End P.
