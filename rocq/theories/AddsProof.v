(** Additive Schwarz wrapper: refinement steps with the inner preconditioner. *)
Require Import ZArith List Bool Lia Ring.
From Verif Require Import Base Items Scalar Spec SpecIlu SpecSainv SainvMath Isp SpecIsp.
Import ListNotations.
Open Scope Z_scope.

Section P.
Context {T : Type} {S : Scalar T}.
Hypothesis RT : is_ring S.
Let RT' : @ring_theory T s0 s1 sadd smul ssub sopp (@eq T) := RT.
Add Ring TrAds : RT'.
Variable n : Z.
Notation mm := (mat_mul 0 n).
Notation mv := (mat_vec 0 n).
Notation mat := (Z -> Z -> T).

Lemma mv_ext (M : mat) x y i : (forall c, 0 <= c < n -> x c = y c) -> mv M x i = mv M y i.
Proof. intros H. unfold mat_vec. apply sum_ext. intros c Hc. rewrite H; auto. Qed.
Lemma mv_extM (M M' : mat) x i : (forall c, 0 <= c < n -> M i c = M' i c) -> mv M x i = mv M' x i.
Proof. intros H. unfold mat_vec. apply sum_ext. intros c Hc. rewrite H; auto. Qed.
Lemma mv_sub (M : mat) x y i : mv M (fun c => ssub (x c) (y c)) i = ssub (mv M x i) (mv M y i).
Proof. unfold mat_vec. rewrite <- (sum_sub RT). apply ssum_map_ext. intros. ring. Qed.
Lemma mv_mm (F G : mat) x i : mv (mm F G) x i = mv F (mv G x) i.
Proof.
  unfold mat_vec, mat_mul. rewrite (ssum_map_ext _ (fun j => ssum (map (fun k => smul (smul (F i k) (G k j)) (x j)) (zrange 0 n)))).
  - rewrite (ssum_exchange RT). apply ssum_map_ext. intros k _. rewrite <- (ssum_map_mul_l RT). apply ssum_map_ext. intros. ring.
  - intros j _. rewrite <- (ssum_map_mul_r RT). reflexivity.
Qed.
Lemma mm_assoc (F G H : mat) i j : mm (mm F G) H i j = mm F (mm G H) i j.
Proof. exact (mv_mm F G (fun k => H k j) i). Qed.
Lemma mm_extR (F G G' : mat) i j : (forall k, 0 <= k < n -> G k j = G' k j) -> mm F G i j = mm F G' i j.
Proof. intros H. apply (mv_ext F (fun k => G k j) (fun k => G' k j)). auto. Qed.
Lemma mm_extL (F F' G : mat) i j : (forall k, 0 <= k < n -> F i k = F' i k) -> mm F G i j = mm F' G i j.
Proof. intros H. apply (mv_extM F F' (fun k => G k j)). auto. Qed.
Lemma mm_addR (F G H : mat) i j : mm F (fun r c => sadd (G r c) (H r c)) i j = sadd (mm F G i j) (mm F H i j).
Proof. unfold mat_mul. rewrite <- (ssum_map_add RT). apply ssum_map_ext. intros. ring. Qed.
Lemma mm_subR (F G H : mat) i j : mm F (fun r c => ssub (G r c) (H r c)) i j = ssub (mm F G i j) (mm F H i j).
Proof. unfold mat_mul. rewrite <- (sum_sub RT). apply ssum_map_ext. intros. ring. Qed.
Lemma mm_addL (F G H : mat) i j : mm (fun r c => sadd (G r c) (H r c)) F i j = sadd (mm G F i j) (mm H F i j).
Proof. unfold mat_mul. rewrite <- (ssum_map_add RT). apply ssum_map_ext. intros. ring. Qed.
Lemma mm_subL (F G H : mat) i j : mm (fun r c => ssub (G r c) (H r c)) F i j = ssub (mm G F i j) (mm H F i j).
Proof. unfold mat_mul. rewrite <- (sum_sub RT). apply ssum_map_ext. intros. ring. Qed.

Notation G := (refined n).
Lemma refined_comm (M a : mat) k r c : mm (G M a k) (mm a M) r c = mm M (mm a (G M a k)) r c.
Proof using RT.
  revert r c. induction k as [|k IH]; intros r c; [reflexivity|].
  set (Gk := G M a k) in *.
  assert (E : G M a (Datatypes.S k) = fun r c => sadd (Gk r c) (ssub (M r c) (mm M (mm a Gk) r c))) by reflexivity. rewrite E.
  rewrite mm_addL, mm_subL. rewrite IH. rewrite mm_assoc.
  assert (E2 : mm M (mm a (fun r c => sadd (Gk r c) (ssub (M r c) (mm M (mm a Gk) r c)))) r c = sadd (mm M (mm a Gk) r c) (ssub (mm M (mm a M) r c) (mm M (mm a (mm M (mm a Gk))) r c))).
  { rewrite <- mm_subR, <- mm_addR. apply mm_extR. intros q Hq. rewrite mm_addR, mm_subR. reflexivity. }
  rewrite E2. f_equal. f_equal. apply mm_extR. intros q Hq. rewrite mm_assoc. apply mm_extR. intros q' Hq'. apply IH.
Qed.

Lemma adjoint_mm (HC : conj_ok S) (F F2 : mat) r c : adjoint (mm F F2) r c = mm (adjoint F2) (adjoint F) r c.
Proof using RT.
  destruct HC as (C1 & C2 & C3 & C4 & C5). unfold adjoint, mat_mul. generalize (zrange 0 n). intros l. induction l as [|k l IH]; [exact C4|]. cbn [map ssum]. rewrite C1, IH, C2. ring.
Qed.
Lemma conj_sub (HC : conj_ok S) (a b : T) : sconj (ssub a b) = ssub (sconj a) (sconj b).
Proof using RT.
  destruct HC as (C1 & C2 & C3 & C4 & C5). assert (H : sadd (sconj (ssub a b)) (sconj b) = sconj a) by (rewrite <- C1; f_equal; ring). rewrite <- H. ring.
Qed.
Lemma refined_adjoint (HC : conj_ok S) (M a : mat) k r c : 0 <= r < n -> 0 <= c < n -> G (adjoint M) (adjoint a) k r c = adjoint (G M a k) r c.
Proof using RT.
  revert r c. induction k as [|k IH]; intros r c Hr Hc; [reflexivity|].
  assert (E : adjoint (G M a (Datatypes.S k)) r c = sadd (adjoint (G M a k) r c) (ssub (adjoint M r c) (adjoint (mm M (mm a (G M a k))) r c))).
  { unfold adjoint at 1. cbn [refined]. pose proof (proj1 HC) as C1. rewrite C1, (conj_sub HC). reflexivity. }
  rewrite E. cbn [refined]. rewrite (IH r c Hr Hc). f_equal. f_equal.
  assert (E2 : adjoint (mm M (mm a (G M a k))) r c = adjoint (mm (G M a k) (mm a M)) r c) by (unfold adjoint; rewrite refined_comm; reflexivity).
  rewrite E2, (adjoint_mm HC). rewrite <- mm_assoc.
  transitivity (mm (mm (adjoint M) (adjoint a)) (adjoint (G M a k)) r c).
  - apply mm_extR. intros q Hq. apply IH; auto.
  - apply mm_extL. intros q Hq. symmetry. apply (adjoint_mm HC).
Qed.

(** one step on a vector *)
Lemma refined_vec (M a : mat) k x i : mv (G M a (Datatypes.S k)) x i = sadd (mv (G M a k) x i) (mv M (fun c => ssub (x c) (mv a (mv (G M a k) x) c)) i).
Proof using RT.
  rewrite mv_sub. rewrite <- (mv_ext M (mv (mm a (G M a k)) x) (fun c => mv a (mv (G M a k) x) c)) by (intros; apply mv_mm). rewrite <- (mv_mm M (mm a (G M a k))). unfold mat_vec. rewrite <- (sum_sub RT), <- (ssum_map_add RT). apply ssum_map_ext. intros c _. cbn [refined]. ring.
Qed.
(** b - A x = (I - A M)^(k+1) b *)
Lemma refined_residual (M a : mat) k b i : 0 <= i < n -> ssub (b i) (mv a (mv (G M a k) b) i) = Nat.iter (Datatypes.S k) (defect n M a) b i.
Proof using RT.
  revert i. induction k as [|k IH]; intros i Hi; [reflexivity|].
  change (Nat.iter (Datatypes.S (Datatypes.S k)) (defect n M a) b i) with (defect n M a (Nat.iter (Datatypes.S k) (defect n M a) b) i). set (it := Nat.iter (Datatypes.S k) (defect n M a) b) in *. unfold defect. rewrite <- (IH i Hi).
  rewrite (mv_ext a (mv M it) (mv M (fun c => ssub (b c) (mv a (mv (G M a k) b) c)))).
  2:{ intros c Hc. apply mv_ext. intros q Hq. symmetry. apply IH. auto. }
  set (r := fun c => ssub (b c) (mv a (mv (G M a k) b) c)).
  rewrite (mv_ext a (mv (G M a (Datatypes.S k)) b) (fun c => sadd (mv (G M a k) b c) (mv M r c))) by (intros; apply refined_vec).
  assert (E : mv a (fun c => sadd (mv (G M a k) b c) (mv M r c)) i = sadd (mv a (mv (G M a k) b) i) (mv a (mv M r) i)).
  { unfold mat_vec at 1. rewrite (ssum_map_ext _ (fun c => sadd (smul (a i c) (mv (G M a k) b c)) (smul (a i c) (mv M r c)))) by (intros; ring). apply (ssum_map_add RT). }
  rewrite E. ring.
Qed.

Lemma psolve_adds_wp (M a : mat) inner mvf iter b x w : 0 <= n -> multiplies n inner M -> multiplies n mvf a -> 0 <= iter -> n <= zlen b -> zlen x = n -> zlen w = n ->
  wp (psolve_adds inner mvf n n iter b x w) (fun x' => zlen x' = n /\ forall i, 0 <= i < n -> znth s0 x' i = mv (G M a (Z.to_nat iter)) (znth s0 b) i).
Proof using RT.
  intros Hn HM HA Hi Hb Hx Hw. unfold psolve_adds. apply wp_bind.
  apply (for_wp' (fun q x => zlen x = n /\ forall i, 0 <= i < q -> znth s0 x i = s0)); [lia|split; [auto|intros; lia]| |].
  { intros i z Hi' [Hz H]. rewrite wr_ok by lia. cbn [wp]. split; [len|]. intros c Hc. rewrite znth_zupd by lia. destruct (Z.eqb_spec c i); auto. apply H; lia. }
  intros x0 [Hx0 H0]. apply wp_bind.
  apply (for_wp' (fun q x => zlen x = n /\ forall i, 0 <= i < q -> znth s0 x i = znth s0 b i)); [lia|split; [apply zlen_alloc; lia|intros; lia]| |].
  { intros i z Hi' [Hz H]. wrd s0; [lia|]. rewrite wr_ok by lia. cbn [wp]. split; [len|]. intros c Hc. rewrite znth_zupd by lia. destruct (Z.eqb_spec c i) as [->|]; auto. apply H; lia. }
  intros r0 [Hr0 HR0]. apply wp_bind.
  set (bf := znth s0 b). set (X := fun k : Z => if k =? 0 then fun _ : Z => @s0 T S else mv (G M a (Z.to_nat (k - 1))) bf).
  apply (for_wp' (fun k '(x, r, w) => zlen x = n /\ zlen r = n /\ zlen w = n /\ (forall i, 0 <= i < n -> znth s0 x i = X k i) /\
     (k <= iter -> forall i, 0 <= i < n -> znth s0 r i = ssub (bf i) (mv a (X k) i)))); [lia| | |].
  - repeat match goal with |- _ /\ _ => split end; auto. intros _ i Hi'. rewrite HR0 by auto. unfold X. cbn [Z.eqb]. unfold mat_vec. rewrite (sum_zero RT) by (intros; ring). fold bf. unfold bf. ring.
  - intros k [[x1 r1] w1] Hk (L1 & L2 & L3 & H1 & H2). apply wp_bind. unfold for_. rewrite Z.sub_diag. cbn [Z.to_nat for_n wp].
    destruct (HM r1 w1 L2 L3) as (w2 & E2 & L2' & V2). rewrite E2. cbn [bind]. apply wp_bind. fold (@for_ (list T)).
    change (wp (for_ 0 n (fun i x => xv <- rd x i ;; wv <- rd w2 i ;; wr x i (sadd xv wv)) x1) (fun x => wp (if k =? iter then Ok (x, r1, w2) else r <- mvf x r1 ;; r <- for_ 0 n (fun i r => bv <- rd b i ;; rv <- rd r i ;; wr r i (ssub bv rv)) r ;; Ok (x, r, w2)) (fun '(x, r, w) => zlen x = n /\ zlen r = n /\ zlen w = n /\ (forall i, 0 <= i < n -> znth s0 x i = X (k + 1) i) /\ (k + 1 <= iter -> forall i, 0 <= i < n -> znth s0 r i = ssub (bf i) (mv a (X (k + 1)) i))))).
    apply (for_wp' (fun q x => zlen x = n /\ forall i, 0 <= i < n -> znth s0 x i = if i <? q then sadd (znth s0 x1 i) (znth s0 w2 i) else znth s0 x1 i)); [lia| | |].
    + split; [auto|]. intros i Hi'. destruct (Z.ltb_spec i 0); [lia|auto].
    + intros i z Hi' [Hz H]. wrd s0; [lia|]. wrd s0; [lia|]. rewrite wr_ok by lia. cbn [wp]. split; [len|]. intros c Hc. rewrite znth_zupd by lia. rewrite !H by lia.
      destruct (Z.eqb_spec c i) as [->|]. * destruct (Z.ltb_spec i i), (Z.ltb_spec i (i + 1)); try lia. reflexivity. * destruct (Z.ltb_spec c i), (Z.ltb_spec c (i + 1)); try lia; reflexivity.
    + intros x2 [Lx2 Hx2].
      assert (HX : forall i, 0 <= i < n -> znth s0 x2 i = X (k + 1) i).
      { intros i Hi'. rewrite Hx2 by auto. destruct (Z.ltb_spec i n); [|lia]. rewrite H1, V2 by auto. unfold X at 2. destruct (Z.eqb_spec (k + 1) 0); [lia|]. replace (k + 1 - 1) with k by lia.
        rewrite (mv_ext M (znth s0 r1) (fun c => ssub (bf c) (mv a (X k) c))) by (intros; apply H2; lia).
        destruct (Z.eq_dec k 0) as [E0|E0].
        - rewrite E0. unfold X. cbn [Z.eqb]. change (Z.to_nat 0) with O. change (mv (G M a 0) bf i) with (mv M bf i). rewrite (mv_ext M _ bf); [ring|]. intros c Hc. unfold mat_vec. rewrite (sum_zero RT) by (intros; ring). ring.
        - replace (Z.to_nat k) with (Datatypes.S (Z.to_nat (k - 1))) by lia. rewrite refined_vec. unfold X. destruct (Z.eqb_spec k 0); [lia|]. reflexivity. }
      destruct (Z.eqb_spec k iter) as [Ek|Ek].
      * cbn [wp]. repeat match goal with |- _ /\ _ => split end; auto. intros; lia.
      * destruct (HA x2 r1 Lx2 L2) as (r2 & E3 & L3' & V3). rewrite E3. cbn [bind]. apply wp_bind.
        apply (for_wp' (fun q r => zlen r = n /\ forall i, 0 <= i < n -> znth s0 r i = if i <? q then ssub (bf i) (znth s0 r2 i) else znth s0 r2 i)); [lia| | |].
        -- split; [auto|]. intros i Hi'. destruct (Z.ltb_spec i 0); [lia|auto].
        -- intros i z Hi' [Hz H]. wrd s0; [lia|]. wrd s0; [lia|]. rewrite wr_ok by lia. cbn [wp]. split; [len|]. intros c Hc. rewrite znth_zupd by lia. rewrite !H by lia.
           destruct (Z.eqb_spec c i) as [->|]. ++ destruct (Z.ltb_spec i i), (Z.ltb_spec i (i + 1)); try lia. reflexivity. ++ destruct (Z.ltb_spec c i), (Z.ltb_spec c (i + 1)); try lia; reflexivity.
        -- intros r3 [Lr3 Hr3]. cbn [wp]. repeat match goal with |- _ /\ _ => split end; auto. intros _ i Hi'. rewrite Hr3 by auto. destruct (Z.ltb_spec i n); [|lia]. f_equal. rewrite V3 by auto. apply mv_ext. auto.
  - intros [[x1 r1] w1] (L1 & _ & _ & H1 & _). cbn [wp]. split; [auto|]. intros i Hi'. rewrite H1 by auto. unfold X. destruct (Z.eqb_spec (iter + 1) 0); [lia|]. replace (iter + 1 - 1) with iter by lia. reflexivity.
Qed.
End P.
