(** Final statements about file input and output. *)
Require Import ZArith List Bool Lia String Ascii Permutation.
From Verif Require Import Base Scalar Spec Items Fmt CscProof Unblk Split Copy SpecCopy Convert SpecConvert ConvertFinal Io SpecIo IoProof.
Import ListNotations.
Open Scope Z_scope.

Section S.
Context {T : Type} {S : Scalar T}.
Variable J : Z -> Z -> Z.
Variable JV : Z -> Z -> T.
Variable of_int : Z -> T.
Variable revI : Z -> Z.
Variable revV : T -> T.
Variable me : Z.
Notation mreads := (mreads of_int revI revV me).
Definition vreads (isbin : Z) (L : line T) (p : Z * T) : Prop := forall f, next_vec of_int revI revV me isbin (L :: f) = Ok (fst p, snd p, f).

(** *** lines *)
Lemma denotes_num t v : denotes of_int t v -> num of_int t = Some v.
Proof. intros [-> | (z & -> & ->)]; reflexivity. Qed.
Lemma mat_line_reads L e : mat_line of_int L e -> mreads 0 L e.
Proof.
  intros (t & r & -> & Hd) f. apply denotes_num in Hd. unfold next_mat, fgets. cbn [Z.eqb negb bind]. unfold scan_iiv. rewrite Hd. reflexivity.
Qed.
Lemma vec_line_reads L p : vec_line of_int L p -> vreads 0 L p.
Proof.
  intros (t & r & -> & Hd) f. apply denotes_num in Hd. unfold next_vec, fgets. cbn [Z.eqb negb bind]. unfold scan_iv. rewrite Hd. reflexivity.
Qed.
(** a record written by a machine of byte order e *)
Lemma rec_reads e i j v : (forall z, revI (revI z) = z) -> (forall z, revV (revV z) = z) -> e = 0 \/ e = 1 -> me = 0 \/ me = 1 -> mreads (e + 1) (RecM e i j v) (i, j, v).
Proof.
  intros HI HV He Hm f. unfold next_mat, rawI, rawV, swap_mode. replace (e + 1 - 1) with e by lia.
  destruct (Z.eqb_spec (e + 1) 0); [lia|]. cbn [negb]. rewrite (Z.eqb_sym me e).
  destruct (e =? me); cbn [negb]; [reflexivity|]. rewrite !HI, HV. reflexivity.
Qed.
Lemma recv_reads e i v : (forall z, revI (revI z) = z) -> (forall z, revV (revV z) = z) -> e = 0 \/ e = 1 -> me = 0 \/ me = 1 -> vreads (e + 1) (RecV e i v) (i, v).
Proof.
  intros HI HV He Hm f. unfold next_vec, rawI, rawV, swap_mode. replace (e + 1 - 1) with e by lia.
  destruct (Z.eqb_spec (e + 1) 0); [lia|]. cbn [negb]. rewrite (Z.eqb_sym me e).
  destruct (e =? me); cbn [negb]; [reflexivity|]. rewrite HI, HV. reflexivity.
Qed.
Lemma skip_ok cs l f : Forall comment cs -> is_comment (T:=T) l = false -> skip_comments (cs ++ Text l :: f) = Ok (l, f).
Proof.
  intros H Hl. induction H as [|c cs (s & r & ->) _ IH]; cbn [app skip_comments]; [rewrite Hl; auto|]. cbn [is_comment]. exact IH.
Qed.

(** *** vectors *)
Definition lastv (ps : list (Z * T)) (i : Z) : T := fold_left (fun a p => if fst p =? i + 1 then snd p else a) ps s0.
Lemma vec_part_wp n isbin ls ps rest (Q : list T * list (line T) -> Prop) : 0 <= n -> zlen ps = n -> Forall2 (vreads isbin) ls ps ->
  (forall a, zlen a = n -> (forall i, 0 <= i < n -> znth s0 a i = lastv ps i) -> Q (a, rest)) ->
  wp (mm_vec_part of_int revI revV me n isbin (ls ++ rest)) Q.
Proof.
  intros Hn Hl HF HQ. unfold mm_vec_part. rewrite <- Hl at 1.
  refine (for_read (fun s : list T * list (line T) => snd s) (vreads isbin) (fun d s => let '(v, _) := s in zlen v = n /\ forall i, 0 <= i < n -> znth s0 v i = lastv d i) rest _ ps ls [] _ Q HF _ _ _ _ 0); [reflexivity| | |].
  - rewrite zlen_alloc by lia. split; [auto|]. intros i Hi. rewrite znth_alloc by lia. reflexivity.
  - intros d [i x] L f [v f'] HP Hg _ [H1 H2]. cbn [snd] in Hg. subst f'. rewrite HP. cbn [bind fst snd].
    assert (HL : forall k, lastv (d ++ [(i, x)]) k = if i =? k + 1 then x else lastv d k) by (intros; unfold lastv; rewrite fold_left_app; reflexivity).
    destruct (Z.leb_spec 0 (i - 1)); cbn [andb].
    + destruct (Z.ltb_spec (i - 1) n).
      * rewrite Z.sub_0_r. wwr; [lia|]. cbn [wp snd]. split; [reflexivity|]. rewrite zlen_zupd. split; [auto|]. intros k Hk. rewrite znth_zupd by lia. rewrite HL.
        destruct (Z.eqb_spec k (i - 1)), (Z.eqb_spec i (k + 1)); try lia; auto.
      * cbn [bind wp snd]. split; [reflexivity|]. split; [auto|]. intros k Hk. rewrite HL. destruct (Z.eqb_spec i (k + 1)); [lia|]. auto.
    + cbn [bind wp snd]. split; [reflexivity|]. split; [auto|]. intros k Hk. rewrite HL. destruct (Z.eqb_spec i (k + 1)); [lia|]. auto.
  - intros [v f] Hg [H1 H2]. cbn [snd] in Hg. subst f. apply HQ; auto.
Qed.
Lemma lastv_unique ps i v : NoDup (map fst ps) -> In (i, v) ps -> lastv ps (i - 1) = v.
Proof.
  unfold lastv. replace (i - 1 + 1) with i by lia. generalize s0. induction ps as [|[k x] ps IH]; intros a Hn Hi; [contradiction|].
  cbn [map] in Hn. inversion Hn as [|? ? H1 H2]; subst. cbn [fold_left fst snd]. destruct Hi as [E|Hi].
  - injection E as -> ->. rewrite Z.eqb_refl. cbn [fst] in H1. clear -H1. revert v. induction ps as [|[k x] ps IH]; intros v; [reflexivity|]. cbn [fold_left fst snd map] in *.
    destruct (Z.eqb_spec k i); [exfalso; apply H1; left; auto|]. apply IH. intros H; apply H1; right; auto.
  - apply IH; auto.
Qed.
Lemma vec_part_ok n isbin ls ps rest : 0 <= n -> all_once n ps -> Forall2 (vreads isbin) ls ps ->
  exists a, mm_vec_part of_int revI revV me n isbin (ls ++ rest) = Ok (a, rest) /\ is_vector n ps a.
Proof.
  intros Hn (H1 & H2 & H3) HF.
  destruct (wp_inv _ _ (vec_part_wp n isbin ls ps rest (fun r => snd r = rest /\ is_vector n ps (fst r)) Hn H1 HF ltac:(intros a Ha Hz; cbn [fst snd]; split; [auto|split; [auto|intros i v Hv; rewrite Hz by (specialize (H3 _ _ Hv); lia); apply lastv_unique; auto]]))) as ([a r] & E & Er & Ha).
  cbn [fst snd] in *. subst r. eauto.
Qed.

(** sections *)
Definition sec (isbin n : Z) (l : option (list (line T))) (ps : option (list (Z * T))) : Prop :=
  match l, ps with None, None => True | Some l, Some ps => Forall2 (vreads isbin) l ps /\ all_once n ps | _, _ => False end.
Lemma mm_vec_ok n isbin bl bp xl xp rest b x : 0 <= n -> sec isbin n bl bp -> sec isbin n xl xp ->
  exists b' x', mm_vec of_int revI revV me n (flag bl) (flag xl) isbin b x (lines bl ++ lines xl ++ rest) = Ok (b', x') /\ got n bp b b' /\ got n xp x x'.
Proof.
  intros Hn Hb Hx. unfold mm_vec.
  destruct bl as [bl|], bp as [bp|]; try contradiction; destruct xl as [xl|], xp as [xp|]; try contradiction; cbn [flag lines Z.eqb andb negb].
  - destruct Hb as [Hb1 Hb2], Hx as [Hx1 Hx2].
    destruct (vec_part_ok n isbin bl bp (xl ++ rest) Hn Hb2 Hb1) as (a & E & Ha). rewrite E. cbn [bind].
    destruct (vec_part_ok n isbin xl xp rest Hn Hx2 Hx1) as (a' & E' & Ha'). rewrite E'. cbn [bind]. eexists. eexists. split; [reflexivity|]. split; eexists; split; eauto.
  - destruct Hb as [Hb1 Hb2]. cbn [app].
    destruct (vec_part_ok n isbin bl bp rest Hn Hb2 Hb1) as (a & E & Ha). rewrite E. cbn [bind]. eexists. eexists. split; [reflexivity|]. split; [eexists; split; eauto|reflexivity].
  - destruct Hx as [Hx1 Hx2]. cbn [app bind].
    destruct (vec_part_ok n isbin xl xp rest Hn Hx2 Hx1) as (a' & E' & Ha'). rewrite E'. cbn [bind]. eexists. eexists. split; [reflexivity|]. split; [reflexivity|]. eexists; split; eauto.
  - eexists. eexists. split; [reflexivity|]. split; reflexivity.
Qed.

(** *** the matrix *)
Lemma both_elements symm n (es : list (entry T)) : inside n es -> flat_map (both symm n) es = file_entries symm es.
Proof.
  intros H. unfold file_entries. apply flat_map_ext_in. intros [[i j] v] He. apply H in He. unfold erow, ecol in He. cbn in He.
  unfold both, mir, dir, elements.
  destruct (Z.ltb_spec 0 j); [|lia]. destruct (Z.leb_spec j n); [|lia]. destruct (Z.ltb_spec 0 i); [|lia]. destruct (Z.leb_spec i n); [|lia]. reflexivity.
Qed.
Lemma elements_shape symm n (es : list (entry T)) : inside n es -> in_shape n n (file_entries symm es).
Proof.
  intros H e He. apply in_flat_map in He. destruct He as ([[i j] v] & H1 & H2). apply H in H1. unfold erow, ecol in H1; cbn in H1.
  unfold elements in H2. apply in_app_iff in H2. destruct H2 as [H2|[<-|[]]]; [|unfold erow, ecol; cbn; lia].
  destruct (symm && negb (i =? j)); [|contradiction]. destruct H2 as [<-|[]]. unfold erow, ecol; cbn; lia.
Qed.

Lemma read_csr_ok symm sz n ls (es : list (entry T)) rest f0 : 0 < n -> sz_nr sz = n -> sz_nnz sz = zlen es -> Forall2 (mreads (sz_isbin sz)) ls es -> inside n es ->
  (' (_, f) <- fgets f0 ;; ' (_, f) <- skip_comments f ;; Ok f) = Ok (ls ++ rest) ->
  exists B, mm_read_csr J JV of_int revI revV me symm sz f0 (ls ++ rest) = Ok (B, rest) /\ csr_ok B /\ csr_exact B /\ csr_n B = n /\ csr_np B = n /\
    csr_entries B = by_rows n (file_entries symm es).
Proof.
  intros Hn H1 H2 HF Hin Hf0.
  assert (W : wp (mm_read_csr J JV of_int revI revV me symm sz f0 (ls ++ rest)) (fun r => snd r = rest /\ csr_ok (fst r) /\ csr_exact (fst r) /\ csr_n (fst r) = n /\ csr_np (fst r) = n /\
    csr_entries (fst r) = by_rows n (file_entries symm es))).
  { apply (read_csr_wp J JV of_int revI revV me symm n sz ls es rest f0); auto. intros ptr index value work B Hp Hi Hv Hs HFi. cbn [fst snd]. split; [reflexivity|].
    rewrite both_elements in Hi, Hv, Hs, HFi by auto. unfold B. rewrite both_elements by auto.
    destruct (csr_of_fill n n (zlen (file_entries symm es)) (file_entries symm es) ptr work index value ltac:(lia) ltac:(apply elements_shape; auto) eq_refl ltac:(lia) Hi Hv Hs HFi) as (O & E).
    split; [exact O|]. split; [unfold csr_exact; cbn; lia|]. split; [reflexivity|]. split; [reflexivity|]. exact E. }
  destruct (wp_inv _ _ W) as ([B r] & E & Hr & Q). cbn [fst snd] in *. subst r. eauto.
Qed.

Lemma input_csr_gen (symm : bool) n (ls : list (line T)) (es : list (entry T)) bl bp xl xp (rest f0 f1 : list (line T)) sz (A : mobj T) b x : 0 < n ->
  mm_size f1 = Ok (sz, ls ++ lines bl ++ lines xl ++ rest) ->
  (' (_, f) <- fgets f0 ;; ' (_, f) <- skip_comments f ;; Ok f) = Ok (ls ++ lines bl ++ lines xl ++ rest) ->
  sz_nr sz = n -> sz_nnz sz = zlen es -> sz_isb sz = flag bl -> sz_isx sz = flag xl -> Forall2 (mreads (sz_isbin sz)) ls es -> inside n es ->
  sec (sz_isbin sz) n bl bp -> sec (sz_isbin sz) n xl xp -> ob_split A = None ->
  exists A' B b' x', input_mm_csr J JV of_int revI revV me A (Some b) (Some x) (if symm then 1 else 0) f0 f1 = Ok (LIS_SUCCESS, A', Some b', Some x') /\
    input_mm_csr J JV of_int revI revV me A (@None (vobj T)) (@None (vobj T)) (if symm then 1 else 0) f0 f1 = Ok (LIS_SUCCESS, A', None, None) /\
    holds A' (MCsr B) /\ csr_ok B /\ csr_exact B /\ csr_n B = n /\ csr_np B = n /\ csr_entries B = by_rows n (file_entries symm es) /\ got n bp b b' /\ got n xp x x'.
Proof.
  intros Hn Hsz Hf0 H1 H2 H3 H4 HF Hin Hb Hx HA. unfold input_mm_csr. rewrite Hsz. unfold obj_size. rewrite H1. destruct (Z.leb_spec n 0); [lia|]. cbn [negb Z.eqb LIS_SUCCESS].
  replace ((if symm then 1 else 0) =? 1) with symm by (destruct symm; auto).
  destruct (read_csr_ok symm sz n ls es (lines bl ++ lines xl ++ rest) f0 Hn H1 H2 HF Hin Hf0) as (B & E & O & X & N1 & N2 & EE). rewrite E.
  destruct (store_ok (MCsr B) (mkObj MNULL (ob_type A) n n (ob_mat A) (ob_split A)) O ltac:(cbn [amat_n]; lia) eq_refl HA ltac:(cbn [ob_n amat_n]; auto) ltac:(cbn [ob_np amat_np]; auto)) as (A' & ES & HB). rewrite ES.
  cbn [negb Z.eqb LIS_SUCCESS].
  destruct (mm_vec_ok n (sz_isbin sz) bl bp xl xp rest b x ltac:(lia) Hb Hx) as (b' & x' & EV & G1 & G2). rewrite H3, H4, EV.
  exists A', B, b', x'. repeat (split; [auto; fail|]). auto.
Qed.

(** conversion to the type of A *)
Lemma input_to_ok (HZ : eqb_zero S) ty (A' : mobj T) (B : csr T) b x : holds A' (MCsr B) -> csr_ok B -> csr_exact B -> 0 < csr_n B -> 1 <= ty <= 11 ->
  (ty <> 1 -> target_ok ty conv_init (csr_n B) (csr_np B) (csr_entries B)) ->
  exists A2 m, input_mm_to J JV ty 1 (LIS_SUCCESS, A', b, x) = Ok (LIS_SUCCESS, A2, b, x) /\ holds A2 m /\ amat_ok m /\ amat_type m = ty /\ amat_n m = csr_n B /\ amat_np m = csr_np B /\
     same_entries (amat_entries m) (csr_entries B) /\ (ty = 1 -> m = MCsr B).
Proof.
  intros HA HO HX Hn Hty Ht. unfold input_mm_to. destruct (Z.eqb_spec ty 1) as [->|Hne].
  - exists A', (MCsr B). split; [reflexivity|]. split; [exact HA|]. split; [exact HO|]. split; [reflexivity|]. split; [reflexivity|]. split; [reflexivity|]. split; [apply Permutation_refl|auto].
  - destruct HA as (P1 & P2 & P3 & P4 & P5 & P6). rewrite P4. cbn [amat_type]. change (1 =? DECIDING_SIZE) with false. cbv iota.
    destruct (convert_final J JV HZ false false conv_init A' (mkObj MNULL ty (ob_n A') (ob_np A') None None) (MCsr B) ty) as (A2 & m & E & Q); auto.
    + repeat split; auto.
    + intros _. split; [split; [exact HX|discriminate]|]. apply Ht; auto.
    + rewrite E. cbn [bind]. rewrite Z.eqb_refl. exists A2, m. split; [reflexivity|]. destruct Q as (Q1 & Q2 & Q3 & Q4 & Q5 & Q6). repeat (split; [auto; fail|]). intros; contradiction.
Qed.
End S.
