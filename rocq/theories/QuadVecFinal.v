(** The quad vector operations: from the loops to the statements. *)
From Coq Require Import ZArith Reals Lra Lia Psatz Bool List Permutation.
From Flocq Require Import Core BinarySingleNaN.
From Verif Require Import Base Items Scalar ScalarReal Spec MatvecProof System Quad SpecQuad QuadB64 QuadFinal QuadVec QuadVecOp QuadVecSum QuadVecProof QuadVecMv SpecQuadVec Omp.
Import ListNotations.
Open Scope R_scope.

Lemma listsum_lsum : forall l, listsum l = lsum l. Proof. reflexivity. Qed.
Lemma ssum_lsum : forall l : list R, ssum l = lsum l. Proof. reflexivity. Qed.

Lemma flip_coef : forall (E : list (Z * Z * R)) i j, coef (map (fun e => (ecol e, erow e, eval e)) E) j i = coef E i j.
Proof.
  intros E i j. unfold coef. induction E as [|e E IH]; [reflexivity|]. cbn [map filter]. unfold at_ij in *. cbn [erow ecol eval fst snd] in *.
  rewrite (andb_comm (ecol e =? j)). destruct ((erow e =? i) && (ecol e =? j))%bool; cbn [map]; [|exact IH].
  cbn [ssum]. rewrite IH. reflexivity.
Qed.
Definition flipE (E : list (Z * Z * R)) := map (fun e => (ecol e, erow e, eval e)) E.
Lemma mvh_flip : forall (E : list (Z * Z * R)) n x j, mvh_spec E n x j = mv_spec (flipE E) n x j.
Proof. intros. unfold mvh_spec, mv_spec. apply ssum_map_ext. intros i _. rewrite flip_coef. reflexivity. Qed.
Lemma flip_flip : forall E, flipE (flipE E) = E.
Proof. intros E. unfold flipE. rewrite map_map. rewrite <- (map_id E) at 2. apply map_ext. intros [[i j] v]. reflexivity. Qed.
Lemma mv_flip : forall (E : list (Z * Z * R)) n x j, mv_spec (flipE E) n x j = mvh_spec E n x j.
Proof. intros. symmetry. apply mvh_flip. Qed.

Definition trip (w : R -> R) (ptr index : list Z) (value : list b64) (i : Z) : list (Z * Z * R) :=
  map (fun k => (i, znth 0%Z index k, w (real (znth f0 value k)))) (zrange (znth 0%Z ptr i) (znth 0%Z ptr (i + 1))).
Lemma znth_mapr : forall (w : R -> R) (value : list b64) k, w 0 = 0 -> znth 0 (map (fun v => w (real v)) value) k = w (real (znth f0 value k)).
Proof.
  intros w value k W. unfold znth. destruct (k <? 0)%Z; [symmetry; unfold real; rewrite c0; auto|].
  rewrite <- (map_nth (fun v => w (real v))). f_equal. unfold real. now rewrite c0.
Qed.
Lemma csr_trip : forall w n np ptr index value, w 0 = 0 -> csr_matrix w n np ptr index value = flat_map (trip w ptr index value) (zrange 0 n).
Proof.
  intros w n np ptr index value W. unfold csr_matrix, csr_entries. cbn. rewrite !flat_map_concat_map. f_equal. apply map_ext. intros i.
  unfold trip. apply map_ext. intros k. rewrite znth_mapr; auto.
Qed.
Lemma csc_trip : forall w n np ptr index value, w 0 = 0 -> csc_matrix w n np ptr index value = flipE (flat_map (trip w ptr index value) (zrange 0 np)).
Proof.
  intros w n np ptr index value W. unfold csc_matrix, csc_entries, flipE. cbn. rewrite !flat_map_concat_map. rewrite concat_map, map_map. f_equal. apply map_ext. intros i.
  unfold trip. rewrite map_map. apply map_ext. intros k. cbn [ecol erow eval fst snd]. rewrite znth_mapr; auto.
Qed.

Lemma trip_row : forall w ptr index value q e, In e (trip w ptr index value q) -> erow e = q.
Proof. intros w ptr index value q e H. apply in_map_iff in H. destruct H as (k & <- & _). reflexivity. Qed.
Lemma mv_row : forall w n m ptr index value (xv : Z -> R) i, arrays_ok n m ptr index value -> (0 <= i < n)%Z ->
  mv_spec (flat_map (trip w ptr index value) (zrange 0 n)) m xv i =
  lsum (map (fun k => w (real (znth f0 value k)) * xv (znth 0%Z index k)) (zrange (znth 0%Z ptr i) (znth 0%Z ptr (i + 1)))).
Proof.
  intros w n m ptr index value xv i A Hi. rewrite (mv_spec_mvE ScalarR_ring).
  - rewrite (mvE_rows ScalarR_ring); auto; [|apply trip_row]. unfold trip. rewrite map_map. reflexivity.
  - intros e He Hr. apply in_flat_map in He. destruct He as (q & Hq & He). apply In_zrange in Hq.
    apply in_map_iff in He. destruct He as (k & <- & Hk). apply In_zrange in Hk. cbn [ecol fst snd].
    pose proof (aok_row _ _ _ _ _ A q Hq). apply A. lia.
Qed.
Lemma lsum_ext : forall (f h : Z -> R) l, (forall k, f k = h k) -> lsum (map f l) = lsum (map h l).
Proof. intros. f_equal. now apply map_ext. Qed.
Lemma row_sum : forall n m ptr index value x i, arrays_ok n m ptr index value -> (0 <= i < n)%Z ->
  lsum (rowterms ptr index value x i) = mv_spec (flat_map (trip same ptr index value) (zrange 0 n)) m (fun j => val (elt x j)) i.
Proof. intros n m ptr index value x i A Hi. rewrite (mv_row _ _ _ _ _ _ _ _ A Hi). apply lsum_ext. intros k. unfold term, same. apply Rmult_comm. Qed.
Lemma row_abs : forall n m ptr index value x i, arrays_ok n m ptr index value -> (0 <= i < n)%Z ->
  labs (rowterms ptr index value x i) = mv_spec (flat_map (trip Rabs ptr index value) (zrange 0 n)) m (fun j => Rabs (val (elt x j))) i.
Proof.
  intros n m ptr index value x i A Hi. rewrite (mv_row _ _ _ _ _ _ _ _ A Hi). unfold labs, rowterms. rewrite map_map. apply lsum_ext. intros k.
  unfold term. rewrite Rabs_mult. apply Rmult_comm.
Qed.
Lemma row_cnt : forall w n ptr index value x i, (0 <= i < n)%Z ->
  INR (length (rowterms ptr index value x i)) = in_row (flat_map (trip w ptr index value) (zrange 0 n)) i.
Proof.
  intros w n ptr index value x i Hi. unfold in_row. f_equal.
  change (filter (fun e : Z * Z * R => erow e =? i)%Z) with (bucket (@erow R) i).
  rewrite (zrange_app 0 i n) by lia. rewrite (zrange_cons i) by lia. rewrite flat_map_app. cbn [flat_map]. unfold bucket.
  rewrite !filter_app, !app_length.
  assert (Z1 : forall l, ~ In i l -> length (filter (fun e : Z * Z * R => (erow e =? i)%Z) (flat_map (trip w ptr index value) l)) = 0%nat).
  { intros l Hl. rewrite filter_none; auto. intros e He. apply in_flat_map in He. destruct He as (q & Hq & He). apply trip_row in He.
    apply Z.eqb_neq. congruence. }
  rewrite !Z1 by (rewrite In_zrange; lia). rewrite filter_all.
  - unfold rowterms, trip. rewrite !map_length. lia.
  - intros e He. apply trip_row in He. now apply Z.eqb_eq.
Qed.

(** columns *)
Lemma allcol_flip : forall (h : Z * Z * R -> R) w ptr index value (x : list Qd) c n,
  (forall i k, h (i, znth 0%Z index k, w (real (znth f0 value k))) = val (elt x i) * real (znth f0 value k)) ->
  allcol ptr index value x c n = map h (filter (fun e => ecol e =? c)%Z (flat_map (trip w ptr index value) (zrange 0 n))).
Proof.
  intros h w ptr index value x c n H. unfold allcol. induction (zrange 0 n) as [|i l IH]; [reflexivity|]. cbn [flat_map].
  rewrite filter_app, map_app, IH. f_equal. unfold colterms, trip.
  induction (zrange _ _) as [|k r IHr]; [reflexivity|]. cbn [filter map]. cbn [ecol fst snd].
  destruct (znth 0%Z index k =? c)%Z; cbn [map]; rewrite IHr; [f_equal|reflexivity]. symmetry. apply H.
Qed.
Lemma mv_col : forall w n m ptr index value (xv : Z -> R) c, arrays_ok n m ptr index value ->
  mvh_spec (flat_map (trip w ptr index value) (zrange 0 n)) n xv c =
  lsum (map (fun e => eval e * xv (erow e)) (filter (fun e => ecol e =? c)%Z (flat_map (trip w ptr index value) (zrange 0 n)))).
Proof.
  intros w n m ptr index value xv c A. rewrite mvh_flip, (mv_spec_mvE ScalarR_ring).
  - unfold mvE, flipE.
    generalize (flat_map (trip w ptr index value) (zrange 0 n)) as E. induction E as [|e E IH]; [reflexivity|].
    unfold bucket in *. cbn [map filter]. cbn [erow ecol eval fst snd]. destruct (ecol e =? c)%Z; cbn [map ssum]; rewrite IH; reflexivity.
  - intros e He Hr. apply in_map_iff in He. destruct He as (e' & <- & He). apply in_flat_map in He. destruct He as (q & Hq & He). apply In_zrange in Hq.
    cbn [ecol fst snd]. apply trip_row in He. rewrite He. lia.
Qed.
Lemma col_sum : forall n m ptr index value x c, arrays_ok n m ptr index value ->
  lsum (allcol ptr index value x c n) = mvh_spec (flat_map (trip same ptr index value) (zrange 0 n)) n (fun j => val (elt x j)) c.
Proof.
  intros n m ptr index value x c A. rewrite (mv_col _ _ _ _ _ _ _ _ A). f_equal.
  apply (allcol_flip (fun e => eval e * val (elt x (erow e)))). intros i k. cbn [erow eval fst snd]. unfold same. apply Rmult_comm.
Qed.
Lemma col_abs : forall n m ptr index value x c, arrays_ok n m ptr index value ->
  labs (allcol ptr index value x c n) = mvh_spec (flat_map (trip Rabs ptr index value) (zrange 0 n)) n (fun j => Rabs (val (elt x j))) c.
Proof.
  intros n m ptr index value x c A. rewrite (mv_col _ _ _ _ _ _ _ _ A). unfold labs. f_equal.
  unfold allcol. induction (zrange 0 n) as [|i l IH]; [reflexivity|]. cbn [flat_map].
  rewrite filter_app, !map_app, IH. f_equal. unfold colterms, trip.
  induction (zrange _ _) as [|k r IHr]; [reflexivity|]. cbn [filter map]. cbn [ecol fst snd].
  destruct (znth 0%Z index k =? c)%Z; cbn [map]; rewrite IHr; [f_equal|reflexivity]. cbn [eval erow fst snd]. rewrite Rabs_mult. apply Rmult_comm.
Qed.
Lemma col_cnt : forall w n ptr index value x c,
  INR (length (allcol ptr index value x c n)) = in_col (flat_map (trip w ptr index value) (zrange 0 n)) c.
Proof.
  intros w n ptr index value x c. unfold in_col. f_equal.
  unfold allcol. induction (zrange 0 n) as [|i l IH]; [reflexivity|]. cbn [flat_map].
  rewrite filter_app, !app_length, IH. f_equal. unfold colterms, trip. rewrite map_length.
  induction (zrange _ _) as [|k r IHr]; [reflexivity|]. cbn [filter map]. cbn [ecol fst snd].
  destruct (znth 0%Z index k =? c)%Z; cbn [length]; rewrite IHr; reflexivity.
Qed.

Lemma team_eq : forall t, nthreads t = team t. Proof. reflexivity. Qed.
Lemma team_pos : forall t, threads_ok t -> (0 < nthreads t)%Z. Proof. intros [p|] H; cbn in *; lia. Qed.

Lemma two_epsp : 2 * epsp = bpow radix2 (-1069).
Proof. unfold epsp. change 2 with (bpow radix2 1). rewrite <- bpow_plus. reflexivity. Qed.
Lemma two_epss : 2 * epss = bpow radix2 (-998).
Proof. unfold epss. change 2 with (bpow radix2 1). rewrite <- bpow_plus. reflexivity. Qed.

Lemma accl_final : forall s l q, (Z.of_nat (length l + s) <= 2 ^ 50)%Z -> accl s l q -> fin q ->
  normal q /\ Rabs (val q - lsum l) <= (INR (length l) + INR s) * (bpow radix2 (-100) * labs l + bpow radix2 (-1069)).
Proof. intros s l q K H F. destruct (acc_final _ _ _ _ epsp_pos K H F) as [N B]. split; auto. now rewrite plus_INR, two_epsp in B. Qed.

Lemma few_nat : forall k, few (INR k) -> (Z.of_nat k <= 2 ^ 50)%Z.
Proof. intros k H. unfold few in H. rewrite INR_IZR_INZ in H. now apply le_IZR. Qed.
Lemma accl_near : forall s l q, few (INR (length l) + INR s) -> accl s l q -> near q (lsum l) (labs l) (INR (length l) + INR s).
Proof. intros s l q K H F. apply accl_final; auto. apply few_nat. now rewrite plus_INR. Qed.

Section FIN.
Variable g : qcfg.
Hypothesis G : q_fast_add g = true.
Hypothesis NF : no_fma g.
Local Open Scope Z_scope.

Lemma f_axpy : forall threads n alpha x y, threads_ok threads -> 0 <= n <= zlen y -> normal alpha -> normal_upto n x ->
  exists y', axpyex g threads n alpha x y = Ok y' /\
    updated n y y' (fun i => val (elt y i)) (fun i => (val alpha * val (elt x i))%R) (fun i => normal (elt y i)).
Proof.
  intros threads n alpha x y T Hn Na [Lx Nx].
  destruct (wp_inv _ _ (axpyex_ok g G NF threads n alpha x y ltac:(lia) ltac:(lia) (team_pos _ T) Na Nx)) as (y' & E & L & A & B).
  exists y'. split; auto. split; auto. split; [exact B|]. intros i Hi Ny F. destruct (A i Hi F) as [_ C]. exact (C Ny).
Qed.
Lemma f_axpyz : forall threads n alpha x y z, threads_ok threads -> 0 <= n <= zlen y -> n <= zlen z -> normal alpha -> normal_upto n x ->
  exists z', axpyzex g threads n alpha x y z = Ok z' /\
    updated n z z' (fun i => val (elt y i)) (fun i => (val alpha * val (elt x i))%R) (fun i => normal (elt y i)).
Proof.
  intros threads n alpha x y z T Hn Hz Na [Lx Nx].
  destruct (wp_inv _ _ (axpyzex_ok g G NF threads n alpha x y z ltac:(lia) ltac:(lia) Hz (team_pos _ T) Na Nx)) as (y' & E & L & A & B).
  exists y'. split; auto. split; auto. split; [exact B|]. intros i Hi Ny F. destruct (A i Hi F) as [_ C]. exact (C Ny).
Qed.
Lemma f_xpay : forall threads n x alpha y, threads_ok threads -> 0 <= n <= zlen x -> normal alpha -> normal_upto n y ->
  exists y', xpayex g threads n x alpha y = Ok y' /\
    updated n y y' (fun i => val (elt x i)) (fun i => (val alpha * val (elt y i))%R) (fun i => normal (elt x i)).
Proof.
  intros threads n x alpha y T Hn Na [Ly Ny].
  destruct (wp_inv _ _ (xpayex_ok g G NF threads n x alpha y ltac:(lia) ltac:(lia) (team_pos _ T) Na Ny)) as (y' & E & L & A & B).
  exists y'. split; auto. split; auto. split; [exact B|]. intros i Hi Nx F. destruct (A i Hi F) as [_ C]. exact (C Nx).
Qed.
Lemma f_scale : forall threads n alpha x, threads_ok threads -> 0 <= n -> normal alpha -> normal_upto n x ->
  exists y, scaleex_mm g threads n alpha x = Ok y /\ zlen y = zlen x /\ (forall i, n <= i -> elt y i = elt x i) /\
    forall i, 0 <= i < n -> fin (elt y i) -> normal (elt y i) /\
      (Rabs (val (elt y i) - val (elt x i) * val alpha) <= bpow radix2 (-102) * Rabs (val (elt x i) * val alpha) + bpow radix2 (-1071))%R.
Proof.
  intros threads n alpha x T Hn Na [Lx Nx].
  destruct (wp_inv _ _ (scaleex_mm_ok g NF threads n alpha x ltac:(lia) (team_pos _ T) Na Nx)) as (y' & E & L & A & B).
  exists y'. split; auto.
Qed.
Lemma f_scale_d : forall threads n (alpha : b64) x, threads_ok threads -> 0 <= n -> normal_upto n x ->
  exists y, scaleex_nm g threads n alpha x = Ok y /\ zlen y = zlen x /\ (forall i, n <= i -> elt y i = elt x i) /\
    forall i, 0 <= i < n -> fin (elt y i) -> normal (elt y i) /\
      (Rabs (val (elt y i) - val (elt x i) * real alpha) <= bpow radix2 (-102) * Rabs (val (elt x i) * real alpha) + bpow radix2 (-1071))%R.
Proof.
  intros threads n alpha x T Hn [Lx Nx].
  destruct (wp_inv _ _ (scaleex_nm_ok g NF threads n alpha x ltac:(lia) (team_pos _ T) Nx)) as (y' & E & L & A & B).
  exists y'. split; auto.
Qed.

Lemma map_abs : forall (f : Z -> R) lo hi, labs (map f (zrange lo hi)) = rsum lo hi (fun i => Rabs (f i)).
Proof. intros. unfold labs, rsum. rewrite map_map. reflexivity. Qed.
Lemma inr_z : forall z, 0 <= z -> INR (Z.to_nat z) = IZR z.
Proof. intros z H. rewrite INR_IZR_INZ. f_equal. lia. Qed.
Lemma f_dot : forall threads n x y, threads_ok threads -> 0 <= n -> normal_upto n x -> normal_upto n y -> few (IZR (n + 2 * team threads)) ->
  exists d, dotex g threads n n x y = Ok d /\
    near d (rsum 0 n (fun i => val (elt y i) * val (elt x i))%R) (rsum 0 n (fun i => Rabs (val (elt y i) * val (elt x i)))) (IZR (n + 2 * team threads)).
Proof.
  intros threads n x y T Hn [Lx Nx] [Ly Ny] K. pose proof (team_pos _ T) as P. unfold dotex. rewrite Z.eqb_refl. cbn [negb].
  destruct (wp_inv _ _ (reduce_ok g G epsp (fun i => val (elt y i) * val (elt x i))%R threads n (dot_part g x y) epsp_pos Hn P
    (fun is ie H H' => dot_part_ok g G NF x y is ie n H H' Lx Ly Nx Ny))) as (d & E & A).
  exists d. split; auto. intros F.
  rewrite <- inr_z in * by (rewrite team_eq in P; lia). rewrite <- map_abs, <- two_epsp. apply acc_final; auto using epsp_pos. now apply few_nat.
Qed.
Lemma rsum_sq : forall x n, labs (map (fun i => val (elt x i) * val (elt x i))%R (zrange 0 n)) = rsum 0 n (fun i => val (elt x i) * val (elt x i))%R.
Proof. intros. rewrite map_abs. unfold rsum. f_equal. apply map_ext. intros i. apply Rabs_pos_eq. nra. Qed.
Lemma epss_pos : (0 <= epss)%R. Proof. apply bpow_ge_0. Qed.
Lemma f_sumsq : forall threads n x, threads_ok threads -> 0 <= n -> normal_upto n x -> few (IZR (n + 2 * team threads)) ->
  exists s, reduce_parts g threads n (nrm_part g x) = Ok s /\
    (fin s -> normal s /\ (Rabs (val s - rsum 0 n (fun i => val (elt x i) * val (elt x i))) <=
       IZR (n + 2 * team threads) * (bpow radix2 (-100) * rsum 0 n (fun i => val (elt x i) * val (elt x i)) + bpow radix2 (-998)))%R).
Proof.
  intros threads n x T Hn [Lx Nx] K. pose proof (team_pos _ T) as P.
  destruct (wp_inv _ _ (reduce_ok g G epss (fun i => val (elt x i) * val (elt x i))%R threads n (nrm_part g x) epss_pos Hn P
    (fun is ie H H' => nrm_part_ok g G NF x is ie n H H' Lx Nx))) as (d & E & A).
  exists d. split; auto. intros F.
  rewrite <- inr_z in * by (rewrite team_eq in P; lia). rewrite <- rsum_sq at 2. rewrite <- two_epss. apply acc_final; auto using epss_pos. now apply few_nat.
Qed.

Lemma f_matvec_csr : forall n m ptr index value x y, arrays_ok n m ptr index value -> normal_upto m x -> n <= zlen y ->
  exists y', rows_mp g n ptr index value x y = Ok y' /\ zlen y' = zlen y /\ (forall i, n <= i -> elt y' i = elt y i) /\
    forall i, 0 <= i < n -> few (in_row (csr_matrix same n m ptr index value) i + 1)%R ->
      near (elt y' i) (mv_spec (csr_matrix same n m ptr index value) m (fun j => val (elt x j)) i)
        (mv_spec (csr_matrix Rabs n m ptr index value) m (fun j => Rabs (val (elt x j))) i)
        (in_row (csr_matrix same n m ptr index value) i + 1).
Proof.
  intros n m ptr index value x y A N L.
  destruct (wp_inv _ _ (rows_mp_ok g G NF n m ptr index value x y A N L)) as (y' & E & L' & H & H').
  exists y'. split; auto. split; auto. split; [exact H'|]. intros i Hi K.
  rewrite csr_trip in * by reflexivity. rewrite csr_trip by apply Rabs_R0.
  rewrite <- (row_sum n m ptr index value x i A Hi), <- (row_abs n m ptr index value x i A Hi), <- (row_cnt same n ptr index value x i Hi) in *.
  apply (accl_near 1); auto.
Qed.
Lemma f_matvech_csc : forall n m ptr index value x y, arrays_ok m n ptr index value -> normal_upto n x -> m <= zlen y ->
  exists y', rows_mp g m ptr index value x y = Ok y' /\ zlen y' = zlen y /\ (forall i, m <= i -> elt y' i = elt y i) /\
    forall j, 0 <= j < m -> few (in_col (csc_matrix same n m ptr index value) j + 1)%R ->
      near (elt y' j) (mvh_spec (csc_matrix same n m ptr index value) n (fun i => val (elt x i)) j)
        (mvh_spec (csc_matrix Rabs n m ptr index value) n (fun i => Rabs (val (elt x i))) j)
        (in_col (csc_matrix same n m ptr index value) j + 1).
Proof.
  intros n m ptr index value x y A N L.
  destruct (wp_inv _ _ (rows_mp_ok g G NF m n ptr index value x y A N L)) as (y' & E & L' & H & H').
  exists y'. split; auto. split; auto. split; [exact H'|]. intros i Hi.
  rewrite csc_trip by reflexivity. rewrite csc_trip by apply Rabs_R0. rewrite !mvh_flip, !flip_flip.
  assert (IC : forall (Es : list (Z * Z * R)), in_col (flipE Es) i = in_row Es i).
  { intros Es. unfold in_col, in_row, flipE. f_equal. induction Es as [|e Es IH]; [reflexivity|]. cbn [map filter].
    cbn [ecol erow fst snd]. destruct (erow e =? i); cbn [length]; rewrite IH; reflexivity. }
  rewrite IC. intros K.
  rewrite <- (row_sum m n ptr index value x i A Hi), <- (row_abs m n ptr index value x i A Hi), <- (row_cnt same m ptr index value x i Hi) in *.
  apply (accl_near 1); auto.
Qed.
Lemma f_matvech_csr : forall n m ptr index value x y, arrays_ok n m ptr index value -> 0 <= m <= zlen y -> normal_upto n x ->
  (q_sse2 g = true -> rows_nodup n ptr index) ->
  exists y', scatter_mp g n m ptr index value x y = Ok y' /\ zlen y' = zlen y /\
    forall j, 0 <= j < m -> few (in_col (csr_matrix same n m ptr index value) j)%R ->
      near (elt y' j) (mvh_spec (csr_matrix same n m ptr index value) n (fun i => val (elt x i)) j)
        (mvh_spec (csr_matrix Rabs n m ptr index value) n (fun i => Rabs (val (elt x i))) j)
        (in_col (csr_matrix same n m ptr index value) j).
Proof.
  intros n m ptr index value x y A L N ND.
  destruct (wp_inv _ _ (scatter_mp_ok g G NF n m ptr index value x y A N L ND)) as (y' & E & L' & H).
  exists y'. split; auto. split; auto. intros j Hj K.
  rewrite csr_trip in * by reflexivity. rewrite csr_trip by apply Rabs_R0.
  rewrite <- (col_sum n m ptr index value x j A), <- (col_abs n m ptr index value x j A), <- (col_cnt same n ptr index value x j) in *.
  rewrite <- (Rplus_0_r (INR _)) in *. apply (accl_near 0); auto.
Qed.
Lemma f_matvec_csc : forall n m ptr index value x y, arrays_ok m n ptr index value -> 0 <= n <= zlen y -> normal_upto m x ->
  (q_sse2 g = true -> rows_nodup m ptr index) ->
  exists y', scatter_mp g m n ptr index value x y = Ok y' /\ zlen y' = zlen y /\
    forall i, 0 <= i < n -> few (in_row (csc_matrix same n m ptr index value) i)%R ->
      near (elt y' i) (mv_spec (csc_matrix same n m ptr index value) m (fun j => val (elt x j)) i)
        (mv_spec (csc_matrix Rabs n m ptr index value) m (fun j => Rabs (val (elt x j))) i)
        (in_row (csc_matrix same n m ptr index value) i).
Proof.
  intros n m ptr index value x y A L N ND.
  destruct (wp_inv _ _ (scatter_mp_ok g G NF m n ptr index value x y A N L ND)) as (y' & E & L' & H).
  exists y'. split; auto. split; auto. intros i Hi.
  rewrite csc_trip by reflexivity. rewrite csc_trip by apply Rabs_R0. rewrite !mv_flip.
  assert (IC : forall (Es : list (Z * Z * R)), in_row (flipE Es) i = in_col Es i).
  { intros Es. unfold in_col, in_row, flipE. f_equal. induction Es as [|e Es IH]; [reflexivity|]. cbn [map filter].
    cbn [ecol erow fst snd]. destruct (ecol e =? i); cbn [length]; rewrite IH; reflexivity. }
  rewrite IC. intros K.
  rewrite <- (col_sum m n ptr index value x i A), <- (col_abs m n ptr index value x i A), <- (col_cnt same m ptr index value x i) in *.
  rewrite <- (Rplus_0_r (INR _)) in *. apply (accl_near 0); auto.
Qed.
Lemma f_matvec_split : forall n m (d : list b64) lp li lv up ui uv x y,
  arrays_ok n m lp li lv -> arrays_ok n m up ui uv -> n <= zlen d -> n <= m -> normal_upto m x -> n <= zlen y ->
  exists y', rows_split_mp g n d lp li lv up ui uv x y = Ok y' /\ zlen y' = zlen y /\ (forall i, n <= i -> elt y' i = elt y i) /\
    forall i, 0 <= i < n ->
      let k := (in_row (csr_matrix same n m lp li lv) i + in_row (csr_matrix same n m up ui uv) i + 3)%R in few k ->
      near (elt y' i) (real (znth (b64_of 0 0) d i) * val (elt x i) + mv_spec (csr_matrix same n m lp li lv) m (fun j => val (elt x j)) i +
                       mv_spec (csr_matrix same n m up ui uv) m (fun j => val (elt x j)) i)%R
        (Rabs (real (znth (b64_of 0 0) d i)) * Rabs (val (elt x i)) + mv_spec (csr_matrix Rabs n m lp li lv) m (fun j => Rabs (val (elt x j))) i +
         mv_spec (csr_matrix Rabs n m up ui uv) m (fun j => Rabs (val (elt x j))) i)%R k.
Proof.
  intros n m d lp li lv up ui uv x y A A' Ld Lm N L.
  destruct (wp_inv _ _ (rows_split_mp_ok g G NF n m d lp li lv up ui uv x y A A' Ld Lm N L)) as (y' & E & L' & H & H').
  exists y'. split; auto. split; auto. split; [exact H'|]. intros i Hi k K. subst k.
  rewrite !csr_trip in * by reflexivity. rewrite !csr_trip by apply Rabs_R0.
  rewrite <- (row_sum n m lp li lv x i A Hi), <- (row_abs n m lp li lv x i A Hi), <- (row_cnt same n lp li lv x i Hi) in *.
  rewrite <- (row_sum n m up ui uv x i A' Hi), <- (row_abs n m up ui uv x i A' Hi), <- (row_cnt same n up ui uv x i Hi) in *.
  specialize (H i Hi). set (l1 := rowterms lp li lv x i) in *. set (l2 := rowterms up ui uv x i) in *.
  set (t := (val (elt x i) * real (znth (b64_of 0 0) d i))%R).
  assert (EK : (INR (length l1) + INR (length l2) + 3 = INR (length (t :: l1 ++ l2)) + INR 2)%R).
  { cbn [length]. rewrite app_length, S_INR, plus_INR. simpl (INR 2). lra. }
  rewrite EK in *. pose proof (accl_near 2 _ _ K H) as Q. intros F. destruct (Q F) as [Q1 Q2]. split; auto.
  cbn [lsum] in Q2. rewrite lsum_app in Q2. unfold labs in Q2. cbn [map lsum] in Q2. rewrite map_app, lsum_app in Q2. unfold t in Q2. rewrite Rabs_mult in Q2.
  change (f0 : b64) with (b64_of 0 0) in Q2.
  rewrite (Rmult_comm (real _) (val _)), (Rmult_comm (Rabs (real _))).
  unfold labs. rewrite !Rplus_assoc. exact Q2.
Qed.
Lemma f_matvech_split : forall stale n m (d : list b64) lp li lv up ui uv x y, q_sse2 g = false ->
  arrays_ok n m lp li lv -> arrays_ok n m up ui uv -> n <= m <= zlen d -> normal_upto m x -> m <= zlen y ->
  exists y', scatter_split_mp g stale n m d lp li lv up ui uv x y = Ok y' /\ zlen y' = zlen y /\
    forall j, 0 <= j < m ->
      let k := (in_col (csr_matrix same n m lp li lv) j + in_col (csr_matrix same n m up ui uv) j + 1)%R in few k ->
      near (elt y' j) (real (znth (b64_of 0 0) d j) * val (elt x j) + mvh_spec (csr_matrix same n m lp li lv) n (fun i => val (elt x i)) j +
                       mvh_spec (csr_matrix same n m up ui uv) n (fun i => val (elt x i)) j)%R
        (Rabs (real (znth (b64_of 0 0) d j)) * Rabs (val (elt x j)) + mvh_spec (csr_matrix Rabs n m lp li lv) n (fun i => Rabs (val (elt x i))) j +
         mvh_spec (csr_matrix Rabs n m up ui uv) n (fun i => Rabs (val (elt x i))) j)%R k.
Proof.
  intros stale n m d lp li lv up ui uv x y Sc A A' Ld N L.
  destruct (wp_inv _ _ (scatter_split_mp_ok g G NF stale n m d lp li lv up ui uv x y Sc A A' Ld N L)) as (y' & E & L' & H).
  exists y'. split; auto. split; auto. intros i Hi k K. subst k.
  rewrite !csr_trip in * by reflexivity. rewrite !csr_trip by apply Rabs_R0.
  rewrite <- (col_sum n m lp li lv x i A), <- (col_abs n m lp li lv x i A), <- (col_cnt same n lp li lv x i) in *.
  rewrite <- (col_sum n m up ui uv x i A'), <- (col_abs n m up ui uv x i A'), <- (col_cnt same n up ui uv x i) in *.
  specialize (H i Hi). set (l1 := allcol lp li lv x i n) in *. set (l2 := allcol up ui uv x i n) in *.
  set (t := (val (elt x i) * real (znth (b64_of 0 0) d i))%R).
  assert (EK : (INR (length l1) + INR (length l2) + 1 = INR (length (t :: l1 ++ l2)) + INR 0)%R).
  { cbn [length]. rewrite app_length, S_INR, plus_INR. simpl (INR 0). lra. }
  rewrite EK in *. pose proof (accl_near 0 _ _ K H) as Q. intros F. destruct (Q F) as [Q1 Q2]. split; auto.
  cbn [lsum] in Q2. rewrite lsum_app in Q2. unfold labs in Q2. cbn [map lsum] in Q2. rewrite map_app, lsum_app in Q2. unfold t in Q2. rewrite Rabs_mult in Q2.
  change (f0 : b64) with (b64_of 0 0) in Q2.
  rewrite (Rmult_comm (real _) (val _)), (Rmult_comm (Rabs (real _))).
  unfold labs. rewrite !Rplus_assoc. exact Q2.
Qed.
End FIN.
