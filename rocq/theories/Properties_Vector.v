(** C09 elementwise vector operations, C10 reductions, C11 swap, C12 element access,
    C13 scatter and gather.  Specifications: SpecVector.v.  [exec ps s s'] (Omp.v) says
    that the threads ps, their actions interleaved in any order, can take the store s
    to s'; nothing is assumed about the number of threads or the schedule. *)
Require Import ZArith List Bool Lia Permutation.
From Verif Require Import Base Scalar Omp OmpProof Vector SpecVector VectorProof.
Import ListNotations.
Open Scope Z_scope.

(** ** C09.  The vectors may be the same one.  Division by zero is the scalar type's. *)
Ltac inside_tac := intros; cbn [within at_ fst snd]; repeat match goal with
  | |- _ /\ _ => split
  | |- forall _, _ => intro
  | |- True => exact I
  | |- exists v, In v [?a] /\ _ => exists a; cbn; intuition lia
  | |- exists v, In v [?a; ?b] /\ v_arr ?x = _ /\ _ => first [constr_eq x a | constr_eq x b]; exists x; cbn; intuition lia
  | |- exists v, In v [?a; ?b; ?c] /\ v_arr ?x = _ /\ _ => first [constr_eq x a | constr_eq x b | constr_eq x c]; exists x; cbn; intuition lia
  end.
Ltac ew := split; [reflexivity|]; split; [apply inside_par; inside_tac|];
  intros s s' HE; cbn [snd] in HE; match goal with |- sets ?z _ _ _ =>
    match type of HE with exec (par_for ?n ?body) _ _ =>
      let H1 := fresh in let H2 := fresh in
      destruct (elementwise n body z s s') as (H1 & H2); [lia|intros; cbn [within at_ snd]; auto 10|exact HE|];
      split; [intros i Hi; unfold comp; change (v_arr z, i) with (at_ z i); rewrite H1 by lia; cbn [run]; apply put_same|exact H2] end end.

Theorem C09_copy : forall (T : Type) (S : Scalar T) (x y : vec), v_n x = v_n y ->
  computes (vector_copy x y) [x; y] y (fun (s : store T) i => comp s x i).
Proof. intros T S x y H. unfold vector_copy, same2. destruct (Z.eqb_spec (v_n x) (v_n y)); [|lia]. cbn [negb]. ew. Qed.
Theorem C09_axpy : forall (T : Type) (S : Scalar T) (alpha : T) (x y : vec), v_n x = v_n y ->
  computes (vector_axpy alpha x y) [x; y] y (fun s i => sadd (comp s y i) (smul alpha (comp s x i))).
Proof. intros T S alpha x y H. unfold vector_axpy, same2. destruct (Z.eqb_spec (v_n x) (v_n y)); [|lia]. cbn [negb]. ew. Qed.
Theorem C09_xpay : forall (T : Type) (S : Scalar T) (alpha : T) (x y : vec), v_n x = v_n y ->
  computes (vector_xpay x alpha y) [x; y] y (fun s i => sadd (comp s x i) (smul alpha (comp s y i))).
Proof. intros T S alpha x y H. unfold vector_xpay, same2. destruct (Z.eqb_spec (v_n x) (v_n y)); [|lia]. cbn [negb]. ew. Qed.
Theorem C09_axpyz : forall (T : Type) (S : Scalar T) (alpha : T) (x y z : vec), v_n x = v_n y -> v_n x = v_n z ->
  computes (vector_axpyz alpha x y z) [x; y; z] z (fun s i => sadd (smul alpha (comp s x i)) (comp s y i)).
Proof. intros T S alpha x y z H H'. unfold vector_axpyz, same3. destruct (Z.eqb_spec (v_n x) (v_n y)); [|lia]. destruct (Z.eqb_spec (v_n x) (v_n z)); [|lia]. cbn [negb orb]. ew. Qed.
Theorem C09_scale : forall (T : Type) (S : Scalar T) (alpha : T) (x : vec),
  computes (vector_scale alpha x) [x] x (fun s i => smul alpha (comp s x i)).
Proof. intros T S alpha x. unfold vector_scale. ew. Qed.
Theorem C09_pmul : forall (T : Type) (S : Scalar T) (x y z : vec), v_n x = v_n y -> v_n x = v_n z ->
  computes (vector_pmul x y z) [x; y; z] z (fun s i => smul (comp s x i) (comp s y i)).
Proof. intros T S x y z H H'. unfold vector_pmul, same3. destruct (Z.eqb_spec (v_n x) (v_n y)); [|lia]. destruct (Z.eqb_spec (v_n x) (v_n z)); [|lia]. cbn [negb orb]. ew. Qed.
Theorem C09_pdiv : forall (T : Type) (S : Scalar T) (x y z : vec), v_n x = v_n y -> v_n x = v_n z ->
  computes (vector_pdiv x y z) [x; y; z] z (fun s i => sdiv (comp s x i) (comp s y i)).
Proof. intros T S x y z H H'. unfold vector_pdiv, same3. destruct (Z.eqb_spec (v_n x) (v_n y)); [|lia]. destruct (Z.eqb_spec (v_n x) (v_n z)); [|lia]. cbn [negb orb]. ew. Qed.
Theorem C09_set_all : forall (T : Type) (S : Scalar T) (alpha : T) (x : vec),
  computes (vector_set_all alpha x) [x] x (fun s i => alpha).
Proof. intros T S alpha x. unfold vector_set_all. ew. Qed.
Theorem C09_abs : forall (T : Type) (S : Scalar T) (x : vec),
  computes (vector_abs x) [x] x (fun s i => sabs (comp s x i)).
Proof. intros T S x. unfold vector_abs. ew. Qed.
Theorem C09_reciprocal : forall (T : Type) (S : Scalar T) (x : vec),
  computes (vector_reciprocal x) [x] x (fun s i => sdiv s1 (comp s x i)).
Proof. intros T S x. unfold vector_reciprocal. ew. Qed.
Theorem C09_conjugate : forall (T : Type) (S : Scalar T) (x : vec),
  computes (vector_conjugate x) [x] x (fun s i => sconj (comp s x i)).
Proof. intros T S x. unfold vector_conjugate. ew. Qed.
(** the shift is subtracted as the User's Guide says: x_i - sigma *)
Theorem C09_shift : forall (T : Type) (S : Scalar T) (sigma : T) (x : vec),
  computes (vector_shift sigma x) [x] x (fun s i => ssub (comp s x i) sigma).
Proof. intros T S sigma x. unfold vector_shift. ew. Qed.
Print Assumptions C09_copy.
Print Assumptions C09_axpy.
Print Assumptions C09_xpay.
Print Assumptions C09_axpyz.
Print Assumptions C09_scale.
Print Assumptions C09_pmul.
Print Assumptions C09_pdiv.
Print Assumptions C09_set_all.
Print Assumptions C09_abs.
Print Assumptions C09_reciprocal.
Print Assumptions C09_conjugate.
Print Assumptions C09_shift.

(** different sizes are refused *)
Ltac ref := split; [reflexivity|]; intros s s' HE; apply exec_nil; exact HE.
Theorem C09_refuse2 : forall (T : Type) (S : Scalar T) (alpha : T) (x y : vec), v_n x <> v_n y ->
  refuses (vector_copy (T:=T) x y) /\ refuses (vector_axpy alpha x y) /\ refuses (vector_xpay x alpha y) /\ refuses (vector_swap (T:=T) x y).
Proof.
  intros T S alpha x y H. unfold vector_copy, vector_axpy, vector_xpay, vector_swap, same2. destruct (Z.eqb_spec (v_n x) (v_n y)); [lia|]. cbn [negb].
  split; [ref|]. split; [ref|]. split; ref.
Qed.
Theorem C09_refuse3 : forall (T : Type) (S : Scalar T) (alpha : T) (x y z : vec), v_n x <> v_n y \/ v_n x <> v_n z ->
  refuses (vector_axpyz alpha x y z) /\ refuses (vector_pmul x y z) /\ refuses (vector_pdiv x y z).
Proof.
  intros T S alpha x y z H. unfold vector_axpyz, vector_pmul, vector_pdiv, same3.
  assert (E : negb (v_n x =? v_n y) || negb (v_n x =? v_n z) = true) by (destruct (Z.eqb_spec (v_n x) (v_n y)), (Z.eqb_spec (v_n x) (v_n z)); cbn; auto; lia).
  rewrite E. split; [ref|]. split; ref.
Qed.
Print Assumptions C09_refuse2.
Print Assumptions C09_refuse3.

Definition ex_store : store Z := fun c => if fst c =? 0 then 10 + snd c else 100 + snd c.
(** an execution of axpy on two different vectors, and on one vector twice *)
Example C09_ex :
  let x := mkVec 0 3 in let y := mkVec 1 3 in
  (exists s', exec (snd (vector_axpy 2 x y)) ex_store s' /\ map (comp s' y) [0; 1; 2] = [120; 123; 126] /\ comp s' y 3 = 103) /\
  (exists s', exec (snd (vector_axpy 2 x x)) ex_store s' /\ map (comp s' x) [0; 1; 2] = [30; 33; 36]).
Proof.
  split; (eexists; split; [apply serial_exec|]); vm_compute; auto.
Qed.

(** ** C10.  [team] is the iterations of each thread.  The collecting loop reads
    omp_get_max_threads() partial results, so the team must be that large: see
    C10_small_team_refuted.  Exact arithmetic. *)
Theorem C10_dot_partial : forall (T : Type) (S : Scalar T), is_ring S -> forall (x y : vec) team s v,
  0 <= v_arr x -> 0 <= v_arr y -> distributes (v_n x) team ->
  vector_dot x y (zlen team) s0 team s v -> v = ssum (map (fun i => smul (sconj (comp s x i)) (comp s y i)) (zrange 0 (v_n x))).
Proof. intros T S RT x y team s v Hx Hy HD H. exact (reduces_sum RT _ _ _ _ _ _ (dot_term_ok x y Hx Hy) HD H). Qed.
Theorem C10_nhdot_partial : forall (T : Type) (S : Scalar T), is_ring S -> forall (x y : vec) team s v,
  0 <= v_arr x -> 0 <= v_arr y -> distributes (v_n x) team ->
  vector_nhdot x y (zlen team) s0 team s v -> v = ssum (map (fun i => smul (comp s x i) (comp s y i)) (zrange 0 (v_n x))).
Proof. intros T S RT x y team s v Hx Hy HD H. exact (reduces_sum RT _ _ _ _ _ _ (nhdot_term_ok x y Hx Hy) HD H). Qed.
(** the argument of the square root *)
Theorem C10_nrm2_partial : forall (T : Type) (S : Scalar T), is_ring S -> forall (x : vec) team s v,
  0 <= v_arr x -> distributes (v_n x) team ->
  vector_nrm2sq x (zlen team) s0 team s v -> v = ssum (map (fun i => smul (sconj (comp s x i)) (comp s x i)) (zrange 0 (v_n x))).
Proof. intros T S RT x team s v Hx HD H. exact (reduces_sum RT _ _ _ _ _ _ (dot_term_ok x x Hx Hx) HD H). Qed.
Theorem C10_nrm1_partial : forall (T : Type) (S : Scalar T), is_ring S -> forall (x : vec) team s v,
  0 <= v_arr x -> distributes (v_n x) team ->
  vector_nrm1 x (zlen team) s0 team s v -> v = ssum (map (fun i => sabs (comp s x i)) (zrange 0 (v_n x))).
Proof. intros T S RT x team s v Hx HD H. exact (reduces_sum RT _ _ _ _ _ _ (abs_term_ok x Hx) HD H). Qed.
Theorem C10_sum_partial : forall (T : Type) (S : Scalar T), is_ring S -> forall (x : vec) team s v,
  0 <= v_arr x -> distributes (v_n x) team ->
  vector_sum x (zlen team) s0 team s v -> v = ssum (map (fun i => comp s x i) (zrange 0 (v_n x))).
Proof. intros T S RT x team s v Hx HD H. exact (reduces_sum RT _ _ _ _ _ _ (sum_term_ok x Hx) HD H). Qed.
Print Assumptions C10_dot_partial.
Print Assumptions C10_nhdot_partial.
Print Assumptions C10_nrm2_partial.
Print Assumptions C10_nrm1_partial.
Print Assumptions C10_sum_partial.

(** the builds without OpenMP *)
Theorem C10_serial : forall (T : Type) (S : Scalar T), is_ring S -> forall (x y : vec) s,
  vector_dot_serial x y s = ssum (map (fun i => smul (sconj (comp s x i)) (comp s y i)) (zrange 0 (v_n x))) /\
  vector_nhdot_serial x y s = ssum (map (fun i => smul (comp s x i) (comp s y i)) (zrange 0 (v_n x))) /\
  vector_nrm2_serial x s = ssqrt (ssum (map (fun i => smul (sconj (comp s x i)) (comp s x i)) (zrange 0 (v_n x)))) /\
  vector_nrm1_serial x s = ssum (map (fun i => sabs (comp s x i)) (zrange 0 (v_n x))) /\
  vector_sum_serial x s = ssum (map (fun i => comp s x i) (zrange 0 (v_n x))).
Proof.
  intros T S RT x y s. unfold vector_nrm2_serial, vector_dot_serial, vector_nhdot_serial, vector_nrm1_serial, vector_sum_serial. rewrite !(serial_sum RT).
  split; [reflexivity|]. split; [reflexivity|]. split; [reflexivity|]. split; reflexivity.
Qed.
Print Assumptions C10_serial.
Theorem C10_nrmi_serial : forall (T : Type) (S : Scalar T), total_order (T:=T) -> forall (x : vec) s,
  (forall i, sleb s0 (sabs (comp s x i)) = true) -> 0 < v_n x ->
  let v := vector_nrmi_serial x s in
  (forall i, 0 <= i < v_n x -> sleb (sabs (comp s x i)) v = true) /\
  ((exists i, 0 <= i < v_n x /\ v = sabs (comp s x i)) \/ (v = s0 /\ sleb v (sabs (comp s x 0)) = true)).
Proof.
  intros T S HO x s HP HN v. pose proof (max_fold HO (fun i => sabs (s (at_ x i))) (zrange 0 (v_n x)) s0) as (H1 & H2 & H3).
  unfold v, vector_nrmi_serial. rewrite serial_red_fold. split.
  - intros i Hi. apply H2. apply In_zrange. auto.
  - destruct H3 as [H3|(i & Hi & H3)]; [right|left; exists i; apply In_zrange in Hi; auto]. cbv beta zeta in H3. split; [exact H3|]. rewrite H3. apply HP.
Qed.
Print Assumptions C10_nrmi_serial.

(** in the OpenMP build nrmi starts every thread with an uninitialised value *)
Theorem C10_nrmi_refuted : exists (x : vec) (j : Z -> Z) team (s : store Z) v,
  distributes (v_n x) team /\ vector_nrmi j x (zlen team) 0 team s v /\ forall i, 0 <= i < v_n x -> Z.abs (comp s x i) < v.
Proof.
  exists (mkVec 0 2), (fun r => 1000), [[0]; [1]], ex_store, 1000. split; [apply Permutation_refl|]. split.
  - eexists. split; [apply serial_exec|]. vm_compute. reflexivity.
  - intros i Hi. change (0 <= i < 2) in Hi. unfold comp, ex_store. cbn [v_arr fst snd Z.eqb]. lia.
Qed.
Print Assumptions C10_nrmi_refuted.
(** and a reduction run by fewer threads than omp_get_max_threads() (as OpenMP's dynamic
    adjustment of the number of threads allows) adds partial results of earlier calls *)
Theorem C10_small_team_refuted : exists (x : vec) team (s : store Z) v,
  distributes (v_n x) team /\ zlen team = 1 /\ vector_sum x 2 0 team s v /\ v <> ssum (map (comp s x) (zrange 0 (v_n x))).
Proof.
  exists (mkVec 0 2), [[0; 1]], (fun c => if fst c =? -2 then 7 else 1), 9. split; [apply Permutation_refl|]. split; [reflexivity|]. split.
  - eexists. split; [apply serial_exec|]. vm_compute. reflexivity.
  - vm_compute. discriminate.
Qed.
Print Assumptions C10_small_team_refuted.
Example C10_ex : distributes 5 [[0; 3]; [1]; [2; 4]] /\
  (exists v, vector_dot (mkVec 0 5) (mkVec 1 5) 3 0 [[0; 3]; [1]; [2; 4]] ex_store v) /\
  vector_dot_serial (mkVec 0 5) (mkVec 1 5) ex_store = 10*100 + 11*101 + 12*102 + 13*103 + 14*104.
Proof.
  split. { apply (Permutation_trans (l' := [0; 1; 3; 2; 4])); [do 1 constructor; constructor|]. do 2 constructor. constructor. }
  split. { eexists. eexists. split; [apply serial_exec|reflexivity]. }
  vm_compute. reflexivity.
Qed.

(** ** C11.  One iteration after another, swap exchanges the two vectors ... *)
Theorem C11_swap_serial_partial : forall (T : Type) (S : Scalar T) (x y : vec) (s : store T), 0 <= v_arr x -> 0 <= v_arr y -> 0 <= v_n x -> v_n x = v_n y ->
  let s' := run (fold_right seq Done (snd (vector_swap x y))) s in
  fst (vector_swap (T:=T) x y) = 0 /\ exec (snd (vector_swap x y)) s s' /\
  (forall i, 0 <= i < v_n x -> comp s' x i = comp s y i /\ comp s' y i = comp s x i) /\
  (forall c, c <> shared_t -> ~ ((fst c = v_arr x \/ fst c = v_arr y) /\ 0 <= snd c < v_n x) -> s' c = s c).
Proof.
  intros T S x y s Hx Hy Hn H s'. destruct (swap_serial x y s Hx Hy Hn) as (H1 & H2). unfold vector_swap, same2 in *. destruct (Z.eqb_spec (v_n x) (v_n y)); [|lia]. cbn [negb fst snd] in *.
  split; [reflexivity|]. split; [apply serial_exec|]. split; [exact H1|]. intros c Hc Hn'. apply H2; [auto|]. intros i Hi. split; intros ->; apply Hn'; cbn; auto.
Qed.
Print Assumptions C11_swap_serial_partial.
(** ... but its temporary is shared: there is an interleaving of two iterations after
    which a component is lost *)
Theorem C11_swap_refuted : exists (x y : vec) (s s' : store Z), v_n x = v_n y /\ exec (snd (vector_swap x y)) s s' /\
  comp s' x 0 <> comp s y 0 /\ comp s' x 0 = comp s y 1 /\ comp s' x 1 = comp s y 1.
Proof.
  exists (mkVec 0 2), (mkVec 1 2), ex_store. eexists. split; [reflexivity|].
  match goal with |- _ /\ ?R => assert (G : forall s', (forall c, s' c = (put (put (put (put (put (put ex_store shared_t 100) shared_t 101) (1, 0) 10) (0, 0) 101) (1, 1) 11) (0, 1) 101) c) ->
     s' (0, 0) <> ex_store (1, 0) /\ s' (0, 0) = ex_store (1, 1) /\ s' (0, 1) = ex_store (1, 1)) end.
  { intros s' H. rewrite !H. vm_compute. split; [discriminate|auto]. }
  split.
  - exists [Done; Done]. split; [repeat constructor|]. cbn.
    eapply steps_cons; [apply (step_read [] (1, 0))|]. eapply steps_cons; [apply (step_write [] shared_t)|].
    eapply steps_cons; [apply (step_read [_] (1, 1) _ [])|]. eapply steps_cons; [apply (step_write [_] shared_t _ _ [])|].
    eapply steps_cons; [apply (step_read [] (0, 0))|]. eapply steps_cons; [apply (step_write [] (1, 0))|].
    eapply steps_cons; [apply (step_read [] shared_t)|]. eapply steps_cons; [apply (step_write [] (0, 0))|].
    eapply steps_cons; [apply (step_read [_] (0, 1) _ [])|]. eapply steps_cons; [apply (step_write [_] (1, 1) _ _ [])|].
    eapply steps_cons; [apply (step_read [_] shared_t _ [])|]. eapply steps_cons; [apply (step_write [_] (0, 1) _ _ [])|].
    apply steps_nil.
  - apply G. intros c. reflexivity.
Qed.
Print Assumptions C11_swap_refuted.
(** with a temporary private to each iteration every interleaving would be right *)
Theorem C11_private_temporary : forall (T : Type) (x y : vec) (s s' : store T), v_arr x <> v_arr y ->
  exec (par_for (v_n x) (fun i => Read (at_ y i) (fun a => Read (at_ x i) (fun b => Write (at_ y i) b (Write (at_ x i) a Done))))) s s' ->
  forall i, 0 <= i < v_n x -> comp s' x i = comp s y i /\ comp s' y i = comp s x i.
Proof.
  intros T x y s s' HN HE i Hi.
  pose proof (fun A B => par_for_spec (v_n x) _ (fun i c => snd c = i) (fun i c => c = at_ x i \/ c = at_ y i) s s' A B HE) as PS.
  destruct PS as (H1 & _).
  - intros k Hk. cbn [within at_ snd]. split; [auto|]. intros _. split; [auto|]. intros _. split; [auto|]. split; auto.
  - intros a b c Ha Hb Hab [->| ->]; (split; [cbn; lia|]); intros [E|E]; inversion E; lia.
  - unfold comp. change (v_arr x, i) with (at_ x i). change (v_arr y, i) with (at_ y i). rewrite (H1 i) by auto. rewrite (H1 i) by auto. cbn [run]. rewrite put_same. split; [auto|].
    rewrite put_other by (intros E; inversion E; congruence). apply put_same.
Qed.
Print Assumptions C11_private_temporary.

(** ** C12 *)
Theorem C12_set_value : forall (T : Type) (S : Scalar T) flag i (w : T) (v : lvec T), lvec_ok v -> flag = INS \/ flag = ADD ->
  let k := i - (if l_origin v then 1 else 0) in
  (l_is v <= k < l_ie v -> exists v', vector_set_value flag i w v = Ok (0, v') /\ lvec_ok v' /\
     l_is v' = l_is v /\ l_ie v' = l_ie v /\ l_origin v' = l_origin v /\
     forall q, 0 <= q < l_ie v - l_is v -> znth s0 (l_value v') q =
       if q =? k - l_is v then (if flag =? INS then w else sadd (znth s0 (l_value v) q) w) else znth s0 (l_value v) q) /\
  (~ (l_is v <= k < l_ie v) -> vector_set_value flag i w v = Ok (1, v)).
Proof.
  intros T S flag i w v HV HF k. destruct (set_value_spec flag i w v HV) as (A & B). fold k in A, B. split; [|exact B].
  intros Hk. eexists. split; [apply A; auto|]. unfold lvec_ok in *. cbn [l_is l_ie l_origin l_value]. rewrite zlen_zupd. destruct HV as (V1 & V2). split; [auto|]. split; [auto|]. split; [auto|]. split; [auto|].
  intros q Hq. rewrite znth_zupd by lia. destruct (Z.eqb_spec q (k - l_is v)); [subst q; reflexivity|reflexivity].
Qed.
Print Assumptions C12_set_value.
Theorem C12_get_value : forall (T : Type) (S : Scalar T) i (v : lvec T), lvec_ok v ->
  let k := i - (if l_origin v then 1 else 0) in
  (l_is v <= k < l_ie v -> vector_get_value v i = Ok (0, Some (znth s0 (l_value v) (k - l_is v)))) /\
  (~ (l_is v <= k < l_ie v) -> vector_get_value v i = Ok (1, None)).
Proof.
  intros T S i v (H1 & H2) k. unfold vector_get_value. replace (if l_origin v then i - 1 else i) with k by (subst k; destruct (l_origin v); lia). cbv zeta. split; intros Hk.
  - destruct (Z.ltb_spec k (l_is v)); [lia|]. destruct (Z.leb_spec (l_ie v) k); [lia|]. cbn [orb]. rewrite (rd_ok s0) by lia. reflexivity.
  - destruct (Z.ltb_spec k (l_is v)); [reflexivity|]. destruct (Z.leb_spec (l_ie v) k); [reflexivity|lia].
Qed.
Print Assumptions C12_get_value.
Theorem C12_get_values : forall (T : Type) (S : Scalar T) (v : lvec T) start count out, lvec_ok v -> count <= zlen out ->
  let k := start - (if l_origin v then 1 else 0) in
  (l_is v <= k < l_ie v -> k + count <= l_ie v -> 0 <= count ->
     exists out', vector_get_values v start count out = Ok (0, out') /\ zlen out' = zlen out /\
       (forall q, 0 <= q < count -> znth s0 out' q = znth s0 (l_value v) (k - l_is v + q)) /\
       (forall q, count <= q -> znth s0 out' q = znth s0 out q)) /\
  (~ (l_is v <= k < l_ie v) \/ l_ie v < k + count -> vector_get_values v start count out = Ok (1, out)).
Proof. intros T S. exact get_values_spec. Qed.
Print Assumptions C12_get_values.
(** set_values is set_value on each pair, when inserting or 0-based *)
Theorem C12_set_values_partial : forall (T : Type) (S : Scalar T) flag index value (v : lvec T), (flag = INS \/ l_origin v = false) -> lvec_ok v ->
  length value = length index -> vector_set_values flag (zlen index) index value v = set_each flag (combine index value) v.
Proof. intros T S. exact set_values_each. Qed.
Print Assumptions C12_set_values_partial.
(** adding with 1-based indices goes to the element two places further on (or is refused) *)
Theorem C12_set_values_refuted : exists (index value : list Z) (v : lvec Z), lvec_ok v /\ length value = length index /\
  (exists v1 v2, vector_set_values ADD (zlen index) index value v = Ok (0, v1) /\ set_each ADD (combine index value) v = Ok (0, v2) /\
     l_value v1 = [10; 20; 37; 40] /\ l_value v2 = [17; 20; 30; 40]) /\
  exists v2, vector_set_values ADD 1 [4] [7] v = Ok (1, v) /\ vector_set_value ADD 4 7 v = Ok (0, v2).
Proof.
  exists [1], [7], (mkLvec 0 4 true [10; 20; 30; 40]). split; [vm_compute; intuition discriminate|]. split; [reflexivity|]. split.
  - eexists. eexists. split; [vm_compute; reflexivity|]. split; [vm_compute; reflexivity|]. auto.
  - eexists. split; vm_compute; reflexivity.
Qed.
Print Assumptions C12_set_values_refuted.
(** set_values2 never uses its start argument: it is set_values on 0, 1, ..., count-1 *)
Theorem C12_set_values2_partial : forall (T : Type) (S : Scalar T) flag start count value (v : lvec T), 0 <= count ->
  vector_set_values2 flag start count value v = vector_set_values flag count (zrange 0 count) value v.
Proof. intros T S flag start count value v H. unfold vector_set_values2, vector_set_values. apply values2_values; lia. Qed.
Print Assumptions C12_set_values2_partial.
Theorem C12_set_values2_refuted : exists v : lvec Z, lvec_ok v /\
  (exists v1 v2, vector_set_values2 INS 2 2 [7; 8] v = Ok (0, v1) /\ set_each INS [(2, 7); (3, 8)] v = Ok (0, v2) /\
     l_value v1 = [7; 8; 30; 40] /\ l_value v2 = [10; 20; 7; 8]) /\
  (forall start, vector_set_values2 INS start 1 [7] (mkLvec 0 4 true [10; 20; 30; 40]) = Ok (1, mkLvec 0 4 true [10; 20; 30; 40])).
Proof.
  exists (mkLvec 0 4 false [10; 20; 30; 40]). split; [vm_compute; intuition discriminate|]. split.
  - eexists. eexists. split; [vm_compute; reflexivity|]. split; [vm_compute; reflexivity|]. auto.
  - intros start. reflexivity.
Qed.
Print Assumptions C12_set_values2_refuted.
Example C12_ex : let v := mkLvec 4 7 true [10; 20; 30] in lvec_ok v /\
  vector_set_value ADD 6 5 v = Ok (0, mkLvec 4 7 true [10; 25; 30]) /\ vector_get_value v 7 = Ok (0, Some 30) /\ vector_get_value v 8 = Ok (1, None) /\
  vector_get_values v 6 2 [0; 0; 0] = Ok (0, [20; 30; 0]) /\ vector_set_values INS 2 [5; 7] [1; 2] v = Ok (0, mkLvec 4 7 true [1; 20; 2]).
Proof. vm_compute. intuition discriminate. Qed.

(** ** C13.  Any number of processes, any ranges, the root's array in bufs[0]: after
    scatter each process has its range of it, and gather gives the whole array to all. *)
Theorem C13_scatter_gather : forall (T : Type) (S : Scalar T) ranges nprocs n (bufs vs : list (list T)),
  ranges_ok ranges nprocs n -> zlen bufs = nprocs -> zlen vs = nprocs ->
  (forall p, 0 <= p < nprocs -> zlen (znth [] bufs p) = n) ->
  (forall p, 0 <= p < nprocs -> znth 0 ranges (p + 1) - znth 0 ranges p <= zlen (znth [] vs p)) ->
  exists bufs' vs', vector_scatter ranges nprocs bufs vs = Ok (bufs', vs') /\
    (forall p k, 0 <= p < nprocs -> 0 <= k < znth 0 ranges (p + 1) - znth 0 ranges p ->
       znth s0 (znth [] vs' p) k = znth s0 (znth [] bufs 0) (znth 0 ranges p + k)) /\
    (** whatever arrays of n elements the processes pass to gather *)
    forall outs, zlen outs = nprocs -> (forall p, 0 <= p < nprocs -> zlen (znth [] outs p) = n) ->
    exists outs', vector_gather ranges nprocs outs vs' = Ok outs' /\ zlen outs' = nprocs /\
      forall p, 0 <= p < nprocs -> znth [] outs' p = znth [] bufs 0.
Proof.
  intros T S ranges P n bufs vs HR Lb Lv AL HV. assert (HP : 0 < P) by apply HR.
  destruct (wp_inv _ _ (scatter_wp ranges P n bufs vs (fun bv => zlen (snd bv) = P /\ (forall p, 0 <= p < P -> zlen (znth [] (snd bv) p) = zlen (znth [] vs p)) /\
      (forall p k, 0 <= p < P -> 0 <= k < znth 0 ranges (p + 1) - znth 0 ranges p -> znth s0 (znth [] (snd bv) p) k = znth s0 (znth [] bufs 0) (znth 0 ranges p + k)))
      HR Lb Lv ltac:(intros p Hp; apply AL; lia) HV ltac:(intros; cbn [snd]; auto))) as ([bs ws] & E & L1 & L2 & L3). cbn [snd] in *.
  exists bs, ws. split; [exact E|]. split; [exact L3|]. intros outs Lo Ao.
  apply wp_inv. apply (gather_wp ranges P n outs ws (znth [] bufs 0)); auto.
  - intros p Hp. apply Ao. lia.
  - apply AL. lia.
  - intros p Hp. rewrite L2 by auto. auto.
Qed.
Print Assumptions C13_scatter_gather.
Example C13_ex : ranges_ok [0; 2; 2; 5] 3 5 /\
  vector_scatter [0; 2; 2; 5] 3 [[1; 2; 3; 4; 5]; [0; 0; 0; 0; 0]; [9; 9; 9; 9; 9]] [[0; 0]; []; [0; 0; 0]] =
    Ok ([[1; 2; 3; 4; 5]; [0; 0; 0; 0; 0]; [9; 9; 3; 4; 5]], [[1; 2]; []; [3; 4; 5]]) /\
  vector_gather [0; 2; 2; 5] 3 [[0; 0; 0; 0; 0]; [0; 0; 0; 0; 0]; [9; 9; 9; 9; 9]] [[1; 2]; []; [3; 4; 5]] = Ok [[1; 2; 3; 4; 5]; [1; 2; 3; 4; 5]; [1; 2; 3; 4; 5]].
Proof.
  split; [|vm_compute; auto]. split; [lia|]. split; [reflexivity|]. split; [reflexivity|]. split; [reflexivity|]. intros p Hp. assert (p = 0 \/ p = 1 \/ p = 2) as [->|[->| ->]] by lia; vm_compute; discriminate.
Qed.
