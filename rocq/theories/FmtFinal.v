(** Closed forms of the conversion lemmas for DNS, ELL, MSR, DIA, JAD, and round trips *)
Require Import ZArith List Bool Lia Permutation.
From Verif Require Import Base Scalar Spec Items Sort Csc CscProof Coo CooProof Fmt ConvFinal
  Dns DnsProof Ell EllProof Msr MsrProof Dia DiaProof Jad JadProof.
Import ListNotations.
Open Scope Z_scope.

Section F.
Context {T : Type} {S : Scalar T}.

Lemma csr2dns_final (HZ : eqb_zero S) jv (A : csr T) : csr_ok A -> no_dup_pos (csr_entries A) ->
  exists B, convert_csr2dns jv A = Ok B /\ dns_ok B /\ dns_n B = csr_n A /\ dns_np B = csr_np A /\
    same_entries (dns_entries B) (csr_entries A).
Proof. intros. apply wp_inv. apply convert_csr2dns_wp; auto. Qed.

Lemma dns2csr_final jp ji jv (A : dns T) : dns_ok A ->
  exists B, convert_dns2csr jp ji jv A = Ok B /\ csr_ok B /\ csr_n B = dns_n A /\ csr_np B = dns_np A /\
    Permutation (csr_entries B) (nz (dns_entries A)).
Proof.
  intros. apply wp_inv. apply convert_dns2csr_wp; auto. intros B H1 H2 H3 H4.
  do 3 (split; [assumption|]). rewrite H4. apply dns_rows.
Qed.

Lemma csr2ell_final (HZ : eqb_zero S) ji jv (A : csr T) : csr_ok A ->
  exists B, convert_csr2ell ji jv A = Ok B /\ ell_ok B /\ ell_n B = csr_n A /\ ell_np B = csr_np A /\
    same_entries (ell_entries B) (csr_entries A).
Proof. intros. apply wp_inv. apply convert_csr2ell_wp; auto. Qed.

Lemma ell2csr_final jw jp ji jv (A : ell T) : ell_ok A ->
  exists B, convert_ell2csr jw jp ji jv A = Ok B /\ csr_ok B /\ csr_n B = ell_n A /\ csr_np B = ell_np A /\
    Permutation (csr_entries B) (nz (ell_entries A)).
Proof.
  intros Hok. apply wp_inv. apply convert_ell2csr_wp; auto. intros B H1 H2 H3 H4.
  do 3 (split; [assumption|]). rewrite H4. apply (buckets_perm erow). intros e He.
  apply (nz_in_shape _ _ _ (ell_in_shape A Hok)) in He. tauto.
Qed.

Lemma csr2msr_final jw ji jv (A : csr T) : csr_ok A -> no_dup_pos (csr_entries A) ->
  exists B, convert_csr2msr jw ji jv A = Ok B /\ msr_ok B /\ msr_n B = csr_n A /\ msr_np B = csr_np A /\ msr_nnz B = csr_nnz A /\
    Permutation (msr_entries B) (csr_entries A ++
        map (fun i => (i, i, jv i)) (filter (fun i => negb (has_diag (csr_entries A) i)) (zrange 0 (csr_n A)))).
Proof. intros. apply wp_inv. apply convert_csr2msr_wp; auto 10. Qed.

Lemma filter_none {A} (p : A -> bool) l : (forall x, In x l -> p x = false) -> filter p l = [].
Proof. induction l; intros H; auto. simpl. rewrite (H a) by (left; auto). apply IHl. intros; apply H; right; auto. Qed.

Lemma csr2msr_full_final jw ji jv (A : csr T) : csr_ok A -> no_dup_pos (csr_entries A) ->
  (forall i, 0 <= i < csr_n A -> exists v, In (i, i, v) (csr_entries A)) ->
  exists B, convert_csr2msr jw ji jv A = Ok B /\ msr_ok B /\ msr_n B = csr_n A /\ msr_np B = csr_np A /\ msr_nnz B = csr_nnz A /\
    Permutation (msr_entries B) (csr_entries A).
Proof.
  intros H1 H2 HD. destruct (csr2msr_final jw ji jv A H1 H2) as (B & E & K1 & K2 & K3 & K4 & K5). exists B.
  do 5 (split; [assumption|]). rewrite filter_none in K5. { simpl in K5. rewrite app_nil_r in K5. auto. }
  intros i Hi. apply In_zrange in Hi. apply negb_false_iff. destruct (HD i Hi) as [v Hv].
  unfold has_diag. apply existsb_exists. exists (i, i, v). split; auto. unfold at_ij, erow, ecol. simpl. rewrite Z.eqb_refl. auto.
Qed.

Lemma msr_rows_same (A : msr T) : same_entries (flat_map (msr_row A) (zrange 0 (msr_n A))) (msr_entries A).
Proof.
  unfold same_entries, msr_entries. unfold nz. rewrite !filter_flat_map.
  replace (flat_map (fun x => filter (fun e : entry T => nonzero (eval e)) (msr_row A x)) (zrange 0 (msr_n A)))
    with (flat_map (fun x => filter (fun e : entry T => nonzero (eval e)) ((x, x, znth s0 (msr_value A) x) :: map (fun k => (x, znth 0 (msr_index A) k, znth s0 (msr_value A) k)) (zrange (znth 0 (msr_index A) x) (znth 0 (msr_index A) (x + 1))))) (zrange 0 (msr_n A))).
  - apply Permutation_refl.
  - apply flat_map_ext. intros i. unfold msr_row. rewrite filter_app. fold (nz (T:=T)).
    change (filter (fun e : entry T => nonzero (eval e)) (nz [(i, i, znth s0 (msr_value A) i)])) with (nz (nz [(i, i, znth s0 (msr_value A) i)])).
    rewrite nz_idem. unfold nz. simpl. unfold eval; cbn [snd]. destruct (nonzero (znth s0 (msr_value A) i)); reflexivity.
Qed.

Lemma msr2csr_final jp ji jv (A : msr T) : msr_ok A -> msr_stored A = msr_nnz A ->
  exists B, convert_msr2csr jp ji jv A = Ok B /\ csr_ok B /\ csr_n B = msr_n A /\ csr_np B = msr_np A /\
    same_entries (csr_entries B) (msr_entries A).
Proof.
  intros Hok He. apply wp_inv. apply convert_msr2csr_wp; [auto|lia|]. intros B H1 H2 H3 H4 H5.
  split; [auto|]. do 2 (split; [assumption|]). rewrite H4. apply msr_rows_same.
Qed.

Lemma msr2csr_lax_final jp ji jv (A : msr T) : msr_ok A -> msr_stored A <= msr_nnz A ->
  exists B, convert_msr2csr jp ji jv A = Ok B /\ csr_n B = msr_n A /\ csr_np B = msr_np A /\ csr_nnz B = msr_nnz A /\
    same_entries (csr_entries B) (msr_entries A).
Proof.
  intros Hok He. apply wp_inv. apply convert_msr2csr_wp; auto. intros B H1 H2 H3 H4 H5.
  do 3 (split; [assumption|]). rewrite H4. apply msr_rows_same.
Qed.

Lemma csr2dia_final (HZ : eqb_zero S) jw ji jv flag (A : csr T) :
  csr_ok A -> csr_exact A -> csr_np A = csr_n A -> 0 < csr_nnz A -> (flag = true -> rows_sorted A) -> no_dup_pos (csr_entries A) ->
  exists B A', convert_csr2dia jw ji jv flag A = Ok (B, A') /\ dia_ok B /\ dia_n B = csr_n A /\
     same_entries (dia_entries B) (csr_entries A) /\ csr_ok A' /\ Permutation (csr_entries A') (csr_entries A).
Proof.
  intros. apply pair_inv. apply convert_csr2dia_wp; auto.
Qed.

Lemma dia_sh (A : dia T) : dia_ok A -> in_shape (dia_n A) (dia_n A) (dia_entries A).
Proof.
  intros (Hn & _). unfold dia_entries. intros e He. apply in_flat_map in He. destruct He as (d & Hd & He).
  apply in_map_iff in He. destruct He as (i & <- & Hi). apply In_zrange in Hi. unfold erow, ecol. cbn [fst snd].
  set (z := znth 0 (dia_index A) d) in *. lia.
Qed.

Lemma dia2csr_final jw jp ji jv (A : dia T) : dia_ok A ->
  exists B, convert_dia2csr jw jp ji jv A = Ok B /\ csr_ok B /\ csr_n B = dia_n A /\ csr_np B = dia_np A /\
    Permutation (csr_entries B) (nz (dia_entries A)).
Proof.
  intros Hok. apply wp_inv. apply convert_dia2csr_wp; auto. intros B H1 H2 H3 H4.
  do 3 (split; [assumption|]). rewrite H4. apply (buckets_perm erow). intros e He.
  apply (nz_in_shape _ _ _ (dia_sh A Hok)) in He. tauto.
Qed.

Lemma csr2jad_final jw jq jp ji jv (A : csr T) : csr_ok A ->
  exists B, convert_csr2jad jw jq jp ji jv A = Ok B /\ jad_ok B /\ jad_n B = csr_n A /\ jad_np B = csr_np A /\ jad_nnz B = csr_nnz A /\
    Permutation (jad_entries B) (csr_entries A).
Proof. intros. apply wp_inv. apply convert_csr2jad_wp; auto 10. Qed.

Lemma jad2csr_final jw jp ji jv (A : jad T) : jad_ok A ->
  exists B, convert_jad2csr jw jp ji jv A = Ok B /\ csr_ok B /\ csr_n B = jad_n A /\ csr_np B = jad_np A /\ csr_nnz B = jad_nnz A /\
    Permutation (csr_entries B) (jad_entries A).
Proof.
  intros Hok. apply wp_inv. apply convert_jad2csr_wp; auto. intros B H1 H2 H3 H4 H5.
  do 4 (split; [assumption|]). rewrite H5. apply (buckets_perm erow). intros e He.
  apply (jad_in_shape A Hok) in He. tauto.
Qed.

End F.

(** reordering a vector to JAD order and back *)
From Verif Require Import Jad JadProof.
Lemma jad_orders_final {T} {S : Scalar T} jt jt' n np perm (v : list T) : 0 <= n <= np -> n <= zlen perm -> n <= zlen v ->
  Permutation.Permutation (map (znth 0 perm) (zrange 0 n)) (zrange 0 n) ->
  exists t u, vector_sort_jad_order jt n np perm v = Ok t /\ vector_sort_ascending_order jt' n np perm t = Ok u /\
    zlen t = np /\ zlen u = np /\
    (forall i, 0 <= i < n -> znth s0 t i = znth s0 v (znth 0 perm i)) /\ (forall i, 0 <= i < n -> znth s0 u i = znth s0 v i).
Proof.
  intros Hn Hp Hv HP.
  assert (W : wp (vector_sort_jad_order jt n np perm v) (fun t => zlen t = np /\ forall i, 0 <= i < n -> znth s0 t i = znth s0 v (znth 0 perm i))).
  { apply vector_sort_jad_order_wp; auto. intros i Hi. apply (In_zrange 0). apply (Permutation.Permutation_in _ HP). apply in_map. apply In_zrange; auto. }
  apply wp_inv in W. destruct W as (t & Et & Lt & Ht).
  assert (W : wp (vector_sort_ascending_order jt' n np perm t) (fun u => zlen u = np /\ forall i, 0 <= i < n -> znth s0 u (znth 0 perm i) = znth s0 t i)).
  { apply vector_sort_ascending_order_wp; auto. lia. }
  apply wp_inv in W. destruct W as (u & Eu & Lu & Hu). exists t, u. split; [exact Et|]. split; [exact Eu|]. split; [auto|]. split; [auto|]. split; [auto|].
  intros i Hi. assert (Hin : In i (map (znth 0 perm) (zrange 0 n))) by (apply (Permutation.Permutation_in _ (Permutation.Permutation_sym HP)); apply In_zrange; auto).
  apply in_map_iff in Hin. destruct Hin as (k & <- & Hk). apply In_zrange in Hk. rewrite Hu by auto. apply Ht; auto.
Qed.
