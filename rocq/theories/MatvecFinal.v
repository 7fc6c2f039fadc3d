(** Closed forms of the matrix-vector product theorems *)
Require Import ZArith List Bool Lia Permutation.
From Verif Require Import Base Scalar Spec Items Fmt Matvec MatvecProof MatvecProof2.
Import ListNotations.
Open Scope Z_scope.

Section F.
Context {T : Type} {S : Scalar T}.

Lemma mv_nz (RT : is_ring S) (HZ : eqb_ok S) (E : list (entry T)) np x i : mv_spec (nz E) np x i = mv_spec E np x i.
Proof. unfold mv_spec. apply ssum_map_ext. intros j _. f_equal. apply (coef_same RT HZ). apply same_nz. Qed.
Lemma mvh_nz (RT : is_ring S) (HZ : eqb_ok S) (E : list (entry T)) n x j : mvh_spec (nz E) n x j = mvh_spec E n x j.
Proof. unfold mvh_spec. apply ssum_map_ext. intros i _. f_equal. f_equal. apply (coef_same RT HZ). apply same_nz. Qed.

Lemma matvec_csr_final (RT : is_ring S) (A : csr T) x y : csr_ok A -> csr_np A <= zlen x -> csr_n A <= zlen y ->
  exists y', matvec_csr A x y = Ok y' /\ zlen y' = zlen y /\
    forall i, 0 <= i < csr_n A -> znth s0 y' i = mv_spec (csr_entries A) (csr_np A) (znth s0 x) i.
Proof.
  intros. apply wp_inv. apply (matvec_csr_wp RT); auto.
Qed.

Lemma matvech_csr_final (RT : is_ring S) (HC : conj_ok S) (A : csr T) x y : csr_ok A -> csr_n A <= zlen x -> csr_np A <= zlen y ->
  exists y', matvech_csr A x y = Ok y' /\ zlen y' = zlen y /\
    forall i, 0 <= i < csr_np A -> znth s0 y' i = mvh_spec (csr_entries A) (csr_n A) (znth s0 x) i.
Proof.
  intros. apply wp_inv. apply (matvech_csr_wp RT HC); auto.
Qed.

Lemma matvec_csc_final (RT : is_ring S) (A : csc T) x y : csc_ok A -> csc_np A <= zlen x -> csc_n A <= zlen y ->
  exists y', matvec_csc A x y = Ok y' /\ zlen y' = zlen y /\
    forall i, 0 <= i < csc_n A -> znth s0 y' i = mv_spec (csc_entries A) (csc_np A) (znth s0 x) i.
Proof.
  intros. apply wp_inv. apply (matvec_csc_wp RT); auto.
Qed.

Lemma matvech_csc_final (RT : is_ring S) (HC : conj_ok S) (A : csc T) x y : csc_ok A -> csc_n A <= zlen x -> csc_np A <= zlen y ->
  exists y', matvech_csc A x y = Ok y' /\ zlen y' = zlen y /\
    forall i, 0 <= i < csc_np A -> znth s0 y' i = mvh_spec (csc_entries A) (csc_n A) (znth s0 x) i.
Proof.
  intros. apply wp_inv. apply (matvech_csc_wp RT HC); auto.
Qed.

Lemma matvec_coo_final (RT : is_ring S) (A : coo T) x y : coo_ok A -> coo_np A <= zlen x -> coo_n A <= zlen y ->
  exists y', matvec_coo A x y = Ok y' /\ zlen y' = zlen y /\
    forall i, 0 <= i < coo_n A -> znth s0 y' i = mv_spec (coo_entries A) (coo_np A) (znth s0 x) i.
Proof.
  intros. apply wp_inv. apply (matvec_coo_wp RT); auto.
Qed.

Lemma matvech_coo_final (RT : is_ring S) (HC : conj_ok S) (A : coo T) x y : coo_ok A -> coo_np A = coo_n A -> coo_n A <= zlen x -> coo_np A <= zlen y -> (forall e, In e (coo_entries A) -> sconj (eval e) = eval e) ->
  exists y', matvech_coo A x y = Ok y' /\ zlen y' = zlen y /\
    forall i, 0 <= i < coo_np A -> znth s0 y' i = mvh_spec (coo_entries A) (coo_n A) (znth s0 x) i.
Proof.
  intros. apply wp_inv. apply (matvech_coo_wp RT HC); auto.
Qed.

Lemma matvec_msr_final (RT : is_ring S) (A : msr T) x y : msr_ok A -> msr_np A <= zlen x -> msr_n A <= zlen y ->
  exists y', matvec_msr A x y = Ok y' /\ zlen y' = zlen y /\
    forall i, 0 <= i < msr_n A -> znth s0 y' i = mv_spec (msr_entries A) (msr_np A) (znth s0 x) i.
Proof.
  intros. apply wp_inv. apply (matvec_msr_wp RT); auto.
Qed.

Lemma matvech_msr_final (RT : is_ring S) (HC : conj_ok S) (A : msr T) x y : msr_ok A -> msr_np A = msr_n A -> msr_n A <= zlen x -> msr_np A <= zlen y ->
  exists y', matvech_msr A x y = Ok y' /\ zlen y' = zlen y /\
    forall i, 0 <= i < msr_np A -> znth s0 y' i = mvh_spec (msr_entries A) (msr_n A) (znth s0 x) i.
Proof.
  intros. apply wp_inv. apply (matvech_msr_wp RT HC); auto.
Qed.

Lemma matvec_ell_final (RT : is_ring S) (A : ell T) x y : ell_ok A -> ell_np A <= zlen x -> ell_n A <= zlen y ->
  exists y', matvec_ell A x y = Ok y' /\ zlen y' = zlen y /\
    forall i, 0 <= i < ell_n A -> znth s0 y' i = mv_spec (ell_entries A) (ell_np A) (znth s0 x) i.
Proof.
  intros. apply wp_inv. apply (matvec_ell_wp RT); auto.
Qed.

Lemma matvech_ell_final (RT : is_ring S) (HC : conj_ok S) (A : ell T) x y : ell_ok A -> ell_np A = ell_n A -> ell_n A <= zlen x -> ell_np A <= zlen y ->
  exists y', matvech_ell A x y = Ok y' /\ zlen y' = zlen y /\
    forall i, 0 <= i < ell_np A -> znth s0 y' i = mvh_spec (ell_entries A) (ell_n A) (znth s0 x) i.
Proof.
  intros. apply wp_inv. apply (matvech_ell_wp RT HC); auto.
Qed.

Lemma matvec_dns_final (RT : is_ring S) (A : dns T) x y : dns_ok A -> dns_np A <= zlen x -> dns_n A <= zlen y ->
  exists y', matvec_dns A x y = Ok y' /\ zlen y' = zlen y /\
    forall i, 0 <= i < dns_n A -> znth s0 y' i = mv_spec (dns_entries A) (dns_np A) (znth s0 x) i.
Proof.
  intros. apply wp_inv. apply (matvec_dns_wp RT); auto.
Qed.

Lemma matvech_dns_final (RT : is_ring S) (HC : conj_ok S) (A : dns T) x y : dns_ok A -> dns_n A <= zlen x -> dns_np A <= zlen y ->
  exists y', matvech_dns A x y = Ok y' /\ zlen y' = zlen y /\
    forall i, 0 <= i < dns_np A -> znth s0 y' i = mvh_spec (dns_entries A) (dns_n A) (znth s0 x) i.
Proof.
  intros. apply wp_inv. apply (matvech_dns_wp RT HC); auto.
Qed.

Lemma matvec_dia_final (RT : is_ring S) (A : dia T) x y : dia_ok A -> dia_np A <= zlen x -> dia_n A <= zlen y ->
  exists y', matvec_dia A x y = Ok y' /\ zlen y' = zlen y /\
    forall i, 0 <= i < dia_n A -> znth s0 y' i = mv_spec (dia_entries A) (dia_np A) (znth s0 x) i.
Proof.
  intros. apply wp_inv. apply (matvec_dia_wp RT); auto.
Qed.

Lemma matvech_dia_final (RT : is_ring S) (HC : conj_ok S) (A : dia T) x y : dia_ok A -> dia_n A <= zlen x -> dia_np A <= zlen y ->
  exists y', matvech_dia A x y = Ok y' /\ zlen y' = zlen y /\
    forall i, 0 <= i < dia_np A -> znth s0 y' i = mvh_spec (dia_entries A) (dia_n A) (znth s0 x) i.
Proof.
  intros. apply wp_inv. apply (matvech_dia_wp RT HC); auto.
Qed.

Lemma matvec_jad_final (RT : is_ring S) jw (A : jad T) x y : jad_ok A -> jad_np A <= zlen x -> jad_n A <= zlen y ->
  exists y', matvec_jad jw A x y = Ok y' /\ zlen y' = zlen y /\
    forall i, 0 <= i < jad_n A -> znth s0 y' i = mv_spec (jad_entries A) (jad_np A) (znth s0 x) i.
Proof.
  intros. apply wp_inv. apply (matvec_jad_wp RT); auto.
Qed.

Lemma matvech_jad_final (RT : is_ring S) (HC : conj_ok S) (A : jad T) x y : jad_ok A -> jad_n A <= zlen x -> jad_np A <= zlen y ->
  exists y', matvech_jad A x y = Ok y' /\ zlen y' = zlen y /\
    forall i, 0 <= i < jad_np A -> znth s0 y' i = mvh_spec (jad_entries A) (jad_n A) (znth s0 x) i.
Proof.
  intros. apply wp_inv. apply (matvech_jad_wp RT HC); auto.
Qed.

Lemma matvec_bsr_final (RT : is_ring S) (HZ : eqb_ok S) (A : bsr T) x y : bsr_ok A -> cover (bsr_np A) (bsr_bnc A) <= zlen x -> bsr_nr A * bsr_bnr A <= zlen y ->
  exists y', matvec_bsr A x y = Ok y' /\ zlen y' = zlen y /\
    forall i, 0 <= i < bsr_n A -> znth s0 y' i = mv_spec (bsr_entries A) (bsr_np A) (znth s0 x) i.
Proof.
  intros. apply wp_inv. eapply wp_mono; [apply (matvec_bsr_wp RT HZ); auto|]. cbv beta. intros y' [L H']. split; auto. intros i Hi. rewrite H' by auto. apply (mv_nz RT HZ).
Qed.

Lemma matvech_bsr_final (RT : is_ring S) (HZ : eqb_ok S) (HC : conj_ok S) (A : bsr T) x y : bsr_ok A -> bsr_nr A * bsr_bnr A <= zlen x -> cover (bsr_np A) (bsr_bnc A) <= zlen y -> bsr_n A <= zlen y ->
  exists y', matvech_bsr A x y = Ok y' /\ zlen y' = zlen y /\
    forall i, 0 <= i < bsr_np A -> znth s0 y' i = mvh_spec (bsr_entries A) (bsr_n A) (znth s0 x) i.
Proof.
  intros. apply wp_inv. eapply wp_mono; [apply (matvech_bsr_wp RT HZ HC); auto|]. cbv beta. intros y' [L H']. split; auto. intros i Hi. rewrite H' by auto. apply (mvh_nz RT HZ).
Qed.

Lemma matvec_bsc_final (RT : is_ring S) (HZ : eqb_ok S) (A : bsc T) x y : bsc_ok A -> bsc_nc A * bsc_bnc A <= zlen x -> cover (bsc_n A) (bsc_bnr A) <= zlen y -> bsc_n A <= zlen y ->
  exists y', matvec_bsc A x y = Ok y' /\ zlen y' = zlen y /\
    forall i, 0 <= i < bsc_n A -> znth s0 y' i = mv_spec (bsc_entries A) (bsc_np A) (znth s0 x) i.
Proof.
  intros. apply wp_inv. eapply wp_mono; [apply (matvec_bsc_wp RT HZ); auto|]. cbv beta. intros y' [L H']. split; auto. intros i Hi. rewrite H' by auto. apply (mv_nz RT HZ).
Qed.

Lemma matvech_bsc_final (RT : is_ring S) (HZ : eqb_ok S) (HC : conj_ok S) (A : bsc T) x y : bsc_ok A -> cover (bsc_n A) (bsc_bnr A) <= zlen x -> bsc_nc A * bsc_bnc A <= zlen y ->
  exists y', matvech_bsc A x y = Ok y' /\ zlen y' = zlen y /\
    forall i, 0 <= i < bsc_np A -> znth s0 y' i = mvh_spec (bsc_entries A) (bsc_n A) (znth s0 x) i.
Proof.
  intros. apply wp_inv. eapply wp_mono; [apply (matvech_bsc_wp RT HZ HC); auto|]. cbv beta. intros y' [L H']. split; auto. intros i Hi. rewrite H' by auto. apply (mvh_nz RT HZ).
Qed.

Lemma matvec_vbr_final (RT : is_ring S) (A : vbr T) x y : vbr_ok A -> vbr_np A <= zlen x -> vbr_n A <= zlen y ->
  exists y', matvec_vbr A x y = Ok y' /\ zlen y' = zlen y /\
    forall i, 0 <= i < vbr_n A -> znth s0 y' i = mv_spec (vbr_entries A) (vbr_np A) (znth s0 x) i.
Proof.
  intros. apply wp_inv. apply (matvec_vbr_wp RT); auto.
Qed.

Lemma matvech_vbr_final (RT : is_ring S) (HC : conj_ok S) (A : vbr T) x y : vbr_ok A -> vbr_np A = vbr_n A -> vbr_n A <= zlen x -> vbr_np A <= zlen y ->
  exists y', matvech_vbr A x y = Ok y' /\ zlen y' = zlen y /\
    forall i, 0 <= i < vbr_np A -> znth s0 y' i = mvh_spec (vbr_entries A) (vbr_n A) (znth s0 x) i.
Proof.
  intros. apply wp_inv. apply (matvech_vbr_wp RT HC); auto.
Qed.

End F.
