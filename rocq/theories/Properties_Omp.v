(** C30: the row-parallel kernels give the serial result bit for bit on any number of
    threads and any interleaving.  No law of the scalars is assumed (T may be floating
    point numbers), so "equal" is equality of every bit. *)
Require Import ZArith List Bool Lia.
From Verif Require Import Base Scalar Spec Matvec Omp OmpProof OmpMatvec OmpMatvecProof Vector SpecVector VectorProof Properties_Vector.
Import ListNotations.
Open Scope Z_scope.

(** the array [a] of the store holds (at least) the list l *)
Definition holds {T} {S : Scalar T} (s : store T) (a : Z) (l : list T) : Prop := forall k, 0 <= k < zlen l -> s (a, k) = znth s0 l k.
(** from s to s', rows 0..n-1 of array [a] become those of y', nothing else changes *)
Definition becomes {T} {S : Scalar T} (s s' : store T) (a n : Z) (y' : list T) : Prop :=
  (forall i, 0 <= i < n -> s' (a, i) = znth s0 y' i) /\ (forall c, ~ (fst c = a /\ 0 <= snd c < n) -> s' c = s c).

Theorem C30_matvec_csr : forall (T : Type) (S : Scalar T) (A : csr T) x y xa ya s s', csr_ok A -> csr_np A <= zlen x -> csr_n A <= zlen y ->
  xa <> ya -> holds s xa x -> exec (omp_matvec_csr A xa ya) s s' ->
  exists y', matvec_csr A x y = Ok y' /\ becomes s s' ya (csr_n A) y'.
Proof.
  intros T S A x y xa ya s s' HA Hx Hy Hxy HS HE. destruct (wp_inv _ _ (matvec_csr_bits A x y HA Hx Hy)) as (y' & E & L & B). exists y'. split; [exact E|].
  pose proof (fun HA HB => par_for_spec _ _ (fun _ c => fst c = xa) (fun i c => c = (ya, i)) s s' HA HB HE) as PS. destruct PS as (H1 & H2).
  - intros i Hi. apply row_within.
  - intros i j c Hi Hj Hij ->. split; [cbn; auto|]. intros EE. inversion EE. auto.
  - split; [|intros c Hc; apply H2; intros i Hi ->; apply Hc; cbn; auto].
    intros i Hi. rewrite (H1 i) by auto. rewrite row_run. rewrite B by auto. apply dot_fold_ext. intros p Hp. apply in_map_iff in Hp. destruct Hp as (k & <- & Hk). cbn [snd]. apply In_zrange in Hk.
    apply HS. destruct HA as ((P1 & P2 & P3 & P4) & Q1 & Q2 & Q3 & Q4 & Q5).
    pose proof (mono_z (znth 0 (csr_ptr A)) (csr_n A) P4 0 i). pose proof (mono_z (znth 0 (csr_ptr A)) (csr_n A) P4 (i + 1) (csr_n A)). pose proof (Q5 k). lia.
Qed.
Print Assumptions C30_matvec_csr.

Theorem C30_matvec_msr : forall (T : Type) (S : Scalar T) (A : msr T) x y xa ya s s', msr_ok A -> msr_np A <= zlen x -> msr_n A <= zlen y ->
  xa <> ya -> holds s xa x -> exec (omp_matvec_msr A xa ya) s s' ->
  exists y', matvec_msr A x y = Ok y' /\ becomes s s' ya (msr_n A) y'.
Proof.
  intros T S A x y xa ya s s' HA Hx Hy Hxy HS HE. destruct (wp_inv _ _ (matvec_msr_bits A x y HA Hx Hy)) as (y' & E & L & B). exists y'. split; [exact E|].
  pose proof (fun HA HB => par_for_spec _ _ (fun _ c => fst c = xa) (fun i c => c = (ya, i)) s s' HA HB HE) as PS. destruct PS as (H1 & H2).
  - intros i Hi. cbn [within fst]. split; [auto|]. intros v. apply row_within.
  - intros i j c Hi Hj Hij ->. split; [cbn; auto|]. intros EE. inversion EE. auto.
  - split; [|intros c Hc; apply H2; intros i Hi ->; apply Hc; cbn; auto].
    destruct HA as (Q1 & Q2 & Q3 & Q4 & Q5 & Q6 & P4 & Q7 & Q8).
    intros i Hi. rewrite (H1 i) by auto. cbn [run]. rewrite row_run. rewrite B by auto. rewrite (HS i) by lia. apply dot_fold_ext. intros p Hp. apply in_map_iff in Hp. destruct Hp as (k & <- & Hk). cbn [snd]. apply In_zrange in Hk.
    apply HS.
    pose proof (mono_z (znth 0 (msr_index A)) (msr_n A) P4 0 i). pose proof (mono_z (znth 0 (msr_index A)) (msr_n A) P4 (i + 1) (msr_n A)). pose proof (Q8 k). lia.
Qed.
Print Assumptions C30_matvec_msr.

(** ELL and DNS divide the rows with LIS_GET_ISIE among nprocs threads *)
Theorem C30_matvec_ell : forall (T : Type) (S : Scalar T) nprocs (A : ell T) x y xa ya s s', 0 < nprocs -> ell_ok A -> ell_np A <= zlen x -> ell_n A <= zlen y ->
  xa <> ya -> holds s xa x -> exec (omp_matvec_ell nprocs A xa ya) s s' ->
  exists y', matvec_ell A x y = Ok y' /\ becomes s s' ya (ell_n A) y'.
Proof.
  intros T S nprocs A x y xa ya s s' HP HA Hx Hy Hxy HS HE. destruct (wp_inv _ _ (matvec_ell_bits A x y HA Hx Hy)) as (y' & E & L & B). exists y'. split; [exact E|].
  destruct HA as (H1 & H2 & H3 & H4 & H5). destruct (col_region_spec nprocs (ell_n A) (ell_maxnzr A) _ _ xa ya s s' HP ltac:(lia) ltac:(lia) Hxy HE) as (R1 & R2).
  split; [|exact R2]. intros i Hi. rewrite R1, B by auto. apply col_fold_ext. intros j Hj. apply HS. assert (0 <= j * ell_n A + i < ell_n A * ell_maxnzr A) by nia. pose proof (H5 _ H). lia.
Qed.
Print Assumptions C30_matvec_ell.

Theorem C30_matvec_dns : forall (T : Type) (S : Scalar T) nprocs (A : dns T) x y xa ya s s', 0 < nprocs -> dns_ok A -> dns_np A <= zlen x -> dns_n A <= zlen y ->
  xa <> ya -> holds s xa x -> exec (omp_matvec_dns nprocs A xa ya) s s' ->
  exists y', matvec_dns A x y = Ok y' /\ becomes s s' ya (dns_n A) y'.
Proof.
  intros T S nprocs A x y xa ya s s' HP HA Hx Hy Hxy HS HE. destruct (wp_inv _ _ (matvec_dns_bits A x y HA Hx Hy)) as (y' & E & L & B). exists y'. split; [exact E|].
  destruct HA as (H1 & H2). destruct (col_region_spec nprocs (dns_n A) (dns_np A) _ _ xa ya s s' HP ltac:(lia) ltac:(lia) Hxy HE) as (R1 & R2).
  split; [|exact R2]. intros i Hi. rewrite R1, B by auto. apply col_fold_ext. intros j Hj. apply HS. lia.
Qed.
Print Assumptions C30_matvec_dns.

(** the elementwise vector operations of C09: all executions end in the same store *)
Theorem C30_elementwise : forall (T : Type) (c : call T) vs z f, computes c vs z f ->
  forall s s1 s2, exec (snd c) s s1 -> exec (snd c) s s2 -> forall a, s1 a = s2 a.
Proof.
  intros T c vs z f (_ & _ & H) s s1 s2 E1 E2 a. destruct (H s s1 E1) as (A1 & B1). destruct (H s s2 E2) as (A2 & B2). destruct a as [b i].
  destruct (Z.eq_dec b (v_arr z)) as [->|N]; [|rewrite B1, B2; auto; cbn; tauto].
  assert (D : 0 <= i < v_n z \/ ~ (0 <= i < v_n z)) by lia. destruct D as [D|D]; [|rewrite B1, B2; auto; cbn; tauto].
  unfold comp in *. rewrite A1, A2 by auto. reflexivity.
Qed.
Print Assumptions C30_elementwise.

(** a matrix, and an execution of it by three threads *)
Example C30_ex : let A := mkDns 2 2 [1; 3; 2; 4] in dns_ok A /\ holds (fun c => if fst c =? 0 then 5 + snd c else 0) 0 [5; 6] /\
  exists s', exec (omp_matvec_dns 3 A 0 1) (fun c => if fst c =? 0 then 5 + snd c else 0) s' /\ s' (1, 0) = 17 /\ s' (1, 1) = 39.
Proof.
  split; [vm_compute; intuition discriminate|]. split.
  - intros k Hk. change (0 <= k < 2) in Hk. assert (k = 0 \/ k = 1) as [->| ->] by lia; reflexivity.
  - eexists. split; [apply serial_exec|]. vm_compute. auto.
Qed.
