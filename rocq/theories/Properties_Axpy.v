(** C63: lis_matrix_axpy, lis_matrix_xpay, lis_matrix_axpyz, lis_matrix_shift_matrix.
    [holds O m]: the assembled matrix object O stores m (SpecCopy.v). *)
Require Import ZArith List Bool Lia Permutation.
From Verif Require Import Base Scalar Spec Copy SpecCopy Convert SpecConvert MatAxpy SpecMatAxpy MatAxpyProof.
Import ListNotations.
Open Scope Z_scope.

Lemma ready_dns {T} {S : Scalar T} (O : mobj T) D : holds O (MDns D) -> unready O = false.
Proof. intros (_ & _ & _ & H & _). unfold unready. rewrite H. reflexivity. Qed.

(** ** dense matrices: B := B + alpha A, B := A + alpha B, C := alpha A + B *)
Theorem C63_axpy : forall (T : Type) (S : Scalar T), is_ring S -> forall alpha (A B : mobj T) a b, holds A (MDns a) -> holds B (MDns b) -> dns_ok a -> dns_ok b -> dns_n b = dns_n a -> dns_np b = dns_np a ->
  exists B' b', matrix_axpy alpha A B = Ok (LIS_SUCCESS, B') /\ holds B' (MDns b') /\ dns_ok b' /\ plus_multiple alpha (dns_entries b) (dns_entries a) (dns_entries b').
Proof.
  intros T S RT alpha A B a b HA HB Ha Hb En Ep. destruct (axpy_dns_wp RT alpha a b Ha Hb En Ep) as (v & E & O & K).
  unfold matrix_axpy, matrix_op2. rewrite (ready_dns A a HA), (ready_dns B b HB). pose proof HA as (A1 & _ & A3 & _). pose proof HB as (B1 & B2 & B3 & B4 & B5 & B6). rewrite A3, A1, B1. cbn [amat_type orb Z.eqb Pos.eqb amat_value put_value]. rewrite E. cbn [bind].
  eexists. eexists. split; [reflexivity|]. split; [|split; [exact O|exact K]]. repeat split; cbn; auto.
Qed.
Print Assumptions C63_axpy.
Theorem C63_xpay : forall (T : Type) (S : Scalar T), is_ring S -> forall alpha (A B : mobj T) a b, holds A (MDns a) -> holds B (MDns b) -> dns_ok a -> dns_ok b -> dns_n b = dns_n a -> dns_np b = dns_np a ->
  exists B' b', matrix_xpay alpha A B = Ok (LIS_SUCCESS, B') /\ holds B' (MDns b') /\ dns_ok b' /\ plus_multiple alpha (dns_entries a) (dns_entries b) (dns_entries b').
Proof.
  intros T S RT alpha A B a b HA HB Ha Hb En Ep. destruct (xpay_dns_wp RT alpha a b Ha Hb En Ep) as (v & E & O & K).
  unfold matrix_xpay, matrix_op2. rewrite (ready_dns A a HA), (ready_dns B b HB). pose proof HA as (A1 & _ & A3 & _). pose proof HB as (B1 & B2 & B3 & B4 & B5 & B6). rewrite A3, A1, B1. cbn [amat_type orb Z.eqb Pos.eqb amat_value put_value]. rewrite E. cbn [bind].
  eexists. eexists. split; [reflexivity|]. split; [|split; [exact O|exact K]]. repeat split; cbn; auto.
Qed.
Print Assumptions C63_xpay.
Theorem C63_axpyz : forall (T : Type) (S : Scalar T), is_ring S -> forall alpha (A B C : mobj T) a b c, holds A (MDns a) -> holds B (MDns b) -> holds C (MDns c) -> dns_ok a -> dns_ok b -> dns_ok c ->
  dns_n b = dns_n a -> dns_np b = dns_np a -> dns_n c = dns_n a -> dns_np c = dns_np a ->
  exists C' c', matrix_axpyz alpha A B C = Ok (LIS_SUCCESS, C') /\ holds C' (MDns c') /\ dns_ok c' /\ plus_multiple alpha (dns_entries b) (dns_entries a) (dns_entries c').
Proof.
  intros T S RT alpha A B C a b c HA HB HC Ha Hb Hc En Ep En' Ep'. destruct (axpyz_dns_wp RT alpha a b c Ha Hb Hc En Ep En' Ep') as (v & E & O & K).
  unfold matrix_axpyz. rewrite (ready_dns A a HA), (ready_dns B b HB), (ready_dns C c HC). pose proof HA as (A1 & _ & A3 & _). pose proof HB as (B1 & _). pose proof HC as (C1 & C2 & C3 & C4 & C5 & C6). rewrite A3, A1, B1, C1. cbn [amat_type orb Z.eqb Pos.eqb amat_value put_value]. rewrite E. cbn [bind].
  eexists. eexists. split; [reflexivity|]. split; [|split; [exact O|exact K]]. repeat split; cbn; auto.
Qed.
Print Assumptions C63_axpyz.
(** any other format of A: LIS_ERR_NOT_IMPLEMENTED and nothing is written *)
Theorem C63_axpy_other_types : forall (T : Type) (S : Scalar T) alpha (A B C : mobj T) ma mb mc, holds A ma -> holds B mb -> holds C mc -> amat_type ma <> 11 ->
  matrix_axpy alpha A B = Ok (LIS_ERR_NOT_IMPLEMENTED, B) /\ matrix_xpay alpha A B = Ok (LIS_ERR_NOT_IMPLEMENTED, B) /\ matrix_axpyz alpha A B C = Ok (LIS_ERR_NOT_IMPLEMENTED, C).
Proof.
  intros T S alpha A B C ma mb mc (_ & _ & A3 & A4 & _) (_ & _ & _ & B4 & _) (_ & _ & _ & C4 & _) Ht.
  assert (UA : unready A = false) by (unfold unready; rewrite A4; destruct ma; reflexivity). assert (UB' : unready B = false) by (unfold unready; rewrite B4; destruct mb; reflexivity).
  assert (UC : unready C = false) by (unfold unready; rewrite C4; destruct mc; reflexivity).
  unfold matrix_axpy, matrix_xpay, matrix_op2, matrix_axpyz. rewrite UA, UB', UC, A3. apply Z.eqb_neq in Ht. rewrite Ht. auto.
Qed.
Print Assumptions C63_axpy_other_types.
Definition exA : dns Z := mkDns 2 2 [1; 2; 3; 4].
Definition exB : dns Z := mkDns 2 2 [5; 6; 7; 8].
Definition obj (m : amat Z) : mobj Z := mkObj (amat_type m) (amat_type m) (amat_n m) (amat_np m) (Some m) None.
Example C63_axpy_ex : holds (obj (MDns exA)) (MDns exA) /\ dns_ok exA /\ dns_ok exB /\
  matrix_axpy 10 (obj (MDns exA)) (obj (MDns exB)) = Ok (LIS_SUCCESS, obj (MDns (mkDns 2 2 [15; 26; 37; 48]))) /\
  matrix_xpay 10 (obj (MDns exA)) (obj (MDns exB)) = Ok (LIS_SUCCESS, obj (MDns (mkDns 2 2 [51; 62; 73; 84]))) /\
  matrix_axpyz 10 (obj (MDns exA)) (obj (MDns exB)) (obj (MDns exA)) = Ok (LIS_SUCCESS, obj (MDns (mkDns 2 2 [15; 26; 37; 48]))).
Proof. split; [repeat split|]. split; [unfold dns_ok; vm_compute; intuition congruence|]. split; [unfold dns_ok; vm_compute; intuition congruence|]. repeat split. Qed.
(** the type of B is not checked: a CSR matrix B is written as if it were dense, past its end *)
Definition exS : csr Z := mkCsr 2 2 1 [0; 1; 1] [0] [5].
Theorem C63_axpy_type_refuted : exists (A B : mobj Z) a b, holds A (MDns a) /\ dns_ok a /\ holds B (MCsr b) /\ csr_ok b /\ csr_n b = dns_n a /\ csr_np b = dns_np a /\ matrix_axpy 10 A B = UB.
Proof.
  exists (obj (MDns exA)), (obj (MCsr exS)), exA, exS. split; [repeat split|]. split; [unfold dns_ok; vm_compute; intuition congruence|]. split; [repeat split|].
  split; [|repeat split]. unfold csr_ok, ptr_ok. repeat match goal with |- _ /\ _ => split end; try (vm_compute; intuition congruence).
  - intros i Hi. assert (K : i = 0 \/ i = 1) by (cbn in Hi; lia). destruct K as [-> | ->]; vm_compute; congruence.
  - intros k Hk. assert (K : k = 0) by (cbv -[Z.le Z.lt] in Hk; lia). subst k. vm_compute. intuition congruence.
Qed.
Print Assumptions C63_axpy_type_refuted.

(** ** lis_matrix_shift_matrix: A := A - sigma B for a CSR matrix A and B in any format *)
Theorem C63_shift_matrix_csr : forall (T : Type) (S : Scalar T), is_ring S -> eqb_ok S -> forall J JV blkB cA (A B : mobj T) (a : csr T) (mb : amat T) sigma,
  holds A (MCsr a) -> csr_ok a -> csr_exact a -> no_dup_pos (csr_entries a) -> 0 < csr_n a ->
  holds B mb -> amat_ok mb -> amat_n mb = csr_n a -> amat_np mb = csr_np a -> source_ok false mb -> no_dup_pos (stored mb) ->
  exists A' a', shift_matrix J JV false blkB cA A B sigma = Ok (LIS_SUCCESS, A') /\ holds A' (MCsr a') /\ csr_ok a' /\ csr_n a' = csr_n a /\ csr_np a' = csr_np a /\
    minus_multiple sigma (csr_entries a) (amat_entries mb) (csr_entries a').
Proof. exact @shift_matrix_csr_wp. Qed.
Print Assumptions C63_shift_matrix_csr.
(** A = (1 2; 0 5), B = (5 0; 0 7): A - 2 B = (-9 2; 0 -9) *)
Definition exP : csr Z := mkCsr 2 2 3 [0; 2; 3] [0; 1; 1] [1; 2; 5].
Definition exQ : csr Z := mkCsr 2 2 2 [0; 1; 2] [0; 1] [5; 7].
Example C63_shift_ex : csr_exact exP /\ no_dup_pos (csr_entries exP) /\ holds (obj (MCsr exQ)) (MCsr exQ) /\ source_ok false (MCsr exQ) /\ no_dup_pos (stored (MCsr exQ)) /\
  shift_matrix (fun _ _ => 0) (fun _ _ => 0) false false conv_init (obj (MCsr exP)) (obj (MCsr exQ)) 2 = Ok (LIS_SUCCESS, obj (MCsr (mkCsr 2 2 3 [0; 2; 3] [0; 1; 1] [-9; 2; -9]))).
Proof.
  split; [repeat split|]. split; [unfold no_dup_pos; vm_compute; repeat constructor; cbn; intuition congruence|]. split; [repeat split|]. split; [split; [repeat split|discriminate]|].
  split; [unfold no_dup_pos; vm_compute; repeat constructor; cbn; intuition congruence|]. reflexivity.
Qed.
(** A in any other format is left as it is, whatever sigma and B: the converted matrix is
    handed to an object that already holds one, and lis_matrix_set_* then does nothing *)
Theorem C63_shift_matrix_other_types : forall (T : Type) (S : Scalar T) J JV blkA blkB cA (A A' B : mobj T) m sigma err, holds A m -> amat_type m <> 1 ->
  shift_matrix J JV blkA blkB cA A B sigma = Ok (err, A') -> A' = A.
Proof.
  intros T S J JV blkA blkB cA A A' B m sigma err (A1 & A2 & A3 & A4 & A5 & A6) Ht E.
  assert (NS : forall m', store m' A = (LIS_SUCCESS, A)).
  { intros m'. unfold store, set_mat. rewrite A4. assert (X : amat_type m =? MNULL = false) by (destruct m; reflexivity). rewrite X. unfold assemble. rewrite A4.
    assert (X1 : amat_type m =? DECIDING_SIZE = false) by (destruct m; reflexivity). assert (X2 : amat_type m <? 0 = false) by (destruct m; reflexivity). rewrite X1, X, X2. reflexivity. }
  unfold shift_matrix in E. destruct (unready B); [injection E as <- <-; auto|]. destruct (unready A); [discriminate|].
  destruct (convert _ _ _ _ _ A _) as [[e1 At]| |]; cbn [bind] in E; try discriminate. destruct (negb (e1 =? LIS_SUCCESS)); [injection E as <- <-; auto|].
  destruct (convert _ _ _ _ _ B _) as [[e2 Bt]| |]; cbn [bind] in E; try discriminate. destruct (negb (e2 =? LIS_SUCCESS)); [injection E as <- <-; auto|].
  destruct (ob_mat At) as [[| | | | | | | | | |a]|]; try discriminate. destruct (ob_mat Bt) as [[| | | | | | | | | |b]|]; try discriminate.
  destruct (axpy_dns _ _ _) as [v| |]; cbn [bind] in E; try discriminate.
  match type of E with bind ?c _ = _ => destruct c as [[e3 A2']| |] eqn:Ec end; cbn [bind] in E; try discriminate. injection E as <- <-.
  unfold convert in Ec. match type of Ec with (if ?b then _ else _) = _ => destruct b end; [injection Ec as <- <-; auto|].
  set (At' := put_mat At _) in Ec. 
  assert (K : forall At2 : mobj T, (ob_mat At2 = Some (MDns (mkDns (dns_n a) (dns_np a) v)) \/ exists X, ob_mat At2 = Some (MCsr X)) -> ob_split At2 = None ->
    (if (ob_type At2 =? ob_type A) && negb blkA then copy (J 40) (JV 40) At2 A else match ob_mat At2 with None => UB
      | Some (MCsr A0) => r <- from_csr J JV (ob_type A) cA false A0 ;; match r with None => Ok (LIS_ERR_NOT_IMPLEMENTED, A) | Some m => Ok (store m A) end
      | Some (MCsc A0) => if ob_type A =? 8 then (B0 <- Bsr.convert_csc2bsc (J 20) (J 21) (J 22) (J 23) (J 24) (JV 20) (cv_bnr cA) (cv_bnc cA) A0 ;; Ok (store (MBsc B0) A)) else
          (B0 <- to_csr J JV (MCsc A0) ;; let '(err, tmp) := store (MCsr B0) (duplicate At2) in if negb (err =? LIS_SUCCESS) then Ok (err, A) else if ob_type A =? 1 then Ok (LIS_SUCCESS, tmp)
            else (r <- from_csr J JV (ob_type A) cA false B0 ;; match r with None => Ok (LIS_ERR_NOT_IMPLEMENTED, A) | Some m => Ok (store m A) end))
      | Some m0 => (B0 <- to_csr J JV m0 ;; let '(err, tmp) := store (MCsr B0) (duplicate At2) in if negb (err =? LIS_SUCCESS) then Ok (err, A) else if ob_type A =? 1 then Ok (LIS_SUCCESS, tmp)
            else (r <- from_csr J JV (ob_type A) cA false B0 ;; match r with None => Ok (LIS_ERR_NOT_IMPLEMENTED, A) | Some m => Ok (store m A) end)) end) = Ok (e3, A2') -> A2' = A).
  { intros At2 HM HS H. assert (T1 : ob_type A =? 1 = false) by (rewrite A3; apply Z.eqb_neq; auto). rewrite T1 in H.
    assert (CP : forall r, copy (J 40) (JV 40) At2 A = Ok r -> snd r = A).
    { intros r Hr. unfold copy in Hr. destruct ((ob_status At2 <=? 0) && (0 <? ob_n At2)); [injection Hr as <-; auto|]. rewrite HS in Hr.
      assert (F : forall m', finish (set_mat m' A) = A).
      { intros m'. unfold finish. pose proof (NS m') as N. unfold store in N. destruct (assemble (set_mat m' A)) as [e B0]. destruct (e =? LIS_SUCCESS); congruence. }
      destruct HM as [HM|[X HM]]; rewrite HM in Hr; (destruct (copy_elements _ _ _) as [m'| |]; cbn [bind] in Hr; try discriminate; injection Hr as <-; cbn [snd]; apply F). }
    destruct ((ob_type At2 =? ob_type A) && negb blkA); [apply (CP _ H)|].
    destruct HM as [HM|[X HM]]; rewrite HM in H.
    - destruct (to_csr _ _ _) as [B0| |]; cbn [bind] in H; try discriminate. destruct (store (MCsr B0) (duplicate At2)) as [e4 tmp]. destruct (negb (e4 =? LIS_SUCCESS)); [injection H as <- <-; auto|].
      destruct (from_csr _ _ _ _ _ _) as [[m'|]| |]; cbn [bind] in H; try discriminate; [rewrite NS in H|]; injection H as <- <-; auto.
    - destruct (from_csr _ _ _ _ _ _) as [[m'|]| |]; cbn [bind] in H; try discriminate; [rewrite NS in H|]; injection H as <- <-; auto. }
  destruct (ob_split At') as [P|] eqn:EP.
  - destruct (Split.merge_csr _ _ _ P) as [X| |]; cbn [bind] in Ec; try discriminate. symmetry. symmetry. apply (K (mkObj (ob_status At') (ob_type At') (ob_n At') (ob_np At') (Some (MCsr X)) None)); [right; exists X; reflexivity|reflexivity|exact Ec].
  - cbn [bind] in Ec. apply (K At'); [left; reflexivity|exact EP|exact Ec].
Qed.
Print Assumptions C63_shift_matrix_other_types.
(** with LIS_SUCCESS: A = diag(1,1) in CSC storage minus 1 * B, B = diag(5,7), stays diag(1,1) *)
Definition exD : csc Z := mkCsc 2 2 2 [0; 1; 2] [0; 1] [1; 1].
Theorem C63_shift_matrix_refuted : exists (A B : mobj Z) (ma mb : amat Z), holds A ma /\ amat_ok ma /\ no_dup_pos (amat_entries ma) /\ holds B mb /\ amat_ok mb /\ no_dup_pos (amat_entries mb) /\ amat_n mb = amat_n ma /\ amat_np mb = amat_np ma /\
  (forall J JV, shift_matrix J JV false false conv_init A B 1 = Ok (LIS_SUCCESS, A)) /\ ~ minus_multiple 1 (amat_entries ma) (amat_entries mb) (amat_entries ma).
Proof.
  exists (obj (MCsc exD)), (obj (MCsr exQ)), (MCsc exD), (MCsr exQ). split; [repeat split|]. split.
  { unfold amat_ok, csc_ok, ptr_ok. repeat match goal with |- _ /\ _ => split end; try (vm_compute; intuition congruence); intros k Hk; assert (K : k = 0 \/ k = 1) by (cbv -[Z.le Z.lt] in Hk; lia); destruct K as [-> | ->]; vm_compute; intuition congruence. }
  split; [unfold no_dup_pos; vm_compute; repeat constructor; cbn; intuition congruence|]. split; [repeat split|]. split.
  { unfold amat_ok, csr_ok, ptr_ok. repeat match goal with |- _ /\ _ => split end; try (vm_compute; intuition congruence); intros k Hk; assert (K : k = 0 \/ k = 1) by (cbv -[Z.le Z.lt] in Hk; lia); destruct K as [-> | ->]; vm_compute; intuition congruence. }
  split; [unfold no_dup_pos; vm_compute; repeat constructor; cbn; intuition congruence|]. split; [reflexivity|]. split; [reflexivity|]. split; [intros; vm_compute; reflexivity|].
  intro H. specialize (H 0 0). vm_compute in H. discriminate.
Qed.
Print Assumptions C63_shift_matrix_refuted.
