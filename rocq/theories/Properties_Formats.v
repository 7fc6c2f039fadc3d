(** C17 - C23: conversions between CSR and the unblocked formats.  The meaning of
    the formats ([*_entries], [*_ok], [same_entries], [coef]) is in Spec.v.
    The functions j* are the unknown contents of freshly allocated memory: the
    results hold whatever they are.  "= Ok B" says that no access is out of bounds. *)
Require Import ZArith List Bool Lia Permutation.
From Verif Require Import Base Scalar Spec Sort Csc Coo CooProof Dns Ell Msr Dia Jad Fmt ConvFinal FmtFinal.
Import ListNotations.
Open Scope Z_scope.

(** in exact arithmetic, the same entries mean the same coefficients *)
Theorem C17_C26_same_coefficients : forall (T : Type) (S : Scalar T), is_ring S -> eqb_ok S ->
  forall (E F : list (entry T)) i j, same_entries E F -> coef E i j = coef F i j.
Proof. exact @coef_same. Qed.
Print Assumptions C17_C26_same_coefficients.

(** a 3 x 3 matrix used in the examples below:  [5 0 7; 0 3 0; 2 0 4] *)
Definition exA : csr Z := mkCsr 3 3 5 [0;2;3;5] [0;2;1;0;2] [5;7;3;2;4].
Ltac small := intros; repeat match goal with H : 0 <= ?k < _ |- _ => cbn in H end;
  match goal with k : Z |- _ => first
    [ assert (k = 0) by lia | assert (k = 0 \/ k = 1) by lia | assert (k = 0 \/ k = 1 \/ k = 2) by lia
    | assert (k = 0 \/ k = 1 \/ k = 2 \/ k = 3) by lia | assert (k = 0 \/ k = 1 \/ k = 2 \/ k = 3 \/ k = 4) by lia] end;
  repeat match goal with H : _ \/ _ |- _ => destruct H end; subst; vm_compute; intuition congruence.
Ltac csr_ok_tac := unfold csr_ok, ptr_ok; repeat match goal with |- _ /\ _ => split end; try (vm_compute; intuition congruence); small.
Lemma exA_ok : csr_ok exA.
Proof. csr_ok_tac. Qed.
Lemma exA_nodup : no_dup_pos (csr_entries exA).
Proof. unfold no_dup_pos. vm_compute. repeat constructor; simpl; intuition congruence. Qed.

(** ** C17: CSC *)
Theorem C17_csr2csc : forall (T : Type) (S : Scalar T) jp ji jw jv (A : csr T), csr_ok A ->
  exists B, convert_csr2csc jp ji jw jv A = Ok B /\ csc_ok B /\
    csc_n B = csr_n A /\ csc_np B = csr_np A /\ csc_nnz B = csr_nnz A /\
    Permutation (csc_entries B) (csr_entries A) /\
    csc_entries B = flat_map (fun c => filter (fun e => ecol e =? c) (csr_entries A)) (zrange 0 (csr_np A)).
Proof. exact @csr2csc_final. Qed.
Print Assumptions C17_csr2csc.

Theorem C17_csc2csr : forall (T : Type) (S : Scalar T) jp ji jw jv (A : csc T), csc_ok A ->
  exists B, convert_csc2csr jp ji jw jv A = Ok B /\ csr_ok B /\
    csr_n B = csc_n A /\ csr_np B = csc_np A /\ csr_nnz B = csc_nnz A /\
    Permutation (csr_entries B) (csc_entries A) /\
    csr_entries B = flat_map (fun r => filter (fun e => erow e =? r) (csc_entries A)) (zrange 0 (csc_n A)).
Proof. exact @csc2csr_final. Qed.
Print Assumptions C17_csc2csr.

Example C17_ex : csr_ok exA /\
  convert_csr2csc (fun _ => 99) (fun _ => 99) (fun _ => 99) (fun _ => 99) exA
  = Ok (mkCsc 3 3 5 [0;2;3;5] [0;2;1;0;2] [5;2;3;7;4]).
Proof. split; [exact exA_ok|vm_compute; reflexivity]. Qed.

(** ** C18: COO *)
Theorem C18_csr2coo : forall (T : Type) (S : Scalar T) jr jc jv (A : csr T), csr_ok A ->
  exists B, convert_csr2coo jr jc jv A = Ok B /\ coo_ok B /\
    coo_n B = csr_n A /\ coo_np B = csr_np A /\ coo_nnz B = csr_nnz A /\
    coo_entries B = csr_entries A.
Proof. exact @csr2coo_final. Qed.
Print Assumptions C18_csr2coo.

(** the input's triplets are sorted in place: they stay the same triplets *)
Theorem C18_coo2csr : forall (T : Type) (S : Scalar T) jp ji jv (A : coo T), coo_ok A -> coo_exact A ->
  exists B A', convert_coo2csr jp ji jv A = Ok (B, A') /\ csr_ok B /\
    csr_n B = coo_n A /\ csr_np B = coo_np A /\ csr_nnz B = coo_nnz A /\
    Permutation (csr_entries B) (coo_entries A) /\
    Permutation (coo_entries A') (coo_entries A).
Proof. exact @coo2csr_final. Qed.
Print Assumptions C18_coo2csr.

Example C18_ex : coo_ok (mkCoo 3 3 4 [2;0;1;0] [0;2;1;0] [9;7;3;5]) /\ coo_exact (mkCoo 3 3 4 [2;0;1;0] [0;2;1;0] [9;7;3;5]) /\
  convert_coo2csr (fun _ => 99) (fun _ => 99) (fun _ => 99) (mkCoo 3 3 4 [2;0;1;0] [0;2;1;0] [9;7;3;5])
  = Ok (mkCsr 3 3 4 [0;2;3;4] [2;0;1;0] [7;5;3;9], mkCoo 3 3 4 [0;0;1;2] [2;0;1;0] [7;5;3;9]).
Proof.
  split; [|split; [split; reflexivity|vm_compute; reflexivity]].
  unfold coo_ok. repeat match goal with |- _ /\ _ => split end; try (vm_compute; intuition congruence). small.
Qed.

(** ** C19: MSR *)
(** every row with a stored diagonal element *)
Theorem C19_csr2msr : forall (T : Type) (S : Scalar T) jw ji jv (A : csr T), csr_ok A -> no_dup_pos (csr_entries A) ->
  (forall i, 0 <= i < csr_n A -> exists v, In (i, i, v) (csr_entries A)) ->
  exists B, convert_csr2msr jw ji jv A = Ok B /\ msr_ok B /\ msr_n B = csr_n A /\ msr_np B = csr_np A /\ msr_nnz B = csr_nnz A /\
    Permutation (msr_entries B) (csr_entries A).
Proof. exact @csr2msr_full_final. Qed.
Print Assumptions C19_csr2msr.

(** in general, a row without one gets the uninitialised value[i] as diagonal *)
Theorem C19_csr2msr_missing : forall (T : Type) (S : Scalar T) jw ji jv (A : csr T), csr_ok A -> no_dup_pos (csr_entries A) ->
  exists B, convert_csr2msr jw ji jv A = Ok B /\ msr_ok B /\ msr_n B = csr_n A /\ msr_np B = csr_np A /\ msr_nnz B = csr_nnz A /\
    Permutation (msr_entries B) (csr_entries A ++
        map (fun i => (i, i, jv i)) (filter (fun i => negb (has_diag (csr_entries A) i)) (zrange 0 (csr_n A)))).
Proof. exact @csr2msr_final. Qed.
Print Assumptions C19_csr2msr_missing.

(** so the coefficient of the converted matrix is not that of A *)
Theorem C19_csr2msr_refuted : exists (A : csr Z), csr_ok A /\ no_dup_pos (csr_entries A) /\ coef (csr_entries A) 1 1 = 0 /\
  forall junk : Z, exists B, convert_csr2msr (fun _ => 0) (fun _ => 0) (fun _ => junk) A = Ok B /\ coef (msr_entries B) 1 1 = junk.
Proof.
  exists (mkCsr 2 2 2 [0;1;2] [0;0] [5;6]). split; [csr_ok_tac|]. split.
  { unfold no_dup_pos. vm_compute. repeat constructor; simpl; intuition congruence. }
  split; [reflexivity|]. intros junk. eexists. split; [vm_compute; reflexivity|].
  vm_compute. destruct junk; reflexivity.
Qed.
Print Assumptions C19_csr2msr_refuted.

(** back to CSR: correct when the header's nnz counts exactly the off-diagonal
    entries and the non-zero diagonal ones *)
Theorem C19_msr2csr : forall (T : Type) (S : Scalar T) jp ji jv (A : msr T), msr_ok A -> msr_stored A = msr_nnz A ->
  exists B, convert_msr2csr jp ji jv A = Ok B /\ csr_ok B /\ csr_n B = msr_n A /\ csr_np B = msr_np A /\
    same_entries (csr_entries B) (msr_entries A).
Proof. exact @msr2csr_final. Qed.
Print Assumptions C19_msr2csr.

(** a matrix without stored diagonal whose MSR form has random non-zero
    diagonals needs more room than the nnz elements allocated *)
Theorem C19_msr2csr_overflow_refuted : exists (A : csr Z) (B : msr Z), csr_ok A /\ no_dup_pos (csr_entries A) /\
  convert_csr2msr (fun _ => 0) (fun _ => 0) (fun _ => 1) A = Ok B /\
  convert_msr2csr (fun _ => 0) (fun _ => 0) (fun _ => 0) B = UB.
Proof.
  exists (mkCsr 2 2 2 [0;1;2] [1;0] [5;6]). eexists. split; [csr_ok_tac|]. split.
  { unfold no_dup_pos. vm_compute. repeat constructor; simpl; intuition congruence. }
  split; [vm_compute; reflexivity|vm_compute; reflexivity].
Qed.
Print Assumptions C19_msr2csr_overflow_refuted.

(** an explicitly stored zero on the diagonal: the CSR matrix that comes back has
    ptr[n] < nnz, so it is not well formed *)
Theorem C19_roundtrip_zero_refuted : exists (A : csr Z) (B : msr Z) (C : csr Z), csr_ok A /\ no_dup_pos (csr_entries A) /\
  convert_csr2msr (fun _ => 0) (fun _ => 0) (fun _ => 0) A = Ok B /\
  convert_msr2csr (fun _ => 0) (fun _ => 0) (fun _ => 0) B = Ok C /\
  znth 0 (csr_ptr C) (csr_n C) < csr_nnz C /\ ~ csr_ok C.
Proof.
  exists (mkCsr 2 2 2 [0;1;2] [0;1] [0;6]). do 2 eexists. split; [csr_ok_tac|]. split.
  { unfold no_dup_pos. vm_compute. repeat constructor; simpl; intuition congruence. }
  split; [vm_compute; reflexivity|]. split; [vm_compute; reflexivity|]. split; [vm_compute; reflexivity|].
  intros (_ & _ & H & _). vm_compute in H. discriminate.
Qed.
Print Assumptions C19_roundtrip_zero_refuted.

Example C19_ex : csr_ok exA /\ no_dup_pos (csr_entries exA) /\
  (forall i, 0 <= i < csr_n exA -> exists v, In (i, i, v) (csr_entries exA)) /\
  convert_csr2msr (fun _ => 99) (fun _ => 99) (fun _ => 99) exA
  = Ok (mkMsr 3 3 5 0 [4;5;5;6;2;0] [5;3;4;99;7;2]) /\
  msr_stored (mkMsr 3 3 5 0 [4;5;5;6;2;0] [5;3;4;99;7;2]) = 5.
Proof.
  split; [exact exA_ok|]. split; [exact exA_nodup|]. split; [|split; vm_compute; reflexivity].
  intros i Hi. assert (K : i = 0 \/ i = 1 \/ i = 2) by (cbn in Hi; lia).
  destruct K as [->|[->| ->]]; eexists; vm_compute; auto 10.
Qed.

(** ** C20: ELL *)
Theorem C20_csr2ell : forall (T : Type) (S : Scalar T), eqb_zero S -> forall ji jv (A : csr T), csr_ok A ->
  exists B, convert_csr2ell ji jv A = Ok B /\ ell_ok B /\ ell_n B = csr_n A /\ ell_np B = csr_np A /\
    same_entries (ell_entries B) (csr_entries A).
Proof. exact @csr2ell_final. Qed.
Print Assumptions C20_csr2ell.

Theorem C20_ell2csr : forall (T : Type) (S : Scalar T) jw jp ji jv (A : ell T), ell_ok A ->
  exists B, convert_ell2csr jw jp ji jv A = Ok B /\ csr_ok B /\ csr_n B = ell_n A /\ csr_np B = ell_np A /\
    Permutation (csr_entries B) (nz (ell_entries A)).
Proof. exact @ell2csr_final. Qed.
Print Assumptions C20_ell2csr.

Example C20_ex : csr_ok exA /\ eqb_zero ScalarZ /\
  convert_csr2ell (fun _ => 99) (fun _ => 99) exA = Ok (mkEll 3 3 2 [0;1;0;2;1;2] [5;3;2;7;0;4]) /\
  convert_ell2csr (fun _ => 99) (fun _ => 99) (fun _ => 99) (fun _ => 99) (mkEll 3 3 2 [0;1;0;2;1;2] [5;3;2;7;0;4]) = Ok exA.
Proof. split; [exact exA_ok|]. repeat split; vm_compute; reflexivity. Qed.

(** ** C21: DNS *)
Theorem C21_csr2dns : forall (T : Type) (S : Scalar T), eqb_zero S -> forall jv (A : csr T), csr_ok A -> no_dup_pos (csr_entries A) ->
  exists B, convert_csr2dns jv A = Ok B /\ dns_ok B /\ dns_n B = csr_n A /\ dns_np B = csr_np A /\
    same_entries (dns_entries B) (csr_entries A).
Proof. exact @csr2dns_final. Qed.
Print Assumptions C21_csr2dns.

Theorem C21_dns2csr : forall (T : Type) (S : Scalar T) jp ji jv (A : dns T), dns_ok A ->
  exists B, convert_dns2csr jp ji jv A = Ok B /\ csr_ok B /\ csr_n B = dns_n A /\ csr_np B = dns_np A /\
    Permutation (csr_entries B) (nz (dns_entries A)).
Proof. exact @dns2csr_final. Qed.
Print Assumptions C21_dns2csr.

(** without that hypothesis the last of the duplicates wins, they are not summed
    as lis_matvec on the CSR matrix sums them *)
Theorem C21_csr2dns_duplicates_refuted : exists (A : csr Z) (B : dns Z), csr_ok A /\
  convert_csr2dns (fun _ => 0) A = Ok B /\ coef (csr_entries A) 0 0 = 3 /\ coef (dns_entries B) 0 0 = 2.
Proof.
  exists (mkCsr 1 1 2 [0;2] [0;0] [1;2]). eexists. split; [csr_ok_tac|]. repeat split; vm_compute; reflexivity.
Qed.
Print Assumptions C21_csr2dns_duplicates_refuted.

Example C21_ex : csr_ok exA /\ no_dup_pos (csr_entries exA) /\
  convert_csr2dns (fun _ => 99) exA = Ok (mkDns 3 3 [5;0;2;0;3;0;7;0;4]) /\
  convert_dns2csr (fun _ => 99) (fun _ => 99) (fun _ => 99) (mkDns 3 3 [5;0;2;0;3;0;7;0;4]) = Ok exA.
Proof. split; [exact exA_ok|]. split; [exact exA_nodup|]. split; vm_compute; reflexivity. Qed.

(** ** C22: DIA *)
(** [flag] is the is_sorted flag of the input *)
Theorem C22_csr2dia : forall (T : Type) (S : Scalar T), eqb_zero S -> forall jw ji jv flag (A : csr T),
  csr_ok A -> csr_exact A -> csr_np A = csr_n A -> 0 < csr_nnz A -> (flag = true -> rows_sorted A) -> no_dup_pos (csr_entries A) ->
  exists B A', convert_csr2dia jw ji jv flag A = Ok (B, A') /\ dia_ok B /\ dia_n B = csr_n A /\
     same_entries (dia_entries B) (csr_entries A) /\ csr_ok A' /\ Permutation (csr_entries A') (csr_entries A).
Proof. exact @csr2dia_final. Qed.
Print Assumptions C22_csr2dia.

Theorem C22_dia2csr : forall (T : Type) (S : Scalar T) jw jp ji jv (A : dia T), dia_ok A ->
  exists B, convert_dia2csr jw jp ji jv A = Ok B /\ csr_ok B /\ csr_n B = dia_n A /\ csr_np B = dia_np A /\
    Permutation (csr_entries B) (nz (dia_entries A)).
Proof. exact @dia2csr_final. Qed.
Print Assumptions C22_dia2csr.

(** a matrix without any entry: iw[0] is read from an empty block *)
Theorem C22_csr2dia_empty_refuted : forall (T : Type) (S : Scalar T) jw ji jv flag,
  csr_ok (mkCsr 2 2 0 [0;0;0] [] ([] : list T)) /\
  convert_csr2dia jw ji jv flag (mkCsr 2 2 0 [0;0;0] [] ([] : list T)) = UB.
Proof. intros. split; [|destruct flag; reflexivity]. csr_ok_tac. Qed.
Print Assumptions C22_csr2dia_empty_refuted.

Example C22_ex : csr_ok exA /\ csr_exact exA /\ no_dup_pos (csr_entries exA) /\
  convert_csr2dia (fun _ => 99) (fun _ => 99) (fun _ => 99) false exA
  = Ok (mkDia 3 3 3 [-2;0;2;99;99;99;99;99;99] [0;0;2;5;3;4;7;0;0], exA).
Proof. split; [exact exA_ok|]. split; [reflexivity|]. split; [exact exA_nodup|]. vm_compute; reflexivity. Qed.

(** ** C23: JAD *)
Theorem C23_csr2jad : forall (T : Type) (S : Scalar T) jw jq jp ji jv (A : csr T), csr_ok A ->
  exists B, convert_csr2jad jw jq jp ji jv A = Ok B /\ jad_ok B /\ jad_n B = csr_n A /\ jad_np B = csr_np A /\ jad_nnz B = csr_nnz A /\
    Permutation (jad_entries B) (csr_entries A).
Proof. exact @csr2jad_final. Qed.
Print Assumptions C23_csr2jad.

Theorem C23_jad2csr : forall (T : Type) (S : Scalar T) jw jp ji jv (A : jad T), jad_ok A ->
  exists B, convert_jad2csr jw jp ji jv A = Ok B /\ csr_ok B /\ csr_n B = jad_n A /\ csr_np B = jad_np A /\ csr_nnz B = jad_nnz A /\
    Permutation (csr_entries B) (jad_entries A).
Proof. exact @jad2csr_final. Qed.
Print Assumptions C23_jad2csr.

Example C23_ex : csr_ok exA /\
  exists B, convert_csr2jad (fun _ => 99) (fun _ => 99) (fun _ => 99) (fun _ => 99) (fun _ => 99) exA = Ok B /\
    jad_perm B = [0;2;1] /\ jad_value B = [5;2;3;7;4] /\
    convert_jad2csr (fun _ => 99) (fun _ => 99) (fun _ => 99) (fun _ => 99) B = Ok exA.
Proof. split; [exact exA_ok|]. eexists. repeat split; vm_compute; reflexivity. Qed.

(** vectors are taken to JAD row order and back without loss *)
Theorem C23_vector_orders : forall (T : Type) (S : Scalar T) jt jt' n np perm (v : list T), 0 <= n <= np -> n <= zlen perm -> n <= zlen v ->
  Permutation (map (znth 0 perm) (zrange 0 n)) (zrange 0 n) ->
  exists t u, vector_sort_jad_order jt n np perm v = Ok t /\ vector_sort_ascending_order jt' n np perm t = Ok u /\
    zlen t = np /\ zlen u = np /\
    (forall i, 0 <= i < n -> znth s0 t i = znth s0 v (znth 0 perm i)) /\ (forall i, 0 <= i < n -> znth s0 u i = znth s0 v i).
Proof. exact @jad_orders_final. Qed.
Print Assumptions C23_vector_orders.
Example C23_vector_orders_ex : Permutation (map (znth 0 [2;0;1]) (zrange 0 3)) (zrange 0 3) /\
  vector_sort_jad_order (fun _ => 99) 3 3 [2;0;1] [10;20;30] = Ok [30;10;20] /\ vector_sort_ascending_order (fun _ => 99) 3 3 [2;0;1] [30;10;20] = Ok [10;20;30].
Proof. split; [|split; reflexivity]. change (Permutation [2;0;1] [0;1;2]). apply (Permutation_trans (l' := [0;2;1])); [apply perm_swap|apply perm_skip, perm_swap]. Qed.
