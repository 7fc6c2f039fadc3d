(** C41 (local column numbers), C42 (distributed products).
    [to_global], [increasing], [row_blocks], [distributed], [global_entries], [part_of]: SpecMpi.v;
    [mv_spec], [mvh_spec]: Spec.v; the message passing: Net.v; the program of a process: Mpi.v. *)
Require Import ZArith List Bool Lia.
From Verif Require Import Base Scalar Spec Matvec Mpi SpecMpi Net NetProof MpiFinal.
Import ListNotations.
Open Scope Z_scope.

Ltac cz := vm_compute; repeat split; first [discriminate | reflexivity | (intros; discriminate)].

(** ** C41 *)
Theorem C41_g2l_csr junk n gn lo hi ptr index : 0 <= lo <= hi -> hi <= gn -> n = hi - lo ->
  ptr_ok n ptr -> znth 0 ptr n <= zlen index -> (forall k, 0 <= k < znth 0 ptr n -> 0 <= znth 0 index k < gn) ->
  exists index' np l2g, g2l_csr junk n gn lo hi ptr index = Ok (index', np, l2g) /\
    np = n + zlen l2g /\ increasing l2g /\
    (forall g, In g l2g <-> (g < lo \/ hi <= g) /\ exists k, 0 <= k < znth 0 ptr n /\ znth 0 index k = g) /\
    (forall k, 0 <= k < znth 0 ptr n -> 0 <= znth 0 index' k < np /\ to_global lo n l2g (znth 0 index' k) = znth 0 index k) /\
    (forall l l', 0 <= l < np -> 0 <= l' < np -> to_global lo n l2g l = to_global lo n l2g l' -> l = l').
Proof. exact (g2l_csr_final junk n gn lo hi ptr index). Qed.
Print Assumptions C41_g2l_csr.
(** rows 2..3 of a matrix of order 6 *)
Example C41_g2l_csr_ex : ptr_ok 2 [0; 3; 5] /\ g2l_csr (fun _ => 77) 2 6 2 4 [0; 3; 5] [5; 2; 0; 3; 5] = Ok ([3; 0; 2; 1; 3], 4, [0; 5]).
Proof. split; [|reflexivity]. repeat split; try cz. intros i Hi. assert (i = 0 \/ i = 1) as [->| ->] by lia; cz. Qed.

Theorem C41_g2l_rco junk n gn lo hi w_row w_index : 0 <= lo <= hi -> hi <= gn -> n = hi - lo ->
  n <= zlen w_row -> n <= zlen w_index ->
  (forall i, 0 <= i < n -> 0 <= znth 0 w_row i <= zlen (znth [] w_index i)) ->
  (forall i j, 0 <= i < n -> 0 <= j < znth 0 w_row i -> 0 <= znth 0 (znth [] w_index i) j < gn) ->
  exists w' np l2g, g2l_rco junk n gn lo hi w_row w_index = Ok (w', np, l2g) /\
    np = n + zlen l2g /\ increasing l2g /\
    (forall g, In g l2g <-> (g < lo \/ hi <= g) /\ exists i j, 0 <= i < n /\ 0 <= j < znth 0 w_row i /\ znth 0 (znth [] w_index i) j = g) /\
    (forall i j, 0 <= i < n -> 0 <= j < znth 0 w_row i ->
       0 <= znth 0 (znth [] w' i) j < np /\ to_global lo n l2g (znth 0 (znth [] w' i) j) = znth 0 (znth [] w_index i) j) /\
    (forall l l', 0 <= l < np -> 0 <= l' < np -> to_global lo n l2g l = to_global lo n l2g l' -> l = l').
Proof. exact (g2l_rco_final junk n gn lo hi w_row w_index). Qed.
Print Assumptions C41_g2l_rco.
(** the second row list has spare room *)
Example C41_g2l_rco_ex : g2l_rco (fun _ => 77) 2 6 2 4 [3; 2] [[5; 2; 0]; [3; 5; 99]] = Ok ([[3; 0; 2]; [1; 3; 99]], 4, [0; 5]).
Proof. reflexivity. Qed.

(** ** C42.  P processes with their blocks of rows call lis_matrix_assemble and then any sequence of
    lis_matvec ([op k = true]) and lis_matvech.  Whatever the order in which messages travel and
    processes run (and whether sends are buffered, [eager]):
    - no process crashes ([o] is never [None]);
    - a process that has finished round k+2 holds its rows of the k-th product;
    - from every reachable state all processes can still be brought to any round (no deadlock).
    [slack = None] makes the read of import_index[0] from an empty array undefined: then every process
    must import something. *)
Theorem C42_distributed_products {T} {S : Scalar T} (RT : is_ring S) (ijunk : Z -> Z) (vjunk : Z -> T) (slack : option Z) (P gn : Z) (ranges : list Z) (A : Z -> csr T)
    (op : nat -> bool) (X Y : nat -> Z -> list T) (G : nat -> Z -> T) (eager : nat -> Z -> bool) :
  distributed P gn ranges A ->
  (forall k, op k = false -> conj_ok S) ->
  (forall k p, 0 <= p < P -> part_of (znth 0 ranges p) (csr_n (A p)) (G k) (X k p) /\ csr_n (A p) <= zlen (Y k p)) ->
  (slack <> None \/ forall p, 0 <= p < P -> exists e, In e (csr_entries (A p)) /\ (ecol e < znth 0 ranges p \/ znth 0 ranges (p + 1) <= ecol e)) ->
  exists s0, (forall p, 0 <= p < P -> prepare ijunk P gn ranges p (A p) = Ok (s0 p)) /\
  forall o, reach P (partners P) (message vjunk op X Y) (digest ijunk vjunk slack P ranges op X Y) eager (initial (partners P) s0) o ->
  exists c, o = Some c /\
    (forall p, 0 <= p < P ->
       let done := p_round (c_proc c p) in let out := s_out (p_st (c_proc c p)) in
       zlen out = Z.of_nat (done - 2) /\
       forall k i, (k + 2 < done)%nat -> 0 <= i < csr_n (A p) ->
         csr_n (A p) <= zlen (nth k out []) /\
         znth Scalar.s0 (nth k out []) i = (if op k then mv_spec else mvh_spec) (global_entries P ranges A) gn (G k) (znth 0 ranges p + i)) /\
    forall R, exists c', reach P (partners P) (message vjunk op X Y) (digest ijunk vjunk slack P ranges op X Y) eager c (Some c') /\
      forall p, 0 <= p < P -> (R <= p_round (c_proc c' p))%nat.
Proof. exact (run_final RT ijunk vjunk slack P gn ranges A op X Y G eager). Qed.
Print Assumptions C42_distributed_products.

(** two processes, rows {0} and {1,2}, both importing:  [[1 0 2] [3 4 0] [0 0 5]] *)
Definition exA (p : Z) : csr Z :=
  if p =? 0 then mkCsr 1 3 2 [0; 2] [0; 2] [1; 2] else mkCsr 2 3 3 [0; 2; 3] [0; 1; 2] [3; 4; 5].
Example C42_ex : distributed 2 3 [0; 1; 3] exA /\
  global_entries 2 [0; 1; 3] exA = [(0, 0, 1); (0, 2, 2); (1, 0, 3); (1, 1, 4); (2, 2, 5)] /\
  (forall p, 0 <= p < 2 -> exists e, In e (csr_entries (exA p)) /\ (ecol e < znth 0 [0; 1; 3] p \/ znth 0 [0; 1; 3] (p + 1) <= ecol e)) /\
  part_of 0 1 (fun g => 10 + g) [10] /\ part_of 1 2 (fun g => 10 + g) [11; 12].
Proof.
  assert (C2 : forall p : Z, 0 <= p < 2 -> p = 0 \/ p = 1) by lia.
  assert (Ok0 : csr_ok (exA 0)).
  { repeat split; try cz.
    - intros i Hi. cbn in Hi. assert (i = 0) as -> by lia. cz.
    - cbn in H. assert (k = 0 \/ k = 1) as [->| ->] by lia; cz.
    - cbn in H. assert (k = 0 \/ k = 1) as [->| ->] by lia; cz. }
  assert (Ok1 : csr_ok (exA 1)).
  { repeat split; try cz.
    - intros i Hi. cbn in Hi. assert (i = 0 \/ i = 1) as [->| ->] by lia; cz.
    - cbn in H. assert (k = 0 \/ k = 1 \/ k = 2) as [->|[->| ->]] by lia; cz.
    - cbn in H. assert (k = 0 \/ k = 1 \/ k = 2) as [->|[->| ->]] by lia; cz. }
  split; [|split; [reflexivity|split; [|split]]].
  - split.
    + split; [lia|]. split; [reflexivity|]. split; [reflexivity|]. split; [reflexivity|]. intros p Hp. destruct (C2 p Hp) as [->| ->]; cz.
    + intros p Hp. destruct (C2 p Hp) as [->| ->]; (split; [assumption|split; reflexivity]).
  - intros p Hp. destruct (C2 p Hp) as [->| ->].
    + exists (0, 2, 2). split; [vm_compute; auto|]. right. cz.
    + exists (0, 0, 3). split; [vm_compute; auto|]. left. cz.
  - split; [cz|]. intros i Hi. assert (i = 0) as -> by lia. reflexivity.
  - split; [cz|]. intros i Hi. assert (i = 0 \/ i = 1) as [->| ->] by lia; reflexivity.
Qed.

(** Without the assumption on [slack] the claim fails: a process that imports nothing (here: the only
    process) reads the first element of an empty array. *)
Definition exB (p : Z) : csr Z := mkCsr 1 1 1 [0; 1] [0] [5].
Theorem C42_empty_import_refuted :
  distributed 1 1 [0; 1] exB /\ part_of 0 1 (fun _ => 7) [7] /\
  exists s0, prepare (fun _ => 0) 1 1 [0; 1] 0 (exB 0) = Ok (s0 0) /\
    reach 1 (partners 1) (message (fun _ => 0) (fun _ => true) (fun _ _ => [7]) (fun _ _ => [0]))
      (digest (fun _ => 0) (fun _ => 0) None 1 [0; 1] (fun _ => true) (fun _ _ => [7]) (fun _ _ => [0])) (fun _ _ => true)
      (initial (partners 1) s0) None.
Proof.
  split; [|split].
  - split.
    + split; [lia|]. split; [reflexivity|]. split; [reflexivity|]. split; [reflexivity|]. intros p Hp. assert (p = 0) as -> by lia. cz.
    + intros p Hp. assert (p = 0) as -> by lia. split; [|split; reflexivity]. repeat split; try cz.
      * intros i Hi. cbn in Hi. assert (i = 0) as -> by lia. cz.
      * cbn in H. assert (k = 0) as -> by lia. cz.
      * cbn in H. assert (k = 0) as -> by lia. cz.
  - split; [cz|]. intros i Hi. assert (i = 0) as -> by lia. reflexivity.
  - assert (F : forall St Msg P pa me di ea (c c1 : @config St Msg) o, step P pa me di ea c (Some c1) -> reach P pa me di ea c1 o -> reach P pa me di ea c o).
    { intros. eapply reach_trans; [eapply reach_step; [apply reach_refl|eassumption]|assumption]. }
    exists (fun _ => mkPst (exB 0) [] [0] [] [] [] [] []). split; [reflexivity|].
    eapply F.
    { refine (step_send _ _ _ _ _ _ 0 0 _ _ _ _ _); [lia|vm_compute; reflexivity|reflexivity|vm_compute; reflexivity]. }
    eapply F.
    { refine (step_recv _ _ _ _ _ _ 0 0 0 _ _ _ _ _ _ _ _); [lia|reflexivity|vm_compute; split; [discriminate|reflexivity]|reflexivity|reflexivity|reflexivity]. }
    eapply F.
    { refine (step_finish _ _ _ _ _ _ 0 _ _ _ _ _ _ _); [lia|reflexivity|vm_compute; reflexivity|left; reflexivity|vm_compute; reflexivity]. }
    eapply F.
    { refine (step_finish _ _ _ _ _ _ 0 _ _ _ _ _ _ _); [lia|reflexivity|vm_compute; reflexivity|left; reflexivity|vm_compute; reflexivity]. }
    eapply reach_step; [apply reach_refl|].
    refine (step_finish_crash _ _ _ _ _ _ 0 _ _ _ _ _); [lia|reflexivity|vm_compute; reflexivity|]. intros s'. vm_compute. discriminate.
Qed.
Print Assumptions C42_empty_import_refuted.
