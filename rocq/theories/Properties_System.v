(** C01 block partition, C04 byte swapping, C05 hash table, C06 allocation registry,
    C07 option text.  Specifications: SpecSystem.v, SpecMemory.v, SpecArgs.v. *)
Require Import ZArith List Bool Lia Permutation.
From Verif Require Import Base System SpecSystem SystemProof Memory SpecMemory MemoryProof Args SpecArgs ArgsProof.
Import ListNotations.
Open Scope Z_scope.

(** ** C01.  The ranges LIS_GET_ISIE gives to ids 0..p-1 are consecutive, start at 0,
    end at n, and their sizes differ by at most one; so every row is in exactly one. *)
Theorem C01_isie_partition : forall p n, 0 < p -> 0 <= n ->
  exists lo hi, (forall id, 0 <= id < p -> get_isie id p n = Ok (lo id, hi id)) /\
    lo 0 = 0 /\ hi (p - 1) = n /\
    (forall id, 0 <= id < p - 1 -> hi id = lo (id + 1)) /\
    (forall id, 0 <= id < p -> lo id <= hi id) /\
    (forall a b, 0 <= a < p -> 0 <= b < p -> Z.abs ((hi a - lo a) - (hi b - lo b)) <= 1) /\
    (forall x, 0 <= x < n -> exists id, 0 <= id < p /\ lo id <= x < hi id /\
       forall id', 0 <= id' < p -> lo id' <= x < hi id' -> id' = id).
Proof.
  intros p n Hp Hn. exists (part_bound n p), (fun id => part_bound n p (id + 1)).
  split; [intros; apply get_isie_eq; lia|]. split; [apply part_bound_0; auto|].
  split; [replace (p - 1 + 1) with p by lia; apply part_bound_p; auto|]. split; [auto|].
  split; [intros id H; pose proof (part_bound_mono n p id (id + 1)); lia|].
  split. { intros a b Ha Hb. pose proof (part_bound_step n p a). pose proof (part_bound_step n p b). lia. }
  intros x Hx. destruct (find_part (part_bound n p) p x) as (k & Hk & Hin); [lia|rewrite part_bound_0; lia|rewrite part_bound_p; lia|].
  exists k. split; [auto|]. split; [auto|]. intros k' Hk' Hin'.
  destruct (Z.lt_trichotomy k' k) as [L|[E|L]]; [|auto|].
  - pose proof (part_bound_mono n p (k' + 1) k). lia.
  - pose proof (part_bound_mono n p (k + 1) k'). lia.
Qed.
Print Assumptions C01_isie_partition.

(** lis_ranges_create on every process: with a global size only, the LIS_GET_ISIE
    partition; with local sizes, consecutive ranges of exactly those sizes.  The table
    of range starts is the same on all processes and each process' own is..ie agrees
    with it. *)
Theorem C01_ranges : forall p gn ln, 0 < p -> 0 <= gn -> (forall r, 0 <= r < p -> 0 <= ln r) ->
  exists b : Z -> Z, b 0 = 0 /\ (forall r, 0 <= r < p -> b r <= b (r + 1)) /\
    ((forall r, 0 <= r < p -> ln r = 0) -> b p = gn /\ forall r, 0 <= r < p -> get_isie r p gn = Ok (b r, b (r + 1))) /\
    ((exists r, 0 <= r < p /\ 0 < ln r) -> forall r, 0 <= r < p -> b (r + 1) - b r = ln r) /\
    forall my, 0 <= my < p -> exists tr, ranges_create p gn ln my = Ok (b (my + 1) - b my, b p, b my, b (my + 1), tr) /\
      zlen tr = p + 1 /\ forall r, 0 <= r <= p -> znth 0 tr r = b r.
Proof.
  intros p gn ln Hp Hg Hl.
  assert (POS : forall k, 0 <= k -> k <= p -> 0 <= psum ln k /\ forall r, 0 <= r < k -> ln r <= psum ln k).
  { intros k Hk. pattern k. apply natlike_ind; [| |exact Hk].
    - intros _. rewrite psum_0. split; [lia|intros; lia].
    - clear k Hk. intros k Hk IH Hkp. unfold Z.succ in *. rewrite psum_succ by lia. destruct IH as (I1 & I2); [lia|].
      pose proof (Hl k ltac:(lia)). split; [lia|]. intros r Hr. destruct (Z.eq_dec r k); [subst; lia|]. pose proof (I2 r ltac:(lia)). lia. }
  exists (if psum ln p =? 0 then part_bound gn p else psum ln).
  split; [destruct (Z.eqb_spec (psum ln p) 0); [apply part_bound_0; auto|apply psum_0]|].
  split. { intros r Hr. destruct (Z.eqb_spec (psum ln p) 0); [apply part_bound_mono; lia|]. rewrite psum_succ by lia. pose proof (Hl r Hr). lia. }
  split.
  { intros H0. assert (E : psum ln p = 0).
    { assert (forall k, 0 <= k -> k <= p -> psum ln k = 0); [|apply H; lia]. intros k Hk. pattern k. apply natlike_ind; [| |exact Hk].
      - intros _. apply psum_0.
      - clear k Hk. intros k Hk IH Hkp. unfold Z.succ in *. rewrite psum_succ by lia. rewrite IH, H0 by lia. lia. }
    rewrite E. cbn [Z.eqb]. split; [apply part_bound_p; auto|]. intros; apply get_isie_eq; lia. }
  split.
  { intros (r0 & Hr0 & P0) r Hr. destruct (POS p) as (_ & I2); [lia|lia|]. pose proof (I2 r0 Hr0). destruct (Z.eqb_spec (psum ln p) 0); [lia|]. rewrite psum_succ by lia. lia. }
  intros my Hmy.
  destruct (wp_inv _ _ (ranges_create_wp p gn ln my (fun x => exists tr, x = ((if psum ln p =? 0 then part_bound gn p else psum ln) (my + 1) - (if psum ln p =? 0 then part_bound gn p else psum ln) my,
     (if psum ln p =? 0 then part_bound gn p else psum ln) p, (if psum ln p =? 0 then part_bound gn p else psum ln) my, (if psum ln p =? 0 then part_bound gn p else psum ln) (my + 1), tr) /\
      zlen tr = p + 1 /\ forall r, 0 <= r <= p -> znth 0 tr r = (if psum ln p =? 0 then part_bound gn p else psum ln) r) Hp Hg Hmy Hl
      ltac:(intros tr L H; exists tr; auto))) as (x & E & tr & Ex & L & H).
  exists tr. rewrite E, Ex. auto.
Qed.
Print Assumptions C01_ranges.

Example C01_ex : map (fun id => get_isie id 4 10) [0; 1; 2; 3] = [Ok (0, 3); Ok (3, 6); Ok (6, 8); Ok (8, 10)] /\
  ranges_create 3 10 (fun _ => 0) 1 = Ok (3, 10, 4, 7, [0; 4; 7; 10]) /\
  ranges_create 3 0 (fun r => r + 1) 1 = Ok (2, 6, 1, 3, [0; 1; 3; 6]).
Proof. vm_compute. auto. Qed.

(** ** C04.  Elements of k bytes: every element's bytes are reversed, the rest of the
    buffer stays, and a second application restores the buffer. *)
Definition reverses (k n : Z) (buf buf' : list Z) : Prop :=
  zlen buf' = zlen buf /\
  (forall i b, 0 <= i < n -> 0 <= b < k -> znth 0 buf' (i * k + b) = znth 0 buf (i * k + (k - 1 - b))) /\
  (forall q, n * k <= q -> znth 0 buf' q = znth 0 buf q).
Theorem C04_bswap : forall n buf, 0 <= n ->
  (n * 4 <= zlen buf -> exists b', bswap_int 4 n buf = Ok b' /\ reverses 4 n buf b' /\ bswap_int 4 n b' = Ok buf) /\
  (n * 8 <= zlen buf -> exists b', bswap_double n buf = Ok b' /\ reverses 8 n buf b' /\ bswap_double n b' = Ok buf) /\
  (n * 8 <= zlen buf -> exists b', bswap_scalar 8 n buf = Ok b' /\ reverses 8 n buf b' /\ bswap_scalar 8 n b' = Ok buf) /\
  (n * 8 <= zlen buf -> exists b', bswap_size_t n buf = Ok b' /\ reverses 8 n buf b' /\ bswap_size_t n b' = Ok buf).
Proof.
  intros n buf Hn.
  assert (G : forall k, 0 < k -> n * k <= zlen buf -> exists b', bswap k k n buf = Ok b' /\ reverses k n buf b' /\ bswap k k n b' = Ok buf).
  { intros k Hk Hl. destruct (bswap_twice k n buf Hk Hn Hl) as (b' & E1 & E2). exists b'. split; [auto|]. split; [|auto].
    destruct (wp_inv _ _ (bswap_wp k n buf (reverses k n buf) Hk Hn Hl ltac:(intros; unfold reverses; auto))) as (b2 & E3 & H).
    rewrite E1 in E3. inversion E3; subst. auto. }
  split; [intros; apply (G 4); lia|]. split; [intros; apply (G 8); lia|]. split; intros; apply (G 8); lia.
Qed.
Print Assumptions C04_bswap.
Example C04_ex : bswap_int 4 2 [1; 2; 3; 4; 5; 6; 7; 8; 9] = Ok [4; 3; 2; 1; 8; 7; 6; 5; 9].
Proof. vm_compute. auto. Qed.
(** With a 64-bit LIS_INT only half of each integer is swapped, and with a complex
    LIS_SCALAR only the real part. *)
Theorem C04_longlong_refuted : exists buf b', bswap_int 8 1 buf = Ok b' /\ ~ reverses 8 1 buf b'.
Proof. exists [1; 2; 3; 4; 5; 6; 7; 8], [4; 3; 2; 1; 5; 6; 7; 8]. split; [vm_compute; auto|]. intros (_ & H & _). specialize (H 0 0 ltac:(lia) ltac:(lia)). discriminate H. Qed.
Theorem C04_complex_refuted : exists buf b', bswap_scalar 16 1 buf = Ok b' /\ znth 0 b' 8 <> znth 0 buf 15.
Proof. exists (zrange 0 16), [7; 6; 5; 4; 3; 2; 1; 0; 8; 9; 10; 11; 12; 13; 14; 15]. split; [vm_compute; auto|]. vm_compute. discriminate. Qed.
Print Assumptions C04_longlong_refuted.
Print Assumptions C04_complex_refuted.

(** ** C05.  Any history of set_value and clear calls with non-negative keys *)
Theorem C05_hash : forall ops, Forall key_ok ops ->
  exists t, hash_run ops hash_create = Ok t /\
    forall k, 0 <= k -> hash_search t k = Ok (hash_spec ops k) /\
      hash_get t k = Ok (match hash_spec ops k with Some v => v | None => 0 end).
Proof. exact hash_history. Qed.
Print Assumptions C05_hash.
(** keys 5, 1026 and 2047 collide *)
Example C05_ex : let ops := [HSet 5 1; HSet 1026 2; HSet 5 3; HClear; HSet 2047 4; HSet 5 7; HSet 1026 8; HSet 5 9] in
  Forall key_ok ops /\ (t <- hash_run ops hash_create ;; a <- hash_get t 5 ;; b <- hash_get t 1026 ;; c <- hash_get t 2047 ;; d <- hash_get t 3068 ;; Ok (a, b, c, d)) = Ok (9, 8, 4, 0).
Proof. split; [repeat constructor; cbn; lia|]. vm_compute. auto. Qed.
(** A negative key that is not a multiple of the table size indexes before the table *)
Theorem C05_negative_refuted : forall t k v, k < 0 -> Z.rem k HASHTABLE_SIZE <> 0 -> hash_set t k v = UB /\ hash_get t k = UB.
Proof.
  intros t k v Hk Hr. assert (R : Z.rem k HASHTABLE_SIZE < 0).
  { pose proof (Z.rem_sign_mul k HASHTABLE_SIZE ltac:(discriminate)). unfold HASHTABLE_SIZE in *. nia. }
  unfold hash_get, hash_set, hash_search. rewrite rd_ub by lia. auto.
Qed.
Example C05_negative_ex : Z.rem (-1) HASHTABLE_SIZE <> 0. Proof. discriminate. Qed.
Print Assumptions C05_negative_refuted.

(** ** C06.  For every history in which the user frees and reallocates only live blocks
    and never shrinks one, whatever addresses the system returns: nothing undefined
    happens (so nothing is freed twice), lis_is_malloc is exactly "live", each user block
    lies inside a system block of its own and no other system block is left. *)
Theorem C06_registry_partial : forall ops, good_history ops [] mem_init ->
  exists s, mem_run ops mem_init = Ok s /\
    (forall p, lis_is_malloc p s = true <-> exists z, In (p, z) (user_blocks ops)) /\
    NoDup (map fst (user_blocks ops)) /\
    (forall p z, In (p, z) (user_blocks ops) -> exists b w, In (b, w) (m_sys s) /\ b <= p /\ p + z <= b + w) /\
    zlen (m_sys s) = zlen (user_blocks ops).
Proof. exact registry_correct. Qed.
Print Assumptions C06_registry_partial.
Definition mops : list mem_op := [MAlloc 1001 40; MAlloc 2000 8; MRealloc 3005 1008 80; MFree 2000].
Example C06_ex : good_history mops [] mem_init /\ user_blocks mops = [(3008, 80)] /\
  (s <- mem_run mops mem_init ;; Ok (lis_is_malloc 3008 s, lis_is_malloc 1008 s, lis_is_malloc 2000 s)) = Ok (true, false, false).
Proof.
  split; [|split; vm_compute; auto]. unfold mops. cbn [good_history].
  split; [split; [lia|]; split; [lia|]; split; [lia|]; intros b []|]. intros s E; injection E as <-. cbn.
  split; [split; [lia|]; split; [lia|]; split; [lia|]; intros b [<-|[]]; cbn; lia|]. intros s E; injection E as <-. cbn.
  split; [split; [exists 40; cbn; split; [auto|lia]|]; split; [lia|]; split; [lia|]; intros b [<-|[<-|[]]]; cbn; lia|].
  intros s E; vm_compute in E; injection E as <-. cbn. split; [exists 8; auto|auto].
Qed.
(** Shrinking copies the old size into the new block: a buffer overflow whenever the
    block loses more than the 16 bytes of slack. *)
Theorem C06_shrink_refuted : forall s base p r size, find_reg p (m_regs s) = Some r -> size + 16 < r_size r -> lis_realloc base p size s = UB.
Proof.
  intros s base p r size E H. unfold lis_realloc. rewrite E. cbv zeta. pose proof (align16_bound base).
  destruct (Z.ltb_spec (base + (size + 16)) (align16 base + r_size r)); [auto|lia].
Qed.
Example C06_shrink_ex : (s <- mem_run [MAlloc 1001 400] mem_init ;; lis_realloc 3000 1008 8 s) = UB.
Proof. vm_compute. auto. Qed.
(** lis_finalize empties the registry but frees nothing: every block that is live when it
    is called stays allocated. *)
Theorem C06_finalize_refuted : forall s, m_sys (lis_free_all s) = m_sys s /\ forall p, lis_is_malloc p (lis_free_all s) = false.
Proof. intros s. split; [auto|]. intros p. reflexivity. Qed.
Example C06_finalize_ex : (s <- mem_run [MAlloc 1001 400] mem_init ;; Ok (m_sys (lis_free_all s))) = Ok [(1001, 416)].
Proof. vm_compute. auto. Qed.
(** lis_realloc(NULL,size) returns a block that lis_is_malloc does not know *)
Theorem C06_realloc_null_refuted : forall base size, exists s, lis_realloc base 0 size mem_init = Ok (base, s) /\ lis_is_malloc base s = false.
Proof. intros. eexists. split; reflexivity. Qed.
Print Assumptions C06_shrink_refuted.
Print Assumptions C06_finalize_refuted.
Print Assumptions C06_realloc_null_refuted.

(** ** C07.  Any text without NUL of at most 1022 characters; j: unset stack bytes *)
Theorem C07_text2args : forall j t, Forall (fun c => c <> 0) t -> zlen t <= 1022 ->
  text2args j t = Ok (map lower_pair (two_by_two (words_of t))).
Proof. intros j t H. apply text2args_ok. intros c Hc. rewrite Forall_forall in H. apply H; auto. Qed.
Print Assumptions C07_text2args.
(** "-i BiCG  -p\tilu -tol" *)
Definition text1 : list Z := [45; 105; 32; 66; 105; 67; 71; 32; 32; 45; 112; 9; 105; 108; 117; 32; 45; 116; 111; 108].
Example C07_ex : Forall (fun c => c <> 0) text1 /\ zlen text1 <= 1022 /\
  text2args (fun _ => 7) text1 = Ok [([45; 105], [98; 105; 99; 103]); ([45; 112], [105; 108; 117])].
Proof. split; [repeat constructor; discriminate|]. split; [vm_compute; discriminate|]. vm_compute. auto. Qed.
Theorem C07_arg2args : forall prog l, arg2args (prog :: l) = Ok (map lower_pair (option_pairs l)).
Proof. exact arg2args_ok. Qed.
Print Assumptions C07_arg2args.
Example C07_arg_ex : arg2args [[97]; [120]; [45; 73]; [55]; [45; 112]] = Ok [([45; 105], [55])].
Proof. vm_compute. auto. Qed.
(** The buffer is 1024 bytes and the text is copied without a check *)
Theorem C07_long_text_refuted : forall j t, 1024 <= zlen t -> text2args j t = UB.
Proof. intros j t H. unfold text2args. destruct (Z.ltb_spec 1024 (zlen t + 1)); [auto|lia]. Qed.
Print Assumptions C07_long_text_refuted.
(** One that fits exactly is read one byte behind the buffer: "a " followed by 1021 b's *)
Definition text1023 : list Z := 97 :: 32 :: repeat 98 (Z.to_nat 1021).
Theorem C07_full_text_refuted : forall j, zlen text1023 = 1023 /\ text2args j text1023 = UB.
Proof. intros j. split; vm_compute; auto. Qed.
Print Assumptions C07_full_text_refuted.
