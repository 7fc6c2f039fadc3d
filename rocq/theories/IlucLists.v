(** The linked lists of the Crout factorisation (Iluc.v). *)
Require Import ZArith List Bool Lia.
From Verif Require Import Base.
Import ListNotations.
Open Scope Z_scope.

(** the list starting at h, following pl, is l *)
Fixpoint chain (pl : list Z) (h : Z) (l : list Z) : Prop :=
  match l with [] => h < 0 | i :: l' => h = i /\ 0 <= i /\ chain pl (znth 0 pl i) l' end.

Lemma chain_upd pl h l x v : 0 <= x < zlen pl -> ~ In x l -> (forall i, In i l -> 0 <= i < zlen pl) -> chain pl h l -> chain (zupd pl x v) h l.
Proof.
  intros Hx. revert h. induction l as [|i l IH]; intros h Hn Hr H; cbn [chain] in *; [exact H|].
  destruct H as (H1 & H2 & H3). split; [exact H1|]. split; [exact H2|].
  rewrite znth_zupd_neq; [apply IH; auto|exact Hx|].
  - intros C. apply Hn. right. exact C.
  - intros j Hj. apply Hr. right. exact Hj.
  - intros C. apply Hn. left. exact C.
Qed.

Definition rising (ix : list Z) : Prop := forall a b, 0 <= a < b -> b < zlen ix -> znth 0 ix a < znth 0 ix b.

(** rows [0,m) of a factor, pointers pc past column k (at column k for the rows in [rest]); for j>k
    the list of j holds the rows, not in [rest], whose pointer is at column j *)
Definition lists (n m k : Z) (Lx : list (list Z)) (pc pl : list Z) (rest : list Z) : Prop :=
  zlen pc = n /\ zlen pl = n /\
  (forall i, 0 <= i < m -> 0 <= znth 0 pc i <= zlen (znth [] Lx i) /\
     (forall t, 0 <= t < znth 0 pc i -> znth 0 (znth [] Lx i) t <= k) /\
     (~ In i rest -> forall t, znth 0 pc i <= t < zlen (znth [] Lx i) -> k < znth 0 (znth [] Lx i) t)) /\
  NoDup rest /\ (forall i, In i rest -> 0 <= i < m /\ znth 0 pc i < zlen (znth [] Lx i) /\ znth 0 (znth [] Lx i) (znth 0 pc i) = k) /\
  exists lst, forall j, k < j < n -> chain pl (znth 0 pl j) (lst j) /\ NoDup (lst j) /\
    forall i, In i (lst j) <-> 0 <= i < m /\ ~ In i rest /\ znth 0 pc i < zlen (znth [] Lx i) /\ znth 0 (znth [] Lx i) (znth 0 pc i) = j.

(** the pointers at i>=m do not matter *)
Lemma lists_ext n m k Lx pc pc' pl rest : zlen pc' = n -> (forall i, 0 <= i < m -> znth 0 pc' i = znth 0 pc i) ->
  lists n m k Lx pc pl rest -> lists n m k Lx pc' pl rest.
Proof.
  intros Hn He (L1 & L2 & L3 & L4 & L5 & lst & L6). split; [exact Hn|]. split; [exact L2|]. split; [|split; [exact L4|split]].
  - intros i Hi. rewrite He by exact Hi. apply L3. exact Hi.
  - intros i Hi. destruct (L5 i Hi) as (A & B). rewrite He by exact A. split; assumption.
  - exists lst. intros j Hj. destruct (L6 j Hj) as (A & B & C). split; [exact A|]. split; [exact B|].
    intros i. rewrite C. split; intros (D1 & D2 & D3); [rewrite He by exact D1|rewrite He in D3 by exact D1]; auto.
Qed.

(** column k is next: its list becomes [rest] *)
Lemma lists_start n m k Lx pc pl : 0 <= k < n -> (forall i, 0 <= i < m -> rising (znth [] Lx i)) -> lists n m (k - 1) Lx pc pl [] ->
  exists l, chain pl (znth 0 pl k) l /\ lists n m k Lx pc pl l.
Proof.
  intros Hk HR (L1 & L2 & L3 & L4 & L5 & lst & L6). exists (lst k). destruct (L6 k ltac:(lia)) as (A & B & C).
  split; [exact A|]. split; [exact L1|]. split; [exact L2|]. split; [|split; [exact B|split]].
  - intros i Hi. destruct (L3 i Hi) as (D1 & D2 & D3). split; [exact D1|]. split; [intros t Ht; specialize (D2 t Ht); lia|].
    intros HN t Ht. specialize (D3 ltac:(auto) t Ht). assert (D0 := L3 i Hi). destruct D0 as (_ & _ & D0). specialize (D0 ltac:(auto) (znth 0 pc i) ltac:(lia)).
    destruct (Z.eq_dec (znth 0 (znth [] Lx i) (znth 0 pc i)) k) as [E|E].
    + exfalso. apply HN. apply C. split; [exact Hi|]. split; [auto|]. split; [lia|exact E].
    + destruct (Z.eq_dec t (znth 0 pc i)) as [->|Nt]; [lia|]. pose proof (HR i Hi (znth 0 pc i) t ltac:(lia) ltac:(lia)). lia.
  - intros i Hi. apply C in Hi. destruct Hi as (D1 & D2 & D3 & D4). auto.
  - exists lst. intros j Hj. destruct (L6 j ltac:(lia)) as (A' & B' & C'). split; [exact A'|]. split; [exact B'|].
    intros i. rewrite C'. split.
    + intros (D1 & D2 & D3 & D4). split; [exact D1|]. split; [|split; assumption]. intros HI. apply C in HI. destruct HI as (_ & _ & _ & E). lia.
    + intros (D1 & D2 & D3 & D4). split; [exact D1|]. split; [auto|split; assumption].
Qed.

(** one row of [rest]: advance its pointer, put it on the list of its next column *)
Lemma lists_step n m k Lx pc pl i l : 0 <= m <= k -> k < n ->
  (forall i, 0 <= i < m -> rising (znth [] Lx i) /\ forall c, In c (znth [] Lx i) -> c < n) ->
  chain pl i (i :: l) -> lists n m k Lx pc pl (i :: l) ->
  let ii := znth 0 pc i in let ix := znth [] Lx i in let pc' := zupd pc i (ii + 1) in
  (ii + 1 < zlen ix -> let kk := znth 0 ix (ii + 1) in let pl' := zupd (zupd pl i (znth 0 pl kk)) kk i in
     k < kk < n /\ chain pl' (znth 0 pl i) l /\ lists n m k Lx pc' pl' l) /\
  (zlen ix <= ii + 1 -> chain pl (znth 0 pl i) l /\ lists n m k Lx pc' pl l).
Proof.
  intros Hm Hk HR HC (L1 & L2 & L3 & L4 & L5 & lst & L6). cbv zeta. set (ii := znth 0 pc i). set (ix := znth [] Lx i). set (pc' := zupd pc i (ii + 1)).
  destruct (L5 i ltac:(left; reflexivity)) as (Hi & Hii & Hik). fold ii ix in Hii, Hik.
  destruct (HR i Hi) as (HR1 & HR2). fold ix in HR1, HR2.
  destruct (L3 i Hi) as (P1 & P2 & _). fold ii ix in P1, P2.
  apply NoDup_cons_iff in L4. destruct L4 as (Nl & Nd).
  assert (Lpc : zlen pc' = n) by (unfold pc'; rewrite zlen_zupd; exact L1).
  assert (PC : forall x, 0 <= x < m -> znth 0 pc' x = if x =? i then ii + 1 else znth 0 pc x).
  { intros x Hx. unfold pc'. destruct (Z.eqb_spec x i) as [->|N]; [apply znth_zupd_eq; lia|apply znth_zupd_neq; lia]. }
  cbn [chain] in HC. destruct HC as (_ & _ & HC).
  assert (RestR : forall x, In x l -> 0 <= x < m) by (intros x Hx; apply (L5 x); right; exact Hx).
  assert (C1 : forall x, 0 <= x < m -> 0 <= znth 0 pc' x <= zlen (znth [] Lx x) /\
     (forall t, 0 <= t < znth 0 pc' x -> znth 0 (znth [] Lx x) t <= k) /\
     (~ In x l -> forall t, znth 0 pc' x <= t < zlen (znth [] Lx x) -> k < znth 0 (znth [] Lx x) t)).
  { intros x Hx. rewrite PC by exact Hx. destruct (Z.eqb_spec x i) as [->|N].
    - fold ix. split; [lia|]. split.
      + intros t Ht. destruct (Z.eq_dec t ii) as [->|]; [lia|]. apply P2. lia.
      + intros _ t Ht. pose proof (HR1 ii t ltac:(lia) ltac:(lia)). lia.
    - destruct (L3 x Hx) as (A & B & C). split; [exact A|]. split; [exact B|]. intros HN. apply C. intros [E|E]; [congruence|contradiction]. }
  assert (C2 : forall x, In x l -> 0 <= x < m /\ znth 0 pc' x < zlen (znth [] Lx x) /\ znth 0 (znth [] Lx x) (znth 0 pc' x) = k).
  { intros x Hx. destruct (L5 x ltac:(right; exact Hx)) as (A & B & C). rewrite PC by exact A. destruct (Z.eqb_spec x i) as [->|N]; [contradiction|]. auto. }
  split.
  - intros Hlt. set (kk := znth 0 ix (ii + 1)). set (pl' := zupd (zupd pl i (znth 0 pl kk)) kk i).
    assert (Hkk : k < kk < n). { split; [unfold kk; pose proof (HR1 ii (ii + 1) ltac:(lia) ltac:(lia)); lia|]. apply HR2. apply znth_In. lia. }
    split; [exact Hkk|].
    assert (CH : forall h l0, (forall x, In x l0 -> 0 <= x < m) -> ~ In i l0 -> chain pl h l0 -> chain pl' h l0).
    { intros h l0 H1 H2 H3. unfold pl'. apply chain_upd; [rewrite zlen_zupd; lia|intros C; specialize (H1 _ C); lia|intros x Hx; rewrite zlen_zupd; specialize (H1 _ Hx); lia|].
      apply chain_upd; [lia|exact H2|intros x Hx; specialize (H1 _ Hx); lia|exact H3]. }
    split; [apply CH; assumption|].
    split; [exact Lpc|]. split; [unfold pl'; rewrite !zlen_zupd; lia|]. split; [exact C1|]. split; [exact Nd|]. split; [exact C2|].
    exists (fun j => if j =? kk then i :: lst j else lst j). intros j Hj. destruct (L6 j ltac:(lia)) as (A & B & C).
    assert (NI : ~ In i (lst j)) by (intros H; apply C in H; destruct H as (_ & H & _); apply H; left; reflexivity).
    assert (LR : forall x, In x (lst j) -> 0 <= x < m) by (intros x H; apply C in H; tauto).
    destruct (Z.eqb_spec j kk) as [->|N].
    + split; [|split].
      * cbn [chain]. split; [unfold pl'; rewrite znth_zupd_eq by (rewrite zlen_zupd; lia); reflexivity|]. split; [lia|].
        assert (E : znth 0 pl' i = znth 0 pl kk). { unfold pl'. rewrite znth_zupd_neq by (rewrite ?zlen_zupd; lia). apply znth_zupd_eq. lia. }
        rewrite E. apply CH; assumption.
      * constructor; assumption.
      * intros x. cbn [In]. rewrite C. split.
        -- intros [<-|(D1 & D2 & D3 & D4)].
           ++ rewrite PC by exact Hi. rewrite Z.eqb_refl. fold ix. split; [exact Hi|]. split; [exact Nl|]. split; [exact Hlt|reflexivity].
           ++ rewrite PC by exact D1. destruct (Z.eqb_spec x i) as [->|N]; [exfalso; apply D2; left; reflexivity|]. split; [exact D1|]. split; [intros H; apply D2; right; exact H|]. auto.
        -- intros (D1 & D2 & D3 & D4). rewrite PC in D3, D4 by exact D1. destruct (Z.eqb_spec x i) as [->|N]; [left; reflexivity|]. right.
           split; [exact D1|]. split; [intros [H|H]; [congruence|contradiction]|]. auto.
    + split; [|split; [exact B|]].
      * assert (E : znth 0 pl' j = znth 0 pl j). { unfold pl'. rewrite !znth_zupd_neq by (rewrite ?zlen_zupd; lia). reflexivity. }
        rewrite E. apply CH; assumption.
      * intros x. rewrite C. split.
        -- intros (D1 & D2 & D3 & D4). rewrite PC by exact D1. destruct (Z.eqb_spec x i) as [->|N']; [exfalso; apply D2; left; reflexivity|]. split; [exact D1|]. split; [intros H; apply D2; right; exact H|]. auto.
        -- intros (D1 & D2 & D3 & D4). rewrite PC in D3, D4 by exact D1. destruct (Z.eqb_spec x i) as [->|N']; [exfalso; fold ix kk in D4; congruence|].
           split; [exact D1|]. split; [intros [H|H]; [congruence|contradiction]|]. auto.
  - intros Hge. split; [exact HC|]. split; [exact Lpc|]. split; [lia|]. split; [exact C1|]. split; [exact Nd|]. split; [exact C2|].
    exists lst. intros j Hj. destruct (L6 j Hj) as (A & B & C). split; [exact A|]. split; [exact B|].
    intros x. rewrite C. split.
    + intros (D1 & D2 & D3 & D4). rewrite PC by exact D1. destruct (Z.eqb_spec x i) as [->|N']; [exfalso; apply D2; left; reflexivity|]. split; [exact D1|]. split; [intros H; apply D2; right; exact H|]. auto.
    + intros (D1 & D2 & D3 & D4). rewrite PC in D3, D4 by exact D1. destruct (Z.eqb_spec x i) as [->|N']; [exfalso; fold ix in D3; lia|].
      split; [exact D1|]. split; [intros [H|H]; [congruence|contradiction]|]. auto.
Qed.

(** the new row k *)
Lemma lists_enter n k Lx pc pl rx : 0 <= k < n -> k < zlen Lx -> rising rx -> (forall c, In c rx -> k < c < n) -> znth 0 pc k = 0 ->
  lists n k k Lx pc pl [] ->
  let Lx' := zupd Lx k rx in
  (0 < zlen rx -> let jj := znth 0 rx 0 in k < jj < n /\ lists n (k + 1) k Lx' pc (zupd (zupd pl k (znth 0 pl jj)) jj k) []) /\
  (zlen rx = 0 -> lists n (k + 1) k Lx' pc pl []).
Proof.
  intros Hk HL HR HI H0 (L1 & L2 & L3 & L4 & L5 & lst & L6). cbv zeta. set (Lx' := zupd Lx k rx).
  assert (RX : forall i, 0 <= i < k + 1 -> znth [] Lx' i = if i =? k then rx else znth [] Lx i).
  { intros i Hi. unfold Lx'. destruct (Z.eqb_spec i k) as [->|N]; [apply znth_zupd_eq; lia|apply znth_zupd_neq; lia]. }
  assert (C1 : forall i, 0 <= i < k + 1 -> 0 <= znth 0 pc i <= zlen (znth [] Lx' i) /\
     (forall t, 0 <= t < znth 0 pc i -> znth 0 (znth [] Lx' i) t <= k) /\
     (~ In i [] -> forall t, znth 0 pc i <= t < zlen (znth [] Lx' i) -> k < znth 0 (znth [] Lx' i) t)).
  { intros i Hi. rewrite RX by exact Hi. destruct (Z.eqb_spec i k) as [->|N]; [|apply L3; lia]. rewrite H0.
    split; [pose proof (zlen_nonneg rx); lia|]. split; [intros t Ht; lia|]. intros _ t Ht. apply HI. apply znth_In. exact Ht. }
  assert (LR : forall j, k < j < n -> forall x, In x (lst j) -> 0 <= x < k) by (intros j Hj x Hx; destruct (L6 j Hj) as (_ & _ & C); apply C in Hx; tauto).
  split.
  - intros Hl. set (jj := znth 0 rx 0). assert (Hjj : k < jj < n) by (apply HI; apply znth_In; lia). split; [exact Hjj|].
    set (pl' := zupd (zupd pl k (znth 0 pl jj)) jj k).
    assert (CH : forall h l0, (forall x, In x l0 -> 0 <= x < k) -> chain pl h l0 -> chain pl' h l0).
    { intros h l0 H1 H3. unfold pl'. apply chain_upd; [rewrite zlen_zupd; lia|intros C; specialize (H1 _ C); lia|intros x Hx; rewrite zlen_zupd; specialize (H1 _ Hx); lia|].
      apply chain_upd; [lia|intros C; specialize (H1 _ C); lia|intros x Hx; specialize (H1 _ Hx); lia|exact H3]. }
    split; [exact L1|]. split; [unfold pl'; rewrite !zlen_zupd; lia|]. split; [exact C1|]. split; [constructor|]. split; [intros i []|].
    exists (fun j => if j =? jj then k :: lst j else lst j). intros j Hj. destruct (L6 j Hj) as (A & B & C).
    destruct (Z.eqb_spec j jj) as [->|N].
    + split; [|split].
      * cbn [chain]. split; [unfold pl'; rewrite znth_zupd_eq by (rewrite zlen_zupd; lia); reflexivity|]. split; [lia|].
        assert (E : znth 0 pl' k = znth 0 pl jj). { unfold pl'. rewrite znth_zupd_neq by (rewrite ?zlen_zupd; lia). apply znth_zupd_eq. lia. }
        rewrite E. apply CH; [apply LR; exact Hj|exact A].
      * constructor; [|exact B]. intros H. apply (LR jj Hj) in H. lia.
      * intros x. cbn [In]. rewrite C. split.
        -- intros [<-|(D1 & D2 & D3 & D4)].
           ++ rewrite RX by lia. rewrite Z.eqb_refl, H0. split; [lia|]. split; [auto|]. split; [lia|reflexivity].
           ++ rewrite RX by lia. destruct (Z.eqb_spec x k); [lia|]. split; [lia|auto].
        -- intros (D1 & D2 & D3 & D4). rewrite RX in D3, D4 by lia. destruct (Z.eqb_spec x k) as [->|N]; [left; reflexivity|]. right. split; [lia|auto].
    + split; [|split; [exact B|]].
      * assert (E : znth 0 pl' j = znth 0 pl j). { unfold pl'. rewrite !znth_zupd_neq by (rewrite ?zlen_zupd; lia). reflexivity. }
        rewrite E. apply CH; [apply LR; exact Hj|exact A].
      * intros x. rewrite C. split.
        -- intros (D1 & D2 & D3 & D4). rewrite RX by lia. destruct (Z.eqb_spec x k); [lia|]. split; [lia|auto].
        -- intros (D1 & D2 & D3 & D4). rewrite RX in D3, D4 by lia. destruct (Z.eqb_spec x k) as [->|N']; [exfalso; rewrite H0 in D4; unfold jj in N; congruence|]. split; [lia|auto].
  - intros Hl. split; [exact L1|]. split; [exact L2|]. split; [exact C1|]. split; [constructor|]. split; [intros i []|].
    exists lst. intros j Hj. destruct (L6 j Hj) as (A & B & C). split; [exact A|]. split; [exact B|].
    intros x. rewrite C. split.
    + intros (D1 & D2 & D3 & D4). rewrite RX by lia. destruct (Z.eqb_spec x k); [lia|]. split; [lia|auto].
    + intros (D1 & D2 & D3 & D4). rewrite RX in D3, D4 by lia. destruct (Z.eqb_spec x k) as [->|N']; [exfalso; lia|]. split; [lia|auto].
Qed.
