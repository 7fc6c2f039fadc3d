(** Walking a linked list of the Crout factorisation. *)
Require Import ZArith List Bool Lia Ring.
From Verif Require Import Base Scalar Spec SpecIlu Sort Csc Split Ilu IluProof IluProof2 Ilut SainvMath SainvStep Iluc IlucLists IlucAcc.
Import ListNotations.
Open Scope Z_scope.

(** a while loop that consumes a list known only to the proof *)
Lemma while_list {X} (I : X -> list Z -> Prop) (cond : X -> res bool) (body : X -> res X) (Q : X -> Prop) :
  (forall x, I x [] -> cond x = Ok false /\ Q x) ->
  (forall x i l, I x (i :: l) -> cond x = Ok true /\ wp (body x) (fun x' => I x' l)) ->
  forall l fuel x, (length l < fuel)%nat -> I x l -> wp (while_ fuel cond body x) Q.
Proof.
  intros H0 H1. induction l as [|i l IH]; intros fuel x Hf Hx; (destruct fuel as [|fuel]; [cbn in Hf; lia|]); cbn [while_].
  - destruct (H0 x Hx) as (E & HQ). rewrite E. cbn [bind]. apply wp_ok. exact HQ.
  - destruct (H1 x i l Hx) as (E & HB). rewrite E. cbn [bind]. apply wp_bind. eapply wp_mono; [exact HB|]. intros x' Hx'. apply IH; [cbn in Hf; lia|exact Hx'].
Qed.

Section P.
Context {T : Type} {S : Scalar T}.
Hypothesis RT : is_ring S.
Let RT' : @ring_theory T s0 s1 sadd smul ssub sopp (@eq T) := RT.
Add Ring TrIlucE : RT'.
Notation wrow := (wrow (T:=T)).

(** the stored rows [0,m) of a factor *)
Definition rows_ok (n m : Z) (Lx : list (list Z)) (Lv : list (list T)) : Prop :=
  zlen Lx = n /\ zlen Lv = n /\ forall i, 0 <= i < m ->
    rising (znth [] Lx i) /\ (forall c, In c (znth [] Lx i) -> i < c < n) /\ zlen (znth [] Lv i) = zlen (znth [] Lx i).

(** element (i,c) of a factor stored by rows *)
Definition fel (Lx : list (list Z)) (Lv : list (list T)) (i c : Z) : T := row_at (znth [] Lx i) (znth [] Lv i) c.

Lemma rising_distinct ix : rising ix -> distinct_row ix.
Proof. intros H. apply increasing_distinct. exact H. Qed.

Lemma wlist_wp (skip : bool) n k Lx Lv Ux Uv pc pl f cols (s : wrow) : 0 <= k < n ->
  rows_ok n k Lx Lv -> rows_ok n k Ux Uv -> lists n k (k - 1) Lx pc pl [] -> acc n k f cols s ->
  (forall i, 0 <= i < k -> let p := znth 0 (w_c s) i in let ix := znth [] Ux i in 0 <= p <= zlen ix /\ (forall t, 0 <= t < p -> znth 0 ix t <= k) /\
     (forall t, p <= t < zlen ix -> if skip then k <= znth 0 ix t else k < znth 0 ix t)) ->
  wp (wlist skip n k Lx Lv Ux Uv pc pl s) (fun r => let '(s', pc', pl') := r in
    exists cols', acc n k (fun c => ssub (f c) (ssum (map (fun i => smul (fel Lx Lv i k) (fel Ux Uv i c)) (zrange 0 k)))) cols' s' /\ same_low k s s' /\
      lists n k k Lx pc' pl' [] /\ forall i, k <= i < n -> znth 0 pc' i = znth 0 pc i).
Proof.
  intros Hk (RL1 & RL2 & RL) (RU1 & RU2 & RU) HLS HA HP. unfold wlist.
  assert (Lpl : zlen pl = n) by (apply HLS). wrd 0; [lia|].
  destruct (lists_start n k k Lx pc pl Hk (fun i Hi => proj1 (RL i Hi)) HLS) as (l0 & CH0 & LS0).
  assert (RLl : forall i, 0 <= i < k -> rising (znth [] Lx i) /\ forall c, In c (znth [] Lx i) -> c < n).
  { intros i Hi. destruct (RL i Hi) as (A & B & _). split; [exact A|]. intros c Hc. apply B in Hc. lia. }
  set (part := fun l c => ssub (f c) (ssum (map (fun i => if in_dec Z.eq_dec i l then s0 else smul (fel Lx Lv i k) (fel Ux Uv i c)) (zrange 0 k)))).
  wbind.
  apply (while_list (fun q l => let '(i, s1, pc1, pl1) := q in chain pl1 i l /\ lists n k k Lx pc1 pl1 l /\
     (exists cols1, acc n k (part l) cols1 s1) /\ same_low k s s1 /\ (forall i, k <= i < n -> znth 0 pc1 i = znth 0 pc i)) ) with (l := l0).
  - intros [[[i s1] pc1] pl1] (C1 & C2 & (cols1 & C3) & C4 & C5). cbn [chain] in C1. split; [f_equal; apply Z.leb_gt; exact C1|].
    apply wp_ok. exists cols1. split; [|auto]. eapply acc_ext; [|exact C3]. intros c Hc. unfold part. f_equal. 
  - intros [[[i s1] pc1] pl1] i' l (C1 & C2 & (cols1 & C3) & C4 & C5). pose proof C1 as C1'. cbn [chain] in C1'. destruct C1' as (<- & Hi0 & _).
    split; [f_equal; apply Z.leb_le; exact Hi0|].
    pose proof (lists_step n k k Lx pc1 pl1 i l ltac:(lia) ltac:(lia) RLl C1 C2) as HST. cbv zeta in HST.
    pose proof C2 as (D1 & D2 & D3 & D4 & D5 & _). destruct (D5 i ltac:(left; reflexivity)) as (Hi & Hii & Hik).
    destruct (RL i Hi) as (Q1 & Q2 & Q3). destruct (RU i Hi) as (U1 & U2 & U3). destruct (D3 i Hi) as (Hpc & _).
    pose proof C3 as (A1 & A2 & A3 & _).
    wrd 0; [lia|]. wrd 0; [lia|]. wrd (@nil Z); [lia|]. wrd (@nil T); [lia|]. wrd s0; [lia|]. wrd (@nil Z); [lia|]. wrd (@nil T); [lia|].
    set (ii := znth 0 pc1 i) in *. set (lx := znth [] Lx i) in *. set (val := znth s0 (znth [] Lv i) ii).
    assert (EV : val = fel Lx Lv i k). { unfold val, fel. fold lx. rewrite <- Hik. symmetry. apply row_at_in; [exact RT|exact Q3|apply rising_distinct; exact Q1|lia]. }
    specialize (HP i Hi). cbv zeta in HP. rewrite <- C4 in HP by lia. destruct HP as (P1 & P2 & P3).
    wbind. eapply wp_mono; [apply (wsub_wp RT skip n k (znth 0 (w_c s1) i) val (znth [] Ux i) (znth [] Uv i) (part (i :: l)) cols1 s1 Hk C3 U3 P1 P2)|].
    { intros t Ht. split; [apply P3; exact Ht|]. apply U2. apply znth_In. lia. }
    intros s2 (cols2 & B1 & B2). wwr; [lia|]. 
    assert (AC : acc n k (part l) cols2 s2).
    { eapply acc_ext; [|exact B1]. intros c Hc. cbv beta. unfold part. rewrite EV. fold (fel Ux Uv i c).
      assert (HNl : ~ In i l) by (apply NoDup_cons_iff in D4; tauto).
      assert (E : ssum (map (fun i0 => if in_dec Z.eq_dec i0 l then s0 else smul (fel Lx Lv i0 k) (fel Ux Uv i0 c)) (zrange 0 k)) =
        sadd (ssum (map (fun i0 => if in_dec Z.eq_dec i0 (i :: l) then s0 else smul (fel Lx Lv i0 k) (fel Ux Uv i0 c)) (zrange 0 k))) (smul (fel Lx Lv i k) (fel Ux Uv i c))).
      { transitivity (sadd (ssum (map (fun i0 => if in_dec Z.eq_dec i0 (i :: l) then s0 else smul (fel Lx Lv i0 k) (fel Ux Uv i0 c)) (zrange 0 k)))
          (ssum (map (fun i0 => if i0 =? i then smul (fel Lx Lv i k) (fel Ux Uv i c) else s0) (zrange 0 k)))).
        - rewrite <- (ssum_map_add RT). apply ssum_map_ext. intros q Hq.
          destruct (Z.eqb_spec q i) as [->|Nq]; destruct (in_dec Z.eq_dec _ (i :: l)) as [I1|I1]; destruct (in_dec Z.eq_dec _ l) as [I2|I2];
            try contradiction; try (exfalso; apply I1; left; reflexivity); try (exfalso; apply I1; right; exact I2); try ring.
          exfalso. destruct I1 as [E|E]; [congruence|contradiction].
        - f_equal. assert (E1 : ssum (map (fun i0 => if i0 =? i then smul (fel Lx Lv i k) (fel Ux Uv i c) else s0) (zrange 0 k)) =
            (if i =? i then smul (fel Lx Lv i k) (fel Ux Uv i c) else s0)).
          { apply (sum_one RT (fun i0 => if i0 =? i then smul (fel Lx Lv i k) (fel Ux Uv i c) else s0)); [exact Hi|].
            intros q Hq Hn. destruct (Z.eqb_spec q i); [contradiction|reflexivity]. }
          rewrite E1, Z.eqb_refl. reflexivity. }
      rewrite E. ring. }
    assert (SL : same_low k s s2). { intros q Hq. rewrite B2 by exact Hq. apply C4. exact Hq. }
    assert (FR : forall q, k <= q < n -> znth 0 (zupd pc1 i (ii + 1)) q = znth 0 pc q).
    { intros q Hq. rewrite znth_zupd_neq by lia. apply C5. exact Hq. }
    destruct HST as (HS1 & HS2). destruct (Z.ltb_spec (ii + 1) (zlen lx)) as [Hlt|Hge].
    + destruct (HS1 Hlt) as (E1 & E2 & E3). wrd 0; [lia|]. wrd 0; [lia|]. wrd 0; [lia|]. wwr; [lia|]. wwr; [rewrite zlen_zupd; lia|].
      apply wp_ok. split; [exact E2|]. split; [exact E3|]. split; [exists cols2; exact AC|]. split; [exact SL|exact FR].
    + destruct (HS2 Hge) as (E2 & E3). wrd 0; [lia|]. apply wp_ok. split; [exact E2|]. split; [exact E3|]. split; [exists cols2; exact AC|]. split; [exact SL|exact FR].
  - destruct LS0 as (_ & _ & _ & ND & IN & _).
    assert (H : (length l0 <= length (zrange 0 k))%nat).
    { apply NoDup_incl_length; [exact ND|]. intros c Hc. apply In_zrange. destruct (IN c Hc) as (A & _). lia. }
    pose proof (zlen_zrange 0 k) as HL. unfold zlen in HL. lia.
  - split; [exact CH0|]. split; [exact LS0|]. split; [|split; [intros q Hq; reflexivity|intros q Hq; reflexivity]].
    exists cols. eapply acc_ext; [|exact HA]. intros c Hc. unfold part.
    transitivity (ssub (f c) s0); [ring|]. f_equal. symmetry. apply (sum_zero RT). intros q Hq.
    destruct (in_dec Z.eq_dec q l0) as [I1|I1]; [reflexivity|].
    assert (E0 : fel Lx Lv q k = s0); [|rewrite E0; ring].
    unfold fel. apply (row_at_out RT); [apply RL; exact Hq|]. intros t Ht EQ.
    destruct LS0 as (_ & _ & W3 & _). destruct HLS as (_ & _ & V3 & _).
    destruct (W3 q Hq) as (_ & _ & W). destruct (V3 q Hq) as (_ & V & _). specialize (W I1).
    destruct (Z.lt_ge_cases t (znth 0 pc q)) as [Hl|Hg]; [specialize (V t ltac:(lia)); lia|specialize (W t ltac:(lia)); lia].
Qed.
End P.
