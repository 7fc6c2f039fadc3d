(** Proofs about Hb.v: records, header, the whole file. *)
Require Import ZArith List Bool Lia Ascii Permutation.
From Verif Require Import Base Items Scalar Spec Csc CscProof ConvFinal ConvertExact Split Copy SpecCopy Convert SpecConvert ConvertFinal Io IoProof IoFinal Hb SpecHb HbProof.
Import ListNotations.
Open Scope Z_scope.

Definition cell (w : nat) (s : chars) : Prop := length s = w /\ ~ In NUL s.
Lemma field_at pre s r (w : Z) : 0 <= w < 128 -> cell (Z.to_nat w) s -> (length (pre ++ s ++ r) <= 1024)%nat -> field (pre ++ s ++ r) (zlen pre) w = Ok s.
Proof.
  intros Hw [Hl Hn] HL. unfold field, zlen. rewrite !app_length in HL. destruct (Z.leb_spec 0 w); [|lia]. destruct (Z.ltb_spec w 128); [|lia]. destruct (Z.leb_spec 0 (Z.of_nat (length pre))); [|lia]. destruct (Z.leb_spec (Z.of_nat (length pre)) 1024); [|lia]. cbn [andb].
  rewrite Nat2Z.id, skipn_app, skipn_all, Nat.sub_diag. cbn [app skipn]. rewrite <- Hl. apply cstr_full; auto.
Qed.
Lemma fields_ok {X} (conv : chars -> X) (w : Z) : 0 <= w < 128 -> forall g pre r d t m, Forall (cell (Z.to_nat w)) g -> (length (pre ++ concat g ++ r) <= 1024)%nat ->
  (length g <= m)%nat -> (length g <= length t)%nat -> (length g = m \/ length g = length t) ->
  fields m w (zlen d + zlen t) conv (pre ++ concat g ++ r) (zlen pre) (zlen d) (d ++ t) = Ok (zlen d + zlen g, d ++ map conv g ++ skipn (length g) t).
Proof.
  intros Hw. induction g as [|s g IH]; intros pre r d t m Hg HL Hm Ht Hx.
  - cbn [length concat app map skipn] in *. replace (zlen d + zlen (@nil chars)) with (zlen d) by (unfold zlen; cbn; lia). destruct m; [reflexivity|]. destruct Hx as [Hx|Hx]; [discriminate|]. destruct t; [|discriminate]. cbn [fields].
    destruct (Z.ltb_spec (zlen d) (zlen d + zlen (@nil X))); [unfold zlen in *; cbn in *; lia|]. reflexivity.
  - inversion Hg as [|? ? Hs Hg']; subst. destruct m; [cbn in Hm; lia|]. destruct t as [|x t]; [cbn in Ht; lia|]. cbn [fields concat] in *.
    destruct (Z.ltb_spec (zlen d) (zlen d + zlen (x :: t))); [|unfold zlen in *; cbn in *; lia]. rewrite <- app_assoc in *. rewrite field_at by auto. cbn [bind]. rewrite wr_app. cbn [bind].
    specialize (IH (pre ++ s) r (d ++ [conv s]) t m Hg'). cbn [length] in Hm, Ht, Hx.
    assert (E1 : zlen (d ++ [conv s]) = zlen d + 1) by (unfold zlen; rewrite app_length; cbn; lia). assert (E2 : zlen (pre ++ s) = zlen pre + w) by (unfold zlen; rewrite app_length, (proj1 Hs); lia).
    rewrite E1, E2, <- !app_assoc in IH. cbn [app] in IH. replace (zlen d + zlen (x :: t)) with (zlen d + 1 + zlen t) by (unfold zlen; cbn [length]; lia).
    rewrite IH; auto; try lia. f_equal. f_equal. unfold zlen; cbn [length]; lia.
Qed.
Lemma records_ok {X} (conv : chars -> X) (w iter : Z) fs ls : 0 <= w < 128 -> laid (Z.to_nat iter) fs ls -> Forall (cell (Z.to_nat w)) fs -> Forall plain_line ls ->
  forall d t buf rest, length t = length fs -> length buf = 1024%nat ->
  exists buf', length buf' = 1024%nat /\ records (length ls) iter w (zlen d + zlen t) conv (ls ++ rest) buf (zlen d) (d ++ t) = Ok (buf', rest, zlen d + zlen t, d ++ map conv fs).
Proof.
  intros Hw HL. induction HL as [|g fs tail ls Hg HL IH]; intros Hc Hp d t buf rest Ht Hb.
  - destruct t; [|discriminate]. exists buf. split; [auto|]. cbn [length records map app]. replace (zlen d + zlen (@nil X)) with (zlen d) by (unfold zlen; cbn; lia). reflexivity.
  - apply Forall_app in Hc. destruct Hc as [Hc1 Hc2]. inversion Hp as [|? ? [Hl1 Hl2] Hp']; subst. rewrite app_length in Ht.
    destruct (gets_ok (concat g ++ tail) (ls ++ rest) buf Hl1 Hb) as (b' & E & Eb). cbn [length app records]. rewrite E. cbn [bind]. set (B := (concat g ++ tail) ++ NL :: NUL :: b') in *.
    assert (EB : B = [] ++ concat g ++ (tail ++ NL :: NUL :: b')) by (unfold B; rewrite <- app_assoc; reflexivity).
    pose proof (fields_ok conv w Hw g [] (tail ++ NL :: NUL :: b') d t (Z.to_nat iter) Hc1) as F. rewrite <- EB in F. change (zlen (@nil ascii)) with 0 in F.
    rewrite F; [|lia|destruct Hg as [Hg|[_ Hg]]; lia|lia|destruct Hg as [Hg|[Hg _]]; [left; auto|right; rewrite Hg in Ht; cbn in Ht; lia]].
    cbn [bind]. assert (Lg : zlen (map conv g) = zlen g) by (unfold zlen; rewrite map_length; reflexivity).
    destruct (IH Hc2 Hp' (d ++ map conv g) (skipn (length g) t) B rest) as (buf' & G1 & G2); [rewrite skipn_length; lia|auto|].
    assert (E1 : zlen (d ++ map conv g) = zlen d + zlen g) by (unfold zlen in *; rewrite app_length, map_length; lia).
    assert (E2 : zlen d + zlen g + zlen (skipn (length g) t) = zlen d + zlen t) by (unfold zlen; rewrite skipn_length; lia).
    rewrite E1, E2, <- !app_assoc in G2. exists buf'. split; [auto|]. rewrite G2. rewrite map_app. reflexivity.
Qed.
Lemma int_cell w s z p : int_field p w s z -> cell w s.
Proof.
  intros (k & ds & -> & H & _ & (_ & D & _)). split; [auto|]. apply not_in_app; [|apply digits_not_in; [auto|cbn; lia]]. intros X. apply repeat_spec in X. discriminate.
Qed.
Lemma int_read w fs zs : Forall2 (int_field 0 w) fs (map (fun p => p + 1) zs) -> map (fun d => atoi d - 1) fs = zs /\ Forall (cell w) fs.
Proof.
  revert zs. induction fs as [|s fs IH]; intros zs H; destruct zs as [|z zs]; cbn [map] in H; inversion H as [|? ? ? ? H1 H2]; subst; [split; [reflexivity|constructor]|].
  destruct (IH zs H2) as [E1 E2]. split; [|constructor; [eapply int_cell; eauto|auto]]. cbn [map]. rewrite E1. f_equal. destruct H1 as (k & ds & -> & _ & _ & Hn). rewrite (atoi_field k ds _ Hn). lia.
Qed.
Lemma fixed_no_nul t m f : fixed_text t m f -> ~ In NUL t.
Proof.
  intros (sg & neg & ip & fp & -> & Hs & Di & Df & _). apply not_in_app; [destruct Hs as [[-> _]|[[-> _]|[-> _]]]; nin|]. apply not_in_app; [apply digits_not_in; [auto|cbn; lia]|]. apply not_in_cons; [discriminate|]. apply digits_not_in; [auto|cbn; lia].
Qed.
Lemma exponent_no_nul c s x : exponent c s x -> c <> NUL -> ~ In NUL s.
Proof.
  intros (sg & neg & ds & z & -> & Hs & (_ & D & _) & _) Hc. apply not_in_cons; [auto|]. apply not_in_app; [destruct Hs as [[-> _]|[[-> _]|[-> _]]]; nin|apply digits_not_in; [auto|cbn; lia]].
Qed.
Lemma real_cell w s m e : real_field w s m e -> cell w s.
Proof.
  intros (k & t & ex & f & x & -> & H & Hf & _ & Hx). split; [auto|]. apply not_in_app; [intros X; apply repeat_spec in X; discriminate|]. apply not_in_app; [eapply fixed_no_nul; eauto|].
  destruct Hx as [[-> _]|[Hx|Hx]]; [intros []| |]; eapply exponent_no_nul; eauto; discriminate.
Qed.
Section M.
Context {T : Type} {S : Scalar T}.
Variable J : Z -> Z -> Z.
Variable JV : Z -> Z -> T.
Variable of_dec : Z -> Z -> T.
Lemma real_read w fs vs : Forall2 (fun s me => real_field w s (fst me) (snd me)) fs vs -> map (atof of_dec) fs = map (fun me => of_dec (fst me) (snd me)) vs /\ Forall (cell w) fs.
Proof.
  induction 1 as [|s v fs vs H _ [E1 E2]]; [split; [reflexivity|constructor]|]. split; [|constructor; [eapply real_cell; eauto|auto]]. cbn [map]. rewrite E1. f_equal. eapply atof_ok; eauto.
Qed.

(** *** the header *)
Lemma fmt16_len s a w : int_fmt s a w -> length s = 16%nat.
Proof. intros (da & c & dw & _ & _ & _ & tail & _ & H). exact H. Qed.
Lemma fmt20_len s a w : val_fmt s a w -> length s = 20%nat.
Proof. intros (da & c & dw & dd & _ & _ & _ & _ & tail & _ & H). exact H. Qed.
Lemma skipn_app_len {X} (a b : list X) : skipn (length a) (a ++ b) = b.
Proof. rewrite skipn_app, skipn_all, Nat.sub_diag. reflexivity. Qed.
Lemma rua_ok code : rua code -> exists a b c, code = [a; b; c] /\ lower_char a = "r"%char /\ lower_char b = "u"%char /\ lower_char c = "a"%char /\ isspace a = false /\ isspace b = false /\ isspace c = false.
Proof.
  intros (a & b & c & -> & Ha & Hb & Hc). exists a, b, c. cbn in Ha, Hb, Hc.
  destruct Ha as [<-|[<-|[]]], Hb as [<-|[<-|[]]], Hc as [<-|[<-|[]]]; repeat split; reflexivity.
Qed.
Lemma scan_code code r : rua code -> match r with c :: _ => isspace c = true | [] => True end -> scan_s (code ++ r) = Some (code, r).
Proof.
  intros H Hr. destruct (rua_ok code H) as (a & b & c & -> & _ & _ & _ & A & B & C). unfold scan_s. cbn [app]. rewrite skip_none by exact A. cbn [nonblank]. rewrite A, B, C.
  destruct r as [|x r]; cbn [nonblank]; [reflexivity|]. rewrite Hr. reflexivity.
Qed.
Lemma scan_s_len s w r : scan_s s = Some (w, r) -> (length w <= length s)%nat.
Proof.
  unfold scan_s. assert (A : forall s, (length (skip s) <= length s)%nat) by (clear; induction s as [|c s IH]; cbn; [lia|]; destruct (isspace c); cbn; lia).
  assert (B : forall s, (length (fst (nonblank s)) <= length s)%nat) by (clear; induction s as [|c s IH]; cbn; [lia|]; destruct (isspace c); cbn; [lia|]; destruct (nonblank s); cbn in *; lia).
  specialize (A s). specialize (B (skip s)). destruct (nonblank (skip s)) as [w' r']. cbn in B. destruct w'; [discriminate|]. intros E. injection E as <- <-. cbn in *. lia.
Qed.
Lemma forall2_len {X Y} (R : X -> Y -> Prop) l l' : Forall2 R l l' -> length l = length l'.
Proof. induction 1; cbn; auto. Qed.

Lemma head_ok rest n ptr index value f b0 : hb_with rest n ptr index value f -> length b0 = 1024%nat -> length value = length index ->
  exists h f' buf pl xl vl pf xf vf, hb_head J f b0 = Ok (h, f', buf) /\ length buf = 1024%nat /\ f' = pl ++ xl ++ vl ++ rest /\ Forall plain_line f' /\
    h_n h = n /\ h_nnz h = zlen index /\ h_ptrcrd h = zlen pl /\ h_indcrd h = zlen xl /\ h_valcrd h = zlen vl /\
    0 <= h_wp h < 128 /\ 0 <= h_wi h < 128 /\ 0 <= h_wv h < 128 /\
    Forall2 (int_field 0 (Z.to_nat (h_wp h))) pf (map (fun p => p + 1) ptr) /\ laid (Z.to_nat (h_ip h)) pf pl /\
    Forall2 (int_field 0 (Z.to_nat (h_wi h))) xf (map (fun p => p + 1) index) /\ laid (Z.to_nat (h_ii h)) xf xl /\
    Forall2 (fun s me => real_field (Z.to_nat (h_wv h)) s (fst me) (snd me)) vf value /\ laid (Z.to_nat (h_iv h)) vf vl.
Proof.
  intros (title & l2 & l3 & l4 & l5 & pl & xl & vl & -> & HP & (cs & tot & rhs & E2 & H2) & (code & cs3 & k3 & E3 & Hcode & H3) & (f1 & f2 & f3 & f4 & ap & wp & ai & wi & av & wv & pf & xf & vf & E4 & F1 & F2 & F3 & F4 & Wp & Wi & Wv & P1 & P2 & X1 & X2 & V1 & V2)) Hb0 HV.
  inversion HP as [|? ? [L1 _] HP1]; subst. inversion HP1 as [|? ? [L2 N2] HP2]; subst. inversion HP2 as [|? ? [L3 N3] HP3]; subst. inversion HP3 as [|? ? [L4 N4] HP5]; subst.
  set (R4 := l5 ++ pl ++ xl ++ vl ++ rest) in *.
  assert (N0 : NUL = ascii_of_nat 0) by reflexivity. rewrite <- N0 in N2, N3, N4.
  pose proof (fmt16_len _ _ _ F1) as LF1. pose proof (fmt16_len _ _ _ F2) as LF2. pose proof (fmt20_len _ _ _ F3) as LF3.
  assert (NL_NUL : ~ In NUL [NL]) by (intros [X|[]]; discriminate).
  unfold hb_head.
  destruct (gets_ok title ((concat cs) :: (code ++ blanks k3 ++ concat cs3) :: (f1 ++ f2 ++ f3 ++ f4) :: R4) b0 L1 Hb0) as (b1 & E1 & B1). rewrite E1. cbn [bind]. clear E1.
  destruct (gets_ok (concat cs) ((code ++ blanks k3 ++ concat cs3) :: (f1 ++ f2 ++ f3 ++ f4) :: R4) _ L2 B1) as (b2 & E2 & B2). rewrite E2. cbn [bind]. clear E2.
  assert (T2 : forall l b, ~ In NUL l -> text (l ++ NL :: NUL :: b) = l ++ [NL]).
  { intros l b Hl. change (NL :: NUL :: b) with ([NL] ++ NUL :: b). rewrite app_assoc. apply text_ok. apply not_in_app; auto. }
  rewrite T2 by auto.
  assert (G2 : exists r, match scan_ds 5 14 (concat cs ++ [NL]) with [_; p; i; v] => Ok (p, i, v, 0) | [_; p; i; v; r] => Ok (p, i, v, r) | _ => Err LIS_ERR_FILE_IO end = Ok (zlen pl, zlen xl, zlen vl, r) /\
      ((r = 0 /\ l5 = []) \/ (r <> 0 /\ exists l, l5 = [l] /\ (length l <= 62)%nat))).
  { destruct H2 as [[H2 H5]|[[H2 H5]|[H2 H5]]].
    - exists 0. rewrite (scan_ds_ok cs _ H2 5 [NL]); [split; [reflexivity|auto]|reflexivity|cbn; lia|cbn; lia|apply scan_nl].
    - exists 0. pose proof (scan_ds_exact cs _ 14 H2 [NL] eq_refl ltac:(auto)) as X. cbn [length] in X. rewrite X. split; [reflexivity|auto].
    - exists rhs. pose proof (scan_ds_exact cs _ 14 H2 [NL] eq_refl ltac:(auto)) as X. cbn [length] in X. rewrite X. split; [reflexivity|auto]. }
  destruct G2 as (r & G2 & H5). rewrite G2. cbn [bind]. clear G2.
  destruct (gets_ok (code ++ blanks k3 ++ concat cs3) ((f1 ++ f2 ++ f3 ++ f4) :: R4) _ L3 B2) as (b3 & E3 & B3). rewrite E3. cbn [bind]. clear E3. rewrite T2 by auto.
  assert (Lcs3 : exists c r3, concat cs3 = c :: r3 /\ isspace c = true).
  { inversion H3 as [|s z cs' zs' (k & ds & -> & _ & Hk & _) _]; subst. destruct k; [lia|]. cbn. eauto. }
  assert (SC : scan_s ((code ++ blanks k3 ++ concat cs3) ++ [NL]) = Some (code, blanks k3 ++ concat cs3 ++ [NL])).
  { rewrite <- !app_assoc. apply scan_code; auto. destruct k3; [|reflexivity]. cbn [blanks repeat app]. destruct Lcs3 as (c & r3 & -> & Hc). cbn. exact Hc. }
  rewrite SC. clear SC. destruct (rua_ok code Hcode) as (ca & cb & cc & Ecode & Ca & Cb & Cc & _).
  assert (FI : fits code = true) by (rewrite Ecode; reflexivity). rewrite FI. cbn [negb].
  assert (SD : forall W, (length (blanks k3 ++ concat cs3 ++ [NL]) <= W)%nat -> scan_ds 4 W (blanks k3 ++ concat cs3 ++ [NL]) = [n; n; zlen index; 0]).
  { intros W HW. assert (X : scan_ds 4 W (blanks k3 ++ concat cs3 ++ [NL]) = scan_ds 4 W (concat cs3 ++ [NL])) by (cbn [scan_ds]; unfold scan_d at 1 5; rewrite skip_blanks; reflexivity).
    rewrite X. rewrite app_length in HW. apply (scan_ds_exact cs3 _ W H3 [NL]); [reflexivity|right; lia]. }
  rewrite SD by lia. cbn [bind].
  assert (D0 : char_at (map lower_char code) 0 = "r"%char) by (rewrite Ecode; exact Ca). assert (D1 : char_at (map lower_char code) 1 = "u"%char) by (rewrite Ecode; exact Cb). assert (D2 : char_at (map lower_char code) 2 = "a"%char) by (rewrite Ecode; exact Cc).
  rewrite D0, D1, D2, !Ascii.eqb_refl. cbn [negb]. rewrite Z.eqb_refl. cbn [negb].
  destruct (gets_ok (f1 ++ f2 ++ f3 ++ f4) R4 _ L4 B3) as (b4 & E4 & B4). rewrite E4. cbn [bind]. clear E4.
  assert (M4 : ~ In NUL f1 /\ ~ In NUL f2 /\ ~ In NUL f3 /\ ~ In NUL f4) by (repeat split; intros X; apply N4; repeat rewrite in_app_iff; tauto). destruct M4 as (M1 & M2 & M3 & M4).
  set (buf4 := (f1 ++ f2 ++ f3 ++ f4) ++ NL :: NUL :: b4) in *.
  assert (K1 : buf4 = f1 ++ f2 ++ f3 ++ f4 ++ NL :: NUL :: b4) by (unfold buf4; rewrite <- !app_assoc; reflexivity).
  assert (C1 : cstr 16 buf4 = Ok f1) by (rewrite K1, <- LF1; apply cstr_full; auto).
  assert (C2 : cstr 16 (skipn 16 buf4) = Ok f2) by (rewrite K1; rewrite <- LF1 at 2; rewrite skipn_app_len, <- LF2; apply cstr_full; auto).
  assert (C3 : cstr 20 (skipn 32 buf4) = Ok f3).
  { rewrite K1, app_assoc. replace 32%nat with (length (f1 ++ f2)) by (rewrite app_length; lia). rewrite skipn_app_len, <- LF3. apply cstr_full; auto. }
  assert (C4 : exists s4, cstr 20 (skipn 52 buf4) = Ok s4 /\ exists p, get_fmt (J 10 6) (J 10 7) s4 = Ok p).
  { rewrite K1. replace (f1 ++ f2 ++ f3 ++ f4 ++ NL :: NUL :: b4) with ((f1 ++ f2 ++ f3) ++ f4 ++ NL :: NUL :: b4) by (rewrite <- !app_assoc; reflexivity).
    replace 52%nat with (length (f1 ++ f2 ++ f3)) by (rewrite !app_length; lia). rewrite skipn_app_len. destruct F4 as [F4|(a & w & F4)].
    - change (NL :: NUL :: b4) with ([NL] ++ NUL :: b4). rewrite app_assoc. rewrite cstr_nul by (apply not_in_app; auto). eexists. split; [reflexivity|]. eexists. apply no_fmt_ok. intros X.
      assert (Y : In "("%char (f4 ++ [NL])) by (rewrite <- (firstn_skipn 20); apply in_app_iff; auto). apply in_app_iff in Y. destruct Y as [Y|[Y|[]]]; [auto|discriminate].
    - exists f4. split; [rewrite <- (fmt20_len _ _ _ F4); apply cstr_full; auto|]. eexists. eapply val_fmt_ok; eauto. }
  destruct C4 as (s4 & C4 & [p1 p2] & C5).
  rewrite C1. cbn [bind]. rewrite (int_fmt_ok _ _ f1 ap wp F1). cbn [bind]. rewrite C2. cbn [bind]. rewrite (int_fmt_ok _ _ f2 ai wi F2). cbn [bind]. rewrite C3. cbn [bind]. rewrite (val_fmt_ok _ _ f3 av wv F3). cbn [bind]. rewrite C4. cbn [bind]. rewrite C5. cbn [bind].
  assert (PW : forall ds z, numeral ds z -> 0 <= z).
  { intros ds z (_ & D & <-). unfold decimal. assert (Q : forall a, 0 <= a -> 0 <= fold_left (fun a c => 10 * a + (Z.of_nat (nat_of_ascii c) - 48)) ds a).
    { clear -D. induction D as [|c ds Hc _ IH]; intros a Ha; cbn [fold_left]; [auto|]. apply IH. unfold a_digit in Hc. lia. }
    apply Q. lia. }
  assert (Wp0 : 0 <= wp) by (destruct F1 as (da & c & dw & _ & _ & Q & _); eapply PW; eauto). assert (Wi0 : 0 <= wi) by (destruct F2 as (da & c & dw & _ & _ & Q & _); eapply PW; eauto).
  assert (Wv0 : 0 <= wv) by (destruct F3 as (da & c & dw & dd & _ & _ & Q & _); eapply PW; eauto).
  assert (PR : Forall plain_line (pl ++ xl ++ vl ++ rest)) by (apply Forall_app in HP5; apply HP5).
  assert (FIN : exists buf, (if negb (r =? 0) then ' (buf, f) <- gets R4 buf4 ;; match scan_s (text buf) with Some (mtx, _) => if fits mtx then Ok (buf, f) else UB | None => Ok (buf, f) end else Ok (buf4, R4)) = Ok (buf, pl ++ xl ++ vl ++ rest) /\ length buf = 1024%nat).
  { destruct H5 as [[-> ->]|[Hr (l & -> & Ll)]].
    - exists buf4. split; [reflexivity|exact B4].
    - destruct (Z.eqb_spec r 0); [contradiction|]. cbn [negb]. unfold R4. cbn [app]. assert (Pl : plain_line l) by (unfold R4 in HP5; cbn [app] in HP5; inversion HP5; auto). destruct Pl as [Pl1 Pl2].
      destruct (gets_ok l (pl ++ xl ++ vl ++ rest) buf4 Pl1 B4) as (b5 & E5 & B5). rewrite E5. cbn [bind]. rewrite T2 by auto. exists (l ++ NL :: NUL :: b5). split; [|exact B5].
      destruct (scan_s (l ++ [NL])) as [[mtx r5]|] eqn:ES; [|reflexivity]. apply scan_s_len in ES. rewrite app_length in ES. cbn in ES. assert (X : fits mtx = true) by (apply Nat.leb_le; lia). rewrite X. reflexivity. }
  destruct FIN as (buf & -> & Bf). cbn [bind].
  eexists. exists (pl ++ xl ++ vl ++ rest), buf, pl, xl, vl, pf, xf, vf. split; [reflexivity|]. cbn [h_n h_nnz h_ptrcrd h_indcrd h_valcrd h_wp h_wi h_wv h_ip h_ii h_iv].
  repeat (split; [auto; try lia; fail|]). exact V2.
Qed.

(** *** the data *)
Lemma data_ok h pl xl vl rest pf xf vf ptr index value buf : length buf = 1024%nat -> Forall plain_line (pl ++ xl ++ vl ++ rest) -> 0 < h_n h -> zlen ptr = h_n h + 1 -> length value = length index ->
  h_nnz h = zlen index -> h_ptrcrd h = zlen pl -> h_indcrd h = zlen xl -> h_valcrd h = zlen vl -> 0 <= h_wp h < 128 -> 0 <= h_wi h < 128 -> 0 <= h_wv h < 128 ->
  Forall2 (int_field 0 (Z.to_nat (h_wp h))) pf (map (fun p => p + 1) ptr) -> laid (Z.to_nat (h_ip h)) pf pl ->
  Forall2 (int_field 0 (Z.to_nat (h_wi h))) xf (map (fun p => p + 1) index) -> laid (Z.to_nat (h_ii h)) xf xl ->
  Forall2 (fun s me => real_field (Z.to_nat (h_wv h)) s (fst me) (snd me)) vf value -> laid (Z.to_nat (h_iv h)) vf vl ->
  hb_data J JV of_dec h (pl ++ xl ++ vl ++ rest) buf = Ok (mkCsc (h_n h) (h_n h) (zlen index) ptr index (map (fun me => of_dec (fst me) (snd me)) value)).
Proof.
  intros Hb HP Hn Hp Hv E1 E2 E3 E4 W1 W2 W3 P1 P2 X1 X2 V1 V2. apply Forall_app in HP. destruct HP as [HP1 HP]. apply Forall_app in HP. destruct HP as [HP2 HP]. apply Forall_app in HP. destruct HP as [HP3 _].
  destruct (int_read _ _ _ P1) as [RP CP]. destruct (int_read _ _ _ X1) as [RX CX]. destruct (real_read _ _ _ V1) as [RV CV].
  pose proof (forall2_len _ _ _ P1) as LP. pose proof (forall2_len _ _ _ X1) as LX. pose proof (forall2_len _ _ _ V1) as LV. rewrite map_length in LP, LX.
  unfold hb_data. rewrite E1, E2, E3, E4. assert (ZN : forall X (l : list X), Z.to_nat (zlen l) = length l) by (intros; unfold zlen; apply Nat2Z.id). rewrite !ZN. destruct (Z.ltb_spec (zlen index) 0); [unfold zlen in *; lia|].
  assert (AL : forall X (g : Z -> X) m, 0 <= m -> zlen (alloc m g) = m) by (intros; apply zlen_alloc; auto).
  destruct (records_ok (fun d => atoi d - 1) (h_wp h) (h_ip h) pf pl W1 P2 CP HP1 [] (alloc (h_n h + 1) (J 0)) buf (xl ++ vl ++ rest)) as (b1 & B1 & G1); [|auto|].
  { apply Nat2Z.inj. fold (zlen (alloc (h_n h + 1) (J 0))). rewrite AL by lia. unfold zlen in Hp. lia. }
  change (zlen (@nil Z)) with 0 in G1. cbn [app] in G1. rewrite AL in G1 by lia. rewrite Z.add_0_l in G1. rewrite G1. cbn [bind]. rewrite RP.
  destruct (records_ok (fun d => atoi d - 1) (h_wi h) (h_ii h) xf xl W2 X2 CX HP2 [] (alloc (zlen index) (J 1)) b1 (vl ++ rest)) as (b2 & B2 & G2); [|auto|].
  { apply Nat2Z.inj. fold (zlen (alloc (zlen index) (J 1))). rewrite AL by lia. unfold zlen. lia. }
  change (zlen (@nil Z)) with 0 in G2. cbn [app] in G2. rewrite AL in G2 by lia. rewrite Z.add_0_l in G2. rewrite G2. cbn [bind]. rewrite RX.
  destruct (records_ok (atof of_dec) (h_wv h) (h_iv h) vf vl W3 V2 CV HP3 [] (alloc (zlen index) (JV 0)) b2 rest) as (b3 & B3 & G3); [|auto|].
  { apply Nat2Z.inj. fold (zlen (alloc (zlen index) (JV 0))). rewrite AL by lia. unfold zlen. lia. }
  change (zlen (@nil T)) with 0 in G3. cbn [app] in G3. rewrite AL in G3 by lia. rewrite Z.add_0_l in G3. rewrite G3. cbn [bind]. rewrite RV. reflexivity.
Qed.

(** *** the whole function *)
Lemma hb_final (HZ : eqb_zero S) n ptr index value f b0 (A : mobj T) : 0 < n -> length b0 = 1024%nat -> hb_file n ptr index value f -> length value = length index ->
  let C := mkCsc n n (zlen index) ptr index (map (fun me => of_dec (fst me) (snd me)) value) in
  zlen ptr = n + 1 -> csc_ok C -> ob_split A = None -> 1 <= ob_type A <= 11 ->
  (ob_type A <> 1 -> ob_type A <> 2 -> target_ok (ob_type A) conv_init n n (flat_map (fun r => filter (fun e => erow e =? r) (csc_entries C)) (zrange 0 n))) ->
  exists A' m, input_hb J JV of_dec b0 A f = Ok (LIS_SUCCESS, A') /\ holds A' m /\ amat_ok m /\ amat_type m = ob_type A /\ amat_n m = n /\ amat_np m = n /\ same_entries (amat_entries m) (csc_entries C) /\
    (ob_type A = 2 -> m = MCsc C) /\ (ob_type A = 1 -> amat_entries m = flat_map (fun r => filter (fun e => erow e =? r) (csc_entries C)) (zrange 0 n)).
Proof.
  intros Hn Hb [rest Hf] Hv C Hp HC HA Hty Ht. destruct (head_ok rest n ptr index value f b0 Hf Hb Hv) as (h & f' & buf & pl & xl & vl & pf & xf & vf & E & Bb & -> & PL & N1 & N2 & N3 & N4 & N5 & W1 & W2 & W3 & P1 & P2 & X1 & X2 & V1 & V2).
  unfold input_hb. rewrite E. rewrite N1. unfold obj_size. destruct (Z.leb_spec n 0); [lia|]. cbn [negb Z.eqb LIS_SUCCESS].
  rewrite (data_ok h pl xl vl rest pf xf vf ptr index value buf); auto; try lia. rewrite N1. fold C.
  destruct (store_ok (MCsc C) (mkObj MNULL (ob_type A) n n (ob_mat A) (ob_split A)) HC ltac:(cbn; lia) eq_refl HA eq_refl eq_refl) as (A1 & ES & H1). rewrite ES. cbn [negb Z.eqb LIS_SUCCESS].
  destruct (Z.eqb_spec (ob_type A) 2) as [E2|E2].
  - exists A1, (MCsc C). split; [reflexivity|]. split; [exact H1|]. split; [exact HC|]. split; [rewrite E2; reflexivity|]. split; [reflexivity|]. split; [reflexivity|]. split; [apply Permutation_refl|]. split; [auto|]. intros X. rewrite X in E2. discriminate.
  - destruct (csc2csr_final (J 2) (J 3) (J 4) (JV 1) C HC) as (B & EB & BO & B1 & B2 & B3 & B4 & B5). rewrite EB. cbn [bind].
    assert (BX : csr_exact B) by (pose proof (csc_exact (J 2) (J 3) (J 4) (JV 1) C) as X; rewrite EB in X; exact (X B eq_refl)).
    destruct H1 as (H11 & H12 & H13 & H14 & H15 & H16). rewrite H15, H16. cbn [amat_n amat_np csc_n csc_np C].
    destruct (store_ok (MCsr B) (mkObj MNULL 1 n n None None) BO ltac:(cbn [amat_n]; rewrite B1; exact Hn) eq_refl eq_refl ltac:(cbn [ob_n amat_n]; rewrite B1; reflexivity) ltac:(cbn [ob_np amat_np]; rewrite B2; reflexivity)) as (A2 & ES2 & H2). rewrite ES2. cbn [negb Z.eqb LIS_SUCCESS].
    change (csc_n C) with n in B1, B5. change (csc_np C) with n in B2.
    destruct (input_to_ok J JV HZ (ob_type A) A2 B None None H2 BO BX ltac:(lia) Hty) as (A3 & m & E3 & G1 & G2 & G3 & G4 & G5 & G6 & G7).
    { intros X. rewrite B1, B2, B5. apply Ht; auto. }
    rewrite E3. cbn [bind]. exists A3, m. split; [reflexivity|]. split; [exact G1|]. split; [exact G2|]. split; [exact G3|]. split; [lia|]. split; [lia|]. split.
    { eapply Permutation_trans; [exact G6|]. apply Permutation_filter. exact B4. }
    split; [intros X; contradiction|]. intros X. rewrite (G7 X). cbn. exact B5.
Qed.
End M.
