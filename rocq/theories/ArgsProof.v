(** Proofs about Args.v *)
Require Import ZArith List Bool Lia.
From Verif Require Import Base Args.
Import ListNotations.
Open Scope Z_scope.

(** the notions of SpecArgs.v, phrased with the model's character tests *)
(** the maximal runs of non-blank characters; [w] is the word being collected *)
Fixpoint words_from (w : list Z) (t : list Z) : list (list Z) :=
  match t with
  | [] => match w with [] => [] | _ => [w] end
  | c :: t => if is_blank c then match w with [] => words_from [] t | _ => w :: words_from [] t end
              else words_from (w ++ [c]) t
  end.
Definition words (t : list Z) : list (list Z) := words_from [] t.

(** two by two; an unpaired last word is dropped *)
Fixpoint pairs {A} (l : list A) : list (A * A) :=
  match l with a :: b :: l => (a, b) :: pairs l | _ => [] end.

(** option/value pairs of a command line: a word starting with '-' takes the next one *)
Fixpoint opt_pairs (l : list (list Z)) : list (list Z * list Z) :=
  match l with
  | a :: ((b :: l'') as l') => match a with c :: _ => if c =? 45 then (a, b) :: opt_pairs l'' else opt_pairs l' | [] => opt_pairs l' end
  | _ => []
  end.

Definition lower2 (p : list Z * list Z) : list Z * list Z := (map tolower (fst p), map tolower (snd p)).

Lemma rd_mid {A} (pre : list A) x post p : p = zlen pre -> rd (pre ++ x :: post) p = Ok x.
Proof.
  intros ->. rewrite (rd_ok x); [|rewrite zlen_app, zlen_cons; pose proof (zlen_nonneg pre); pose proof (zlen_nonneg post); lia].
  rewrite znth_app by apply zlen_nonneg. destruct (Z.ltb_spec (zlen pre) (zlen pre)); [lia|]. rewrite Z.sub_diag. reflexivity.
Qed.
Lemma upd_nat_app {A} (pre : list A) x post v : upd_nat (pre ++ x :: post) (length pre) v = pre ++ v :: post.
Proof. induction pre; cbn; auto. f_equal; auto. Qed.
Lemma wr_mid {A} (pre : list A) x post p v : p = zlen pre -> wr (pre ++ x :: post) p v = Ok (pre ++ v :: post).
Proof.
  intros ->. rewrite wr_ok; [|rewrite zlen_app, zlen_cons; pose proof (zlen_nonneg pre); pose proof (zlen_nonneg post); lia].
  unfold zupd, zlen. destruct (Z.ltb_spec (Z.of_nat (length pre)) 0); [lia|]. rewrite Nat2Z.id, upd_nat_app. auto.
Qed.

(** [t] splits as blanks, a word, and the rest (empty or starting with a blank) *)
Fixpoint blanks (t : list Z) : list Z := match t with c :: t => if is_blank c then c :: blanks t else [] | [] => [] end.
Fixpoint drop_blanks (t : list Z) : list Z := match t with c :: t' => if is_blank c then drop_blanks t' else t | [] => [] end.
Fixpoint fword (t : list Z) : list Z := match t with c :: t => if is_blank c then [] else c :: fword t | [] => [] end.
Fixpoint drop_word (t : list Z) : list Z := match t with c :: t' => if is_blank c then t else drop_word t' | [] => [] end.

Lemma blanks_split t : t = blanks t ++ drop_blanks t.
Proof. induction t as [|c t IH]; cbn; auto. destruct (is_blank c); cbn; congruence. Qed.
Lemma word_split t : t = fword t ++ drop_word t.
Proof. induction t as [|c t IH]; cbn; auto. destruct (is_blank c); cbn; congruence. Qed.
Lemma drop_blanks_hd t c t' : drop_blanks t = c :: t' -> is_blank c = false.
Proof. induction t as [|a t IH]; cbn; [discriminate|]. destruct (is_blank a) eqn:E; auto. intros H; inversion H; subst; auto. Qed.
Lemma drop_word_hd t c t' : drop_word t = c :: t' -> is_blank c = true.
Proof. induction t as [|a t IH]; cbn; [discriminate|]. destruct (is_blank a) eqn:E; auto. intros H; inversion H; subst; auto. Qed.

Definition nonul (t : list Z) : Prop := forall c, In c t -> c <> 0.
Lemma nonul_app a b : nonul (a ++ b) <-> nonul a /\ nonul b.
Proof. unfold nonul. split; [intros H; split; intros; apply H; apply in_or_app; auto|intros [H1 H2] c Hc; apply in_app_or in Hc; destruct Hc; auto]. Qed.

Lemma skip_ok : forall t pre post fuel p, nonul t -> p = zlen pre -> (length t < fuel)%nat ->
  skip_blank fuel (pre ++ t ++ 0 :: post) p = Ok (p + zlen (blanks t)).
Proof.
  induction t as [|c t IH]; intros pre post fuel p Hn Hp Hf; (destruct fuel; [cbn in Hf; lia|]); cbn [skip_blank blanks app].
  - rewrite rd_mid by auto. cbn [bind]. change (is_blank 0) with false. cbv iota. change (zlen (@nil Z)) with 0. rewrite Z.add_0_r. reflexivity.
  - rewrite rd_mid by auto. cbn [bind]. destruct (is_blank c).
    + replace (pre ++ c :: t ++ 0 :: post) with ((pre ++ [c]) ++ t ++ 0 :: post) by (rewrite <- app_assoc; reflexivity).
      rewrite IH; [f_equal; rewrite zlen_cons; lia|intros x Hx; apply Hn; right; auto|rewrite zlen_app, Hp; reflexivity|cbn in Hf; lia].
    + change (zlen (@nil Z)) with 0. rewrite Z.add_0_r. reflexivity.
Qed.

Lemma word_ok : forall t pre post fuel p, nonul t -> p = zlen pre -> (length t < fuel)%nat ->
  lower_word fuel (pre ++ t ++ 0 :: post) p = Ok (pre ++ map tolower (fword t) ++ drop_word t ++ 0 :: post, p + zlen (fword t)).
Proof.
  induction t as [|c t IH]; intros pre post fuel p Hn Hp Hf; (destruct fuel; [cbn in Hf; lia|]); cbn [lower_word fword drop_word app map].
  - rewrite rd_mid by auto. cbn [bind]. change (is_blank 0 || (0 =? 0)) with true. cbv iota. change (zlen (@nil Z)) with 0. rewrite Z.add_0_r. reflexivity.
  - rewrite rd_mid by auto. cbn [bind]. destruct (is_blank c) eqn:Eb.
    + cbn [orb map app]. change (zlen (@nil Z)) with 0. rewrite Z.add_0_r. reflexivity.
    + assert (c <> 0) by (apply Hn; left; auto). destruct (Z.eqb_spec c 0); [contradiction|]. cbn [orb].
      rewrite wr_mid by auto. cbn [bind map].
      replace (pre ++ tolower c :: t ++ 0 :: post) with ((pre ++ [tolower c]) ++ t ++ 0 :: post) by (rewrite <- app_assoc; reflexivity).
      rewrite IH; [|intros x Hx; apply Hn; right; auto|rewrite zlen_app, Hp; reflexivity|cbn in Hf; lia].
      rewrite <- app_assoc. cbn [app]. f_equal. f_equal. rewrite zlen_cons; lia.
Qed.

Lemma cstr_ok : forall t pre post fuel p, nonul t -> p = zlen pre -> (length t < fuel)%nat -> cstr fuel (pre ++ t ++ 0 :: post) p = Ok t.
Proof.
  induction t as [|c t IH]; intros pre post fuel p Hn Hp Hf; (destruct fuel; [cbn in Hf; lia|]); cbn [cstr app].
  - rewrite rd_mid by auto. reflexivity.
  - rewrite rd_mid by auto. cbn [bind]. destruct (Z.eqb_spec c 0); [exfalso; apply (Hn c); [left; auto|auto]|].
    replace (pre ++ c :: t ++ 0 :: post) with ((pre ++ [c]) ++ t ++ 0 :: post) by (rewrite <- app_assoc; reflexivity).
    rewrite IH; [reflexivity|intros x Hx; apply Hn; right; auto|rewrite zlen_app, Hp; reflexivity|cbn in Hf; lia].
Qed.

Lemma tolower_nz c : c <> 0 -> tolower c <> 0.
Proof. unfold tolower. destruct (Z.leb_spec 65 c); cbn [andb]; [destruct (Z.leb_spec c 90)|]; lia. Qed.
Lemma nonul_lower t : nonul t -> nonul (map tolower t).
Proof. intros H c Hc. apply in_map_iff in Hc. destruct Hc as (a & <- & Ha). apply tolower_nz. auto. Qed.

(** words in terms of the splits *)
Lemma words_from_word : forall t w, w <> [] -> words_from w t = (w ++ fword t) :: words_from [] (drop_word t).
Proof.
  induction t as [|c t IH]; intros w Hw; cbn [words_from fword drop_word].
  - rewrite app_nil_r. destruct w; [contradiction|]. reflexivity.
  - destruct (is_blank c) eqn:E.
    + rewrite app_nil_r. cbn [words_from]. rewrite E. destruct w; [contradiction|]. reflexivity.
    + rewrite IH by (destruct w; discriminate). rewrite <- app_assoc. reflexivity.
Qed.
Lemma words_blanks t : words t = words (drop_blanks t).
Proof. unfold words. induction t as [|c t IH]; cbn [drop_blanks]; auto. destruct (is_blank c) eqn:E; auto. cbn [words_from]. rewrite E. auto. Qed.
Lemma words_cons t c t' : drop_blanks t = c :: t' -> words t = fword (c :: t') :: words (drop_word (c :: t')).
Proof.
  intros E. rewrite words_blanks, E. pose proof (drop_blanks_hd _ _ _ E) as Hc. unfold words. cbn [words_from fword drop_word]. rewrite Hc.
  rewrite words_from_word by discriminate. reflexivity.
Qed.
Lemma words_nil t : drop_blanks t = [] -> words t = [].
Proof. intros E. rewrite words_blanks, E. reflexivity. Qed.
Lemma words_blank_cons c t : is_blank c = true -> words (c :: t) = words t.
Proof. intros H. unfold words. cbn [words_from]. rewrite H. reflexivity. Qed.

Lemma zlen_pos_cons {A} (x : A) l : (0 <? zlen (x :: l)) = true.
Proof. apply Z.ltb_lt. rewrite zlen_cons. pose proof (zlen_nonneg l). lia. Qed.

Lemma loop_ok : forall n t pre post fuel acc, (length t <= n)%nat -> (n < fuel)%nat -> nonul t -> post <> [] ->
  t2a_loop fuel (pre ++ t ++ 0 :: post) (zlen pre) true acc = Ok (acc ++ map lower2 (pairs (words t))).
Proof.
  induction n as [n IH] using lt_wf_ind. intros t pre post fuel acc Hl Hf Hn Hpost.
  destruct fuel as [|fuel]; [lia|]. cbn [t2a_loop].
  set (K := S (length (pre ++ t ++ 0 :: post))).
  assert (HK : (length t < K)%nat) by (unfold K; rewrite !app_length; lia).
  destruct t as [|c0 t0] eqn:Et.
  { cbn [app]. rewrite rd_mid by auto. cbn [bind]. change (0 =? 0) with true. cbn [negb andb words words_from pairs map]. rewrite app_nil_r. reflexivity. }
  rewrite <- Et in *. replace (rd (pre ++ t ++ 0 :: post) (zlen pre)) with (Ok c0) by (rewrite Et; cbn [app]; rewrite rd_mid; auto).
  cbn [bind]. assert (c0 <> 0) by (apply Hn; rewrite Et; left; auto). destruct (Z.eqb_spec c0 0); [contradiction|]. cbn [negb andb].
  rewrite (skip_ok t) by auto. cbn [bind].
  pose proof (blanks_split t) as Eb. set (bl := blanks t) in *. set (u := drop_blanks t) in *.
  pose proof (word_split u) as Eu. set (w := fword u) in *. set (r := drop_word u) in *.
  assert (Hnu : nonul u) by (rewrite Eb in Hn; apply nonul_app in Hn; tauto).
  assert (Hnw : nonul w /\ nonul r) by (rewrite Eu in Hnu; apply nonul_app in Hnu; tauto).
  assert (Lt : length t = (length bl + (length w + length r))%nat) by (rewrite Eb, app_length, Eu, app_length; auto).
  replace (pre ++ t ++ 0 :: post) with ((pre ++ bl) ++ u ++ 0 :: post) by (rewrite Eb, <- !app_assoc; reflexivity).
  rewrite (word_ok u); [|auto|rewrite zlen_app; auto|rewrite Eu, app_length; lia]. cbn [bind]. fold w r.
  set (lw := map tolower w).
  destruct r as [|b1 r1] eqn:Er.
  { (* no second word *)
    cbn [app]. replace ((pre ++ bl) ++ lw ++ 0 :: post) with ((pre ++ bl ++ lw) ++ 0 :: post) by (rewrite <- !app_assoc; reflexivity).
    rewrite rd_mid by (rewrite !zlen_app; unfold lw; rewrite zlen_map; lia). cbn [bind]. change (0 =? 0) with true. cbv iota.
    destruct u as [|c u'] eqn:Eu'.
    - rewrite words_nil by auto. cbn [pairs map]. rewrite app_nil_r. reflexivity.
    - rewrite (words_cons t c u') by auto. fold r in Er. change (drop_word (c :: u')) with r. rewrite Er. cbn [words words_from pairs map]. rewrite app_nil_r. reflexivity. }
  assert (Hb1 : is_blank b1 = true) by (apply (drop_word_hd u b1 r1); auto).
  assert (Hu : exists c u', u = c :: u'). { destruct u; [discriminate|eauto]. }
  destruct Hu as (c & u' & Eu').
  assert (Ew : words t = w :: words r1).
  { rewrite (words_cons t c u') by auto. rewrite <- Eu'. fold w r. rewrite Er. rewrite words_blank_cons by auto. reflexivity. }
  assert (Hw : w <> []). { unfold w. rewrite Eu'. cbn [fword]. rewrite (drop_blanks_hd t c u') by auto. discriminate. }
  replace ((pre ++ bl) ++ lw ++ (b1 :: r1) ++ 0 :: post) with ((pre ++ bl ++ lw) ++ b1 :: r1 ++ 0 :: post) by (cbn [app]; rewrite <- !app_assoc; reflexivity).
  assert (Zp : zlen pre + zlen bl + zlen w = zlen (pre ++ bl ++ lw)) by (rewrite !zlen_app; unfold lw; rewrite zlen_map; lia).
  rewrite rd_mid by auto. cbn [bind]. assert (Hb0 : b1 <> 0) by (apply Hnw; rewrite ?Er; left; auto). destruct (Z.eqb_spec b1 0); [contradiction|].
  rewrite wr_mid by auto. cbn [bind]. rewrite Zp.
  replace ((pre ++ bl ++ lw) ++ 0 :: r1 ++ 0 :: post) with ((pre ++ bl ++ lw ++ [0]) ++ r1 ++ 0 :: post) by (rewrite <- !app_assoc; reflexivity).
  assert (Hn1 : nonul r1) by (intros x Hx; apply Hnw; right; auto).
  assert (Lr : (length r1 < length t)%nat) by (rewrite Lt; cbn [length]; lia).
  rewrite (skip_ok r1); [|auto|rewrite !zlen_app; change (zlen [0]) with 1; lia|lia]. cbn [bind].
  pose proof (blanks_split r1) as Eb2. set (bl2 := blanks r1) in *. set (u2 := drop_blanks r1) in *.
  pose proof (word_split u2) as Eu2. set (w2 := fword u2) in *. set (r2 := drop_word u2) in *.
  assert (Hnu2 : nonul u2) by (rewrite Eb2 in Hn1; apply nonul_app in Hn1; tauto).
  assert (Hnw2 : nonul w2 /\ nonul r2) by (rewrite Eu2 in Hnu2; apply nonul_app in Hnu2; tauto).
  assert (Lt2 : length r1 = (length bl2 + (length w2 + length r2))%nat) by (rewrite Eb2, app_length, Eu2, app_length; auto).
  set (pre2 := pre ++ bl ++ lw ++ [0]).
  assert (Zp2 : zlen (pre ++ bl ++ lw) + 1 = zlen pre2) by (unfold pre2; rewrite !zlen_app; change (zlen [0]) with 1; lia).
  rewrite Zp2.
  replace (pre2 ++ r1 ++ 0 :: post) with ((pre2 ++ bl2) ++ u2 ++ 0 :: post) by (rewrite Eb2, <- !app_assoc; reflexivity).
  rewrite (word_ok u2); [|auto|rewrite zlen_app; auto|rewrite Eu2, app_length; lia]. cbn [bind]. fold w2 r2.
  set (lw2 := map tolower w2).
  assert (LK : (length w < K)%nat /\ (length w2 < K)%nat) by lia.
  assert (C1 : forall tl, cstr K (pre2 ++ bl2 ++ lw2 ++ 0 :: tl) (zlen pre + zlen bl) = Ok lw).
  { intros tl. unfold pre2. replace ((pre ++ bl ++ lw ++ [0]) ++ bl2 ++ lw2 ++ 0 :: tl) with ((pre ++ bl) ++ lw ++ 0 :: (bl2 ++ lw2 ++ 0 :: tl)) by (rewrite <- !app_assoc; reflexivity).
    apply cstr_ok; [apply nonul_lower; tauto|rewrite zlen_app; auto|unfold lw; rewrite map_length; lia]. }
  assert (C2 : forall tl, cstr K (pre2 ++ bl2 ++ lw2 ++ 0 :: tl) (zlen pre2 + zlen bl2) = Ok lw2).
  { intros tl. replace (pre2 ++ bl2 ++ lw2 ++ 0 :: tl) with ((pre2 ++ bl2) ++ lw2 ++ 0 :: tl) by (rewrite <- !app_assoc; reflexivity).
    apply cstr_ok; [apply nonul_lower; tauto|rewrite zlen_app; auto|unfold lw2; rewrite map_length; lia]. }
  assert (Zp3 : zlen pre2 + zlen bl2 + zlen w2 = zlen (pre2 ++ bl2 ++ lw2)) by (rewrite !zlen_app; unfold lw2; rewrite zlen_map; lia).
  assert (Hlw : (0 <? zlen lw) = true). { unfold lw. rewrite zlen_map. destruct w; [contradiction|apply zlen_pos_cons]. }
  destruct r2 as [|b2 r3] eqn:Er2.
  - (* the text ends after the second word *)
    cbn [app]. replace ((pre2 ++ bl2) ++ lw2 ++ 0 :: post) with ((pre2 ++ bl2 ++ lw2) ++ 0 :: post) by (rewrite <- !app_assoc; reflexivity).
    rewrite rd_mid by auto. cbn [bind]. change (0 =? 0) with true. cbv iota zeta. rewrite wr_mid by auto. cbn [bind].
    replace ((pre2 ++ bl2 ++ lw2) ++ 0 :: post) with (pre2 ++ bl2 ++ lw2 ++ 0 :: post) by (rewrite <- !app_assoc; reflexivity).
    rewrite C1. cbn [bind]. rewrite C2. cbn [bind]. rewrite Hlw. cbn [andb].
    assert (RES : forall acc', t2a_loop fuel (pre2 ++ bl2 ++ lw2 ++ 0 :: post) (zlen pre2 + zlen bl2 + zlen w2 + 1) false acc' = Ok acc').
    { intros acc'. destruct fuel as [|fuel']; [lia|]. cbn [t2a_loop]. destruct post as [|q post']; [contradiction|].
      replace (pre2 ++ bl2 ++ lw2 ++ 0 :: q :: post') with ((pre2 ++ bl2 ++ lw2 ++ [0]) ++ q :: post') by (rewrite <- !app_assoc; reflexivity).
      rewrite rd_mid; [|rewrite Zp3, !zlen_app; change (zlen [0]) with 1; lia]. cbn [bind]. rewrite andb_false_r. reflexivity. }
    rewrite RES. rewrite Ew. f_equal. destruct u2 as [|c2 u2'] eqn:Eu2'.
    + rewrite (words_nil r1) by auto. unfold lw2, w2. cbn. rewrite app_nil_r. reflexivity.
    + rewrite (words_cons r1 c2 u2') by auto. fold u2 in Eu2'. change (drop_word (c2 :: u2')) with r2. change (fword (c2 :: u2')) with w2. rewrite Er2. cbn [words words_from pairs map lower2 fst snd].
      fold lw lw2. replace (0 <? zlen lw2) with true; [reflexivity|]. symmetry. unfold lw2, w2. cbn [fword]. rewrite (drop_blanks_hd r1 c2 u2') by auto. cbn [map]. apply zlen_pos_cons.
  - assert (Hb2 : is_blank b2 = true) by (apply (drop_word_hd u2 b2 r3); auto).
    assert (Hu2 : exists c u', u2 = c :: u'). { destruct u2; [discriminate|eauto]. }
    destruct Hu2 as (c2 & u2' & Eu2').
    assert (Ew2 : words r1 = w2 :: words r3).
    { rewrite (words_cons r1 c2 u2') by auto. rewrite <- Eu2'. fold w2 r2. rewrite Er2. rewrite words_blank_cons by auto. reflexivity. }
    replace ((pre2 ++ bl2) ++ lw2 ++ (b2 :: r3) ++ 0 :: post) with ((pre2 ++ bl2 ++ lw2) ++ b2 :: r3 ++ 0 :: post) by (cbn [app]; rewrite <- !app_assoc; reflexivity).
    rewrite rd_mid by auto. cbn [bind]. assert (Hb20 : b2 <> 0) by (apply Hnw2; rewrite ?Er2; left; auto). destruct (Z.eqb_spec b2 0); [contradiction|].
    cbv zeta. rewrite wr_mid by auto. cbn [bind].
    replace ((pre2 ++ bl2 ++ lw2) ++ 0 :: r3 ++ 0 :: post) with (pre2 ++ bl2 ++ lw2 ++ 0 :: r3 ++ 0 :: post) by (rewrite <- !app_assoc; reflexivity).
    rewrite C1. cbn [bind]. rewrite C2. cbn [bind]. rewrite Hlw.
    replace (0 <? zlen lw2) with true by (symmetry; unfold lw2, w2; rewrite Eu2'; cbn [fword]; rewrite (drop_blanks_hd r1 c2 u2') by auto; cbn [map]; apply zlen_pos_cons).
    cbn [andb].
    replace (pre2 ++ bl2 ++ lw2 ++ 0 :: r3 ++ 0 :: post) with ((pre2 ++ bl2 ++ lw2 ++ [0]) ++ r3 ++ 0 :: post) by (rewrite <- !app_assoc; reflexivity).
    replace (zlen pre2 + zlen bl2 + zlen w2 + 1) with (zlen (pre2 ++ bl2 ++ lw2 ++ [0])) by (rewrite Zp3, !zlen_app; change (zlen [0]) with 1; lia).
    assert (L3 : (length r3 < length r1)%nat) by (rewrite Lt2; cbn [length]; lia).
    rewrite (IH (length r3)); [|lia|lia|lia|intros x Hx; apply Hnw2; right; auto|auto].
    rewrite Ew, Ew2. cbn [pairs map lower2 fst snd]. fold lw lw2. rewrite <- app_assoc. reflexivity.
Qed.

Theorem text2args_ok j t : nonul t -> zlen t <= 1022 -> text2args j t = Ok (map lower2 (pairs (words t))).
Proof.
  intros Hn Hl. unfold text2args. destruct (Z.ltb_spec 1024 (zlen t + 1)); [lia|]. cbv zeta.
  pose proof (loop_ok (length t) t [] (alloc (1024 - zlen t - 1) j) (S (length (t ++ 0 :: alloc (1024 - zlen t - 1) j))) []) as L.
  cbn [app] in L. change (zlen (@nil Z)) with 0 in L. apply L; auto.
  - rewrite app_length. lia.
  - intros E. assert (Z0 : zlen (alloc (1024 - zlen t - 1) j) = 1024 - zlen t - 1) by (apply zlen_alloc; lia). rewrite E in Z0. change (zlen (@nil Z)) with 0 in Z0. lia.
Qed.

(** texts of 1023 characters with an even number of words: the loop test reads buf[1024] *)
Lemma arg2args_loop : forall n l pre fuel acc, (length l <= n)%nat -> (n < fuel)%nat ->
  a2a_loop fuel (pre ++ l) (zlen pre) acc = Ok (acc ++ map lower2 (opt_pairs l)).
Proof.
  induction n as [n IH] using lt_wf_ind. intros l pre fuel acc Hl Hf. destruct fuel as [|fuel]; [lia|]. cbn [a2a_loop].
  rewrite zlen_app. pose proof (zlen_nonneg pre). destruct l as [|a l].
  { change (zlen (@nil (list Z))) with 0. destruct (Z.ltb_spec (zlen pre) (zlen pre + 0)); [lia|]. cbn [opt_pairs map]. rewrite app_nil_r. auto. }
  pose proof (zlen_nonneg l). rewrite zlen_cons. destruct (Z.ltb_spec (zlen pre) (zlen pre + (1 + zlen l))); [|lia].
  rewrite rd_mid by auto. cbn [bind].
  assert (SKIP : a2a_loop fuel (pre ++ a :: l) (zlen pre + 1) acc = Ok (acc ++ map lower2 (opt_pairs l))).
  { replace (pre ++ a :: l) with ((pre ++ [a]) ++ l) by (rewrite <- app_assoc; reflexivity).
    replace (zlen pre + 1) with (zlen (pre ++ [a])) by (rewrite zlen_app; reflexivity). cbn [length] in Hl. apply (IH (length l)); lia. }
  destruct l as [|b l].
  { change (zlen (@nil (list Z))) with 0. destruct (Z.ltb_spec (zlen pre + 1) (zlen pre + (1 + 0))); [lia|]. rewrite andb_false_r. rewrite SKIP. reflexivity. }
  pose proof (zlen_nonneg l). rewrite zlen_cons. destruct (Z.ltb_spec (zlen pre + 1) (zlen pre + (1 + (1 + zlen l)))); [|lia]. rewrite andb_true_r.
  destruct a as [|c a]; [rewrite SKIP; reflexivity|]. cbn [opt_pairs]. destruct (c =? 45) eqn:Ec; [|rewrite SKIP; reflexivity].
  replace (pre ++ (c :: a) :: b :: l) with ((pre ++ [c :: a]) ++ b :: l) by (rewrite <- app_assoc; reflexivity).
  rewrite rd_mid by (rewrite zlen_app; reflexivity). cbn [bind].
  replace ((pre ++ [c :: a]) ++ b :: l) with ((pre ++ [c :: a; b]) ++ l) by (rewrite <- !app_assoc; reflexivity).
  replace (zlen pre + 2) with (zlen (pre ++ [c :: a; b])) by (rewrite zlen_app; reflexivity).
  cbn [length] in Hl. rewrite (IH (length l)) by lia. rewrite <- app_assoc. reflexivity.
Qed.

Theorem arg2args_ok prog l : arg2args (prog :: l) = Ok (map lower2 (opt_pairs l)).
Proof.
  unfold arg2args. pose proof (arg2args_loop (length l) l [prog] (S (length (prog :: l))) []) as L. cbn [app length] in L. change (zlen [prog]) with 1 in L.
  apply L; lia.
Qed.
