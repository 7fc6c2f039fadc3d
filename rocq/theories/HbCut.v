(** Proofs about Hb.v: files the reader rejects. *)
Require Import ZArith List Bool Lia Ascii Permutation.
From Verif Require Import Base Scalar Spec Csc CscProof Split Copy SpecCopy Convert SpecConvert ConvertFinal Io Hb SpecHb HbProof HbData.
Import ListNotations.
Open Scope Z_scope.

(** reading with more lines at the end: same result, or the shorter file reported an end of file *)
Definition more {X Y} (m : res X) (ext : X -> Y) (m' : res Y) : Prop := m = Err LIS_ERR_FILE_IO \/ (exists x, m = Ok x /\ m' = Ok (ext x)) \/ (exists e, m = Err e /\ m' = Err e) \/ (m = UB /\ m' = UB).
Lemma more_bind {X Y X' Y'} (m : res X) ext (m' : res Y) (k : X -> res X') (ext' : X' -> Y') (k' : Y -> res Y') :
  more m ext m' -> (forall x, more (k x) ext' (k' (ext x))) -> more (bind m k) ext' (bind m' k').
Proof.
  intros [->|[(x & -> & ->)|[(e & -> & ->)|[-> ->]]]] H; cbn [bind].
  - left; reflexivity.
  - apply H.
  - right; right; left; eauto.
  - right; right; right; auto.
Qed.
Lemma more_same {X X' Y'} (m : res X) (k : X -> res X') (ext' : X' -> Y') (k' : X -> res Y') :
  (forall x, more (k x) ext' (k' x)) -> more (bind m k) ext' (bind m k').
Proof. intros H. apply (more_bind m (fun x => x) m); auto. destruct m; [right; left; eauto|right; right; left; eauto|right; right; right; auto]. Qed.
Lemma more_ok {X Y} (x : X) (ext : X -> Y) : more (Ok x) ext (Ok (ext x)).
Proof. right; left; eauto. Qed.
Lemma more_err {X Y} e (ext : X -> Y) : more (Err e) ext (Err e).
Proof. right; right; left; eauto. Qed.
Lemma more_ub {X Y} (ext : X -> Y) : more UB ext UB.
Proof. right; right; right; auto. Qed.
#[local] Hint Resolve more_err more_ub : core.

Lemma gets_more g f b : more (gets f b) (fun p => (fst p, snd p ++ g)) (gets (f ++ g) b).
Proof. destruct f as [|l f]; [left; reflexivity|]. cbn [gets app]. destruct (Nat.leb _ _); [|auto]. right; left. eexists. split; [reflexivity|]. reflexivity. Qed.

Section M.
Context {T : Type} {S : Scalar T}.
Variable J : Z -> Z -> Z.
Variable JV : Z -> Z -> T.
Variable of_dec : Z -> Z -> T.

Lemma head_more g f b : more (hb_head J f b) (fun p => (fst (fst p), snd (fst p) ++ g, snd p)) (hb_head J (f ++ g) b).
Proof.
  unfold hb_head. apply (more_bind _ _ _ _ _ _ (gets_more g f b)). intros [b1 f1]. cbn [fst snd].
  apply (more_bind _ _ _ _ _ _ (gets_more g f1 b1)). intros [b2 f2]. cbn [fst snd].
  apply more_same. intros [[[p i] v] r].
  apply (more_bind _ _ _ _ _ _ (gets_more g f2 b2)). intros [b3 f3]. cbn [fst snd].
  apply more_same. intros [[[mtx nr] nc] nz].
  destruct (negb (Ascii.eqb (char_at mtx 0) _)); [auto|]. destruct (negb (Ascii.eqb (char_at mtx 1) _)); [auto|]. destruct (negb (Ascii.eqb (char_at mtx 2) _)); [auto|]. destruct (negb (nr =? nc)); [auto|].
  apply (more_bind _ _ _ _ _ _ (gets_more g f3 b3)). intros [b4 f4]. cbn [fst snd].
  do 8 (apply more_same; intros ?; try match goal with p : (Z * Z)%type |- _ => destruct p end).
  apply (more_bind _ (fun p => (fst p, snd p ++ g)) _).
  - destruct (negb (r =? 0)); [|apply (more_ok (b4, f4))].
    apply (more_bind _ _ _ _ _ _ (gets_more g f4 b4)). intros [b5 f5]. cbn [fst snd]. destruct (scan_s (text b5)) as [[m r5]|]; [destruct (fits m); [|auto]|]; apply (more_ok (b5, f5)).
  - intros [b5 f5]. cbn [fst snd]. right; left. eexists. split; [reflexivity|]. reflexivity.
Qed.
Lemma records_more {X} (iter w cnt : Z) (conv : chars -> X) g : forall crd f b k a,
  more (records crd iter w cnt conv f b k a) (fun p => (fst (fst (fst p)), snd (fst (fst p)) ++ g, snd (fst p), snd p)) (records crd iter w cnt conv (f ++ g) b k a).
Proof.
  induction crd as [|crd IH]; intros f b k a; cbn [records]; [right; left; eexists; split; reflexivity|].
  apply (more_bind _ _ _ _ _ _ (gets_more g f b)). intros [b1 f1]. cbn [fst snd]. apply more_same. intros [k1 a1]. apply IH.
Qed.
Lemma records_len {X} (iter w cnt : Z) (conv : chars -> X) : forall crd f b k a b' f' k' a', records crd iter w cnt conv f b k a = Ok (b', f', k', a') -> length f = (crd + length f')%nat.
Proof.
  induction crd as [|crd IH]; intros f b k a b' f' k' a'; cbn [records]; [intros E; injection E as <- <- <- <-; reflexivity|].
  destruct f as [|l f]; [discriminate|]. cbn [gets]. destruct (Nat.leb _ _); [|discriminate]. cbn [bind]. destruct (fields _ _ _ _ _ _ _ _) as [[k1 a1]| |]; [|discriminate|discriminate]. cbn [bind].
  intros E. apply IH in E. cbn. lia.
Qed.

(** a legal file cut anywhere before the end of its values *)
Lemma cut_final rest n ptr index value f g b0 (A : mobj T) : 0 < n -> length b0 = 1024%nat -> zlen ptr = n + 1 -> length value = length index ->
  hb_with rest n ptr index value (f ++ g ++ rest) -> g <> [] ->
  exists A', input_hb J JV of_dec b0 A f = Ok (LIS_ERR_FILE_IO, A') /\ ob_mat A' = ob_mat A /\ ob_split A' = ob_split A /\ ob_type A' = ob_type A.
Proof.
  intros Hn Hb Hp Hv Hf Hg. destruct (head_ok J JV of_dec rest n ptr index value _ b0 Hf Hb Hv) as (h & f' & buf & pl & xl & vl & pf & xf & vf & E & Bb & -> & PL & N1 & N2 & N3 & N4 & N5 & W1 & W2 & W3 & P1 & P2 & X1 & X2 & V1 & V2).
  pose proof (data_ok J JV of_dec h pl xl vl rest pf xf vf ptr index value buf Bb PL ltac:(lia) ltac:(lia) Hv N2 N3 N4 N5 W1 W2 W3 P1 P2 X1 X2 V1 V2) as ED.
  pose proof (head_more (g ++ rest) f b0) as HM. rewrite E in HM. unfold input_hb.
  destruct HM as [->|[([[h1 f1] b1] & EH & HM)|[(e & -> & HM)|[_ HM]]]]; [exists A; auto| |discriminate|discriminate].
  rewrite EH. cbn [fst snd] in HM. injection HM as <- Ef <-. rewrite N1. unfold obj_size. destruct (Z.leb_spec n 0); [lia|]. cbn [negb Z.eqb LIS_SUCCESS].
  set (A1 := mkObj MNULL (ob_type A) n n (ob_mat A) (ob_split A)).
  assert (L : (length f1 < length pl + length xl + length vl)%nat).
  { apply (f_equal (@length _)) in Ef. rewrite !app_length in Ef. destruct g; [contradiction|]. cbn in Ef. lia. }
  assert (K : hb_data J JV of_dec h f1 buf = Err LIS_ERR_FILE_IO).
  { rewrite Ef in ED. unfold hb_data in *. rewrite N2, N3, N4, N5 in *. assert (ZN : forall X (l : list X), Z.to_nat (zlen l) = length l) by (intros; unfold zlen; apply Nat2Z.id). rewrite !ZN in *. destruct (zlen index <? 0); [discriminate|].
    match type of ED with bind (records ?c ?i ?w ?n ?v ?f ?b ?k ?a) _ = _ => pose proof (records_more i w n v (g ++ rest) c f1 b k a) as M1; pose proof (fun b' f' k' a' => records_len i w n v c f1 b k a b' f' k' a') as L1 end.
    destruct M1 as [->|[([[[b2 f2] k2] a2] & M1 & M1')|[(e & -> & M1)|[-> M1]]]]; [reflexivity| |rewrite M1 in ED; discriminate|rewrite M1 in ED; discriminate].
    rewrite M1' in ED. specialize (L1 _ _ _ _ M1). rewrite M1. cbn [bind fst snd] in *. clear M1 M1'.
    match type of ED with bind (records ?c ?i ?w ?n ?v ?f ?b ?k ?a) _ = _ => pose proof (records_more i w n v (g ++ rest) c f2 b k a) as M1; pose proof (fun b' f' k' a' => records_len i w n v c f2 b k a b' f' k' a') as L2 end.
    destruct M1 as [->|[([[[b3 f3] k3] a3] & M1 & M1')|[(e & -> & M1)|[-> M1]]]]; [reflexivity| |rewrite M1 in ED; discriminate|rewrite M1 in ED; discriminate].
    rewrite M1' in ED. specialize (L2 _ _ _ _ M1). rewrite M1. cbn [bind fst snd] in *. clear M1 M1'.
    match type of ED with bind (records ?c ?i ?w ?n ?v ?f ?b ?k ?a) _ = _ => pose proof (records_more i w n v (g ++ rest) c f3 b k a) as M1; pose proof (fun b' f' k' a' => records_len i w n v c f3 b k a b' f' k' a') as L3 end.
    destruct M1 as [->|[([[[b4 f4] k4] a4] & M1 & M1')|[(e & -> & M1)|[-> M1]]]]; [reflexivity| |rewrite M1 in ED; discriminate|rewrite M1 in ED; discriminate].
    specialize (L3 _ _ _ _ M1). lia. }
  rewrite K. exists A1. auto.
Qed.

(** a matrix of another type: first word of line 3 not RUA *)
Lemma kind_final title l2 w c t rest b0 (A : mobj T) : (length title <= 1022)%nat -> (length l2 <= 1022)%nat -> plain_line (w ++ c :: t) -> isspace c = true ->
  length w = 3%nat -> Forall (fun c => isspace c = false) w -> ~ rua w -> length b0 = 1024%nat ->
  input_hb J JV of_dec b0 A (title :: l2 :: (w ++ c :: t) :: rest) = Ok (LIS_ERR_FILE_IO, A).
Proof.
  intros L1 L2 [L3 N3] Hc Lw Fw Hw Hb0. unfold input_hb. assert (E : hb_head J (title :: l2 :: (w ++ c :: t) :: rest) b0 = Err LIS_ERR_FILE_IO); [|rewrite E; reflexivity].
  unfold hb_head. destruct (gets_ok title (l2 :: (w ++ c :: t) :: rest) b0 L1 Hb0) as (b1 & E1 & B1). rewrite E1. cbn [bind]. clear E1.
  destruct (gets_ok l2 ((w ++ c :: t) :: rest) _ L2 B1) as (b2 & E2 & B2). rewrite E2. cbn [bind]. clear E2.
  match goal with |- bind ?m _ = _ => assert (G : (exists q, m = Ok q) \/ m = Err LIS_ERR_FILE_IO) by (destruct (scan_ds 5 14 _) as [|a [|b [|d [|e [|f' [|]]]]]]; eauto); destruct G as [[[[[p i] v] r] ->]| ->]; [|reflexivity] end.
  cbn [bind]. destruct (gets_ok (w ++ c :: t) rest _ L3 B2) as (b3 & E3 & B3). rewrite E3. cbn [bind]. clear E3.
  assert (T3 : text ((w ++ c :: t) ++ NL :: NUL :: b3) = (w ++ c :: t) ++ [NL]).
  { change (NL :: NUL :: b3) with ([NL] ++ NUL :: b3). rewrite app_assoc. apply text_ok. intros X. apply in_app_iff in X. destruct X as [X|[X|[]]]; [apply N3; exact X|discriminate]. }
  rewrite T3. destruct w as [|a [|b [|d [|]]]]; try discriminate. inversion Fw as [|? ? Fa Fw1]; subst. inversion Fw1 as [|? ? Fb Fw2]; subst. inversion Fw2 as [|? ? Fd _]; subst.
  assert (SC : scan_s (([a; b; d] ++ c :: t) ++ [NL]) = Some ([a; b; d], c :: t ++ [NL])).
  { unfold scan_s. cbn [app]. rewrite skip_none by exact Fa. cbn [nonblank]. rewrite Fa, Fb, Fd, Hc. reflexivity. }
  rewrite SC. cbn [fits length Nat.leb negb]. destruct (scan_ds 4 _ _) as [|z1 [|z2 [|z3 [|z4 [|]]]]]; try reflexivity. cbn [bind map char_at nth].
  destruct (Ascii.eqb_spec (lower_char a) "r"%char) as [Ea|]; [|reflexivity]. destruct (Ascii.eqb_spec (lower_char b) "u"%char) as [Eb|]; [|reflexivity]. destruct (Ascii.eqb_spec (lower_char d) "a"%char) as [Ed|]; [|reflexivity].
  exfalso. apply Hw. exists a, b, d. split; [reflexivity|]. repeat split; [clear -Ea|clear -Eb|clear -Ed]; match goal with H : lower_char ?x = _ |- _ => destruct x as [[] [] [] [] [] [] [] []]; cbn in H; try discriminate; cbn; auto end.
Qed.

(** a rectangular matrix *)
Lemma square_final title l2 code k cs nr nc nnz nel rest b0 (A : mobj T) : (length title <= 1022)%nat -> (length l2 <= 1022)%nat -> plain_line (code ++ blanks k ++ concat cs) ->
  rua code -> Forall2 (int_field 1 14) cs [nr; nc; nnz; nel] -> nr <> nc -> length b0 = 1024%nat ->
  input_hb J JV of_dec b0 A (title :: l2 :: (code ++ blanks k ++ concat cs) :: rest) = Ok (LIS_ERR_FILE_IO, A).
Proof.
  intros L1 L2 [L3 N3] Hcode H3 Hne Hb0. unfold input_hb. match goal with |- context[hb_head J ?f b0] => assert (E : hb_head J f b0 = Err LIS_ERR_FILE_IO); [|rewrite E; reflexivity] end.
  unfold hb_head. destruct (gets_ok title (l2 :: (code ++ blanks k ++ concat cs) :: rest) b0 L1 Hb0) as (b1 & E1 & B1). rewrite E1. cbn [bind]. clear E1.
  destruct (gets_ok l2 ((code ++ blanks k ++ concat cs) :: rest) _ L2 B1) as (b2 & E2 & B2). rewrite E2. cbn [bind]. clear E2.
  match goal with |- bind ?m _ = _ => assert (G : (exists q, m = Ok q) \/ m = Err LIS_ERR_FILE_IO) by (destruct (scan_ds 5 14 _) as [|a [|b [|d [|e [|f' [|]]]]]]; eauto); destruct G as [[[[[p i] v] r] ->]| ->]; [|reflexivity] end.
  cbn [bind]. destruct (gets_ok (code ++ blanks k ++ concat cs) rest _ L3 B2) as (b3 & E3 & B3). rewrite E3. cbn [bind]. clear E3.
  assert (T3 : text ((code ++ blanks k ++ concat cs) ++ NL :: NUL :: b3) = (code ++ blanks k ++ concat cs) ++ [NL]).
  { change (NL :: NUL :: b3) with ([NL] ++ NUL :: b3). rewrite app_assoc. apply text_ok. intros X. apply in_app_iff in X. destruct X as [X|[X|[]]]; [apply N3; exact X|discriminate]. }
  rewrite T3.
  assert (Lcs3 : exists c r3, concat cs = c :: r3 /\ isspace c = true).
  { inversion H3 as [|s z cs' zs' (k' & ds & -> & _ & Hk & _) _]; subst. destruct k'; [lia|]. cbn. eauto. }
  assert (SC : scan_s ((code ++ blanks k ++ concat cs) ++ [NL]) = Some (code, blanks k ++ concat cs ++ [NL])).
  { rewrite <- !app_assoc. apply scan_code; auto. destruct k; [|reflexivity]. cbn [blanks repeat app]. destruct Lcs3 as (c & r3 & -> & Hc). cbn. exact Hc. }
  rewrite SC. clear SC. destruct (rua_ok code Hcode) as (ca & cb & cc & Ecode & Ca & Cb & Cc & _).
  assert (FI : fits code = true) by (rewrite Ecode; reflexivity). rewrite FI. cbn [negb].
  assert (SD : forall W, (length (blanks k ++ concat cs ++ [NL]) <= W)%nat -> scan_ds 4 W (blanks k ++ concat cs ++ [NL]) = [nr; nc; nnz; nel]).
  { intros W HW. assert (X : scan_ds 4 W (blanks k ++ concat cs ++ [NL]) = scan_ds 4 W (concat cs ++ [NL])) by (cbn [scan_ds]; unfold scan_d at 1 5; rewrite skip_blanks; reflexivity).
    rewrite X. rewrite app_length in HW. apply (scan_ds_exact cs _ W H3 [NL]); [reflexivity|right; lia]. }
  rewrite SD by lia. cbn [bind]. destruct (negb (Ascii.eqb _ _)); [reflexivity|]. destruct (negb (Ascii.eqb _ _)); [reflexivity|]. destruct (negb (Ascii.eqb _ _)); [reflexivity|].
  destruct (Z.eqb_spec nr nc); [contradiction|]. reflexivity.
Qed.
End M.
