(** Proofs about Hb.v: the C library parts. *)
Require Import ZArith List Bool Lia Ascii.
From Verif Require Import Base Scalar Spec Csc Split Copy Convert Io Hb SpecHb.
Import ListNotations.
Open Scope Z_scope.

Lemma wr_app {X} (d t : list X) x v : wr (d ++ x :: t) (zlen d) v = Ok (d ++ v :: t).
Proof.
  unfold wr, zupd, zlen. rewrite app_length. cbn [length]. destruct (Z.ltb_spec (Z.of_nat (length d)) 0); [lia|]. destruct (Z.leb_spec (Z.of_nat (length d + Datatypes.S (length t))) (Z.of_nat (length d))); [lia|]. cbn [orb].
  rewrite Nat2Z.id. f_equal. clear. induction d; cbn; [reflexivity|]. f_equal. auto.
Qed.
Lemma gets_ok l f b : (length l <= 1022)%nat -> length b = 1024%nat -> exists b', gets (l :: f) b = Ok (l ++ NL :: NUL :: b', f) /\ length (l ++ NL :: NUL :: b') = 1024%nat.
Proof.
  intros Hl Hb. unfold gets. assert (X : Nat.leb (length l + 2) BUFSIZE = true) by (apply Nat.leb_le; unfold BUFSIZE; lia). rewrite X. eexists. split; [reflexivity|].
  rewrite app_length. cbn [length]. rewrite skipn_length. lia.
Qed.
Lemma cstr_full s r : ~ In NUL s -> cstr (length s) (s ++ r) = Ok s.
Proof.
  induction s as [|c s IH]; intros H; [reflexivity|]. cbn [length app cstr]. destruct (Ascii.eqb_spec c NUL) as [->|_]; [exfalso; apply H; left; auto|]. rewrite IH by (intros X; apply H; right; auto). reflexivity.
Qed.
Lemma cstr_nul w s r : ~ In NUL s -> cstr w (s ++ NUL :: r) = Ok (firstn w s).
Proof.
  revert w. induction s as [|c s IH]; intros w H; destruct w; try reflexivity. cbn [firstn app cstr]. destruct (Ascii.eqb_spec c NUL) as [->|_]; [exfalso; apply H; left; auto|]. rewrite IH by (intros X; apply H; right; auto). reflexivity.
Qed.
Lemma text_ok s r : ~ In NUL s -> text (s ++ NUL :: r) = s.
Proof.
  induction s as [|c s IH]; intros H; [reflexivity|]. cbn [app text]. destruct (Ascii.eqb_spec c NUL) as [->|_]; [exfalso; apply H; left; auto|]. rewrite IH by (intros X; apply H; right; auto). reflexivity.
Qed.

(** *** digits *)
Lemma isdigit_iff c : isdigit c = true <-> a_digit c.
Proof. unfold isdigit, a_digit. rewrite andb_true_iff, !Nat.leb_le. reflexivity. Qed.
Definition no_digit (s : chars) : Prop := match s with c :: _ => isdigit c = false | [] => True end.
Lemma digits_ok ds : forall w a k r, Forall a_digit ds -> (length ds <= w)%nat -> no_digit r \/ length ds = w ->
  digits w (ds ++ r) a k = (fold_left (fun a c => 10 * a + (Z.of_nat (nat_of_ascii c) - 48)) ds a, (k + length ds)%nat, r).
Proof.
  induction ds as [|c ds IH]; intros w a k r H Hw Hr; cbn [app length fold_left].
  - rewrite Nat.add_0_r. destruct w; [reflexivity|]. destruct r as [|x r]; [reflexivity|]. cbn [digits]. destruct Hr as [Hr|Hr]; [cbn in Hr; rewrite Hr; reflexivity|discriminate].
  - inversion H as [|? ? H1 H2]; subst. destruct w; [cbn in Hw; lia|]. cbn [digits]. apply isdigit_iff in H1. rewrite H1. rewrite IH; auto; [unfold digit; f_equal; f_equal; lia|cbn in Hw; lia|]. destruct Hr as [Hr|Hr]; [left; auto|right; cbn in Hr; lia].
Qed.
Lemma decimal_digits ds w k r : Forall a_digit ds -> (length ds <= w)%nat -> no_digit r \/ length ds = w -> digits w (ds ++ r) 0 k = (decimal ds, (k + length ds)%nat, r).
Proof. apply digits_ok. Qed.
(** no digit is a blank, a sign, a dot or a letter *)
Lemma digit_neq c x : a_digit c -> (nat_of_ascii x < 48 \/ 57 < nat_of_ascii x)%nat -> Ascii.eqb c x = false.
Proof. intros H Hx. destruct (Ascii.eqb_spec c x) as [->|]; [unfold a_digit in H; lia|auto]. Qed.
Lemma digit_space c : a_digit c -> isspace c = false.
Proof.
  intros H. unfold isspace. unfold a_digit in H. destruct (Nat.eqb_spec (nat_of_ascii c) 32); [lia|]. destruct (Nat.leb_spec 9 (nat_of_ascii c)); [|reflexivity]. destruct (Nat.leb_spec (nat_of_ascii c) 13); [lia|reflexivity].
Qed.
Lemma digit_lower c : a_digit c -> lower_char c = c.
Proof.
  intros H. unfold lower_char. unfold a_digit in H. destruct (Nat.leb_spec 65 (nat_of_ascii c)); [lia|]. reflexivity.
Qed.
Lemma digits_lower ds : Forall a_digit ds -> map lower_char ds = ds.
Proof. induction 1 as [|c ds H _ IH]; [reflexivity|]. cbn. rewrite IH, digit_lower; auto. Qed.
Lemma skip_blanks k s : skip (blanks k ++ s) = skip s.
Proof. induction k; [reflexivity|]. cbn. exact IHk. Qed.
Definition no_space (s : chars) : Prop := match s with c :: _ => isspace c = false | [] => True end.
Lemma skip_none s : no_space s -> skip s = s.
Proof. destruct s as [|c s]; [reflexivity|]. cbn. intros ->. reflexivity. Qed.
Lemma sign_digit c s : a_digit c -> sign (c :: s) = (false, c :: s).
Proof. intros H. unfold sign. rewrite (digit_neq c "-"%char) by (auto; cbn; lia). rewrite (digit_neq c "+"%char) by (auto; cbn; lia). reflexivity. Qed.
Lemma numeral_start ds z : numeral ds z -> exists c t, ds = c :: t /\ a_digit c.
Proof. intros (H1 & H2 & _). destruct ds as [|c t]; [congruence|]. inversion H2; subst. eauto. Qed.

Lemma atoi_ok k ds r z : numeral ds z -> no_digit r -> atoi (blanks k ++ ds ++ r) = z.
Proof.
  intros H Hr. destruct (numeral_start ds z H) as (c & t & E & Hc). unfold atoi. rewrite skip_blanks. rewrite skip_none by (subst ds; cbn; apply digit_space; auto).
  assert (X : sign (ds ++ r) = (false, ds ++ r)) by (subst ds; apply sign_digit; auto). rewrite X. destruct H as (_ & H2 & H3).
  rewrite (decimal_digits ds _ 0 r H2) by (rewrite ?app_length; auto; lia). cbn. exact H3.
Qed.
Lemma atoi_field k ds z : numeral ds z -> atoi (blanks k ++ ds) = z.
Proof. intros H. rewrite <- (app_nil_r ds). apply atoi_ok; cbn; auto. Qed.

(** *** cards of integers *)
Lemma scan_d_ok w s z r p : int_field p w s z -> (w <= 14)%nat -> no_digit r -> scan_d 14 (s ++ r) = Some (z, r).
Proof.
  intros (k & ds & -> & Hl & _ & H) Hw Hr. destruct (numeral_start ds z H) as (c & t & E & Hc). unfold scan_d. rewrite <- app_assoc, skip_blanks. rewrite skip_none by (subst ds; cbn; apply digit_space; auto).
  assert (X : sign (ds ++ r) = (false, ds ++ r)) by (subst ds; apply sign_digit; auto). rewrite X. rewrite Nat.eqb_refl. destruct H as (H1 & H2 & H3). rewrite app_length in Hl.
  rewrite (decimal_digits ds 14 0 r H2) by (auto; lia). cbn [plus]. destruct (length ds) eqn:El; [destruct ds; [congruence|discriminate]|]. cbn. rewrite H3. reflexivity.
Qed.
(** the same with a width that is no limit *)
Lemma scan_d_ok' w s z r p W : int_field p w s z -> (length (s ++ r) <= W)%nat -> no_digit r -> scan_d W (s ++ r) = Some (z, r).
Proof.
  intros (k & ds & -> & Hl & _ & H) Hw Hr. destruct (numeral_start ds z H) as (c & t & E & Hc). unfold scan_d. rewrite <- app_assoc, skip_blanks. rewrite skip_none by (subst ds; cbn; apply digit_space; auto).
  assert (X : sign (ds ++ r) = (false, ds ++ r)) by (subst ds; apply sign_digit; auto). rewrite X. rewrite Nat.eqb_refl. destruct H as (H1 & H2 & H3). rewrite !app_length in Hw.
  rewrite (decimal_digits ds W 0 r H2) by (auto; lia). cbn [plus]. destruct (length ds) eqn:El; [destruct ds; [congruence|discriminate]|]. cbn. rewrite H3. reflexivity.
Qed.
Lemma card_no_digit cs zs r : Forall2 (int_field 1 14) cs zs -> no_digit r -> no_digit (concat cs ++ r).
Proof.
  intros H Hr. destruct H as [|s z cs zs (k & ds & -> & _ & Hk & _) _]; [exact Hr|]. cbn [concat]. destruct k; [lia|]. cbn. reflexivity.
Qed.
Lemma scan_ds_ok cs zs : Forall2 (int_field 1 14) cs zs -> forall m r, no_digit r -> (length zs <= m)%nat -> (length zs < m)%nat -> (forall w, scan_d w r = None) -> scan_ds m 14 (concat cs ++ r) = zs.
Proof.
  induction 1 as [|s z cs zs Hs Hc IH]; intros m r Hr Hm Hm' Hn.
  - destruct m; [reflexivity|]. cbn [concat app scan_ds]. rewrite Hn. reflexivity.
  - destruct m; [cbn in Hm; lia|]. cbn [concat scan_ds]. rewrite <- app_assoc. rewrite (scan_d_ok 14 s z (concat cs ++ r) 1 Hs) by (auto; apply (card_no_digit cs zs); auto). f_equal. apply IH; auto; cbn in *; lia.
Qed.
Lemma scan_ds_exact cs zs W : Forall2 (int_field 1 14) cs zs -> forall r, no_digit r -> (W = 14 \/ length (concat cs ++ r) <= W)%nat -> scan_ds (length zs) W (concat cs ++ r) = zs.
Proof.
  induction 1 as [|s z cs zs Hs Hc IH]; intros r Hr HW; [reflexivity|].
  cbn [concat length scan_ds]. rewrite <- app_assoc. assert (N : no_digit (concat cs ++ r)) by (apply (card_no_digit cs zs); auto).
  assert (X : scan_d W (s ++ concat cs ++ r) = Some (z, concat cs ++ r)).
  { destruct HW as [->|HW]; [apply (scan_d_ok 14 s z _ 1); auto|apply (scan_d_ok' 14 s z _ 1); auto]. cbn [concat] in HW. rewrite <- app_assoc in HW. exact HW. }
  rewrite X. f_equal. apply IH; auto. destruct HW as [->|HW]; [auto|right]. cbn [concat] in HW. rewrite <- app_assoc, app_length in HW. lia.
Qed.
Lemma scan_nl w : scan_d w [NL] = None.
Proof. unfold scan_d. cbn. destruct w; reflexivity. Qed.

(** *** formats *)
Lemma strchr_ok c a b : ~ In c a -> strchr c (a ++ c :: b) = Some (a, b).
Proof.
  induction a as [|x a IH]; intros H; cbn [app strchr]; [rewrite Ascii.eqb_refl; reflexivity|]. destruct (Ascii.eqb_spec x c) as [->|_]; [exfalso; apply H; left; auto|]. rewrite IH by (intros X; apply H; right; auto). reflexivity.
Qed.
Lemma strchr_none c a : ~ In c a -> strchr c a = None.
Proof.
  induction a as [|x a IH]; intros H; [reflexivity|]. cbn [strchr]. destruct (Ascii.eqb_spec x c) as [->|_]; [exfalso; apply H; left; auto|]. rewrite IH by (intros X; apply H; right; auto). reflexivity.
Qed.
Lemma digits_not_in ds x : Forall a_digit ds -> (nat_of_ascii x < 48 \/ 57 < nat_of_ascii x)%nat -> ~ In x ds.
Proof. intros H Hx Hi. rewrite Forall_forall in H. apply H in Hi. unfold a_digit in Hi. lia. Qed.
Lemma not_in_app {X} (x : X) a b : ~ In x a -> ~ In x b -> ~ In x (a ++ b).
Proof. intros Ha Hb H. apply in_app_iff in H. tauto. Qed.
Lemma not_in_cons {X} (x y : X) b : y <> x -> ~ In x b -> ~ In x (y :: b).
Proof. intros Ha Hb [H|H]; auto. Qed.
Ltac nin := repeat first [apply not_in_app | apply not_in_cons; [discriminate|] | apply digits_not_in; [auto; fail|cbn; lia] | (intros []; fail)].

Lemma int_fmt_ok j0 j1 s a w : int_fmt s a w -> get_fmt j0 j1 s = Ok (a, w).
Proof.
  intros (da & c & dw & Hc & Ha & Hw & tail & -> & _). unfold get_fmt. pose proof (proj1 (proj2 Ha)) as Da. pose proof (proj1 (proj2 Hw)) as Dw.
  assert (E : map lower_char ("("%char :: (da ++ c :: dw) ++ ")"%char :: tail) = [] ++ "("%char :: (da ++ "i"%char :: dw) ++ ")"%char :: map lower_char tail).
  { cbn [map app]. rewrite !map_app. cbn [map]. rewrite !digits_lower by auto. destruct Hc as [-> | ->]; reflexivity. }
  rewrite E, strchr_ok by (intros []). rewrite strchr_ok by nin. rewrite strchr_ok by nin. f_equal. f_equal; [apply (atoi_field 0); auto|apply (atoi_field 0); auto].
Qed.
Lemma val_fmt_ok j0 j1 s a w : val_fmt s a w -> get_fmt j0 j1 s = Ok (a, w).
Proof.
  intros (da & c & dw & dd & Hc & Ha & Hw & Dd & tail & -> & _). unfold get_fmt. pose proof (proj1 (proj2 Ha)) as Da. pose proof (proj1 (proj2 Hw)) as Dw.
  assert (X : exists c', (c' = "e" \/ c' = "d")%char /\ lower_char c = c').
  { cbn [In] in Hc. destruct Hc as [<-|[<-|[<-|[<-|[]]]]]; [exists "e"%char|exists "e"%char|exists "d"%char|exists "d"%char]; split; auto. }
  destruct X as (c' & Hc' & Ec).
  assert (E : map lower_char ("("%char :: (da ++ c :: dw ++ "."%char :: dd) ++ ")"%char :: tail) = [] ++ "("%char :: (da ++ c' :: dw ++ "."%char :: dd) ++ ")"%char :: map lower_char tail).
  { cbn [map app]. rewrite !map_app. cbn [map]. rewrite map_app. cbn [map]. rewrite !digits_lower by auto. rewrite Ec. reflexivity. }
  rewrite E, strchr_ok by (intros []). assert (Q : forall x, (nat_of_ascii x < 46 \/ 57 < nat_of_ascii x)%nat -> x <> c' -> ~ In x (da ++ c' :: dw ++ "."%char :: dd)).
  { intros x Hx Hxc. apply not_in_app; [apply digits_not_in; auto; lia|]. apply not_in_cons; [auto|]. apply not_in_app; [apply digits_not_in; auto; lia|]. apply not_in_cons; [intros <-; cbn in Hx; lia|]. apply digits_not_in; auto; lia. }
  rewrite strchr_ok by (apply Q; [cbn; lia|destruct Hc' as [-> | ->]; discriminate]).
  rewrite (strchr_none "i"%char) by (apply Q; [cbn; lia|destruct Hc' as [-> | ->]; discriminate]).
  assert (Y : (match strchr "e"%char (da ++ c' :: dw ++ "."%char :: dd) with Some ab => Some ab | None => strchr "d"%char (da ++ c' :: dw ++ "."%char :: dd) end) = Some (da, dw ++ "."%char :: dd)).
  { destruct Hc' as [-> | ->]; [rewrite strchr_ok by nin; reflexivity|]. rewrite (strchr_none "e"%char) by nin. rewrite strchr_ok by nin. reflexivity. }
  rewrite Y. assert (Z : exists p, strchr "."%char (da ++ c' :: dw ++ "."%char :: dd) = Some p).
  { replace (da ++ c' :: dw ++ "."%char :: dd) with ((da ++ c' :: dw) ++ "."%char :: dd) by (rewrite <- app_assoc; reflexivity). eexists. apply strchr_ok. apply not_in_app; [nin|]. apply not_in_cons; [destruct Hc' as [-> | ->]; discriminate|nin]. }
  destruct Z as (p & ->). f_equal. f_equal; [apply (atoi_field 0); auto|]. apply (atoi_ok 0 dw ("."%char :: dd)); [auto|reflexivity].
Qed.
Lemma no_fmt_ok j0 j1 s : ~ In "("%char s -> get_fmt j0 j1 s = Ok (0, 0).
Proof.
  intros H. unfold get_fmt. rewrite strchr_none; [reflexivity|]. intros X. apply in_map_iff in X. destruct X as (c & Hc & Hi). apply H.
  assert (c = "("%char); [|subst; auto]. clear -Hc. unfold lower_char in Hc. destruct (Nat.leb_spec 65 (nat_of_ascii c)); cbn [andb] in Hc; [|exact Hc]. destruct (Nat.leb_spec (nat_of_ascii c) 90); [|exact Hc].
  assert (X : nat_of_ascii (ascii_of_nat (nat_of_ascii c + 32)) = nat_of_ascii "("%char) by (rewrite Hc; reflexivity). rewrite nat_ascii_embedding in X by lia. cbn in X. lia.
Qed.

(** *** reals *)
Section A.
Context {T : Type}.
Variable of_dec : Z -> Z -> T.
Lemma sign_ok sg neg s : plus_minus sg neg -> no_space s /\ (forall c t, s = c :: t -> a_digit c \/ c = "."%char) -> sign (sg ++ s) = (neg, s) /\ no_space (sg ++ s).
Proof.
  intros H [Hs Hc]. destruct H as [[-> ->]|[[-> ->]|[-> ->]]]; cbn [app]; try (split; reflexivity). split; [|exact Hs].
  destruct s as [|c t]; [reflexivity|]. destruct (Hc c t eq_refl) as [D| ->]; [apply sign_digit; auto|reflexivity].
Qed.
(** the value of a field is that of the digits and dot, when what follows is no digit; ex: the
    exponent read from it *)
Lemma atof_fixed k t m f r : fixed_text t m f -> no_digit r -> atof of_dec (blanks k ++ t ++ r) =
  of_dec m ((match r with c :: u => if Ascii.eqb (lower_char c) "e"%char then let '(ne, u) := sign u in let '(x, kx, _) := digits (length u) u 0 0 in if Nat.eqb kx 0 then 0 else signed ne x else 0 | [] => 0 end) - Z.of_nat f).
Proof.
  intros (sg & neg & ip & fp & -> & Hs & Di & Df & Hne & -> & ->) Hr. unfold atof. rewrite skip_blanks.
  assert (S1 : no_space ((ip ++ "."%char :: fp) ++ r) /\ (forall c t, (ip ++ "."%char :: fp) ++ r = c :: t -> a_digit c \/ c = "."%char)).
  { destruct ip as [|c ip]; cbn [app]; [split; [reflexivity|intros c t E; injection E as <- _; auto]|]. inversion Di; subst. split; [cbn; apply digit_space; auto|intros c' t' E; injection E as <- _; auto]. }
  destruct (sign_ok sg neg _ Hs S1) as [G1 G2]. rewrite <- (app_assoc sg). rewrite skip_none by exact G2. rewrite G1. rewrite <- app_assoc. cbn [app].
  rewrite (decimal_digits ip _ 0 ("."%char :: fp ++ r) Di) by (rewrite ?app_length; try (left; reflexivity); lia). cbn [plus]. rewrite Ascii.eqb_refl.
  rewrite (digits_ok fp _ (decimal ip) 0 r Df) by (rewrite ?app_length; auto; lia). cbn [plus].
  assert (N : Nat.eqb (length ip + length fp) 0 = false). { apply Nat.eqb_neq. rewrite <- app_length. intros X. apply Hne. destruct (ip ++ fp); [auto|discriminate]. }
  rewrite N. unfold decimal. rewrite fold_left_app. reflexivity.
Qed.
Lemma exponent_ok c s x : exponent c s x -> (c = "E" \/ c = "e")%char -> match s with c :: u => if Ascii.eqb (lower_char c) "e"%char then let '(ne, u) := sign u in let '(x, kx, _) := digits (length u) u 0 0 in if Nat.eqb kx 0 then 0 else signed ne x else 0 | [] => 0 end = x.
Proof.
  intros (sg & neg & ds & z & -> & Hs & Hn & ->) Hc. assert (L : Ascii.eqb (lower_char c) "e"%char = true) by (destruct Hc as [-> | ->]; reflexivity). rewrite L.
  destruct (numeral_start ds z Hn) as (d & t & E & Hd). destruct (sign_ok sg neg ds Hs) as [G _]; [subst ds; split; [cbn; apply digit_space; auto|intros c0 t0 E; injection E as <- _; auto]|].
  rewrite G. destruct Hn as (_ & Dn & En). rewrite <- (app_nil_r ds) at 2. rewrite (decimal_digits ds _ 0 [] Dn) by (auto; left; exact I). cbn [plus]. rewrite E. cbn [length Nat.eqb]. rewrite <- E, En. reflexivity.
Qed.
Lemma atof_ok w s m e : real_field w s m e -> atof of_dec s = of_dec m e.
Proof.
  intros (k & t & ex & f & x & -> & _ & Hf & -> & Hx). rewrite (atof_fixed k t m f ex Hf).
  - f_equal. f_equal. destruct Hx as [[-> ->]|[Hx|Hx]]; [reflexivity|apply (exponent_ok "E"%char); auto|apply (exponent_ok "e"%char); auto].
  - destruct Hx as [[-> ->]|[Hx|Hx]]; [exact I| |]; destruct Hx as (sg & neg & ds & z & -> & _); reflexivity.
Qed.
(** an exponent introduced by anything but the letter E is dropped *)
Lemma atof_dropped k t m f c u : fixed_text t m f -> isdigit c = false -> lower_char c <> "e"%char -> atof of_dec (blanks k ++ t ++ c :: u) = of_dec m (- Z.of_nat f).
Proof.
  intros Hf Hc Hl. rewrite (atof_fixed k t m f (c :: u) Hf) by (cbn; auto). destruct (Ascii.eqb_spec (lower_char c) "e"%char); [contradiction|]. f_equal. 
Qed.
End A.
