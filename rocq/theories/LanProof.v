Require Import ZArith List Bool Lia Reals Lra.
From Verif Require Import Base Scalar ScalarReal Spec SpecSolver SpecDiag SpecEsolver Krylov MatvecProof KrylovProof DiagProof2 RealVec Esolver EsolverTerms EsolverProof EsolverProof2 EsolverProof3 EsolverFinal EsolverSub ConvertExact EsiProof.
Import ListNotations.
Open Scope Z_scope.

Lemma wl_forI {St} (I : Z -> St -> Prop) lo hi body (s : St) (Q : St -> Prop) : lo <= hi -> I lo s -> (forall i s, lo <= i < hi -> I i s -> wl (body i s) (I (i + 1))) -> (forall s, I hi s -> Q s) -> wl (for_ lo hi body s) Q.
Proof.
  intros Hl H0 Hb HQ. unfold for_. remember (Z.to_nat (hi - lo)) as k. assert (hi = lo + Z.of_nat k) by lia. clear Heqk. revert lo s Hl H0 Hb H.
  induction k as [|k IH]; intros lo s Hl H0 Hb H; cbn [for_n].
  - apply wl_ok. apply HQ. replace hi with lo by lia. exact H0.
  - eapply wl_bind; [apply Hb; [lia|exact H0]|]. intros s' Hs'. apply IH; [lia|exact Hs'| |lia]. intros i s2 Hi. apply Hb. lia.
Qed.
Lemma ip3 n a b c f g h w : ip n (fun i => a * f i + b * g i + c * h i)%R w = (a * ip n f w + b * ip n g w + c * ip n h w)%R.
Proof.
  rewrite (ip_ext n _ (fun i => 1 * (a * f i + b * g i) + c * h i)%R w w) by (intros i Hi; ring).
  rewrite (ip_lin n 1 c (fun i => a * f i + b * g i)%R h w), ip_lin. ring.
Qed.
Lemma eqv_refl n f : eqv n f f. Proof. intros i _. reflexivity. Qed.

Section L.
Variables (e : eenv R) (E : Ent) (ss : Z).
Let n := ee_n e.
Definition Af (f : Z -> R) (i : Z) : R := mv_spec E n f i.
Definition ortho (m : Z) (V : Z -> Z -> R) : Prop := forall a b, 1 <= a <= m -> 1 <= b <= m -> ip n (V a) (V b) = if a =? b then 1%R else 0%R.
Definition has (v : list vec) (m : Z) (V : Z -> Z -> R) : Prop := forall k, 1 <= k <= m -> eqv n (at_ (znth [] v k)) (V k).
Lemma Af_ext f g : eqv n f g -> eqv n (Af f) (Af g).
Proof. intros H i Hi. apply mvR_ext. exact H. Qed.

(** the re-orthogonalisation changes nothing *)
Lemma reorth_wl j v V : 1 <= j < zlen v -> ortho j V -> has v j V -> wl (reorth n j v) (fun v' => zlen v' = zlen v /\ has v' j V).
Proof.
  intros Hj HO HV. unfold reorth.
  apply (wl_forI (fun _ v' => zlen v' = zlen v /\ has v' j V)); [lia|auto| |auto]. intros k v' Hk (L' & H').
  eapply wl_bind; [apply (wl_rdw [] v' j (fun a => a = znth [] v' j)); auto|]. intros vj ->.
  eapply wl_bind; [apply (wl_rdw [] v' k (fun a => a = znth [] v' k)); auto|]. intros vk ->.
  assert (D : dot n (znth [] v' j) (znth [] v' k) = 0%R).
  { rewrite dot_ip. rewrite (ip_ext n _ (V j) _ (V k)) by (apply H'; lia). rewrite HO by lia. destruct (Z.eqb_spec j k); [lia|reflexivity]. }
  apply wl_wrw. intros _. split; [rewrite zlen_zupd; exact L'|].
  intros a Ha. destruct (Z.eq_dec a j) as [->|Na].
  - rewrite znth_zupd_eq by lia. intros i Hi. rewrite (at_axpy (S:=ScalarR)) by auto. rewrite D. rewrite (H' j Ha i Hi). cbn. ring.
  - rewrite znth_zupd_neq by lia. apply H'. exact Ha.
Qed.

Definition tt (t : list R) (a b : Z) : R := znth 0%R t (a * ss + b).
Lemma tt_upd t a b a' b' x : zlen t = ss * ss -> 0 <= a < ss -> 0 <= b < ss -> 0 <= a' < ss -> 0 <= b' < ss ->
  tt (zupd t (a * ss + b) x) a' b' = if (a =? a') && (b =? b') then x else tt t a' b'.
Proof.
  intros Ht Ha Hb Ha' Hb'. unfold tt. rewrite znth_zupd by (rewrite Ht; nia).
  destruct (Z.eqb_spec a a') as [->|Na]; destruct (Z.eqb_spec b b') as [->|Nb]; cbn [andb].
  - rewrite Z.eqb_refl. reflexivity.
  - destruct (Z.eqb_spec (a' * ss + b') (a' * ss + b)); [lia|reflexivity].
  - destruct (Z.eqb_spec (a' * ss + b') (a * ss + b')); [nia|reflexivity].
  - destruct (Z.eqb_spec (a' * ss + b') (a * ss + b)); [|reflexivity]. exfalso. assert (a = a') by nia. contradiction.
Qed.

Hypothesis SYM : forall f g, ip n (Af f) g = ip n f (Af g).
Variable nrm : R.

(** tridiagonal array after j steps *)
Definition tri (j j2 : Z) (al be : Z -> R) (t : list R) : Prop := zlen t = ss * ss /\ forall a b, 0 <= a < ss -> 0 <= b < ss ->
  tt t a b = if a =? b then (if a <? j then al (a + 1)%Z else 0%R) else if b =? a + 1 then (if a <? j then be (a + 1)%Z else 0%R) else if a =? b + 1 then (if b <? j2 then be (b + 1)%Z else 0%R) else 0%R.
Definition rec3 (j : Z) (V : Z -> Z -> R) (al be : Z -> R) : Prop := forall k, 1 <= k < j -> eqv n (Af (V k)) (fun i => be (k - 1)%Z * V (k - 1)%Z i + al k * V k i + be k * V (k + 1)%Z i)%R.
Definition LI (j j2 : Z) (s : lst (T:=R)) : Prop := let '(v, r, t) := s in exists V al be,
  zlen v = ss + 1 /\ ortho j V /\ has v j V /\ tri j j2 al be t /\ rec3 j V al be /\ be 0 = 0%R /\
  (forall k, 1 <= k <= j -> al k = ip n (V k) (Af (V k))) /\
  (j = 0 -> eqv n (at_ r) (fun _ => 1%R)) /\
  (1 <= j -> eqv n (V 1) (fun _ => 1 / nrm)%R /\ be j = nm n (at_ r) /\
     eqv n (Af (V j)) (fun i => be (j - 1)%Z * V (j - 1)%Z i + al j * V j i + 1 * at_ r i)%R /\ forall k, 1 <= k <= j -> ip n (at_ r) (V k) = 0%R).
Hypothesis Hnrm : nrm = nm n (fun _ => 1%R).


Lemma lan_step_wl j s : 0 <= j -> j + 1 < ss -> LI j j s -> wl (lan_step e E ss nrm (j + 1) s) (fun '(stop, s') => if (stop : bool) then LI (j + 1) j s' /\ (let '(_, r, _) := s' in (nm n (at_ r) < ee_tol e)%R) else LI (j + 1) (j + 1) s').
Proof.
  intros Hj Hjs HI. destruct s as [[v r] t]. destruct HI as (V & al & be & Lv & HO & HV & (Lt & HT) & HR & B0 & HAl & HJ0 & HJ1).
  unfold lan_step. fold n. set (J := j + 1) in *.
  eapply wl_bind; [apply (wl_wrw v J _ (fun w => w = zupd v J (copy n r))); auto|]. intros v1 ->.
  set (v1 := zupd v J (copy n r)). assert (L1 : zlen v1 = ss + 1) by (unfold v1; rewrite zlen_zupd; exact Lv).
  assert (N1 : znth [] v1 J = copy n r) by (unfold v1; apply znth_zupd_eq; lia).
  set (g := if J =? 1 then nrm else be j).
  (* the new vector *)
  assert (STEP : wl (if J =? 1
      then c <- divz s1 nrm ;; vj <- rd v1 J ;; let vj := scale n c vj in v <- wr v1 J vj ;; Ok (v, matvec n E vj)
      else b <- rd t ((J - 2) * ss + J - 1) ;; c <- divz s1 b ;; vj <- rd v1 J ;; let vj := scale n c vj in v <- wr v1 J vj ;;
           vp <- rd v (J - 1) ;; Ok (v, axpy n (sopp b) vp (matvec n E vj)))
    (fun '(v2, r2) => (g <> 0)%R /\ zlen v2 = ss + 1 /\ (forall k, 1 <= k <= j -> znth [] v2 k = znth [] v k) /\ eqv n (at_ (znth [] v2 J)) (fun i => 1 / g * at_ r i)%R /\
       eqv n (at_ r2) (fun i => Af (fun i => 1 / g * at_ r i)%R i - (if J =? 1 then 0 else be j * V j i))%R)).
  { assert (SC : forall g', eqv n (at_ (scale n (1 / g')%R (copy n r))) (fun i => 1 / g' * at_ r i)%R).
    { intros g' i Hi. rewrite (at_scale (S:=ScalarR)) by auto. rewrite (at_copy (S:=ScalarR)) by auto. reflexivity. }
    unfold g. destruct (Z.eqb_spec J 1) as [E1|E1].
    - eapply wl_bind; [apply (wl_divz (Q := fun c => (nrm <> 0)%R /\ c = (1 / nrm)%R)); auto|]. intros c (Hg & ->).
      eapply wl_bind; [apply (wl_rdw [] v1 J (fun a => a = copy n r)); auto|]. intros u ->. cbv zeta.
      eapply wl_bind; [apply (wl_wrw v1 J _ (fun w => w = zupd v1 J (scale n (1 / nrm)%R (copy n r)))); auto|]. intros w ->. apply wl_ok.
      split; [exact Hg|]. split; [rewrite zlen_zupd; exact L1|]. split; [intros k Hk; lia|]. rewrite znth_zupd_eq by lia. split; [apply SC|].
      intros i Hi. transitivity (Af (at_ (scale n (1 / nrm)%R (copy n r))) i); [apply atR_tab; exact Hi|]. rewrite (Af_ext _ _ (SC nrm) i Hi). ring.
    - eapply wl_bind; [apply (wl_rdw 0%R t ((J - 2) * ss + J - 1) (fun b => b = be j)) |].
      { intros _. specialize (HT (j - 1) j ltac:(lia) ltac:(lia)). unfold tt in HT. replace ((J - 2) * ss + J - 1) with ((j - 1) * ss + j) by (unfold J; ring). rewrite HT.
        destruct (Z.eqb_spec (j - 1) j); [lia|]. destruct (Z.eqb_spec j (j - 1 + 1)); [|lia]. destruct (Z.ltb_spec (j - 1) j); [|lia]. f_equal. lia. }
      intros b ->. eapply wl_bind; [apply (wl_divz (Q := fun c => (be j <> 0)%R /\ c = (1 / be j)%R)); auto|]. intros c (Hg & ->).
      eapply wl_bind; [apply (wl_rdw [] v1 J (fun a => a = copy n r)); auto|]. intros u ->. cbv zeta.
      eapply wl_bind; [apply (wl_wrw v1 J _ (fun w => w = zupd v1 J (scale n (1 / be j)%R (copy n r)))); auto|]. intros w ->.
      eapply wl_bind; [apply (wl_rdw [] _ (J - 1) (fun a => a = znth [] v j))|].
      { intros _. rewrite znth_zupd_neq by lia. unfold v1. rewrite znth_zupd_neq by lia. f_equal. lia. }
      intros vp ->. apply wl_ok. split; [exact Hg|]. split; [rewrite zlen_zupd; exact L1|]. split.
      { intros k Hk. rewrite znth_zupd_neq by lia. unfold v1. rewrite znth_zupd_neq by lia. reflexivity. }
      rewrite znth_zupd_eq by lia. split; [apply SC|]. intros i Hi. rewrite (at_axpy (S:=ScalarR)) by auto.
      assert (X : at_ (matvec n E (scale n (1 / be j)%R (copy n r))) i = Af (at_ (scale n (1 / be j)%R (copy n r))) i) by (apply atR_tab; exact Hi).
      rewrite X, (Af_ext _ _ (SC (be j)) i Hi). rewrite (HV j ltac:(lia) i Hi). cbn. ring. }
  eapply wl_bind; [exact STEP|]. clear STEP. intros [v2 r2] (Hg & L2 & K2 & N2 & R2).
  set (W := fun i => (1 / g * at_ r i)%R) in *.
  set (V' := fun k => if k =? J then W else V k).
  assert (VJ : V' J = W) by (unfold V'; rewrite Z.eqb_refl; reflexivity).
  assert (VK : forall k, k <> J -> V' k = V k) by (intros k Hk; unfold V'; destruct (Z.eqb_spec k J); [contradiction|reflexivity]).
  assert (Gr : g = nm n (at_ r)).
  { unfold g. destruct (Z.eqb_spec J 1) as [E1|E1]; [rewrite Hnrm; symmetry; apply nm_ext; apply HJ0; lia|apply HJ1; lia]. }
  assert (RO : forall k, 1 <= k <= j -> ip n (at_ r) (V k) = 0%R) by (intros k Hk; apply HJ1; lia).
  assert (WW : ip n W W = 1%R).
  { unfold W. rewrite ip_scal, ip_scal_r, <- nm_sq, <- Gr. field. exact Hg. }
  assert (WV : forall k, 1 <= k <= j -> ip n W (V k) = 0%R) by (intros k Hk; unfold W; rewrite ip_scal, RO by exact Hk; ring).
  assert (HO' : ortho J V').
  { intros a b Ha Hb. destruct (Z.eq_dec a J) as [->|Na]; destruct (Z.eq_dec b J) as [->|Nb].
    - rewrite Z.eqb_refl, VJ. exact WW.
    - rewrite VJ, (VK b Nb), WV by lia. destruct (Z.eqb_spec J b); [lia|reflexivity].
    - rewrite VJ, (VK a Na), ip_sym, WV by lia. destruct (Z.eqb_spec a J); [lia|reflexivity].
    - rewrite (VK a Na), (VK b Nb). apply HO; lia. }
  assert (HV' : has v2 J V').
  { intros k Hk. destruct (Z.eq_dec k J) as [->|Nk]; [rewrite VJ; exact N2|]. rewrite (VK k Nk), K2 by lia. apply HV. lia. }
  assert (rW : eqv n (at_ r) (fun i => g * W i)%R) by (intros i Hi; unfold W; field; exact Hg).
  assert (HR' : rec3 J V' al be).
  { intros k Hk. rewrite !(VK k) by lia. destruct (Z.eq_dec k j) as [->|Nk].
    - assert (Hj1 : 1 <= j) by lia. destruct (HJ1 Hj1) as (_ & _ & H3 & _). fold J. rewrite VJ. rewrite (VK (j - 1)) by lia. intros i Hi. rewrite H3 by exact Hi. rewrite rW by exact Hi.
      unfold g. destruct (Z.eqb_spec J 1); [lia|]. ring.
    - rewrite (VK (k - 1)), (VK (k + 1)) by lia. apply HR. lia. }
  eapply wl_bind; [apply (wl_rdw [] v2 J (fun a => a = znth [] v2 J)); auto|]. intros u ->.
  set (u := znth [] v2 J) in *.
  assert (ALP : dot n u r2 = ip n W (Af W)).
  { rewrite dot_ip. rewrite (ip_ext n _ W _ (fun i => 1 * Af W i + (- (if J =? 1 then 0 else be j)) * V j i)%R); [|exact N2|intros i Hi; rewrite R2 by exact Hi; destruct (J =? 1); ring].
    rewrite (ip_lin_r n 1 _ (Af W) (V j) W). destruct (Z.eqb_spec J 1); [ring|]. rewrite WV by lia. ring. }
  set (alpha := dot n u r2) in *.
  eapply wl_bind; [apply (wl_wrw t _ alpha (fun t' => t' = zupd t ((J - 1) * ss + (J - 1)) alpha)); intros _; f_equal; lia|]. intros t1 ->.
  eapply wl_bind; [apply (reorth_wl J v2 V'); [lia|exact HO'|exact HV']|]. intros v3 (L3 & HV3).
  set (r3 := axpy n (sopp alpha) u r2).
  assert (R3 : eqv n (at_ r3) (fun i => 1 * Af W i + (- (if J =? 1 then 0 else be j)) * V j i + (- alpha) * W i)%R).
  { intros i Hi. unfold r3. rewrite (at_axpy (S:=ScalarR)) by auto. rewrite R2, N2 by exact Hi. destruct (J =? 1); cbn; ring. }
  assert (RP : forall k, 1 <= k <= J -> ip n (at_ r3) (V' k) = 0%R).
  { intros k Hk. rewrite (ip_ext n _ _ _ (V' k) R3 (eqv_refl n (V' k))). rewrite (ip3 n 1 (- (if J =? 1 then 0 else be j))%R (- alpha)%R (Af W) (V j) W (V' k)).
    destruct (Z.eq_dec k J) as [->|Nk].
    - rewrite VJ, WW. rewrite (ip_sym n (V j) W), (ip_sym n (Af W) W), <- ALP. destruct (Z.eqb_spec J 1); [ring|]. rewrite WV by lia. ring.
    - rewrite (VK k Nk). rewrite WV by lia. rewrite SYM. destruct (Z.eqb_spec J 1); [lia|]. rewrite HO by lia.
      destruct (Z.eqb_spec j k) as [->|Njk].
      + destruct (HJ1 ltac:(lia)) as (_ & _ & H3 & _). rewrite (ip_sym n W). rewrite (ip_ext n _ _ _ W H3 (eqv_refl n W)).
        rewrite (ip3 n (be (k - 1)%Z) (al k) 1%R (V (k - 1)) (V k) (at_ r) W). rewrite (ip_ext n (at_ r) _ W W rW (eqv_refl n W)), ip_scal, WW.
        rewrite (ip_sym n (V k) W), WV by lia. assert (Gb : g = be k) by (unfold g; destruct (Z.eqb_spec J 1); [lia|reflexivity]). rewrite Gb.
        destruct (Z.eq_dec k 1) as [->|N1k]; [replace (1 - 1)%Z with 0%Z by lia; rewrite B0; ring|]. rewrite (ip_sym n (V (k - 1)) W), WV by lia. ring.
      + rewrite (ip_sym n W). rewrite (ip_ext n _ _ _ W (HR k ltac:(lia)) (eqv_refl n W)).
        rewrite (ip3 n (be (k - 1)%Z) (al k) (be k) (V (k - 1)) (V k) (V (k + 1)) W).
        rewrite (ip_sym n (V k) W), (ip_sym n (V (k + 1)) W), !WV by lia.
        destruct (Z.eq_dec k 1) as [->|N1k]; [replace (1 - 1)%Z with 0%Z by lia; rewrite B0; ring|]. rewrite (ip_sym n (V (k - 1)) W), WV by lia. ring. }
  set (beta := nm n (at_ r3)). change (nrm2 n r3) with beta.
  eapply wl_bind; [apply (wl_wrw _ _ beta (fun t' => t' = zupd (zupd t ((J - 1) * ss + (J - 1)) alpha) ((J - 1) * ss + J) beta)); auto|]. intros t2 ->.
  set (al' := fun k => if k =? J then alpha else al k). set (be' := fun k => if k =? J then beta else be k).
  assert (Bp : (0 <= beta)%R) by apply nm_pos.
  assert (ML : forall j2 t3, j2 = j \/ j2 = J -> tri J j2 al' be' t3 -> LI J j2 (v3, r3, t3)).
  { intros j2 t3 Hj2 HT3. exists V', al', be'. split; [lia|]. split; [exact HO'|]. split; [exact HV3|]. split; [exact HT3|].
    split. { intros k Hk i Hi. unfold al', be'. destruct (Z.eqb_spec k J); [lia|]. destruct (Z.eqb_spec (k - 1) J); [lia|]. apply HR'; [exact Hk|exact Hi]. }
    split. { unfold be'. destruct (Z.eqb_spec 0 J); [lia|exact B0]. }
    split. { intros k Hk. unfold al'. destruct (Z.eqb_spec k J) as [->|Nk]; [rewrite VJ; exact ALP|rewrite VK by exact Nk; apply HAl; lia]. }
    split; [intros; lia|]. intros _. split.
    { destruct (Z.eq_dec j 0) as [j0|Nj].
      - assert (J1 : J = 1) by lia. rewrite <- J1, VJ. intros i Hi. unfold W. rewrite (HJ0 j0 i Hi). unfold g. rewrite J1. cbn [Z.eqb Pos.eqb]. ring.
      - rewrite VK by lia. apply HJ1. lia. }
    split. { unfold be'. rewrite Z.eqb_refl. reflexivity. }
    split; [|exact RP]. rewrite VJ. intros i Hi. rewrite R3 by exact Hi. unfold be', al'. rewrite Z.eqb_refl. destruct (Z.eqb_spec (J - 1) J); [lia|]. replace (J - 1) with j by lia. rewrite VK by lia.
    destruct (Z.eqb_spec J 1); [|ring]. replace j with 0 by lia. rewrite B0. ring. }
  assert (T2 : tri J j al' be' (zupd (zupd t ((J - 1) * ss + (J - 1)) alpha) ((J - 1) * ss + J) beta)).
  { split; [rewrite !zlen_zupd; exact Lt|]. intros a b Ha Hb. rewrite tt_upd by (rewrite ?zlen_zupd; lia). rewrite tt_upd by lia. rewrite HT by lia. unfold al', be'.
    replace (J - 1) with j by lia.
    destruct (Z.eqb_spec j a) as [<-|Na]; cbn [andb].
    - destruct (Z.eqb_spec J b) as [<-|Nb]; [destruct (Z.eqb_spec j J); [lia|]; destruct (Z.eqb_spec J (j + 1)); [|lia]; destruct (Z.ltb_spec j J); [|lia]; destruct (Z.eqb_spec (j + 1) J); [reflexivity|lia]|].
      destruct (Z.eqb_spec j b) as [<-|Nb2]; [destruct (Z.ltb_spec j J); [|lia]; destruct (Z.eqb_spec (j + 1) J); [reflexivity|lia]|].
      destruct (Z.eqb_spec b (j + 1)); [lia|]. destruct (Z.eqb_spec j (b + 1)); [|reflexivity]. destruct (Z.ltb_spec b j); [|lia]. destruct (Z.eqb_spec (b + 1) J); [lia|reflexivity].
    - destruct (Z.eqb_spec a b) as [<-|Nab].
      + destruct (Z.ltb_spec a j); destruct (Z.ltb_spec a J); try lia; [destruct (Z.eqb_spec (a + 1) J); [lia|reflexivity]|reflexivity].
      + destruct (Z.eqb_spec b (a + 1)) as [->|Nb1].
        * destruct (Z.ltb_spec a j); destruct (Z.ltb_spec a J); try lia; [destruct (Z.eqb_spec (a + 1) J); [lia|reflexivity]|reflexivity].
        * destruct (Z.eqb_spec a (b + 1)); [|reflexivity]. destruct (Z.ltb_spec b j); [|reflexivity]. destruct (Z.eqb_spec (b + 1) J); [lia|reflexivity]. }
  destruct (sleb (ee_tol e) (sabs beta)) eqn:El; cbn [negb].
  - eapply wl_bind; [apply (wl_wrw _ _ beta (fun t' => t' = zupd (zupd (zupd t ((J - 1) * ss + (J - 1)) alpha) ((J - 1) * ss + J) beta) (J * ss + (J - 1)) beta)); intros _; f_equal; lia|]. intros t3 ->. apply wl_ok. apply ML; [right; reflexivity|].
    destruct T2 as (LT2 & HT2). split; [rewrite !zlen_zupd; exact Lt|]. intros a b Ha Hb. rewrite tt_upd by (try exact LT2; lia). rewrite HT2 by lia. unfold be' at 1.
    destruct (Z.eqb_spec J a) as [<-|Na]; cbn [andb].
    + destruct (Z.eqb_spec (J - 1) b) as [<-|Nb].
      * destruct (Z.eqb_spec J (J - 1)); [lia|]. destruct (Z.eqb_spec (J - 1) (J + 1)); [lia|]. destruct (Z.eqb_spec J (J - 1 + 1)); [|lia]. destruct (Z.ltb_spec (J - 1) J); [|lia]. unfold be'. destruct (Z.eqb_spec (J - 1 + 1) J); [reflexivity|lia].
      * destruct (Z.eqb_spec J b); [reflexivity|]. destruct (Z.eqb_spec b (J + 1)); [reflexivity|]. destruct (Z.eqb_spec J (b + 1)); [lia|reflexivity].
    + destruct (Z.eqb_spec a b); [reflexivity|]. destruct (Z.eqb_spec b (a + 1)); [reflexivity|]. destruct (Z.eqb_spec a (b + 1)); [|reflexivity]. destruct (Z.ltb_spec b j); destruct (Z.ltb_spec b J); try lia; reflexivity.
  - apply wl_ok. split; [apply ML; [left; reflexivity|exact T2]|]. apply slebR' in El. cbn in El. rewrite Rabs_pos_eq in El by exact Bp. exact El.
Qed.
End L.

From Verif Require Import SpecSub EsubTerms.
Section F.
Variables (e : eenv R) (E : Ent) (ss : Z).
Let n := ee_n e.
Hypothesis SYM : symmetric n E.
Lemma sym_ip f g : ip n (Af e E f) g = ip n f (Af e E g).
Proof.
  unfold ip, sm, Af. fold n. unfold mv_spec.
  transitivity (ssum (map (fun i => ssum (map (fun j => coef E i j * f j * g i)%R (zrange 0 n))) (zrange 0 n))).
  { apply ssum_map_ext. intros i _. change Rmult with (@smul R ScalarR) at 1. rewrite <- (ssum_map_mul_r ScalarR_ring). apply ssum_map_ext. intros j _. reflexivity. }
  rewrite (ssum_exchange ScalarR_ring). apply ssum_map_ext. intros j Hj. apply In_zrange in Hj.
  change Rmult with (@smul R ScalarR) at 3. rewrite <- (ssum_map_mul_l ScalarR_ring). apply ssum_map_ext. intros i Hi. apply In_zrange in Hi.
  rewrite (SYM i j) by lia. cbn. ring.
Qed.
Notation lan_post := (lanczos_array e E ss).
Lemma LI_post m j2 s : 1 <= m < ss -> j2 = m \/ j2 = m - 1 -> LI e E ss (nm n (fun _ => 1%R)) m j2 s -> let '(_, r, t) := s in (m = ss - 1 \/ (nm n (at_ r) < ee_tol e)%R) -> lan_post t.
Proof.
  intros Hm Hj2 HI. destruct s as [[v r] t]. intros Hst. destruct HI as (V & al & be & Lv & HO & HV & (Lt & HT) & HR & B0 & HAl & _ & HJ1).
  destruct (HJ1 ltac:(lia)) as (H1 & H2 & H3 & H4). clear HJ1.
  assert (ON : forall a b, 1 <= a <= m -> 1 <= b <= m -> ip n (V a) (V b) = if a =? b then 1%R else 0%R) by exact HO.
  assert (RC : forall k l, 1 <= k < m -> 1 <= l <= m -> k + 1 < l \/ l = k + 1 -> ip n (V l) (Af e E (V k)) = if l =? k + 1 then be k else 0%R).
  { intros k l Hk Hl HC. rewrite (ip_sym n (V l)). rewrite (ip_ext n _ _ _ (V l) (HR k Hk) (eqv_refl n (V l))). rewrite (ip3 n (be (k - 1)%Z) (al k) (be k) (V (k - 1)) (V k) (V (k + 1)) (V l)).
    rewrite (ON k l), (ON (k + 1) l) by lia. destruct (Z.eqb_spec k l); [lia|].
    assert (X : (be (k - 1)%Z * ip n (V (k - 1)%Z) (V l) = 0)%R).
    { destruct (Z.eq_dec k 1) as [->|N1]; [replace (1 - 1) with 0 by lia; rewrite B0; ring|]. rewrite ON by lia. destruct (Z.eqb_spec (k - 1) l); [lia|ring]. }
    rewrite X. destruct (Z.eqb_spec l (k + 1)) as [->|Nl]; [rewrite Z.eqb_refl; ring|]. destruct (Z.eqb_spec (k + 1) l); [lia|ring]. }
  assert (RS : forall k l, 1 <= k <= m -> 1 <= l <= m -> ip n (V l) (Af e E (V k)) = if l =? k then al k else if l =? k + 1 then be k else if k =? l + 1 then be l else 0%R).
  { intros k l Hk Hl. destruct (Z.eqb_spec l k) as [->|N]; [symmetry; apply HAl; lia|]. destruct (Z.lt_ge_cases k l) as [H|H].
    - rewrite RC by lia. destruct (Z.eqb_spec l (k + 1)); [reflexivity|]. destruct (Z.eqb_spec k (l + 1)); [lia|reflexivity].
    - rewrite <- sym_ip, ip_sym. rewrite RC by lia. destruct (Z.eqb_spec l (k + 1)); [lia|reflexivity]. }
  unfold lanczos_array. cbv zeta. fold n. exists m, V. split; [exact Hm|]. split; [intros a b Ha Hb; apply ON; lia|]. split; [exact H1|]. split; [|split].
  - intros a b Ha Hb. change (tt ss t a b = ip n (V (a + 1)) (Af e E (V (b + 1)))). rewrite HT by lia. rewrite RS by lia.
    destruct (Z.eqb_spec a b) as [->|Nab]; [rewrite Z.eqb_refl; destruct (Z.ltb_spec b m); [reflexivity|lia]|].
    destruct (Z.eqb_spec (a + 1) (b + 1)); [lia|]. destruct (Z.eqb_spec b (a + 1)) as [->|Nb].
    + destruct (Z.ltb_spec a m); [|lia]. destruct (Z.eqb_spec (a + 1) (a + 1 + 1 + 1)); [lia|]. rewrite Z.eqb_refl. reflexivity.
    + destruct (Z.eqb_spec a (b + 1)) as [->|Na].
      * destruct (Z.ltb_spec b j2); [|lia]. rewrite Z.eqb_refl. reflexivity.
      * destruct (Z.eqb_spec (a + 1) (b + 1 + 1)); [lia|]. destruct (Z.eqb_spec (b + 1) (a + 1 + 1)); [lia|reflexivity].
  - intros a Ha. change (tt ss t a a = 0%R). rewrite HT by lia. rewrite Z.eqb_refl. destruct (Z.ltb_spec a m); [lia|reflexivity].
  - destruct Hst as [->|Hst]; [left; reflexivity|right]. eapply Rle_lt_trans; [|exact Hst]. apply Req_le. apply (nm_ext n). intros i Hi. unfold remainder. 
    change (imageR n E (V m) i) with (Af e E (V m) i). rewrite (H3 i Hi).
    assert (SUM : ssum (map (fun l => ipR n (V l) (imageR n E (V m)) * V l i)%R (zrange 1 (m + 1))) = (be (m - 1)%Z * V (m - 1)%Z i + al m * V m i)%R).
    { rewrite (ssum_map_ext (S:=ScalarR) _ (fun l => (if l =? m then al m else if m =? l + 1 then be l else 0%R) * V l i)%R).
      2:{ intros l Hl. apply In_zrange in Hl. change (ipR n (V l) (imageR n E (V m))) with (ip n (V l) (Af e E (V m))). rewrite RS by lia. destruct (Z.eqb_spec l (m + 1)); [lia|]. reflexivity. }
      rewrite (zrange_snoc 1 m) by lia. rewrite map_app, (ssum_app ScalarR_ring). cbn [map ssum]. rewrite Z.eqb_refl.
      destruct (Z.eq_dec m 1) as [->|N1].
      - change (zrange 1 1) with (@nil Z). cbn [map ssum]. replace (1 - 1) with 0 by lia. rewrite B0. cbn. ring.
      - assert (Z1 : zrange 1 m = zrange 1 (m - 1) ++ [m - 1]) by (replace m with (m - 1 + 1) at 1 by lia; apply zrange_snoc; lia). rewrite Z1. rewrite map_app, (ssum_app ScalarR_ring). cbn [map ssum].
        destruct (Z.eqb_spec (m - 1) m); [lia|]. destruct (Z.eqb_spec m (m - 1 + 1)); [|lia].
        rewrite (ssum_map_ext (S:=ScalarR) _ (fun _ => s0) (zrange 1 (m - 1))).
        2:{ intros l Hl. apply In_zrange in Hl. destruct (Z.eqb_spec l m); [lia|]. destruct (Z.eqb_spec m (l + 1)); [lia|]. cbn. ring. }
        rewrite (ssum_map_zero ScalarR_ring). cbn. ring. }
    rewrite SUM. ring.
Qed.
Lemma lan_loop_wl fuel : forall j s, 0 <= j -> j + Z.of_nat fuel = ss - 1 -> LI e E ss (nm n (fun _ => 1%R)) j j s -> 1 <= j \/ (1 <= fuel)%nat ->
  wl (lan_loop fuel e E ss (nm n (fun _ => 1%R)) j s) (fun '(_, _, t) => lan_post t).
Proof.
  induction fuel as [|f IH]; intros j s Hj Hf HI HC; cbn [lan_loop].
  - apply wl_ok. pose proof (LI_post j j s ltac:(lia) ltac:(lia) HI) as G. destruct s as [[v r] t]. apply G. left. lia.
  - eapply wl_bind; [apply (lan_step_wl e E ss sym_ip _ eq_refl j s); [lia|lia|exact HI]|]. intros [stop s'] H. destruct stop.
    + apply wl_ok. destruct H as (H & Hr). pose proof (LI_post (j + 1) j s' ltac:(lia) ltac:(lia) H) as G. destruct s' as [[v r] t]. apply G. right. exact Hr.
    + apply IH; [lia|lia|exact H|lia].
Qed.
Lemma lanczos_wl jv : 2 <= ss -> wl (lanczos e ss jv E) lan_post.
Proof.
  intros Hss. unfold lanczos. fold n.
  eapply (wl_bind _ _ (fun t : list R => zlen t = ss * ss /\ forall p, 0 <= p < ss * ss -> znth 0%R t p = 0%R)).
  - apply (wl_forI (fun k t => zlen t = ss * ss /\ forall p, 0 <= p < k -> znth 0%R t p = 0%R)); [nia|split; [apply zlen_alloc; nia|intros; lia]| |auto].
    intros k t Hk (L & H). apply wl_wrw. intros _. split; [rewrite zlen_zupd; exact L|]. intros p Hp. destruct (Z.eq_dec p k) as [->|N]; [apply znth_zupd_eq; lia|]. rewrite znth_zupd_neq by lia. apply H. lia.
  - intros t (Lt & Ht). eapply (wl_bind _ _ (fun '(_, _, t) => lan_post t)); [|intros [[v r] t'] H; apply wl_ok; exact H].
    assert (ONE : eqv n (at_ (set_all n (s1 : R))) (fun _ => 1%R)) by (intros i Hi; apply (atR_tab n (fun _ => 1%R)); exact Hi).
    change (nrm2 n (set_all n (s1 : R))) with (nm n (at_ (set_all n (s1 : R)))). rewrite (nm_ext n _ _ ONE).
    apply lan_loop_wl; [lia|lia| |right; lia].
    exists (fun _ _ => 0%R), (fun _ => 0%R), (fun _ => 0%R). split; [rewrite zlen_zupd; apply zlen_alloc; lia|]. split; [intros a b; lia|]. split; [intros k; lia|].
    split; [|split; [intros k; lia|split; [reflexivity|split; [intros; lia|split; [intros _; exact ONE|lia]]]]].
    split; [exact Lt|]. intros a b Ha Hb. unfold tt. rewrite Ht by nia. destruct (a =? b); [destruct (a <? 0); reflexivity|]. destruct (b =? a + 1); [destruct (a <? 0); reflexivity|]. destruct (a =? b + 1); [destruct (b <? 0); reflexivity|reflexivity].
Qed.
End F.
