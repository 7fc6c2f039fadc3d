(** The algebra behind the (bi)conjugate gradient iterations: with the shadow vectors as
    functionals, each step keeps the new residual annihilated by all older functionals. *)
Require Import List Lia Field Field_theory Arith.
From Verif Require Import Scalar Lindep.
Import ListNotations.

Section B.
Context {T : Type} {S : Scalar T}.
Hypothesis FT : is_field S.
Let FT' : @field_theory T s0 s1 sadd smul ssub sopp sdiv (fun x => sdiv s1 x) (@eq T) := FT.
Add Field F : FT'.
Variable V : Type.
Variables A P : V -> V.
Notation fn := (V -> T).

Inductive biorth : list (fn * V) -> Prop :=
| bi_nil : biorth []
| bi_cons f z l : f z <> s0 -> (forall g, In g (map fst l) -> g z = s0) -> biorth l -> biorth ((f, z) :: l).

Record inv (H : list (fn * V)) (Ps : list fn) (r p : V) (fr fp : fn) (ro : T) : Prop := mkInv {
  i_bi : biorth H;
  i_1 : forall f, In f (map fst H) -> f (P r) = s0;
  i_2 : forall f, In f Ps -> f (A p) = s0;
  i_3 : forall f, In f Ps -> exists k a b, In a (map fst H) /\ In b (map fst H) /\ forall v, f (A v) = smul k (ssub (a v) (b v));
  i_4 : (H = [] /\ Ps = [] /\ forall v, fp v = s0) \/
        exists k a, In a (map fst H) /\ (forall v, fp (A v) = smul k (ssub (a v) (fr v))) /\ smul k ro = fp (A p);
  i_5 : forall f, In f (map fst H) -> exists x d y, In x (fp :: Ps) /\ In y (fp :: Ps) /\ forall v, f (P v) = ssub (x v) (smul d (y v));
  i_ro : ro <> s0 }.

Lemma conj_dir H Ps r p fr fp ro p' : inv H Ps r p fr fp ro ->
  (forall f, In f (fp :: Ps) -> f (A p') = sadd (f (A (P r))) (smul (sdiv (fr (P r)) ro) (f (A p)))) ->
  forall f, In f (fp :: Ps) -> f (A p') = s0.
Proof.
  intros [B1 I1 I2 I3 I4 I5 R0] HA f [<-|Hf]; [|].
  - destruct I4 as [(_ & _ & Z0)|(k & a & Ha & Hk & Hro)]; [apply Z0|].
    rewrite HA by (left; reflexivity). rewrite Hk, (I1 a Ha). rewrite <- Hro. field. auto.
  - rewrite HA by (right; auto). destruct (I3 f Hf) as (k & a & b & Ha & Hb & E). rewrite E, (I1 a Ha), (I1 b Hb), (I2 f Hf). ring.
Qed.

Lemma inv_step H Ps r p fr fp ro p' r' fr' fp' :
  inv H Ps r p fr fp ro -> fr (P r) <> s0 ->
  let rho := fr (P r) in let beta := sdiv rho ro in
  (forall v, fp' v = sadd (fr (P v)) (smul beta (fp v))) ->
  (forall f, In f (fp :: Ps) -> f (A p') = sadd (f (A (P r))) (smul beta (f (A p)))) ->
  let sg := fp' (A p') in sg <> s0 -> let alpha := sdiv rho sg in
  (forall v, fr' v = ssub (fr v) (smul alpha (fp' (A v)))) ->
  (forall f, In f (fr :: map fst H) -> f (P r') = ssub (f (P r)) (smul alpha (f (P (A p'))))) ->
  inv ((fr, P r) :: H) (fp :: Ps) r' p' fr' fp' rho.
Proof.
  intros I0 Hrho rho beta Hfp HA sg Hsg alpha Hfr HP.
  pose proof (conj_dir _ _ _ _ _ _ _ p' I0 HA) as K.
  destruct I0 as [B1 I1 I2 I3 I4 I5 R0].
  constructor; cbn [map fst].
  - constructor; auto.
  - intros f [<-|Hf].
    + rewrite HP by (left; reflexivity).
      assert (E : fr (P (A p')) = sg).
      { pose proof (Hfp (A p')) as E. rewrite (K fp) in E by (left; reflexivity). unfold sg. rewrite E. ring. }
      rewrite E. unfold alpha, rho. field. auto.
    + rewrite HP by (right; auto). rewrite (I1 f Hf). destruct (I5 f Hf) as (x & d & y & Hx & Hy & E).
      rewrite E, (K x Hx), (K y Hy). ring.
  - exact K.
  - intros f [<-|Hf].
    + destruct I4 as [(-> & -> & Z0)|(k & a & Ha & Hk & _)].
      * exists s0, fr, fr. split; [left; reflexivity|]. split; [left; reflexivity|]. intros v. rewrite Z0. ring.
      * exists k, a, fr. split; [right; auto|]. split; [left; reflexivity|]. exact Hk.
    + destruct (I3 f Hf) as (k & a & b & Ha & Hb & E). exists k, a, b. split; [right; auto|]. split; [right; auto|]. exact E.
  - right. exists (sdiv s1 alpha), fr. 
    assert (Ha : alpha <> s0).
    { intros E. apply Hrho. assert (Z : smul alpha sg = rho) by (unfold alpha, rho; field; auto). rewrite E in Z. unfold rho in Z. rewrite <- Z. ring. }
    split; [left; reflexivity|]. split.
    + intros v. rewrite Hfr. field. auto.
    + unfold alpha, rho. fold sg. field. auto.
  - intros f [<-|Hf].
    + exists fp', beta, fp. split; [left; reflexivity|]. split; [right; left; reflexivity|]. intros v. rewrite Hfp. ring.
    + destruct (I5 f Hf) as (x & d & y & Hx & Hy & E). exists x, d, y. split; [right; auto|]. split; [right; auto|]. exact E.
  - exact Hrho.
Qed.
Lemma inv_init r p fr fp ro : (forall v, fp v = s0) -> ro <> s0 -> inv [] [] r p fr fp ro.
Proof. intros; constructor; auto; try (intros ? []). constructor. Qed.

(** functionals given by n coefficients: at most n members *)
Hypothesis EQ : eqb_ok S.
Variable n : nat.
Variable comp : V -> nat -> T.
Definition repr (f : fn) (w : nat -> T) : Prop := forall v, f v = ssum (map (fun i => smul (w i) (comp v i)) (seq 0 n)).
Lemma biorth_length H : biorth H -> (forall f, In f (map fst H) -> exists w, repr f w) -> length H <= n.
Proof.
  intros HB HR.
  assert (E : exists L, dual n L /\ length L = length H /\ (forall w, In w (map fst L) -> exists f, In f (map fst H) /\ repr f w)).
  { revert HR. induction HB as [|f z l Hf Hg HB IH]; intros HR.
    - exists []. split; [constructor|]. split; [reflexivity|]. intros w [].
    - destruct IH as (L & L1 & L2 & L3); [intros; apply HR; right; auto|].
      destruct (HR f (or_introl eq_refl)) as (w & Hw).
      assert (C : forall w f, repr f w -> pair_ n (comp z) w = f z).
      { intros w' f' Hw'. rewrite Hw'. unfold pair_. apply ssum_map_ext. intros; ring. }
      exists ((w, comp z) :: L). split; [|split].
      + constructor; auto.
        * rewrite (C w f Hw). auto.
        * intros u Hu. destruct (L3 u Hu) as (g & G1 & G2). rewrite (C u g G2). apply Hg. auto.
      + cbn [length]. rewrite L2. reflexivity.
      + intros u [<-|Hu]; [exists f; split; [left; reflexivity|auto]|].
        destruct (L3 u Hu) as (g & G1 & G2). exists g. split; [right; auto|auto]. }
  destruct E as (L & L1 & L2 & _). rewrite <- L2. apply (dual_length FT EQ n L L1).
Qed.
End B.
