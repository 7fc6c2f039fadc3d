(** Termination of CG and COCG within n iterations. *)
Require Import ZArith List Bool Lia Field Field_theory.
From Verif Require Import Base Scalar Spec SpecSolver Krylov MatvecProof KrylovProof Lindep BiorthProof.
Import ListNotations.
Open Scope Z_scope.

(** [strict]: division by zero and breakdown are excluded *)
Definition okm (strict : bool) {A} (m : res A) (Q : A -> Prop) : Prop :=
  match m with Ok a => Q a | Err c => strict = false /\ c = DIV_BY_ZERO | UB => False end.
Lemma okm_bind st {A B} (m : res A) (f : A -> res B) Q : okm st m (fun a => okm st (f a) Q) -> okm st (bind m f) Q.
Proof. destruct m; simpl; auto. Qed.
Lemma okm_mono st {A} (m : res A) (P Q : A -> Prop) : okm st m P -> (forall a, P a -> Q a) -> okm st m Q.
Proof. destruct m; simpl; auto. Qed.
Definition good_stop (st : bool) (ret : Z) : Prop := ret = LIS_SUCCESS \/ st = false /\ ret = LIS_BREAKDOWN.

Lemma iterate_term st {A} (body : Z -> A -> res (ctl A)) (I : Z -> A -> Prop) (N M : Z) :
  (forall it s, I it s -> it <= N) ->
  (forall it s, it <= M -> I it s -> okm st (body it s) (fun c => match c with Next s' => I (it + 1) s' | Stop ret _ => good_stop st ret end)) ->
  N <= M ->
  forall fuel it s, I it s -> Z.of_nat fuel + it = M + 1 ->
  okm st (iterate fuel it body s) (fun o => let '(ret, iter, _) := o in good_stop st ret /\ it <= iter <= N).
Proof.
  intros HN HB HM fuel; induction fuel as [|f IH]; intros it s HI Hf; cbn [iterate].
  - specialize (HN it s HI). lia.
  - apply okm_bind. eapply okm_mono; [apply HB; [lia|exact HI]|]. intros [s'|ret s'] H.
    + eapply okm_mono; [apply IH; [exact H|lia]|]. intros [[ret iter] ?] (G & L). split; [auto|lia].
    + simpl. split; [exact H|]. specialize (HN it s HI). lia.
Qed.

Section P.
Context {T : Type} {S : Scalar T}.
Hypothesis FT : is_field S.
Hypothesis EQ : eqb_ok S.
Let RT : is_ring S := F_R FT.
Let FT' : @field_theory T s0 s1 sadd smul ssub sopp sdiv (fun x => sdiv s1 x) (@eq T) := FT.
Add Field F : FT'.
Notation vec := (vect (T:=T)).
Notation kst' := (kst (T:=T)).

(** an inner product of vectors with n components *)
Record form (n : Z) (ip : vec -> vec -> T) (tau : T -> T) : Prop := mkForm {
  f_lin : forall a b u x y v, (forall i, 0 <= i < n -> at_ v i = sadd (smul a (at_ x i)) (smul b (at_ y i))) ->
     ip u v = sadd (smul a (ip u x)) (smul b (ip u y));
  f_herm : forall u v, tau (ip u v) = ip v u;
  f_add : forall a b, tau (sadd a b) = sadd (tau a) (tau b);
  f_mul : forall a b, tau (smul a b) = smul (tau a) (tau b);
  f_inj : forall a, tau (tau a) = a;
  f_repr : forall u, exists w, forall v, ip u v = ssum (map (fun i => smul (w i) (at_ v (Z.of_nat i))) (seq 0 (Z.to_nat n))) }.

Lemma ssum_zrange_seq (f : Z -> T) n : ssum (map f (zrange 0 n)) = ssum (map (fun i => f (Z.of_nat i)) (seq 0 (Z.to_nat n))).
Proof. unfold zrange. rewrite map_map. replace (Z.to_nat (n - 0)) with (Z.to_nat n) by lia. apply ssum_map_ext. intros; f_equal; lia. Qed.
Lemma form_nhdot n : form n (nhdot n) (fun a => a).
Proof.
  constructor; auto.
  - intros. unfold nhdot. rewrite <- !(ssum_map_mul_l RT), <- (ssum_map_add RT). apply ssum_map_ext.
    intros i Hi. apply In_zrange in Hi. rewrite H by lia. ring.
  - intros. unfold nhdot. apply ssum_map_ext. intros; ring.
  - intros. exists (fun i => at_ u (Z.of_nat i)). intros v. apply (ssum_zrange_seq (fun i => smul (at_ u i) (at_ v i))).
Qed.
Lemma conj_sum (HC : conj_ok S) l : sconj (ssum l) = ssum (map sconj l).
Proof. destruct HC as (H1 & H2 & H3 & H4 & H5). induction l; cbn [ssum map]; auto. rewrite H1, IHl. reflexivity. Qed.
Lemma form_dot n (HC : conj_ok S) : form n (dot n) sconj.
Proof.
  constructor; try apply HC.
  - intros. unfold dot. rewrite <- !(ssum_map_mul_l RT), <- (ssum_map_add RT). apply ssum_map_ext.
    intros i Hi. apply In_zrange in Hi. rewrite H by lia. ring.
  - intros. unfold dot. rewrite (conj_sum HC), map_map. apply ssum_map_ext. intros.
    destruct HC as (H1 & H2 & H3 & H4 & H5). rewrite H2, H3. ring.
  - intros. exists (fun i => sconj (at_ u (Z.of_nat i))). intros v. apply (ssum_zrange_seq (fun i => smul (sconj (at_ u i)) (at_ v i))).
Qed.

Section Form.
Variables (n : Z) (ip : vec -> vec -> T) (tau : T -> T).
Hypothesis FM : form n ip tau.
Notation veq := (fun u v : vec => forall i, 0 <= i < n -> at_ u i = at_ v i).
Lemma ip_ext_r u v w : veq v w -> ip u v = ip u w.
Proof. intros H. rewrite (f_lin _ _ _ FM s1 s0 u w w v); [ring|]. intros i Hi. rewrite H by auto. ring. Qed.
Lemma tau_0 : tau s0 = s0.
Proof. pose proof (f_add _ _ _ FM s0 s0) as H. replace (sadd s0 s0) with (s0 : T) in H by ring.
  assert (E : ssub (tau s0) (tau s0) = tau s0) by (rewrite H at 1; ring). rewrite <- E. ring. Qed.
Lemma tau_1 : tau s1 = s1.
Proof. rewrite <- (f_inj _ _ _ FM s1) at 2. replace (tau s1) with (smul (tau s1) s1) at 2 by ring. rewrite (f_mul _ _ _ FM), (f_inj _ _ _ FM). ring. Qed.
Lemma ip_lin_l a b u x y v : (forall i, 0 <= i < n -> at_ u i = sadd (smul a (at_ x i)) (smul b (at_ y i))) ->
  ip u v = sadd (smul (tau a) (ip x v)) (smul (tau b) (ip y v)).
Proof.
  intros H. rewrite <- (f_herm _ _ _ FM v u), (f_lin _ _ _ FM a b v x y u H), (f_add _ _ _ FM), !(f_mul _ _ _ FM), !(f_herm _ _ _ FM). reflexivity.
Qed.
Lemma ip_ext_l u v w : veq u v -> ip u w = ip v w.
Proof. intros H. rewrite <- (f_herm _ _ _ FM w u), <- (f_herm _ _ _ FM w v). f_equal. apply ip_ext_r. auto. Qed.
Lemma ip_xpay_r u x a y : ip u (xpay n x a y) = sadd (ip u x) (smul a (ip u y)).
Proof. rewrite (f_lin _ _ _ FM s1 a u x y); [ring|]. intros. rewrite at_xpay by auto. ring. Qed.
Lemma ip_axpy_r u a x y : ip u (axpy n a x y) = sadd (ip u y) (smul a (ip u x)).
Proof. rewrite (f_lin _ _ _ FM s1 a u y x); [ring|]. intros. rewrite at_axpy by auto. ring. Qed.
Lemma ip_xpay_l x a y v : ip (xpay n x a y) v = sadd (ip x v) (smul (tau a) (ip y v)).
Proof. rewrite (ip_lin_l s1 a _ x y); [rewrite tau_1; ring|]. intros. rewrite at_xpay by auto. ring. Qed.
Lemma ip_axpy_l a x y v : ip (axpy n a x y) v = sadd (ip y v) (smul (tau a) (ip x v)).
Proof. rewrite (ip_lin_l s1 a _ y x); [rewrite tau_1; ring|]. intros. rewrite at_axpy by auto. ring. Qed.
Lemma tau_opp a : tau (sopp a) = sopp (tau a).
Proof. assert (H : sadd (tau (sopp a)) (tau a) = s0) by (rewrite <- (f_add _ _ _ FM); replace (sadd (sopp a) a) with (s0 : T) by ring; apply tau_0).
  replace (tau (sopp a)) with (ssub (sadd (tau (sopp a)) (tau a)) (tau a)) by ring. rewrite H. ring. Qed.
Lemma tau_div a b : b <> s0 -> tau (sdiv a b) = sdiv (tau a) (tau b).
Proof.
  intros Hb. assert (Hb' : tau b <> s0) by (intros E; apply Hb; rewrite <- (f_inj _ _ _ FM b), E; apply tau_0).
  assert (E : smul (tau (sdiv a b)) (tau b) = tau a) by (rewrite <- (f_mul _ _ _ FM); f_equal; field; auto).
  rewrite <- E. field. auto.
Qed.
Lemma ip_zero_l u v : (forall i, 0 <= i < n -> at_ u i = s0) -> ip u v = s0.
Proof. intros H. rewrite (ip_lin_l s0 s0 u u u); [rewrite tau_0; ring|]. intros. rewrite H by auto. ring. Qed.
Lemma ip_zero_r u v : (forall i, 0 <= i < n -> at_ v i = s0) -> ip u v = s0.
Proof. intros H. rewrite (f_lin _ _ _ FM s0 s0 u v v v); [ring|]. intros. rewrite H by auto. ring. Qed.
End Form.

Lemma divz_ok a b : b <> s0 -> divz a b = Ok (sdiv a b).
Proof. intros H. unfold divz. destruct (seqb b s0) eqn:E; auto. apply EQ in E. contradiction. Qed.
Lemma check_ok st {B} e bn tol it r W k (f : bool * kst' -> res B) Q :
  0 <= it < zlen (k_rh k) ->
  (forall rh, zlen rh = zlen (k_rh k) -> okm st (f (sleb (get_residual e bn r) tol, mkK W (Some (get_residual e bn r)) rh)) Q) ->
  okm st (bind (conv_check e bn tol it r W k) f) Q.
Proof.
  intros Hi H. unfold conv_check. destruct (e_mem e) eqn:Em; cbn [bind].
  - rewrite wr_ok by auto. cbn [bind]. apply H. unfold zlen, zupd. destruct (it <? 0); auto. rewrite upd_nat_length. reflexivity.
  - apply H. reflexivity.
Qed.

Lemma solver_term st {L} e rr (start : T -> T -> (Z -> vec) -> res ((Z -> vec) * L)) body (I : T -> T -> Z -> kst' * L -> Prop) (N : Z) x rh :
  (forall bn tol it s, I bn tol it s -> it <= N) ->
  (forall bn tol it s, it <= e_maxiter e -> I bn tol it s ->
     okm st (body bn tol it s) (fun c => match c with Next s' => I bn tol (it + 1) s' | Stop ret _ => good_stop st ret end)) ->
  N <= e_maxiter e -> 0 <= e_maxiter e ->
  (let '(p, bn, tol, nr, acc) := get_initial_residual e x in acc = false ->
     okm st (start bn tol (upd (upd (fun _ => set_all (e_n e) s0) X x) rr p)) (fun o => let '(W, l) := o in I bn tol 1 (mkK W None rh, l))) ->
  okm st (solver e rr start body x rh) (fun o => good_stop st (o_ret o) /\ 1 <= o_iter o <= Z.max 1 N).
Proof.
  intros HN HB HM H0 HS. unfold solver. destruct (get_initial_residual e x) as [[[[p bn] tol] nr] acc]. destruct acc.
  - split; [left; reflexivity|cbn [o_iter]; lia].
  - specialize (HS eq_refl). unfold lt. apply okm_bind. eapply okm_mono; [exact HS|]. intros [W l] HI.
    apply okm_bind. eapply okm_mono; [apply (iterate_term st (body bn tol) (I bn tol) N (e_maxiter e)); [exact (HN bn tol)|exact (HB bn tol)|exact HM|exact HI|lia]|].
    intros [[ret iter] [k l']] (G1 & G2). cbn [okm o_ret o_iter]. split; [auto|lia].
Qed.

(** *** CG *)
Section CG.
Variable st : bool.
Variable e : env (T:=T).
Variables (bn tol : T) (ip : Z -> vec -> vec -> T) (tau : T -> T) (Pr : vec -> vec).
Notation n := (e_n e).
Notation A := (matvec n (e_E e)).
Hypothesis FM : form n (ip n) tau.
Hypothesis HA : forall u v, ip n u (A v) = ip n (A u) v.
Hypothesis HP : forall u v, ip n u (Pr v) = ip n (Pr u) v.
Hypothesis HPe : forall k v, e_psolve e k v = Pr v.
Hypothesis HS1 : st = true -> forall r, sleb (get_residual e bn r) tol = false -> ip n r (Pr r) <> s0.
Hypothesis HS2 : st = true -> forall p r, ip n p r <> s0 -> ip n p (A p) <> s0.

Definition cg_live (it : Z) (s : kst' * T) : Prop :=
  let '(k, ro) := s in let r := k_W k 2 in let p := k_W k 3 in
  (st = true -> ip n r (Pr r) <> s0) /\ tau ro = ro /\ ip n p r = s0 /\
  exists H Ps, Z.of_nat (length H) = it - 1 /\ (forall f, In f (map fst H) -> exists u, f = ip n u) /\ (forall f, In f Ps -> exists u, f = ip n u) /\
    inv vec A Pr H Ps r p (ip n r) (ip n p) ro.
Definition cg_inv (it : Z) (s : kst' * T) : Prop :=
  1 <= it <= e_maxiter e + 1 /\ zlen (k_rh (fst s)) = e_maxiter e + 2 /\
  (cg_live it s \/ st = false /\ snd s = s0 /\ it <= n + 2).
Lemma hist_length (H : list ((vec -> T) * vec)) : (forall f, In f (map fst H) -> exists u, f = ip n u) -> biorth vec H -> 0 <= n -> Z.of_nat (length H) <= n.
Proof using FT EQ FM.
  intros HF HB Hn. apply (biorth_length FT vec EQ (Z.to_nat n) (fun v i => at_ v (Z.of_nat i))) in HB; [lia|].
  intros f Hf. destruct (HF f Hf) as (u & ->). destruct (f_repr _ _ _ FM u) as (w & Hw). exists w. exact Hw.
Qed.
Lemma A_xpay u x a y : ip n u (A (xpay n x a y)) = sadd (ip n u (A x)) (smul a (ip n u (A y))).
Proof.
  rewrite (f_lin _ _ _ FM s1 a u (A x) (A y)); [ring|]. intros i Hi. rewrite !at_matvec by auto. rewrite (mv_xpay RT). ring.
Qed.

Lemma cg_step it s : 0 <= n -> it <= e_maxiter e -> cg_inv it s ->
  okm st (cg_body ip e bn tol it s) (fun c => match c with Next s' => cg_inv (it + 1) s' | Stop ret _ => good_stop st ret end).
Proof.
  intros Hn Him (Hit & Hrh & HI). destruct s as [[W nr rh] ro]. cbn [fst snd k_rh] in *.
  cbv beta delta [cg_body lt]; cbv zeta; cbv beta iota; cbn [k_W k_nrm k_rh].
  cbv [upd Z.eqb Pos.eqb X]. rewrite HPe.
  destruct HI as [HL|(Hst & -> & Hle)].
  2:{ apply okm_bind. unfold divz. destruct (seqb s0 s0) eqn:E; [split; auto|].
      assert (E' : seqb (s0 : T) s0 = true) by (apply EQ; reflexivity). congruence. }
  unfold cg_live in HL; cbv zeta in HL; cbn [k_W] in HL.
  destruct HL as (Hg & Hro & Hpr & H & Ps & HLn & HF & HF' & HI).
  pose proof (i_ro _ _ _ _ _ _ _ _ _ _ HI) as Hro0.
  set (r := W 2) in *. set (p := W 3) in *.
  set (rho := ip n r (Pr r)).
  rewrite (divz_ok rho ro) by auto. cbn [bind].
  set (beta := sdiv rho ro). set (p' := xpay n (Pr r) beta p). set (sg := ip n p' (A p')).
  destruct (seqb sg s0) eqn:Esg.
  { cbn [okm]. destruct st eqn:Est; [|right; auto]. exfalso. apply EQ in Esg.
    apply (HS2 eq_refl p' r); auto. unfold p'. rewrite (ip_xpay_l _ _ _ FM), Hpr, <- HP.
    intros Z. apply (Hg eq_refl). rewrite <- Z. ring. }
  assert (Hsg : sg <> s0) by (intros Z; apply EQ in Z; congruence).
  rewrite (divz_ok rho sg) by auto. cbn [bind].
  set (alpha := sdiv rho sg). set (r' := axpy n (sopp alpha) (A p') r).
  apply check_ok; [cbn [k_rh]; lia|]. cbn [k_rh]. intros rh' Hrh'. cbv beta iota.
  destruct (sleb (get_residual e bn r') tol) eqn:Ecv; cbn [okm]; [left; reflexivity|].
  split; [lia|]. cbn [fst k_rh]. split; [lia|].
  pose proof (hist_length H HF (i_bi _ _ _ _ _ _ _ _ _ _ HI) Hn) as Hlen.
  destruct (seqb rho s0) eqn:Erho.
  { apply EQ in Erho. destruct st eqn:Est; [exfalso; apply (Hg eq_refl); auto|]. right. cbn [snd]. split; [auto|]. split; [exact Erho|]. lia. }
  assert (Hrho : rho <> s0) by (intros Z; apply EQ in Z; congruence).
  left. unfold cg_live; cbv zeta; cbn [k_W].
  assert (T1 : tau rho = rho) by (unfold rho; rewrite (f_herm _ _ _ FM), <- HP; reflexivity).
  assert (T2 : tau sg = sg) by (unfold sg; rewrite (f_herm _ _ _ FM), <- HA; reflexivity).
  assert (Tb : tau beta = beta) by (unfold beta; rewrite (tau_div _ _ _ FM) by auto; rewrite T1, Hro; reflexivity).
  assert (Ta : tau alpha = alpha) by (unfold alpha; rewrite (tau_div _ _ _ FM) by auto; rewrite T1, T2; reflexivity).
  split; [intros Est; apply HS1; auto|]. split; [exact T1|].
  assert (E1 : ip n p' r = rho) by (unfold p'; rewrite (ip_xpay_l _ _ _ FM), Hpr, <- HP; fold rho; ring).
  split.
  { unfold r'. rewrite (ip_axpy_r _ _ _ FM), E1. fold sg. unfold alpha. field. auto. }
  exists ((ip n r, Pr r) :: H), (ip n p :: Ps). split; [cbn [length]; lia|]. split.
  { intros f [<-|Hf]; [exists r; reflexivity|auto]. }
  split; [intros f [<-|Hf]; [exists p; reflexivity|auto]|].
  apply (inv_step FT vec A Pr H Ps r p (ip n r) (ip n p) ro p' r' (ip n r') (ip n p') HI Hrho).
  - intros v. unfold p'. rewrite (ip_xpay_l _ _ _ FM), Tb, <- HP. reflexivity.
  - intros f Hf. assert (Hu : exists u, f = ip n u) by (destruct Hf as [<-|Hf]; [exists p; reflexivity|auto]).
    destruct Hu as (u & ->). apply A_xpay.
  - exact Hsg.
  - intros v. unfold r'. rewrite (ip_axpy_l _ _ _ FM), (tau_opp _ _ _ FM), Ta, <- HA. fold sg. unfold alpha, rho. ring.
  - intros f Hf. assert (Hu : exists u, f = ip n u) by (destruct Hf as [<-|Hf]; [exists r; reflexivity|auto]).
    destruct Hu as (u & ->). rewrite (HP u r'), (HP u r), (HP u (A p')). unfold r'. rewrite (ip_axpy_r _ _ _ FM). fold sg. unfold alpha, rho. ring.
Qed.
Lemma cg_bound it s : 0 <= n -> cg_inv it s -> it <= if st then n else n + 2.
Proof using FT EQ FM.
  clear HS1 HS2. intros Hn (Hit & Hrh & [HL|(Hst & _ & Hle)]); [|rewrite Hst; lia].
  destruct s as [k ro]. unfold cg_live in HL; cbv zeta in HL. destruct HL as (Hg & Hro & Hpr & H & Ps & HLn & HF & HF' & HI).
  destruct st eqn:Est.
  - assert (HH : Z.of_nat (length ((ip n (k_W k 2), Pr (k_W k 2)) :: H)) <= n).
    { apply hist_length; auto.
      - intros f [<-|Hf]; [eexists; reflexivity|auto].
      - constructor; [apply Hg; reflexivity| |apply HI]. apply HI. }
    cbn [length] in HH. lia.
  - pose proof (hist_length H HF (i_bi _ _ _ _ _ _ _ _ _ _ HI) Hn). lia.
Qed.
End CG.

(** what the strict case asks of the start of a solver *)
Definition start_good (st : bool) (e : env (T:=T)) (x : vec) (good : vec -> Prop) : Prop :=
  let '(p, bn, tol, nr, acc) := get_initial_residual e x in acc = false -> st = true ->
    good p /\ forall r, sleb (get_residual e bn r) tol = false -> good r.

Lemma lis_cg_term st e ip tau Pr x rh :
  form (e_n e) (ip (e_n e)) tau ->
  (forall u v, ip (e_n e) u (matvec (e_n e) (e_E e) v) = ip (e_n e) (matvec (e_n e) (e_E e) u) v) ->
  (forall u v, ip (e_n e) u (Pr v) = ip (e_n e) (Pr u) v) ->
  (forall k v, e_psolve e k v = Pr v) ->
  (st = true -> forall p r, ip (e_n e) p r <> s0 -> ip (e_n e) p (matvec (e_n e) (e_E e) p) <> s0) ->
  start_good st e x (fun r => ip (e_n e) r (Pr r) <> s0) ->
  0 <= e_n e -> (if st then e_n e else e_n e + 2) <= e_maxiter e -> zlen rh = e_maxiter e + 2 ->
  okm st (solver e 2 (cg_start e) (cg_body ip e) x rh)
    (fun o => good_stop st (o_ret o) /\ 1 <= o_iter o <= Z.max 1 (if st then e_n e else e_n e + 2)).
Proof.
  intros FM HA HP HPe HS2 HS Hn HM Hrh.
  apply (solver_term st e 2 (cg_start e) (cg_body ip e)
    (fun bn tol it s => cg_inv st e ip tau Pr it s /\ (st = true -> forall r, sleb (get_residual e bn r) tol = false -> ip (e_n e) r (Pr r) <> s0))).
  - intros bn tol it s (HI & _). apply (cg_bound st e ip tau Pr FM it s Hn HI).
  - intros bn tol it s Hit (HI & HG). eapply okm_mono; [apply (cg_step st e bn tol ip tau Pr FM HA HP HPe HG HS2 it s Hn Hit HI)|].
    intros [s'|ret s'] H; auto.
  - exact HM.
  - destruct st; lia.
  - unfold start_good in HS. destruct (get_initial_residual e x) as [[[[p bn] tol] nr] acc]. intros Hacc.
    cbn [okm cg_start]. split; [|intros Hst; exact (proj2 (HS Hacc Hst))].
    assert (Hm0 : 0 <= e_maxiter e) by (destruct st; lia).
    split; [lia|]. cbn [fst k_rh]. split; [lia|]. left. unfold cg_live; cbv zeta; cbn [k_W]. cbv [upd Z.eqb Pos.eqb].
    split; [intros Hst; exact (proj1 (HS Hacc Hst))|]. split; [apply (tau_1 _ _ _ FM)|].
    assert (Z0 : forall v, ip (e_n e) (set_all (e_n e) s0) v = s0) by (intros v; apply (ip_zero_l _ _ _ FM); intros; apply at_set_all; auto).
    split; [apply Z0|]. exists [], []. split; [reflexivity|]. split; [intros f []|]. split; [intros f []|].
    apply inv_init; [exact Z0|exact (F_1_neq_0 FT)].
Qed.

(** *** BiCG *)
Section BiCG.
Variable st : bool.
Variable e : env (T:=T).
Variables (bn tol : T) (Pr Ph : vec -> vec).
Notation n := (e_n e).
Notation A := (matvec n (e_E e)).
Notation Ah := (matvech n (e_E e)).
Notation ip := (dot n).
Hypothesis HC : conj_ok S.
Let FM : form n ip sconj := form_dot n HC.
Hypothesis HA : forall u v, ip u (A v) = ip (Ah u) v.
Hypothesis HP : forall u v, ip u (Pr v) = ip (Ph u) v.
Hypothesis HPe : forall k v, e_psolve e k v = Pr v.
Hypothesis HPh : forall k v, e_psolveh e k v = Ph v.
(** the strict case: real, symmetric *)
Hypothesis SR : st = true -> forall a : T, sconj a = a.
Hypothesis SA : st = true -> forall u v, ip u (A v) = ip (A u) v.
Hypothesis SP : st = true -> forall u v, ip u (Pr v) = ip (Pr u) v.
Hypothesis HS1 : st = true -> forall r, sleb (get_residual e bn r) tol = false -> ip r (Pr r) <> s0.
Hypothesis HS2 : st = true -> forall p r, ip p r <> s0 -> ip p (A p) <> s0.

Definition same_fn (u v : vec) : Prop := forall w, ip u w = ip v w.
Definition bi_live (it : Z) (r rt p pt : vec) (ro : T) : Prop :=
  (st = true -> ip r (Pr r) <> s0 /\ ip p r = s0 /\ same_fn rt r /\ same_fn pt p) /\
  exists H Ps, Z.of_nat (length H) = it - 1 /\ (forall f, In f (map fst H) -> exists u, f = ip u) /\ (forall f, In f Ps -> exists u, f = ip u) /\
    inv vec A Pr H Ps r p (ip rt) (ip pt) ro.
Definition bicg_inv (it : Z) (s : kst' * T) : Prop :=
  let '(k, ro) := s in 1 <= it <= e_maxiter e + 1 /\ zlen (k_rh k) = e_maxiter e + 2 /\ bi_live it (k_W k 0) (k_W k 1) (k_W k 4) (k_W k 5) ro.

Lemma bi_A_xpay u x a y : ip u (A (xpay n x a y)) = sadd (ip u (A x)) (smul a (ip u (A y))).
Proof. rewrite (f_lin _ _ _ FM s1 a u (A x) (A y)); [ring|]. intros i Hi. rewrite !at_matvec by auto. rewrite (mv_xpay RT). ring. Qed.

Lemma bicg_step it s : 0 <= n -> it <= e_maxiter e -> bicg_inv it s ->
  okm st (bicg_body e bn tol it s) (fun c => match c with Next s' => bicg_inv (it + 1) s' | Stop ret _ => good_stop st ret end).
Proof.
  intros Hn Him HI0. destruct s as [[W nr rh] ro]. destruct HI0 as (Hit & Hrh & HL). cbn [k_rh k_W] in *.
  cbv beta delta [bicg_body lt]; cbv zeta; cbv beta iota; cbn [k_W k_nrm k_rh].
  cbv [upd Z.eqb Pos.eqb X]. rewrite HPe, HPh.
  destruct HL as (HG & H & Ps & HLn & HF & HF' & HI).
  pose proof (i_ro _ _ _ _ _ _ _ _ _ _ HI) as Hro0.
  set (r := W 0) in *. set (rt := W 1) in *. set (p := W 4) in *. set (pt := W 5) in *.
  set (rho := ip rt (Pr r)).
  destruct (seqb rho s0) eqn:Erho.
  { cbn [okm]. destruct st eqn:Est; [|right; auto]. exfalso. apply EQ in Erho. destruct (HG eq_refl) as (G1 & G2 & G3 & G4).
    apply G1. rewrite <- (G3 (Pr r)). exact Erho. }
  assert (Hrho : rho <> s0) by (intros Z; apply EQ in Z; congruence).
  rewrite (divz_ok rho ro) by auto. cbn [bind].
  set (beta := sdiv rho ro). set (p' := xpay n (Pr r) beta p). set (pt' := xpay n (Ph rt) (sconj beta) pt).
  set (sg := ip pt' (A p')).
  assert (E1 : st = true -> ip p' r = rho).
  { intros Hst. destruct (HG Hst) as (G1 & G2 & G3 & G4). unfold p'. rewrite (ip_xpay_l _ _ _ FM), G2, <- (SP Hst). unfold rho. rewrite (G3 (Pr r)). ring. }
  assert (E2 : st = true -> same_fn pt' p').
  { intros Hst w. destruct (HG Hst) as (G1 & G2 & G3 & G4). unfold pt', p'. rewrite !(ip_xpay_l _ _ _ FM), <- HP, <- (SP Hst), (G3 (Pr w)), (G4 w), !(SR Hst). reflexivity. }
  destruct (seqb sg s0) eqn:Esg.
  { cbn [okm]. destruct st eqn:Est; [|right; auto]. exfalso. apply EQ in Esg.
    apply (HS2 eq_refl p' r); [rewrite (E1 eq_refl); auto|]. rewrite <- (E2 eq_refl (A p')). exact Esg. }
  assert (Hsg : sg <> s0) by (intros Z; apply EQ in Z; congruence).
  rewrite (divz_ok rho sg) by auto. cbn [bind].
  set (alpha := sdiv rho sg). set (r' := axpy n (sopp alpha) (A p') r).
  apply check_ok; [cbn [k_rh]; lia|]. cbn [k_rh]. intros rh' Hrh'. cbv beta iota.
  destruct (sleb (get_residual e bn r') tol) eqn:Ecv; cbn [okm]; [left; reflexivity|].
  set (rt' := axpy n (sopp (sconj alpha)) (Ah pt') rt).
  split; [lia|]. cbn [k_rh k_W]. split; [lia|].
  assert (CC : forall a : T, sconj (sconj a) = a) by apply HC.
  split.
  { intros Hst. destruct (HG Hst) as (G1 & G2 & G3 & G4). split; [apply (HS1 Hst); auto|]. split.
    - unfold r'. rewrite (ip_axpy_r _ _ _ FM), (E1 Hst). rewrite <- (E2 Hst (A p')). fold sg. unfold alpha. field. auto.
    - split; [|apply (E2 Hst)]. intros w. unfold rt', r'. rewrite !(ip_axpy_l _ _ _ FM), (G3 w), <- HA, <- (SA Hst), (E2 Hst (A w)), !(SR Hst). reflexivity. }
  exists ((ip rt, Pr r) :: H), (ip pt :: Ps). split; [cbn [length]; lia|]. split.
  { intros f [<-|Hf]; [exists rt; reflexivity|auto]. }
  split; [intros f [<-|Hf]; [exists pt; reflexivity|auto]|].
  apply (inv_step FT vec A Pr H Ps r p (ip rt) (ip pt) ro p' r' (ip rt') (ip pt') HI Hrho).
  - intros v. unfold pt'. rewrite (ip_xpay_l _ _ _ FM), CC, <- HP. reflexivity.
  - intros f Hf. assert (Hu : exists u, f = ip u) by (destruct Hf as [<-|Hf]; [exists pt; reflexivity|auto]).
    destruct Hu as (u & ->). apply bi_A_xpay.
  - exact Hsg.
  - intros v. unfold rt'. rewrite (ip_axpy_l _ _ _ FM), (tau_opp _ _ _ FM), CC, <- HA. fold sg. unfold alpha, rho. ring.
  - intros f Hf. assert (Hu : exists u, f = ip u) by (destruct Hf as [<-|Hf]; [exists rt; reflexivity|auto]).
    destruct Hu as (u & ->). rewrite (HP u r'), (HP u r), (HP u (A p')). unfold r'. rewrite (ip_axpy_r _ _ _ FM). fold sg. unfold alpha, rho. ring.
Qed.
Lemma bi_bound it r rt p pt ro : 0 <= n -> bi_live it r rt p pt ro -> it <= if st then n else n + 1.
Proof using FT EQ HC.
  clear SR SA SP HS1 HS2. intros Hn (HG & H & Ps & HLn & HF & HF' & HI).
  destruct st eqn:Est.
  - assert (HH : Z.of_nat (length ((ip rt, Pr r) :: H)) <= n).
    { apply (hist_length e (fun n => dot n) sconj FM); auto.
      - intros f [<-|Hf]; [eexists; reflexivity|auto].
      - constructor; [|apply HI|apply HI]. destruct (HG eq_refl) as (G1 & G2 & G3 & G4). rewrite (G3 (Pr r)). exact G1. }
    cbn [length] in HH. lia.
  - pose proof (hist_length e (fun n => dot n) sconj FM H HF (i_bi _ _ _ _ _ _ _ _ _ _ HI) Hn). lia.
Qed.
End BiCG.

Lemma lis_bicg_term st e Pr Ph x rh (HC : conj_ok S) :
  let ip := dot (e_n e) in let A := matvec (e_n e) (e_E e) in let Ah := matvech (e_n e) (e_E e) in
  (forall u v, ip u (A v) = ip (Ah u) v) ->
  (forall u v, ip u (Pr v) = ip (Ph u) v) ->
  (forall k v, e_psolve e k v = Pr v) -> (forall k v, e_psolveh e k v = Ph v) ->
  (st = true -> forall a : T, sconj a = a) ->
  (st = true -> forall u v, ip u (A v) = ip (A u) v) ->
  (st = true -> forall u v, ip u (Pr v) = ip (Pr u) v) ->
  (st = true -> forall p r, ip p r <> s0 -> ip p (A p) <> s0) ->
  (st = true -> e_shadow e = None) ->
  start_good st e x (fun r => ip r (Pr r) <> s0) ->
  0 <= e_n e -> (if st then e_n e else e_n e + 1) <= e_maxiter e -> zlen rh = e_maxiter e + 2 ->
  okm st (lis_bicg e x rh)
    (fun o => good_stop st (o_ret o) /\ 1 <= o_iter o <= Z.max 1 (if st then e_n e else e_n e + 1)).
Proof.
  intros ip A Ah HA HP HPe HPh SR SA SP HS2 SH HS Hn HM Hrh. pose proof (form_dot (e_n e) HC) as FM.
  apply (solver_term st e 0 (bicg_start e) (bicg_body e)
    (fun bn tol it s => bicg_inv st e Pr it s /\ (st = true -> forall r, sleb (get_residual e bn r) tol = false -> ip r (Pr r) <> s0))).
  - intros bn tol it [k ro] ((_ & _ & HI) & _). apply (bi_bound st e Pr HC _ _ _ _ _ _ Hn HI).
  - intros bn tol it s Hit (HI & HG). eapply okm_mono; [apply (bicg_step st e bn tol Pr Ph HC HA HP HPe HPh SR SA SP HG HS2 it s Hn Hit HI)|].
    intros [s'|ret s'] H; auto.
  - exact HM.
  - destruct st; lia.
  - unfold start_good in HS. destruct (get_initial_residual e x) as [[[[p bn] tol] nr] acc]. intros Hacc.
    cbv beta zeta delta [bicg_start lt]. cbn [okm]. split; [|intros Hst; exact (proj2 (HS Hacc Hst))].
    assert (Hm0 : 0 <= e_maxiter e) by (destruct st; lia).
    split; [lia|]. cbn [k_rh]. split; [lia|]. cbn [k_W]. cbv [upd Z.eqb Pos.eqb X].
    assert (Z0 : forall v, ip (set_all (e_n e) s0) v = s0) by (intros v; apply (ip_zero_l _ _ _ FM); intros; apply at_set_all; auto).
    split.
    { intros Hst. split; [exact (proj1 (HS Hacc Hst))|]. split; [apply Z0|]. split; [|intros w; reflexivity].
      intros w. unfold set_shadowresidual. rewrite (SH Hst). apply (ip_ext_l _ _ _ FM). intros i Hi.
      unfold conjugate. rewrite at_tab by auto. rewrite (SR Hst). apply at_copy; auto. }
    exists [], []. split; [reflexivity|]. split; [intros f []|]. split; [intros f []|].
    apply inv_init; [exact Z0|exact (F_1_neq_0 FT)].
Qed.

(** *** BiCR and CR: the same algebra with the functionals v -> <rt, P A v>, <pt, A P v> *)
Section BiCR.
Variable st : bool.
Variable e : env (T:=T).
Variables (Pr Ph : vec -> vec).
Notation n := (e_n e).
Notation A := (matvec n (e_E e)).
Notation Ah := (matvech n (e_E e)).
Notation ip := (dot n).
Hypothesis HC : conj_ok S.
Let FM : form n ip sconj := form_dot n HC.
Hypothesis HA : forall u v, ip u (A v) = ip (Ah u) v.
Hypothesis HP : forall u v, ip u (Pr v) = ip (Ph u) v.

Notation FR := (fun rt : vec => ip (Ah (Ph rt))).
Notation FP := (fun pt : vec => ip (Ph (Ah pt))).
Definition half (it : Z) (r rt p pt : vec) (rho : T) : Prop :=
  rho <> s0 /\ rho = FR rt (Pr r) /\ exists H Ps p0 u0 ro0,
    Z.of_nat (length H) = it - 1 /\ (forall f, In f (map fst H) -> exists u, f = ip u) /\ (forall f, In f Ps -> exists u, f = ip u) /\
    inv vec A Pr H Ps r p0 (FR rt) (ip u0) ro0 /\
    (forall v, FP pt v = sadd (FR rt (Pr v)) (smul (sdiv rho ro0) (ip u0 v))) /\
    (forall u, ip u (A p) = sadd (ip u (A (Pr r))) (smul (sdiv rho ro0) (ip u (A p0)))) /\
    (st = true -> ip u0 r = s0).
Lemma half_bound it r rt p pt rho : 0 <= n -> half it r rt p pt rho -> it <= n.
Proof using FT EQ HC HA HP.
  intros Hn (Hr & Er & H & Ps & p0 & u0 & ro0 & HL & HF & HF' & HI & _).
  assert (HH : Z.of_nat (length ((FR rt, Pr r) :: H)) <= n).
  { apply (hist_length e (fun n => dot n) sconj FM); auto.
    - intros f [<-|Hf]; [eexists; reflexivity|auto].
    - constructor; [rewrite <- Er; exact Hr|apply HI|apply HI]. }
  cbn [length] in HH. lia.
Qed.
Lemma half_FPr it r rt p pt rho : half it r rt p pt rho -> st = true -> FP pt r = rho.
Proof using FT.
  intros (Hr & Er & H & Ps & p0 & u0 & ro0 & HL & HF & HF' & HI & H1 & H2 & H3) Hst.
  rewrite H1, (H3 Hst), <- Er. ring.
Qed.
Lemma half_next it r rt p pt rho r' rt' : half it r rt p pt rho ->
  let sg := FP pt (A p) in sg <> s0 -> let alpha := sdiv rho sg in
  (forall u, ip u r' = ssub (ip u r) (smul alpha (ip u (A p)))) ->
  (forall u, ip rt' u = ssub (ip rt u) (smul alpha (ip (Ah pt) u))) ->
  FR rt (Pr r') = s0 /\
  (forall v, FP pt (A v) = smul (sdiv s1 alpha) (ssub (FR rt v) (FR rt' v))) /\
  forall p' pt', let rho' := FR rt' (Pr r') in rho' <> s0 ->
  (forall u, ip u (A p') = sadd (ip u (A (Pr r'))) (smul (sdiv rho' rho) (ip u (A p)))) ->
  (forall u, ip pt' u = sadd (ip (Ph rt') u) (smul (sdiv rho' rho) (ip pt u))) ->
  half (it + 1) r' rt' p' pt' rho'.
Proof using FT HC HA HP.
  intros Hh sg Hsg alpha H1 H2. pose proof Hh as (Hr & Er & H & Ps & p0 & u0 & ro0 & HL & HF & HF' & HI & H3 & H4 & H5).
  assert (HFR : forall v, FR rt' v = ssub (FR rt v) (smul alpha (FP pt (A v)))).
  { intros v. cbv beta. rewrite <- !HA, <- !HP, H2. ring. }
  assert (HI' : inv vec A Pr ((FR rt, Pr r) :: H) (ip u0 :: Ps) r' p (FR rt') (FP pt) rho).
  { cbv beta in *. rewrite Er.
    apply (inv_step FT vec A Pr H Ps r p0 (FR rt) (ip u0) ro0 p r' (FR rt') (FP pt) HI); cbv beta zeta; rewrite <- ?Er.
    - exact Hr.
    - exact H3.
    - intros f Hf. assert (Hu : exists u, f = ip u) by (destruct Hf as [<-|Hf]; [exists u0; reflexivity|auto]).
      destruct Hu as (u & ->). apply H4.
    - exact Hsg.
    - exact HFR.
    - intros f Hf. assert (Hu : exists u, f = ip u) by (destruct Hf as [<-|Hf]; [eexists; reflexivity|auto]).
      destruct Hu as (u & ->). rewrite (HP u r'), (HP u r), (HP u (A p)). apply H1. }
  assert (Ha : alpha <> s0).
  { intros E. apply Hr. assert (Z : smul alpha sg = rho) by (unfold alpha; field; auto). rewrite E in Z. rewrite <- Z. ring. }
  split; [apply (i_1 _ _ _ _ _ _ _ _ _ _ HI'); left; reflexivity|].
  split; [intros v; rewrite HFR; field; auto|].
  intros p' pt' rho' Hrho' H6 H7.
  split; [exact Hrho'|]. split; [reflexivity|].
  exists ((FR rt, Pr r) :: H), (ip u0 :: Ps), p, (Ph (Ah pt)), rho.
  split; [cbn [length]; lia|]. split; [intros f [<-|Hf]; [eexists; reflexivity|auto]|].
  split; [intros f [<-|Hf]; [eexists; reflexivity|auto]|]. split; [exact HI'|]. split; [|split].
  - intros v. cbv beta. rewrite <- (HP (Ah pt') v), <- (HA pt' (Pr v)), H7. rewrite <- (HP (Ah pt) v), <- (HA pt (Pr v)), (HA (Ph rt') (Pr v)). reflexivity.
  - exact H6.
  - intros Hst. rewrite H1. change (ssub (ip (Ph (Ah pt)) r) (smul alpha sg) = s0). pose proof (half_FPr _ _ _ _ _ _ Hh Hst) as E. cbv beta in E. rewrite E. unfold alpha. field. auto.
Qed.
Lemma half_first r rt p pt : (forall u, ip u p = ip u (Pr r)) -> (forall u, ip pt u = ip (Ph rt) u) -> FR rt (Pr r) <> s0 ->
  half 1 r rt p pt (FR rt (Pr r)).
Proof using FT HC HA HP.
  intros H1 H2 H3. split; [exact H3|]. split; [reflexivity|].
  assert (Z0 : forall v, ip (set_all n s0) v = s0) by (intros v; apply (ip_zero_l _ _ _ FM); intros; apply at_set_all; auto).
  exists [], [], (set_all n s0), (set_all n s0), s1.
  split; [reflexivity|]. split; [intros f []|]. split; [intros f []|].
  split; [apply inv_init; [exact Z0|exact (F_1_neq_0 FT)]|]. split; [|split].
  - intros v. cbv beta. rewrite <- (HP (Ah pt) v), <- (HA pt (Pr v)), H2, Z0, <- (HA (Ph rt) (Pr v)). ring.
  - intros u. rewrite (HA u p), (HA u (Pr r)), (HA u (set_all n s0)), H1, (ip_zero_r _ _ _ FM (Ah u) (set_all n s0)); [ring|]. intros; apply at_set_all; auto.
  - intros _. apply Z0.
Qed.

(** strict: the shadow vectors are the vectors *)
Variables (bn tol : T).
Hypothesis HPe : forall k v, e_psolve e k v = Pr v.
Hypothesis HPh : forall k v, e_psolveh e k v = Ph v.
Hypothesis SR : st = true -> forall a : T, sconj a = a.
Hypothesis SA : st = true -> forall u v, ip u (A v) = ip (A u) v.
Hypothesis SP : st = true -> forall u v, ip u (Pr v) = ip (Pr u) v.
Hypothesis HS1 : st = true -> forall r, sleb (get_residual e bn r) tol = false -> ip r (Pr r) <> s0.
Hypothesis HS2 : st = true -> forall p r, ip p r <> s0 -> ip p (A p) <> s0.
Hypothesis HS3 : st = true -> forall p r, ip p r <> s0 -> ip p (Pr p) <> s0.

Lemma weak_l u u' v : (forall w, ip w u = ip w u') -> ip u v = ip u' v.
Proof using HC FT. intros H. rewrite <- (f_herm _ _ _ FM v u), <- (f_herm _ _ _ FM v u'), H. reflexivity. Qed.
Lemma strict_sg it r rt p pt rho : half it r rt p pt rho -> st = true -> same_fn e pt p -> ip (Ah pt) (Pr (A p)) <> s0.
Proof using FT HC HA HP SA SP HS3.
  intros Hh Hst G. rewrite <- HA, (G (A (Pr (A p)))), (SA Hst). apply (HS3 Hst (A p) (Pr r)).
  rewrite <- (SA Hst). rewrite <- (G (A (Pr r))), HA, HP. rewrite (half_FPr _ _ _ _ _ _ Hh Hst). apply Hh.
Qed.
Lemma strict_rho rt' r' z' : st = true -> same_fn e rt' r' -> (forall u, ip u z' = ip u (Pr r')) -> ip r' (Pr r') <> s0 -> ip (Ph rt') (A z') <> s0.
Proof using FT HC HA HP SP HS2.
  intros Hst G HZ G1. rewrite HA, HZ, <- HA, <- HP, (G (Pr (A (Pr r')))), (SP Hst). apply (HS2 Hst (Pr r') r'). rewrite <- (SP Hst). exact G1.
Qed.

Definition bicr_live (it : Z) (W : Z -> vec) (ro : T) : Prop :=
  half it (W 0) (W 1) (W 4) (W 5) ro /\ (forall u, ip u (W 2) = ip u (Pr (W 0))) /\ (forall u, ip u (W 6) = ip u (A (W 4))) /\
  (st = true -> same_fn e (W 1) (W 0) /\ same_fn e (W 5) (W 4)).
Definition bicr_inv (it : Z) (s : kst' * T) : Prop :=
  let '(k, ro) := s in 1 <= it <= e_maxiter e + 1 /\ zlen (k_rh k) = e_maxiter e + 2 /\
  (bicr_live it (k_W k) ro \/ st = false /\ ro = s0 /\ it <= 1).
Lemma bicr_bound it s : 0 <= n -> bicr_inv it s -> it <= if st then n else Z.max 1 n.
Proof using FT EQ HC HA HP.
  clear SR SA SP HS1 HS2 HS3. intros Hn. destruct s as [k ro]. intros (_ & _ & [(HH & _)|(-> & _ & Hi)]); [|lia].
  apply half_bound in HH; auto. destruct st; lia.
Qed.
Lemma bicr_step it s : 0 <= n -> it <= e_maxiter e -> bicr_inv it s ->
  okm st (bicr_body e bn tol it s) (fun c => match c with Next s' => bicr_inv (it + 1) s' | Stop ret _ => good_stop st ret end).
Proof.
  intros Hn Him HI0. destruct s as [[W nr rh] ro]. destruct HI0 as (Hit & Hrh & HL). cbn [k_rh k_W] in *.
  cbv beta delta [bicr_body lt]; cbv zeta; cbv beta iota; cbn [k_W k_nrm k_rh].
  cbv [upd Z.eqb Pos.eqb X]. rewrite !HPe.
  set (r := W 0) in *. set (rt := W 1) in *. set (z := W 2) in *. set (p := W 4) in *. set (pt := W 5) in *. set (ap := W 6) in *.
  set (sg := ip (Ah pt) (Pr ap)).
  destruct HL as [(Hh & Hz & Hap & HG)|(Hst & Hro & Hi1)].
  2:{ (* the start had rho = 0: no second iteration *)
      destruct (seqb sg s0) eqn:Esg; [right; auto|].
      assert (Hsg : sg <> s0) by (intros Z; apply EQ in Z; congruence).
      rewrite (divz_ok ro sg) by auto. cbn [bind]. apply check_ok; [cbn [k_rh]; lia|]. cbn [k_rh]. intros rh' Hrh'. cbv beta iota.
      destruct (sleb _ tol) eqn:Ecv; [left; reflexivity|]. cbn [k_W k_nrm k_rh]. rewrite HPh.
      destruct (seqb (ip (Ph _) _) s0) eqn:Er; [right; auto|]. apply okm_bind. unfold divz. rewrite Hro.
      assert (E0 : seqb (s0 : T) s0 = true) by (apply EQ; reflexivity). rewrite E0. split; auto. }
  fold r rt z p pt ap in Hh, Hz, Hap, HG.
  assert (Esg' : sg = ip (Ph (Ah pt)) (A p)) by (unfold sg; rewrite HP, Hap; reflexivity).
  destruct (seqb sg s0) eqn:Esg.
  { cbn [okm]. destruct (Bool.bool_dec st true) as [Hst|Hst]; [|right; split; [apply not_true_is_false; auto|reflexivity]].
    exfalso. apply EQ in Esg. destruct (HG Hst) as (G1 & G2).
    apply (strict_sg it r rt p pt ro Hh Hst G2). rewrite HP, <- Esg'. exact Esg. }
  assert (Hsg : sg <> s0) by (intros Z; apply EQ in Z; congruence).
  rewrite (divz_ok ro sg) by auto. cbn [bind].
  set (alpha := sdiv ro sg). set (r' := axpy n (sopp alpha) ap r).
  apply check_ok; [cbn [k_rh]; lia|]. cbn [k_rh]. intros rh' Hrh'. cbv beta iota.
  destruct (sleb (get_residual e bn r') tol) eqn:Ecv; cbn [okm]; [left; reflexivity|]. cbn [k_W k_nrm k_rh]. rewrite HPh.
  set (rt' := axpy n (sopp (sconj alpha)) (Ah pt) rt). set (z' := axpy n (sopp alpha) (Pr ap) z).
  assert (CC : forall a : T, sconj (sconj a) = a) by apply HC.
  assert (Ea : alpha = sdiv ro (ip (Ph (Ah pt)) (A p))) by (unfold alpha; rewrite Esg'; reflexivity).
  assert (B1 : forall u, ip u r' = ssub (ip u r) (smul alpha (ip u (A p)))) by (intros u; unfold r'; rewrite (ip_axpy_r _ _ _ FM), Hap; ring).
  assert (B2 : forall u, ip rt' u = ssub (ip rt u) (smul alpha (ip (Ah pt) u))) by (intros u; unfold rt'; rewrite (ip_axpy_l _ _ _ FM), (tau_opp _ _ _ FM), CC; ring).
  destruct (half_next it r rt p pt ro r' rt' Hh) as (N1 & N2 & N3); [cbv beta; rewrite <- Esg'; exact Hsg|cbv beta; rewrite <- Ea; exact B1|cbv beta; rewrite <- Ea; exact B2|].
  assert (Hz' : forall u, ip u z' = ip u (Pr r')).
  { intros u. unfold z'. rewrite (ip_axpy_r _ _ _ FM), Hz, (HP u ap), (HP u r), (HP u r'), Hap, B1. ring. }
  set (rho' := ip (Ph rt') (A z')).
  assert (Erho' : rho' = ip (Ah (Ph rt')) (Pr r')) by (unfold rho'; rewrite HA, Hz'; reflexivity).
  assert (SS : st = true -> same_fn e rt' r').
  { intros Hst. destruct (HG Hst) as (G1 & G2). intros w. rewrite B2, <- HA, (G2 (A w)), (G1 w).
    unfold r'. rewrite (ip_axpy_l _ _ _ FM), (weak_l ap (A p) w Hap), <- (SA Hst), !(SR Hst). ring. }
  destruct (seqb rho' s0) eqn:Erho.
  { cbn [okm]. destruct (Bool.bool_dec st true) as [Hst|Hst]; [|right; split; [apply not_true_is_false; auto|reflexivity]].
    exfalso. apply EQ in Erho. apply (strict_rho rt' r' z' Hst (SS Hst) Hz' (HS1 Hst r' Ecv)). exact Erho. }
  assert (Hrho : rho' <> s0) by (intros Z; apply EQ in Z; congruence).
  assert (Hro0 : ro <> s0) by apply Hh.
  rewrite (divz_ok rho' ro) by auto. cbn [bind okm].
  split; [lia|]. cbn [k_rh k_W]. split; [lia|]. left. cbv [bicr_live]. cbv [upd Z.eqb Pos.eqb].
  set (beta := sdiv rho' ro). 
  split; [|split; [exact Hz'|split]].
  - rewrite Erho'. apply N3.
    + rewrite <- Erho'. exact Hrho.
    + intros u. cbv beta. rewrite <- Erho'. fold beta.
      rewrite (HA u (xpay n z' beta p)), (ip_xpay_r _ _ _ FM), <- HA, <- HA, (HA u z'), Hz', <- HA. reflexivity.
    + intros u. cbv beta. rewrite <- Erho'. fold beta. rewrite (ip_xpay_l _ _ _ FM), CC. reflexivity.
  - intros u. rewrite (ip_xpay_r _ _ _ FM), Hap, (HA u (xpay n z' beta p)), (ip_xpay_r _ _ _ FM), <- !HA. reflexivity.
  - intros Hst. split; [apply (SS Hst)|]. intros w. destruct (HG Hst) as (G1 & G2).
    rewrite !(ip_xpay_l _ _ _ FM), !(SR Hst), (G2 w), <- HP, (SS Hst (Pr w)), (SP Hst), (weak_l z' (Pr r') w Hz'). reflexivity.
Qed.

(** CR and COCR, strict case; [ipv] is the inner product of the code *)
Variable ipv : Z -> vec -> vec -> T.
Hypothesis Hipv : forall u v, ipv n u v = ip u v.
Hypothesis Hst : st = true.
Hypothesis HPP : forall u v, ip (Ph u) v = ip (Pr u) v.
Definition cr_inv (it : Z) (s : kst' * unit) : Prop :=
  let '(k, _) := s in 1 <= it <= e_maxiter e + 1 /\ zlen (k_rh k) = e_maxiter e + 2 /\
  exists ro, half it (k_W k 2) (k_W k 2) (k_W k 3) (k_W k 3) ro /\ (forall u, ip u (k_W k 0) = ip u (Pr (k_W k 2))) /\
    (forall u, ip u (k_W k 1) = ip u (A (k_W k 3))).
Lemma ip_sym u v : ip u v = ip v u.
Proof using FT HC SR Hst. rewrite <- (f_herm _ _ _ FM v u). apply (SR Hst). Qed.
Lemma cr_step it s : 0 <= n -> it <= e_maxiter e -> cr_inv it s ->
  okm st (cr_body ipv e bn tol it s) (fun c => match c with Next s' => cr_inv (it + 1) s' | Stop ret _ => good_stop st ret end).
Proof.
  intros Hn Him HI0. destruct s as [[W nr rh] []]. destruct HI0 as (Hit & Hrh & ro & Hh & Hz & Hq). cbn [k_rh k_W] in *.
  cbv beta delta [cr_body lt]; cbv zeta; cbv beta iota; cbn [k_W k_nrm k_rh].
  cbv [upd Z.eqb Pos.eqb X]. rewrite !HPe, !Hipv.
  set (r := W 2) in *. set (p := W 3) in *. set (q := W 1) in *. set (z := W 0) in *.
  set (sg := ip (Pr q) q).
  assert (HAA : forall u v, ip (Ah u) v = ip (A u) v) by (intros u v; rewrite <- HA; apply (SA Hst)).
  assert (Esg : sg = ip (Ph (Ah p)) (A p)).
  { unfold sg. rewrite Hq, <- (SP Hst), (weak_l q (A p)) by exact Hq. rewrite <- HP, HAA. reflexivity. }
  assert (Hsg : sg <> s0) by (rewrite Esg, <- HP; apply (strict_sg it r r p p ro Hh Hst); intros w; reflexivity).
  destruct (seqb sg s0) eqn:E; [apply EQ in E; contradiction|]. clear E.
  assert (Edr : ip r (Pr q) = ro).
  { pose proof (half_FPr _ _ _ _ _ _ Hh Hst) as E. cbv beta in E. rewrite <- E. rewrite (SP Hst), Hq, <- HP, HAA. apply ip_sym. }
  rewrite Edr. rewrite (divz_ok ro sg) by auto. cbn [bind].
  set (alpha := sdiv ro sg). set (r' := axpy n (sopp alpha) q r).
  apply check_ok; [cbn [k_rh]; lia|]. cbn [k_rh]. intros rh' Hrh'. cbv beta iota.
  destruct (sleb (get_residual e bn r') tol) eqn:Ecv; cbn [okm]; [left; reflexivity|]. cbn [k_W k_nrm k_rh]. rewrite !Hipv.
  set (z' := axpy n (sopp alpha) (Pr q) z).
  assert (Ea : alpha = sdiv ro (ip (Ph (Ah p)) (A p))) by (unfold alpha; rewrite Esg; reflexivity).
  assert (B1 : forall u, ip u r' = ssub (ip u r) (smul alpha (ip u (A p)))) by (intros u; unfold r'; rewrite (ip_axpy_r _ _ _ FM), Hq; ring).
  assert (B2 : forall u, ip r' u = ssub (ip r u) (smul alpha (ip (Ah p) u))).
  { intros u. rewrite (ip_sym r' u), B1, (ip_sym r u), HAA, (ip_sym (A p) u). reflexivity. }
  destruct (half_next it r r p p ro r' r' Hh) as (N1 & N2 & N3); [cbv beta; rewrite <- Esg; exact Hsg|cbv beta; rewrite <- Ea; exact B1|cbv beta; rewrite <- Ea; exact B2|].
  assert (Hz' : forall u, ip u z' = ip u (Pr r')).
  { intros u. unfold z'. rewrite (ip_axpy_r _ _ _ FM), Hz, (HP u q), (HP u r), (HP u r'), Hq, B1. ring. }
  cbv beta in N1, N2, N3. rewrite <- Ea in N2.
  set (rho' := ip (Ah (Ph r')) (Pr r')) in *.
  assert (Hrho : rho' <> s0).
  { unfold rho'. rewrite <- HA, <- HP, (SP Hst). apply (HS2 Hst (Pr r') r'). rewrite <- (SP Hst). exact (HS1 Hst r' Ecv). }
  assert (Hro0 : ro <> s0) by apply Hh.
  assert (Ezq : ip (A z') (Pr q) = sopp (sdiv rho' alpha)).
  { rewrite HP, Hq, <- HP. rewrite (ip_sym (A z') (Pr (A p))), <- (SP Hst), <- HAA, (HP (Ah p) (A z')).
    assert (Ew : forall u, ip u (A z') = ip u (A (Pr r'))) by (intros u; rewrite (HA u z'), Hz', <- HA; reflexivity).
    rewrite Ew, N2, N1. fold rho'. field. unfold alpha. intros Z. apply Hro0.
    assert (Y : smul (sdiv ro sg) sg = ro) by (field; auto). rewrite Z in Y. rewrite <- Y. ring. }
  rewrite Ezq. rewrite (divz_ok _ sg) by auto. cbn [bind okm].
  assert (Eb : sdiv (sopp (sopp (sdiv rho' alpha))) sg = sdiv rho' ro) by (unfold alpha; field; auto).
  rewrite Eb. set (beta := sdiv rho' ro) in *.
  split; [lia|]. cbn [k_rh k_W]. split; [lia|]. cbv [upd Z.eqb Pos.eqb]. exists rho'.
  split; [|split; [exact Hz'|]].
  - apply N3.
    + exact Hrho.
    + intros u. rewrite (HA u (xpay n z' beta p)), (ip_xpay_r _ _ _ FM), <- HA, <- HA, (HA u z'), Hz', <- HA. reflexivity.
    + intros u. rewrite (ip_xpay_l _ _ _ FM), (SR Hst), (weak_l z' (Pr r') u Hz'), HPP. reflexivity.
  - intros u. rewrite (ip_xpay_r _ _ _ FM), Hq, (HA u (xpay n z' beta p)), (ip_xpay_r _ _ _ FM), <- !HA. reflexivity.
Qed.
End BiCR.

Lemma lis_bicr_term st e Pr Ph x rh (HC : conj_ok S) :
  let ip := dot (e_n e) in let A := matvec (e_n e) (e_E e) in let Ah := matvech (e_n e) (e_E e) in
  (forall u v, ip u (A v) = ip (Ah u) v) ->
  (forall u v, ip u (Pr v) = ip (Ph u) v) ->
  (forall k v, e_psolve e k v = Pr v) -> (forall k v, e_psolveh e k v = Ph v) ->
  (st = true -> forall a : T, sconj a = a) ->
  (st = true -> forall u v, ip u (A v) = ip (A u) v) ->
  (st = true -> forall u v, ip u (Pr v) = ip (Pr u) v) ->
  (st = true -> forall p r, ip p r <> s0 -> ip p (A p) <> s0) ->
  (st = true -> forall p r, ip p r <> s0 -> ip p (Pr p) <> s0) ->
  (st = true -> e_shadow e = None) ->
  start_good st e x (fun r => ip r (Pr r) <> s0) ->
  0 <= e_n e -> (if st then e_n e else Z.max 1 (e_n e)) <= e_maxiter e -> zlen rh = e_maxiter e + 2 ->
  okm st (lis_bicr e x rh)
    (fun o => good_stop st (o_ret o) /\ 1 <= o_iter o <= Z.max 1 (if st then e_n e else Z.max 1 (e_n e))).
Proof.
  intros ip A Ah HA HP HPe HPh SR SA SP HS2 HS3 SH HS Hn HM Hrh. pose proof (form_dot (e_n e) HC) as FM.
  apply (solver_term st e 0 (bicr_start e) (bicr_body e)
    (fun bn tol it s => bicr_inv st e Pr Ph it s /\ (st = true -> forall r, sleb (get_residual e bn r) tol = false -> ip r (Pr r) <> s0))).
  - intros bn tol it s (HI & _). apply (bicr_bound st e Pr Ph HC HA HP it s Hn HI).
  - intros bn tol it s Hit (HI & HG). eapply okm_mono; [apply (bicr_step st e Pr Ph HC HA HP bn tol HPe HPh SR SA SP HG HS2 HS3 it s Hn Hit HI)|].
    intros [s'|ret s'] H; auto.
  - exact HM.
  - destruct st; lia.
  - unfold start_good in HS. destruct (get_initial_residual e x) as [[[[p bn] tol] nr] acc]. intros Hacc.
    cbv beta zeta delta [bicr_start lt]. cbn [okm]. split; [|intros Hst; exact (proj2 (HS Hacc Hst))].
    assert (Hm0 : 0 <= e_maxiter e) by (destruct st; lia).
    cbv [upd Z.eqb Pos.eqb X]. rewrite HPe, HPh.
    split; [lia|]. cbn [k_rh]. split; [lia|]. cbn [k_W].
    set (rt := set_shadowresidual e p).
    assert (SS : st = true -> same_fn e rt p).
    { intros Hst w. unfold rt, set_shadowresidual. rewrite (SH Hst). apply (ip_ext_l _ _ _ FM). intros i Hi.
      unfold conjugate. rewrite at_tab by auto. rewrite (SR Hst). apply at_copy; auto. }
    fold A. set (rho := dot (e_n e) (Ph rt) (A (Pr p))).
    assert (Er : rho = ip (Ah (Ph rt)) (Pr p)) by (unfold rho; fold ip; rewrite HA; reflexivity).
    destruct (seqb rho s0) eqn:E0.
    { apply EQ in E0. destruct (Bool.bool_dec st true) as [Hst|Hst]; [exfalso|right; split; [apply not_true_is_false; auto|split; [exact E0|lia]]].
      revert E0. unfold rho. apply (strict_rho st e Pr Ph HC HA HP SP HS2 rt p (Pr p) Hst (SS Hst)); [reflexivity|exact (proj1 (HS Hacc Hst))]. }
    assert (Hrho : rho <> s0) by (intros Z; apply EQ in Z; congruence).
    left. cbv [bicr_live].
    assert (CP : forall u v, ip u (copy (e_n e) v) = ip u v) by (intros u v; apply (ip_ext_r _ _ _ FM); intros; apply at_copy; auto).
    assert (CP' : forall u v, ip (copy (e_n e) u) v = ip u v) by (intros u v; apply (ip_ext_l _ _ _ FM); intros; apply at_copy; auto).
    split; [|split; [reflexivity|split]].
    + rewrite Er. apply (half_first st e Pr Ph HC HA HP).
      * intros u. apply CP.
      * intros u. apply CP'.
      * cbv beta. change (ip (Ah (Ph rt)) (Pr p) <> s0). rewrite <- Er. exact Hrho.
    + intros u. fold A. fold ip. rewrite (HA u (copy (e_n e) (Pr p))), CP, <- HA. reflexivity.
    + intros Hst. split; [exact (SS Hst)|]. intros w. fold ip. rewrite !CP', <- HP. rewrite <- (SP Hst). exact (SS Hst (Pr w)).
Qed.

Lemma lis_cr_term e ipv Pr x rh (HC : conj_ok S) :
  let ip := dot (e_n e) in let A := matvec (e_n e) (e_E e) in let Ah := matvech (e_n e) (e_E e) in
  (forall u v, ipv (e_n e) u v = ip u v) ->
  (forall u v, ip u (A v) = ip (Ah u) v) ->
  (forall k v, e_psolve e k v = Pr v) ->
  (forall a : T, sconj a = a) ->
  (forall u v, ip u (A v) = ip (A u) v) ->
  (forall u v, ip u (Pr v) = ip (Pr u) v) ->
  (forall p r, ip p r <> s0 -> ip p (A p) <> s0) ->
  (forall p r, ip p r <> s0 -> ip p (Pr p) <> s0) ->
  start_good true e x (fun r => ip r (Pr r) <> s0) ->
  0 <= e_n e -> e_n e <= e_maxiter e -> zlen rh = e_maxiter e + 2 ->
  okm true (solver e 2 (cr_start e) (cr_body ipv e) x rh)
    (fun o => good_stop true (o_ret o) /\ 1 <= o_iter o <= Z.max 1 (e_n e)).
Proof.
  intros ip A Ah Hip HA HPe SR SA SP HS2 HS3 HS Hn HM Hrh. pose proof (form_dot (e_n e) HC) as FM.
  apply (solver_term true e 2 (cr_start e) (cr_body ipv e)
    (fun bn tol it s => cr_inv true e Pr Pr it s /\ forall r, sleb (get_residual e bn r) tol = false -> ip r (Pr r) <> s0)).
  - intros bn tol it [k []] ((_ & _ & ro & HI & _) & _). apply (half_bound true e Pr Pr HC HA SP _ _ _ _ _ _ Hn HI).
  - intros bn tol it s Hit (HI & HG).
    eapply okm_mono; [apply (cr_step true e Pr Pr HC HA SP bn tol HPe (fun _ => SR) (fun _ => SA) (fun _ => SP) (fun _ => HG) (fun _ => HS2) (fun _ => HS3) ipv Hip eq_refl (fun _ _ => eq_refl) it s Hn Hit HI)|].
    intros [s'|ret s'] H; auto.
  - exact HM.
  - lia.
  - unfold start_good in HS. destruct (get_initial_residual e x) as [[[[p bn] tol] nr] acc]. intros Hacc.
    cbv beta zeta delta [cr_start lt]. cbn [okm]. destruct (HS Hacc eq_refl) as (G1 & G2). split; [|exact G2].
    cbv [upd Z.eqb Pos.eqb X]. rewrite HPe.
    split; [lia|]. cbn [k_rh]. split; [lia|]. cbn [k_W].
    assert (CP : forall u v, ip u (copy (e_n e) v) = ip u v) by (intros u v; apply (ip_ext_r _ _ _ FM); intros; apply at_copy; auto).
    eexists. split; [|split; [intros u; apply CP|reflexivity]].
    apply (half_first true e Pr Pr HC HA SP); try reflexivity.
    assert (GG : ip (Pr p) (A (Pr p)) <> s0) by (apply (HS2 (Pr p) p); rewrite <- SP; exact G1).
    rewrite (HA (Pr p) (Pr p)) in GG. exact GG.
Qed.
End P.
