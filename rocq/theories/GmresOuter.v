(** The outer loop of GMRES / FGMRES. *)
Require Import Reals Lra ZArith List Bool Lia.
From Verif Require Import Base Scalar ScalarReal Spec SpecSolver Krylov MatvecProof KrylovProof TermProof Gmres GmresMath GmresProof GmresLoop GmresCycle FgmresCycle.
Import ListNotations.
Open Scope Z_scope.

Section O.
Context {Lo : Type}.
Variables (st : bool) (m n maxiter : Z) (mem : bool) (tol : R) (meas : list R -> R) (Kp : list R -> Z -> R -> Prop).
Variables (cycle : Z -> gst (T:=R) -> Lo -> res (Z * Z * gst (T:=R) * Lo)) (Inv : gst (T:=R) -> Lo -> Prop) (x0 rh0 : list R).
Hypothesis Hm : 1 <= m.
Variable Pre : gst (T:=R) -> Prop.
Hypothesis HPre : forall g, (tol < meas (g_x g))%R -> Pre g.
Definition gpost (iter0 : Z) (g0 : gst (T:=R)) (ret iter : Z) (g : gst (T:=R)) (l : Lo) : Prop :=
  iter0 < iter <= iter0 + m /\ iter <= maxiter /\
  g_nrm g = Some (meas (g_x g)) /\ (meas (g_x g) <= meas (g_x g0))%R /\
  zlen (g_rh g) = zlen (g_rh g0) /\ 
  (mem = true -> (forall p, p <= iter0 -> znth 0%R (g_rh g) p = znth 0%R (g_rh g0) p) /\ znth 0%R (g_rh g) iter = meas (g_x g) /\
     (forall j, iter0 < j < iter -> (tol < znth 0%R (g_rh g) j)%R /\ (znth 0%R (g_rh g) (j + 1) <= znth 0%R (g_rh g) j)%R) /\
     (forall j, iter0 < j <= iter -> (znth 0%R (g_rh g) j <= meas (g_x g0))%R /\ Kp (g_x g0) (j - iter0) (znth 0%R (g_rh g) j))) /\
  (ret = LIS_SUCCESS /\ (meas (g_x g) <= tol)%R /\ (st = true -> iter - iter0 <= n) \/
   ret = LIS_MAXITER /\ (tol < meas (g_x g))%R /\ (iter = iter0 + m \/ iter = maxiter) /\ (st = true -> iter - iter0 < n) /\
     (iter < maxiter -> Inv g l)).
Hypothesis HC : forall iter g l, 0 <= iter < maxiter -> Inv g l -> zlen (g_rh g) = zlen rh0 -> Pre g ->
  okm st (cycle iter g l) (fun o => let '(ret, iter', g', l') := o in gpost iter g ret iter' g' l').

Definition hist (iter : Z) (g : gst (T:=R)) : Prop :=
  zlen (g_rh g) = zlen rh0 /\ (meas (g_x g) <= meas x0)%R /\
  (mem = true -> 1 <= iter -> znth 0%R (g_rh g) iter = meas (g_x g) /\ (znth 0%R (g_rh g) 1 <= meas x0)%R /\
     (forall j, 1 <= j < iter -> (tol < znth 0%R (g_rh g) j)%R /\ (znth 0%R (g_rh g) (j + 1) <= znth 0%R (g_rh g) j)%R) /\
     (forall j, 1 <= j <= iter -> j <= m -> Kp x0 j (znth 0%R (g_rh g) j))).
Definition oinv (iter : Z) (g : gst (T:=R)) (l : Lo) : Prop :=
  0 <= iter <= maxiter /\ (iter < maxiter -> Inv g l) /\ hist iter g /\ (iter = 0 /\ g_x g = x0 /\ g_nrm g = None \/ (1 <= iter /\ (m <= iter \/ iter = maxiter)) /\ g_nrm g = Some (meas (g_x g)) /\ (tol < meas (g_x g))%R) /\
  (st = true -> n <= m -> n <= maxiter -> iter = 0 /\ (1 <= n -> iter < maxiter)).
Definition opost (o : sol (T:=R)) : Prop :=
  exists g, hist (Z.min (o_iter o) maxiter) g /\ o_x o = g_x g /\ o_rh o = g_rh g /\
  (o_ret o = LIS_SUCCESS /\ 1 <= o_iter o <= maxiter /\ o_resid o = Some (meas (g_x g)) /\ (meas (g_x g) <= tol)%R /\ (st = true -> n <= m -> n <= maxiter -> o_iter o <= n) \/
   o_ret o = LIS_MAXITER /\ o_iter o = maxiter + 1 /\ (maxiter = 0 /\ g_x g = x0 /\ o_resid o = None \/ 1 <= maxiter /\ o_resid o = Some (meas (g_x g)) /\ (tol < meas (g_x g))%R) /\
     (st = true -> n <= m -> n <= maxiter -> n <= 0)).

Lemma outer_ok fuel : forall iter g l, maxiter - iter <= Z.of_nat fuel -> Pre g -> oinv iter g l -> okm st (outer fuel maxiter cycle iter g l) opost.
Proof.
  induction fuel as [|fuel IH]; intros iter g l Hf Ht (O1 & O2 & O3 & O4 & O5); cbn [outer];
  (destruct (Z.leb_spec maxiter iter) as [Hle|Hle]; [|try lia]).
  1,2: assert (iter = maxiter) by lia; subst iter; cbn [okm]; exists g; cbn [o_iter o_ret o_x o_rh o_resid]; replace (Z.min (maxiter + 1) maxiter) with maxiter by lia;
    split; [exact O3|]; split; [reflexivity|]; split; [reflexivity|]; right; split; [reflexivity|]; split; [reflexivity|]; split;
    [destruct O4 as [(Z0 & Z1 & Z2)|((Z0 & _) & Z1 & Z2)]; [left; auto|right; split; [exact Z0|auto]]|intros Hs N1 N2; specialize (O5 Hs N1 N2); lia].
  apply okm_bind. eapply okm_mono; [apply (HC iter g l); [lia|apply O2; lia|apply O3|exact Ht]|].
  intros [[[ret iter'] g'] l'] (G1 & G2 & G3 & G4 & G5 & G6 & G7).
  destruct O3 as (H1 & H2 & H3).
  assert (HH : hist iter' g').
  { split; [congruence|]. split; [lra|]. intros Em _. destruct (G6 Em) as (K1 & K2 & K3 & K4). split; [exact K2|]. destruct O4 as [(Z0 & Z1 & Z2)|((Z0 & Z3) & Z1 & Z2)].
    - subst iter. rewrite Z1 in *. split; [apply (K4 1); lia|]. split; [intros j Hj; apply K3; lia|]. intros j Hj _. destruct (K4 j ltac:(lia)) as (_ & K5). replace (j - 0) with j in K5 by lia. exact K5.
    - destruct (H3 Em Z0) as (L1 & L2 & L3 & L4). split; [rewrite K1 by lia; exact L2|]. split.
      + intros j Hj. destruct (Z.lt_trichotomy j iter) as [C|[C|C]].
        * rewrite !K1 by lia. apply L3; lia.
        * subst j. rewrite (K1 iter) by lia. rewrite L1. split; [exact Z2|]. apply (K4 (iter + 1)); lia.
        * apply K3; lia.
      + intros j Hj Hjm. rewrite K1 by lia. apply L4; lia. }
  destruct G7 as [(-> & G8 & G9)|(-> & G8 & G9 & G10 & G11)]; cbn [Z.eqb LIS_SUCCESS].
  - cbn [okm]. exists g'. cbn [o_iter o_ret o_x o_rh o_resid]. replace (Z.min iter' maxiter) with iter' by lia. split; [exact HH|]. split; [reflexivity|]. split; [reflexivity|].
    left. split; [reflexivity|]. split; [lia|]. split; [exact G3|]. split; [exact G8|]. intros Hs N1 N2. specialize (O5 Hs N1 N2). specialize (G9 Hs). lia.
  - change (LIS_MAXITER =? 0) with false. cbn iota. apply IH; [lia|auto|].
    split; [lia|]. split; [exact G11|]. split; [exact HH|]. split.
    + right. split; [split; [lia|]|split; [exact G3|exact G8]]. destruct G9; [left|right]; lia.
    + intros Hs N1 N2. specialize (O5 Hs N1 N2). specialize (G10 Hs). lia.
Qed.
End O.
