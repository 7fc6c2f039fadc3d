(** lis_matrix_solve_vbr and blocks of order > 1024 *)
Require Import ZArith List Bool Lia.
From Verif Require Import Base Scalar Spec Items ConvertExact BsrSolve SplitFmt VbrSplit VbrSolve SpecVbrSolve VbrSplitP.
Import ListNotations.
Open Scope Z_scope.

Section M.
Context {T : Type} {S : Scalar T}.
Lemma ne_ford {St} hi lo body (s : St) : (forall i s, noerr (body i s)) -> noerr (for_down hi lo body s).
Proof using.
  intros H. unfold for_down. generalize (Z.to_nat (hi - lo + 1)) as k. intros k. revert hi s. induction k as [|k IH]; intros hi s; cbn [ford_n]; [apply ne_ok|]. apply ne_bind; auto.
Qed.
Lemma lower_ne (B : vbr T) W i s : noerr (vstep B W i s).
Proof using. destruct s as [x w]. unfold vstep, vdim, vrow, vsub_in, vmul, vdot, memcpy. ne. Qed.
Lemma correct_ne (B : vbr T) W i s : noerr (vcorrect B W i s).
Proof using. destruct s as [x w]. unfold vcorrect, vdim, vrow, vadd, vsub, vdot. ne. Qed.
Lemma copy_ne n (b x : list T) : noerr (copy_to n b x). Proof using. unfold copy_to. ne. Qed.

Lemma vmul_wl dim d (x : list T) r w : wl (vmul dim d x r w) (fun w' => zlen w' = zlen w /\ (1 <= dim -> dim <= zlen w)).
Proof using.
  unfold vmul. apply (wl_for_ix (fun m w' => zlen w' = zlen w /\ (1 <= m -> m <= zlen w))); [split; [auto|lia]| |].
  - intros i y Hi [H1 H2]. eapply wl_bind; [apply wl_true|]. intros t _. intros y' Hy. apply wr_inv in Hy. destruct Hy as [Hy ->]. rewrite zlen_zupd. split; [auto|lia].
  - intros y [H1 H2]. split; auto. intros Hd. replace (Z.max 0 dim) with dim in H2 by lia. auto.
Qed.
Variable P : vsplit T.
Lemma lower_wl W (x w : list T) nr : wl (for_ 0 nr (vstep (vs_L P) W) (x, w)) (fun s => zlen (snd s) = zlen w /\ forall i, 0 <= i < nr -> 1 <= border P i -> border P i <= zlen w).
Proof using.
  apply (wl_for_ix (fun m s => zlen (snd s) = zlen w /\ forall i, 0 <= i < m -> 1 <= border P i -> border P i <= zlen w)).
  - split; auto. intros; lia.
  - intros i [y v] Hi. cbn [snd]. intros [L H]. unfold vstep. eapply wl_bind. { apply (wl_bind _ _ (fun v => v = znth 0 (vbr_row (vs_L P)) (i + 1)) (fun p => fst p = border P i)); [apply wl_rd|]. intros a ->. eapply wl_bind; [apply (wl_rd 0)|]. intros c ->. apply wl_ok. reflexivity. }
    intros [dm r]. cbn [fst]. intros ->. eapply wl_bind; [apply wl_true|]. intros x1 _. eapply wl_bind; [apply wl_true|]. intros d1 _. eapply wl_bind; [apply vmul_wl|]. cbn beta. intros w1 [Lw K].
    eapply wl_bind; [apply wl_true|]. intros x2 _. apply wl_ok. cbn [snd]. split; [lia|]. intros k Hk Hb. destruct (Z.eq_dec k i) as [->|]; [specialize (K Hb); lia|apply H; auto; lia].
  - intros s [L H]. split; auto. intros i Hi. apply H. lia.
Qed.
Lemma ub_of {A} (m : res A) (Q : A -> Prop) : noerr m -> wl m Q -> (forall a, ~ Q a) -> m = UB.
Proof using. intros H1 H2 H3. destruct m as [a|z|]; auto; [exfalso; apply (H3 a); apply H2; auto|exfalso; apply (H1 z); auto]. Qed.
Variables (jw : Z -> T) (W : list (list T)) (b x : list T).
Lemma wide_bad i : 0 <= i < vs_nr P -> 1024 < border P i -> forall w : list T, zlen w = 1024 -> ~ (forall k, 0 <= k < vs_nr P -> 1 <= border P k -> border P k <= zlen w).
Proof using. intros Hi Hb w Hw H. specialize (H i Hi ltac:(lia)). lia. Qed.
Lemma work_len : zlen (vwork jw) = 1024. Proof using. unfold vwork. rewrite zlen_alloc by lia. auto. Qed.
Theorem vbr_wide_lower i : 0 <= i < vs_nr P -> 1024 < border P i -> solve_lower_vbr jw P W b x = UB.
Proof using.
  intros Hi Hb. apply (ub_of _ (fun _ => False)); auto.
  - unfold solve_lower_vbr. apply ne_bind; [apply copy_ne|]. intros y. apply ne_bind; [apply ne_for; intros; apply lower_ne|]. intros [? ?]. apply ne_ok.
  - unfold solve_lower_vbr. eapply wl_bind; [apply wl_true|]. intros y _. eapply wl_bind; [apply lower_wl|]. cbn beta. intros [? ?] [_ H]. exfalso. exact (wide_bad i Hi Hb _ work_len H).
Qed.
Theorem vbr_wide_ssor i : 0 <= i < vs_nr P -> 1024 < border P i -> solve_ssor_vbr jw P W b x = UB.
Proof using.
  intros Hi Hb. apply (ub_of _ (fun _ => False)); auto.
  - unfold solve_ssor_vbr. apply ne_bind; [apply copy_ne|]. intros y. apply ne_bind; [apply ne_for; intros; apply lower_ne|]. intros s. apply ne_bind; [apply ne_ford; intros; apply correct_ne|]. intros [? ?]. apply ne_ok.
  - unfold solve_ssor_vbr. eapply wl_bind; [apply wl_true|]. intros y _. eapply wl_bind; [apply lower_wl|]. cbn beta. intros [? ?] [_ H]. exfalso. exact (wide_bad i Hi Hb _ work_len H).
Qed.
End M.
