(** Vectors of reals as functions on 0..n-1: inner product, Cauchy-Schwarz, triangle inequality *)
Require Import ZArith List Bool Lia Reals Lra.
From Verif Require Import Base Scalar ScalarReal Spec.
Import ListNotations.
Open Scope R_scope.

Definition sm (n : Z) (f : Z -> R) : R := ssum (map f (zrange 0 n)).
Definition ip (n : Z) (f g : Z -> R) : R := sm n (fun i => f i * g i).
Definition nm (n : Z) (f : Z -> R) : R := sqrt (ip n f f).
Definition eqv (n : Z) (f g : Z -> R) : Prop := forall i, (0 <= i < n)%Z -> f i = g i.

Lemma sm_ext n f g : eqv n f g -> sm n f = sm n g.
Proof. intros H. apply ssum_map_ext. intros i Hi. apply In_zrange in Hi. apply H. lia. Qed.
Lemma sm_add n f g : sm n (fun i => f i + g i) = sm n f + sm n g.
Proof. apply (ssum_map_add ScalarR_ring). Qed.
Lemma sm_mul n c f : sm n (fun i => c * f i) = c * sm n f.
Proof. apply (ssum_map_mul_l ScalarR_ring). Qed.
Lemma ip_ext n f f' g g' : eqv n f f' -> eqv n g g' -> ip n f g = ip n f' g'.
Proof. intros A B. apply sm_ext. intros i Hi. rewrite A, B; auto. Qed.
Lemma ip_sym n f g : ip n f g = ip n g f.
Proof. apply sm_ext. intros i Hi. ring. Qed.
Lemma ip_lin n a b f g h : ip n (fun i => a * f i + b * g i) h = a * ip n f h + b * ip n g h.
Proof. unfold ip. rewrite <- !sm_mul, <- sm_add. apply sm_ext. intros i Hi. ring. Qed.
Lemma ip_lin_r n a b f g h : ip n h (fun i => a * f i + b * g i) = a * ip n h f + b * ip n h g.
Proof. rewrite ip_sym, ip_lin, (ip_sym n f), (ip_sym n g). reflexivity. Qed.
Lemma ip_scal n a f h : ip n (fun i => a * f i) h = a * ip n f h.
Proof. unfold ip. rewrite <- !sm_mul. apply sm_ext. intros i Hi. ring. Qed.
Lemma ip_scal_r n a f h : ip n h (fun i => a * f i) = a * ip n h f.
Proof. rewrite ip_sym, ip_scal, ip_sym. reflexivity. Qed.
Lemma ssum_pos {A} (f : A -> R) l : (forall x, In x l -> 0 <= f x) -> 0 <= ssum (map f l).
Proof.
  induction l; intros H; cbn; [lra|]. specialize (IHl (fun x Hx => H x (or_intror Hx))). specialize (H a (or_introl eq_refl)). lra.
Qed.
Lemma ip_pos n f : 0 <= ip n f f.
Proof. apply ssum_pos. intros i Hi. apply Rle_0_sqr. Qed.
Lemma nm_sq n f : nm n f * nm n f = ip n f f.
Proof. apply sqrt_sqrt, ip_pos. Qed.
Lemma nm_pos n f : 0 <= nm n f.
Proof. apply sqrt_pos. Qed.
Lemma nm_ext n f g : eqv n f g -> nm n f = nm n g.
Proof. intros H. unfold nm. f_equal. apply ip_ext; auto. Qed.
Lemma ssum_zero_each {A} (f : A -> R) l : (forall x, In x l -> 0 <= f x) -> ssum (map f l) = 0 -> forall x, In x l -> f x = 0.
Proof.
  induction l; intros H Hs x Hx; [destruct Hx|]. cbn in Hs.
  pose proof (ssum_pos f l (fun x Hx => H x (or_intror Hx))) as P. pose proof (H a (or_introl eq_refl)) as Q.
  destruct Hx as [->|Hx]; [lra|]. apply IHl; auto. intros; apply H; right; auto. lra.
Qed.
Lemma ip_zero n f : ip n f f = 0 -> eqv n f (fun _ => 0).
Proof.
  intros H i Hi. assert (f i * f i = 0). { apply (ssum_zero_each (fun i => f i * f i) (zrange 0 n)); auto. intros; apply Rle_0_sqr. apply In_zrange; lia. }
  apply Rmult_integral in H0. tauto.
Qed.
Lemma nm_zero n f : nm n f = 0 -> eqv n f (fun _ => 0).
Proof. intros H. apply ip_zero. rewrite <- nm_sq, H. ring. Qed.
Lemma nm_scal n a f : nm n (fun i => a * f i) = Rabs a * nm n f.
Proof.
  unfold nm. rewrite ip_scal, ip_scal_r, <- Rmult_assoc. rewrite sqrt_mult_alt by apply Rle_0_sqr. f_equal. apply sqrt_Rsqr_abs.
Qed.
Lemma ip_sq n a b f g : ip n (fun i => a * f i + b * g i) (fun i => a * f i + b * g i) = a * a * ip n f f + 2 * (a * b) * ip n f g + b * b * ip n g g.
Proof. rewrite ip_lin, !ip_lin_r, (ip_sym n g f). ring. Qed.
Lemma cauchy n f g : Rabs (ip n f g) <= nm n f * nm n g.
Proof.
  pose proof (nm_pos n f) as Pf. pose proof (nm_pos n g) as Pg.
  apply Rsqr_incr_0_var; [|apply Rmult_le_pos; auto]. rewrite <- Rsqr_abs. unfold Rsqr.
  replace (nm n f * nm n g * (nm n f * nm n g)) with (ip n f f * ip n g g) by (rewrite <- !nm_sq; ring).
  destruct (Req_dec (ip n g g) 0) as [Z|Z].
  - rewrite (ip_ext n f f g (fun _ => 0)); [|intros i Hi; auto|apply ip_zero; auto]. rewrite Z.
    replace (ip n f (fun _ => 0)) with 0. lra. unfold ip. rewrite (sm_ext n _ (fun i => 0 * f i)) by (intros i Hi; ring). rewrite sm_mul. ring.
  - pose proof (ip_pos n g) as G. pose proof (ip_pos n (fun i => (ip n g g) * f i + (- ip n f g) * g i)) as H. rewrite ip_sq in H.
    assert (0 <= ip n g g * (ip n f f * ip n g g - ip n f g * ip n f g)) by (revert H; generalize (ip n g g) (ip n f g) (ip n f f); intros; nra).
    apply Rmult_le_reg_l with (ip n g g); [lra|]. nra.
Qed.
Lemma triangle n f g : nm n (fun i => f i + g i) <= nm n f + nm n g.
Proof.
  pose proof (nm_pos n f) as Pf. pose proof (nm_pos n g) as Pg.
  apply Rsqr_incr_0_var; [|lra]. unfold Rsqr. rewrite nm_sq.
  rewrite (ip_ext n _ (fun i => 1 * f i + 1 * g i) _ (fun i => 1 * f i + 1 * g i)) by (intros i Hi; ring). rewrite ip_sq, <- !nm_sq.
  pose proof (cauchy n f g). pose proof (Rle_abs (ip n f g)). nra.
Qed.
