(** One lemma for all the elementwise helpers. *)
Require Import ZArith List Bool Lia.
From Verif Require Import Base Scalar SpecArray SpecVector ArrayElem.
From Verif Require Krylov.
Import ListNotations.
Open Scope Z_scope.
Section P.
Context {T : Type} {S : Scalar T}.
Notation vz v := (znth s0 v).
(** y[i] = f(i, y[i]) for i < n *)
Lemma elem_ok n (y : list T) (body : Z -> list T -> res (list T)) (f : Z -> T -> T) : 0 <= n <= zlen y ->
  (forall i y', 0 <= i < n -> zlen y' = zlen y -> body i y' = Ok (zupd y' i (f i (vz y' i)))) ->
  wp (for_ 0 n body y) (fun y' => zlen y' = zlen y /\ forall i, 0 <= i < zlen y -> vz y' i = if i <? n then f i (vz y i) else vz y i).
Proof.
  intros Hn HB. apply (for_wp' (fun m y' => zlen y' = zlen y /\ forall i, 0 <= i < zlen y -> vz y' i = if i <? m then f i (vz y i) else vz y i)); [lia| | |auto].
  - split; [reflexivity|]. intros i Hi. destruct (Z.ltb_spec i 0); [lia|reflexivity].
  - intros m y' Hm (A & B). rewrite HB by auto. cbn [wp]. rewrite zlen_zupd. split; [exact A|]. intros i Hi. rewrite znth_zupd by lia.
    destruct (Z.eqb_spec i m) as [->|].
    + rewrite B by lia. destruct (Z.ltb_spec m m), (Z.ltb_spec m (m + 1)); try lia. reflexivity.
    + rewrite B by lia. destruct (Z.ltb_spec i m), (Z.ltb_spec i (m + 1)); try lia; reflexivity.
Qed.
Lemma fold_ok n (body : Z -> T -> res T) (f : Z -> T) (RT : is_ring S) : 0 <= n ->
  (forall i t, 0 <= i < n -> body i t = Ok (sadd t (f i))) -> for_ 0 n body s0 = Ok (sum_to n f).
Proof.
  intros Hn HB. assert (W : wp (for_ 0 n body s0) (fun t => t = sum_to n f)).
  { apply (for_wp' (fun m t => t = sum_to m f)); [lia|reflexivity| |auto]. intros m t Hm ->. rewrite HB by auto. cbn [wp].
    unfold sum_to. rewrite zrange_snoc by lia. rewrite map_app, (ssum_app RT). cbn [map ssum]. rewrite (Radd_comm RT (f m) s0), (Radd_0_l RT). reflexivity. }
  destruct (wp_inv _ _ W) as (t & -> & ->). reflexivity.
Qed.
End P.
