(** Gaussian rationals: complex scalars that compute and form a field. *)
Require Import ZArith QArith Qcanon Bool Lia Ring Field.
From Verif Require Import Scalar.
Definition CQ : Type := (Qc * Qc)%type.
Local Open Scope Qc_scope.
Definition cqmul (a b : CQ) : CQ := (fst a * fst b - snd a * snd b, fst a * snd b + snd a * fst b).
Definition cqnorm (a : CQ) : Qc := fst a * fst a + snd a * snd a.
(** the absolute value and the square root are exact when |a|^2 (resp. a real a) is a square *)
#[export] Instance ScalarCQ : Scalar CQ :=
  {| s0 := (0, 0); s1 := (1, 0);
     sadd := fun a b => (fst a + fst b, snd a + snd b);
     smul := cqmul;
     ssub := fun a b => (fst a - fst b, snd a - snd b);
     sopp := fun a => (- fst a, - snd a);
     sdiv := fun a b => let c := cqmul a (fst b, - snd b) in (fst c / cqnorm b, snd c / cqnorm b);
     sconj := fun a => (fst a, - snd a);
     sabs := fun a => (@ssqrt _ ScalarQ (cqnorm a), 0);
     ssqrt := fun a => (@ssqrt _ ScalarQ (fst a), 0);
     seqb := fun a b => Qc_eq_bool (fst a) (fst b) && Qc_eq_bool (snd a) (snd b);
     sleb := fun a b => @sleb _ ScalarQ (fst a) (fst b) |}.
Lemma ScalarCQ_ring : is_ring ScalarCQ.
Proof. constructor; intros; repeat match goal with x : CQ |- _ => destruct x end; unfold s0,s1,sadd,smul,ssub,sopp,sconj,ScalarCQ,cqmul,fst,snd; f_equal; ring. Qed.
Lemma ScalarCQ_conj : conj_ok ScalarCQ.
Proof. repeat split; intros; repeat match goal with x : CQ |- _ => destruct x end; unfold s0,s1,sadd,smul,ssub,sopp,sconj,ScalarCQ,cqmul,fst,snd; f_equal; ring. Qed.
Lemma Qcopp_lt (a b : Qc) : a < b -> - b < - a.
Proof. intros H. apply Qclt_minus_iff. apply Qclt_minus_iff in H. replace (- a + - - b) with (b + - a) by ring. exact H. Qed.
Lemma sq_pos (x : Qc) : x <> 0 -> 0 < x * x.
Proof.
  intros N. destruct (Qclt_le_dec x 0) as [L|G].
  - replace (x * x) with (- x * - x) by ring. assert (P : 0 < - x) by (replace 0 with (- 0) by ring; apply Qcopp_lt; exact L). rewrite <- (Qcmult_0_l (- x)). apply Qcmult_lt_compat_r; exact P.
  - destruct (Qcle_lt_or_eq _ _ G) as [L|E]; [|congruence]. rewrite <- (Qcmult_0_l x) at 1. apply Qcmult_lt_compat_r; auto.
Qed.
Lemma sq_nonneg (x : Qc) : 0 <= x * x.
Proof. destruct (Qc_eq_dec x 0) as [->|N]; [unfold Qcle; discriminate|]. apply Qclt_le_weak, sq_pos, N. Qed.
Lemma cqnorm_nz (a : CQ) : a <> (0, 0) -> cqnorm a <> 0.
Proof.
  destruct a as [x y]. intros N. unfold cqnorm, fst, snd. intros C.
  destruct (Qc_eq_dec x 0) as [->|Nx].
  - destruct (Qc_eq_dec y 0) as [->|Ny]; [congruence|]. pose proof (sq_pos y Ny) as P. replace (y * y) with (0 * 0 + y * y) in P by ring. rewrite C in P. exact (Qclt_not_eq _ _ P eq_refl).
  - pose proof (sq_pos x Nx) as P. pose proof (sq_nonneg y) as P'. pose proof (Qcplus_le_compat _ _ _ _ (Qclt_le_weak _ _ P) P') as P''.
    assert (E : x * x = - (y * y)) by (replace (x * x) with (x * x + y * y - y * y) by ring; rewrite C; ring).
    rewrite E in P. apply Qcle_not_lt in P'. apply P'. replace (y * y) with (- - (y * y)) by ring. replace 0 with (- 0) by ring. apply Qcopp_lt. exact P.
Qed.
Lemma ScalarCQ_field : is_field ScalarCQ.
Proof.
  constructor.
  - exact ScalarCQ_ring.
  - cbn. intros E. inversion E.
  - intros [a b] [c d]. unfold s1, sdiv, smul, ScalarCQ, cqmul, fst, snd. cbn [fst snd]. unfold Qcdiv. f_equal; ring.
  - intros [a b] N. pose proof (cqnorm_nz _ N) as NZ. unfold s1, sdiv, smul, ScalarCQ, cqmul, fst, snd. cbn [fst snd]. unfold cqnorm, fst, snd in *. f_equal; field; exact NZ.
Qed.
Lemma ScalarCQ_eqb : eqb_ok ScalarCQ.
Proof.
  intros [a b] [c d]. cbn [seqb ScalarCQ fst snd]. rewrite andb_true_iff. split.
  - intros [E F]. apply Qc_eq_bool_correct in E. apply Qc_eq_bool_correct in F. congruence.
  - intros E. inversion E. unfold Qc_eq_bool. destruct (Qc_eq_dec c c), (Qc_eq_dec d d); try congruence. auto.
Qed.
