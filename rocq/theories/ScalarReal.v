(** The real numbers as scalars: the instance that shows the exact-arithmetic
    hypotheses (is_field, ...) are met by the mathematical reals. *)
Require Import Reals.
From Verif Require Import Scalar.

#[export] Instance ScalarR : Scalar R :=
  {| s0 := 0%R; s1 := 1%R; sadd := Rplus; smul := Rmult; ssub := Rminus; sopp := Ropp;
     sdiv := Rdiv; sconj := fun x => x; sabs := Rabs; ssqrt := sqrt;
     seqb := fun a b => if Req_EM_T a b then true else false;
     sleb := fun a b => if Rle_dec a b then true else false |}.

Lemma ScalarR_ring : is_ring ScalarR.
Proof. exact RealField.RTheory. Qed.
Lemma ScalarR_field : is_field ScalarR.
Proof.
  constructor; simpl; intros.
  - exact ScalarR_ring.
  - exact R1_neq_R0.
  - unfold Rdiv. ring.
  - field. exact H.
Qed.
Lemma ScalarR_eqb : eqb_ok ScalarR.
Proof. intros a b; simpl. destruct (Req_EM_T a b); split; congruence. Qed.

