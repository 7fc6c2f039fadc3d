(** Scalars: LIS_SCALAR / LIS_REAL as an arbitrary type with raw operations.
    No algebraic law is built in, so a theorem that only mentions [Scalar T]
    also holds for IEEE doubles.  Laws are explicit hypotheses where needed. *)
Require Import ZArith List Bool Lia Ring Field QArith Qcanon Permutation.
Import ListNotations.

Class Scalar (T : Type) : Type := mkScalar {
  s0 : T;                       (* 0.0 *)
  s1 : T;                       (* 1.0 *)
  sadd : T -> T -> T;           (* +  *)
  smul : T -> T -> T;           (* *  *)
  ssub : T -> T -> T;           (* binary - *)
  sopp : T -> T;                (* unary -  *)
  sdiv : T -> T -> T;           (* /  *)
  sconj : T -> T;               (* conj(), identity in the real build *)
  sabs : T -> T;                (* fabs *)
  ssqrt : T -> T;               (* sqrt *)
  seqb : T -> T -> bool;        (* ==  *)
  sleb : T -> T -> bool;        (* <=  *)
}.

Declare Scope scalar_scope.
Delimit Scope scalar_scope with S.
Infix "+" := sadd : scalar_scope.
Infix "*" := smul : scalar_scope.
Infix "-" := ssub : scalar_scope.
Notation "- x" := (sopp x) : scalar_scope.
Infix "/" := sdiv : scalar_scope.

(** Exact arithmetic: the operations form a commutative ring / a field. *)
Definition is_ring {T} (S : Scalar T) : Prop :=
  @ring_theory T s0 s1 sadd smul ssub sopp (@eq T).
Definition is_field {T} (S : Scalar T) : Prop :=
  @field_theory T s0 s1 sadd smul ssub sopp sdiv (fun x => sdiv s1 x) (@eq T).
(** The comparison with == is equality. *)
Definition eqb_ok {T} (S : Scalar T) : Prop := forall a b : T, seqb a b = true <-> a = b.
(** == recognises the literal zero (true of IEEE doubles, too). *)
Definition eqb_zero {T} (S : Scalar T) : Prop := seqb (s0 : T) s0 = true.
(** conj is a ring automorphism of order two. *)
Definition conj_ok {T} (S : Scalar T) : Prop :=
  (forall a b : T, sconj (sadd a b) = sadd (sconj a) (sconj b)) /\
  (forall a b : T, sconj (smul a b) = smul (sconj a) (sconj b)) /\
  (forall a : T, sconj (sconj a) = a) /\ sconj (s0 : T) = s0 /\ sconj (s1 : T) = s1.

(** Instances used in examples: Z (ring), Qc (field; R is in ScalarReal.v), Gaussian integers (complex). *)
#[export] Instance ScalarZ : Scalar Z :=
  {| s0 := 0%Z; s1 := 1%Z; sadd := Z.add; smul := Z.mul; ssub := Z.sub; sopp := Z.opp;
     sdiv := Z.div; sconj := fun x => x; sabs := Z.abs; ssqrt := Z.sqrt;
     seqb := Z.eqb; sleb := Z.leb |}.

Lemma ScalarZ_ring : is_ring ScalarZ.
Proof. exact InitialRing.Zth. Qed.
Lemma ScalarZ_eqb : eqb_ok ScalarZ.
Proof. intros a b; simpl. apply Z.eqb_eq. Qed.
Lemma ScalarZ_conj : conj_ok ScalarZ.
Proof. repeat split. Qed.

(** Rationals in lowest terms: a field that computes. *)
#[export] Instance ScalarQ : Scalar Qc :=
  {| s0 := 0%Qc; s1 := 1%Qc; sadd := Qcplus; smul := Qcmult; ssub := Qcminus; sopp := Qcopp;
     sdiv := Qcdiv; sconj := fun x => x; sabs := fun x => if Qclt_le_dec x 0 then (- x)%Qc else x;
     ssqrt := fun x => Q2Qc (Qmake (Z.sqrt (Qnum x)) (Z.to_pos (Z.sqrt (Zpos (Qden x))))); (* exact for squares *)
     seqb := Qc_eq_bool; sleb := fun a b => if Qclt_le_dec b a then false else true |}.

Lemma ScalarQ_ring : is_ring ScalarQ.
Proof. exact Qcrt. Qed.
Lemma ScalarQ_field : is_field ScalarQ.
Proof.
  constructor; cbn [s0 s1 sadd smul ssub sopp sdiv ScalarQ]; intros.
  - exact ScalarQ_ring.
  - exact Q_apart_0_1.
  - unfold Qcdiv. ring.
  - unfold Qcdiv. rewrite Qcmult_1_l. rewrite Qcmult_comm. apply Qcmult_inv_r. auto.
Qed.
Lemma ScalarQ_eqb : eqb_ok ScalarQ.
Proof.
  intros a b; cbn [seqb ScalarQ]. split; [apply Qc_eq_bool_correct|].
  intros ->. unfold Qc_eq_bool. destruct (Qc_eq_dec b b); congruence.
Qed.

(** Gaussian integers: a complex scalar type that computes. *)
Definition G : Type := (Z * Z)%type.
Definition gmul (a b : G) : G :=
  ((fst a * fst b - snd a * snd b)%Z, (fst a * snd b + snd a * fst b)%Z).
#[export] Instance ScalarG : Scalar G :=
  {| s0 := (0%Z, 0%Z); s1 := (1%Z, 0%Z);
     sadd := fun a b => ((fst a + fst b)%Z, (snd a + snd b)%Z);
     smul := gmul;
     ssub := fun a b => ((fst a - fst b)%Z, (snd a - snd b)%Z);
     sopp := fun a => ((- fst a)%Z, (- snd a)%Z);
     sdiv := fun a b => a; sconj := fun a => (fst a, (- snd a)%Z);
     sabs := fun a => a; ssqrt := fun a => a;
     seqb := fun a b => Z.eqb (fst a) (fst b) && Z.eqb (snd a) (snd b);
     sleb := fun a b => Z.leb (fst a) (fst b) |}.

Lemma ScalarG_ring : is_ring ScalarG.
Proof. constructor; intros; repeat match goal with x : G |- _ => destruct x end; unfold s0,s1,sadd,smul,ssub,sopp,sconj,ScalarG,gmul,fst,snd; f_equal; ring. Qed.
Lemma ScalarG_conj : conj_ok ScalarG.
Proof. repeat split; intros; repeat match goal with x : G |- _ => destruct x end; unfold s0,s1,sadd,smul,ssub,sopp,sconj,ScalarG,gmul,fst,snd; f_equal; ring. Qed.
Lemma ScalarG_eqb : eqb_ok ScalarG.
Proof.
  intros [a b] [c d]; simpl. rewrite andb_true_iff, !Z.eqb_eq. split.
  - intros [-> ->]; auto.
  - intros E; inversion E; auto.
Qed.

(** ** Finite sums *)
Section Sums.
Context {T : Type} {S : Scalar T}.

(** sum of a list, from the right (specification) *)
Fixpoint ssum (l : list T) : T :=
  match l with [] => s0 | x :: t => sadd x (ssum t) end.

Section Ring.
Hypothesis RT : is_ring S.
Let RT' : @ring_theory T s0 s1 sadd smul ssub sopp (@eq T) := RT.
Add Ring scalar_ring : RT'.

Lemma ssum_app l m : ssum (l ++ m) = sadd (ssum l) (ssum m).
Proof. induction l; simpl; [ring|]. rewrite IHl. ring. Qed.

Lemma ssum_map_add {A} (f g : A -> T) l :
  ssum (map (fun x => sadd (f x) (g x)) l) = sadd (ssum (map f l)) (ssum (map g l)).
Proof. induction l; simpl; [ring|]. rewrite IHl. ring. Qed.

Lemma ssum_map_mul_l {A} c (f : A -> T) l :
  ssum (map (fun x => smul c (f x)) l) = smul c (ssum (map f l)).
Proof. induction l; simpl; [ring|]. rewrite IHl. ring. Qed.

Lemma ssum_map_mul_r {A} c (f : A -> T) l :
  ssum (map (fun x => smul (f x) c) l) = smul (ssum (map f l)) c.
Proof. induction l; simpl; [ring|]. rewrite IHl. ring. Qed.

Lemma ssum_map_zero {A} (l : list A) : ssum (map (fun _ => s0) l) = s0.
Proof. induction l; simpl; [ring|]. rewrite IHl. ring. Qed.

Lemma ssum_map_ext {A} (f g : A -> T) l :
  (forall x, In x l -> f x = g x) -> ssum (map f l) = ssum (map g l).
Proof.
  intros H. f_equal. apply map_ext_in. exact H.
Qed.

Lemma ssum_perm l m : Permutation.Permutation l m -> ssum l = ssum m.
Proof. induction 1; simpl; try congruence. ring. Qed.

(** left folds, as the C loops compute them *)
Lemma fold_left_ssum {A} (f : A -> T) l a :
  fold_left (fun t x => sadd t (f x)) l a = sadd a (ssum (map f l)).
Proof. revert a; induction l; simpl; intros; [ring|]. rewrite IHl. ring. Qed.

Lemma ssum_exchange {A B} (f : A -> B -> T) la lb :
  ssum (map (fun a => ssum (map (fun b => f a b) lb)) la) =
  ssum (map (fun b => ssum (map (fun a => f a b) la)) lb).
Proof.
  induction la; simpl.
  - rewrite ssum_map_zero. reflexivity.
  - rewrite IHla, <- ssum_map_add. reflexivity.
Qed.

Lemma ssum_flat_map {A B} (f : B -> T) (g : A -> list B) l :
  ssum (map f (flat_map g l)) = ssum (map (fun a => ssum (map f (g a))) l).
Proof. induction l; simpl; auto. rewrite map_app, ssum_app, IHl. reflexivity. Qed.

Lemma ssum_filter {A} (f : A -> T) p l :
  (forall x, In x l -> p x = false -> f x = s0) -> ssum (map f (filter p l)) = ssum (map f l).
Proof.
  induction l; simpl; intros H; auto.
  destruct (p a) eqn:E; simpl; rewrite IHl by auto; auto.
  rewrite (H a) by auto. ring.
Qed.

End Ring.
End Sums.
