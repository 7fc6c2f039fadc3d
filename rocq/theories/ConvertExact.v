(** The CSR matrices made by the conversions have index and value arrays of one length. *)
Require Import ZArith List Bool Lia.
From Verif Require Import Base Scalar Spec Split Sort Csc Coo Dns Ell Msr Dia Jad Bsr Vbr Copy Convert.
Import ListNotations.
Open Scope Z_scope.

(** partial correctness *)
Definition wl {A} (m : res A) (Q : A -> Prop) : Prop := forall a, m = Ok a -> Q a.
Lemma wl_ok {A} (a : A) (Q : A -> Prop) : Q a -> wl (Ok a) Q.
Proof. intros H b E. injection E as <-. auto. Qed.
Lemma wl_bind {A B} (m : res A) (f : A -> res B) (P : A -> Prop) (Q : B -> Prop) : wl m P -> (forall a, P a -> wl (f a) Q) -> wl (bind m f) Q.
Proof. intros H1 H2 b E. destruct m as [a| |]; cbn in E; try discriminate. apply (H2 a (H1 a eq_refl) b E). Qed.
Lemma wl_mono {A} (m : res A) (P Q : A -> Prop) : wl m P -> (forall a, P a -> Q a) -> wl m Q.
Proof. intros H1 H2 a E. auto. Qed.
Lemma wl_true {A} (m : res A) : wl m (fun _ => True).
Proof. intros a E. auto. Qed.
Lemma wl_wr {A} (l : list A) i v : wl (wr l i v) (fun l' => zlen l' = zlen l).
Proof. intros l' E. unfold wr in E. destruct (_ || _); [discriminate|]. injection E as <-. apply zlen_zupd. Qed.
Lemma wl_for {St} (I : St -> Prop) lo hi body (s : St) : I s -> (forall i s, I s -> wl (body i s) I) -> wl (for_ lo hi body s) I.
Proof.
  intros HI HB. unfold for_. generalize (Z.to_nat (hi - lo)) as k. intro k. revert lo s HI.
  induction k as [|k IH]; intros lo s HI; cbn [for_n]; [apply wl_ok; auto|].
  eapply wl_bind; [apply HB; auto|]. cbn beta. intros s' HI'. apply IH; auto.
Qed.

Lemma zlen_allocm {A} n (j : Z -> A) : zlen (alloc n j) = Z.max 0 n.
Proof. unfold alloc. rewrite zlen_map, zlen_zrange. lia. Qed.

Section X.
Context {T : Type} {S : Scalar T}.
Definition I2 (s : list Z * list T) : Prop := zlen (snd s) = zlen (fst s).
Definition I3 {X} (s : X * list Z * list T) : Prop := zlen (snd s) = zlen (snd (fst s)).
Definition I4 (s : list Z * list T * Z * list Z) : Prop := zlen (snd (fst (fst s))) = zlen (fst (fst (fst s))).
Definition I5 (s : list Z * list T * Z) : Prop := zlen (snd (fst s)) = zlen (fst (fst s)).

Ltac bindv I := eapply (wl_bind _ _ I).
Ltac loop I := apply (wl_for I); [|let i := fresh in let s := fresh "s" in let H := fresh in intros i s H].
Ltac step :=
  lazymatch goal with
  | |- wl (let '(_, _) := ?s in _) _ => destruct s as [? ?]
  | |- wl (bind (wr _ _ _) _) _ => eapply wl_bind; [apply wl_wr|cbv beta; intros ? ?]
  | |- wl (@bind ?A _ _ _) _ =>
      lazymatch A with
      | (list Z * list T)%type => bindv I2
      | (list Z * list T * Z)%type => bindv I5
      | (list Z * list T * Z * list Z)%type => bindv I4
      | (?X * list Z * list T)%type => bindv (@I3 X)
      | _ => eapply (wl_bind _ _ (fun _ => True))
      end; [try apply wl_true|intros ? ?]
  | |- wl (for_ptr _ _ _ _) _ => unfold for_ptr
  | |- wl (@for_ ?A _ _ _ _) ?I => loop I
  | |- wl (if ?b then _ else _) _ => destruct b
  | |- wl (emit _ _ _) _ => unfold emit
  | |- wl (Ok _) _ => apply wl_ok
  end.
Ltac fin := unfold I2, I3, I4, I5, csr_exact in *; cbn [fst snd csr_value csr_index] in *; subst; rewrite ?zlen_allocm in *; try congruence; try lia.
Ltac go := cbv zeta; repeat (cbv beta zeta; first [step | match goal with |- context [let '(_, _) := ?s in _] => destruct s as [? ?] end]).
Lemma dns_exact jp ji jv (A : dns T) : wl (convert_dns2csr jp ji jv A) csr_exact.
Proof. unfold convert_dns2csr. go. all: fin. Qed.
Lemma csc_exact jp ji jw jv (A : csc T) : wl (convert_csc2csr jp ji jw jv A) csr_exact.
Proof. unfold convert_csc2csr. go. all: fin. Qed.
Lemma msr_exact jp ji jv (A : msr T) : wl (convert_msr2csr jp ji jv A) csr_exact.
Proof. unfold convert_msr2csr. go. all: fin. Qed.
Lemma dia_exact jw jp ji jv (A : dia T) : wl (convert_dia2csr jw jp ji jv A) csr_exact.
Proof. unfold convert_dia2csr. go. all: fin. Qed.
Lemma ell_exact jw jp ji jv (A : ell T) : wl (convert_ell2csr jw jp ji jv A) csr_exact.
Proof. unfold convert_ell2csr. go. all: fin. Qed.
Lemma jad_exact jw jp ji jv (A : jad T) : wl (convert_jad2csr jw jp ji jv A) csr_exact.
Proof. unfold convert_jad2csr. go. all: fin. Qed.
Lemma bsr_exact jp ji jv (A : bsr T) : wl (convert_bsr2csr jp ji jv A) csr_exact.
Proof. unfold convert_bsr2csr. go. all: fin. Qed.
Lemma bsc_exact jw jp ji jv (A : bsc T) : wl (convert_bsc2csr jw jp ji jv A) csr_exact.
Proof. unfold convert_bsc2csr. go. all: fin. Qed.
Lemma vbr_exact jp ji jv (A : vbr T) : wl (convert_vbr2csr jp ji jv A) csr_exact.
Proof. unfold convert_vbr2csr. go. all: fin. Qed.
Lemma coo_csr_exact jp ji jv (A : coo T) : wl (convert_coo2csr jp ji jv A) (fun r => csr_exact (fst r)).
Proof. unfold convert_coo2csr. eapply (wl_bind _ _ (fun _ => True)); [apply wl_true|intros [? [? ?]] _]. go. all: fin. Qed.
Lemma merge_exact jp ji jv (P : split T) : wl (merge_csr jp ji jv P) csr_exact.
Proof. unfold merge_csr. go. all: fin. Qed.
End X.
