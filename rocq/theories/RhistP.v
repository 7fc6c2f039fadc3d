(** The residual history queries *)
Require Import ZArith List Bool Lia.
From Verif Require Import Base Scalar Spec SpecSolver Krylov Solve SpecSolve SolverFinal KrylovProof SolveProof Rhist SpecRhist SplitProof2.
Import ListNotations.
Open Scope Z_scope.

Section P.
Context {T : Type} {S : Scalar T}.
Lemma get_wp (h : hfields T) rh vn w : h_rh h = Some rh -> hcount h <= zlen rh -> 0 <= vn <= zlen w -> 0 <= hcount h ->
  wp (get_rhistory h vn w) (fun w' => zlen w' = zlen w /\ forall i, 0 <= i < zlen w -> znth s0 w' i = if (i <? vn) && (i <? hcount h) then znth s0 rh i else znth s0 w i).
Proof.
  intros Hr Hc Hv Hp. unfold get_rhistory. rewrite Hr.
  apply (for_wp' (fun m u => zlen u = zlen w /\ forall i, 0 <= i < zlen w -> znth s0 u i = if i <? m then znth s0 rh i else znth s0 w i)); [lia| | |].
  - split; auto. intros i Hi. destruct (Z.ltb_spec i 0); [lia|auto].
  - intros m u Hm (L & H). wrd s0; [lia|]. apply wp_wr; [lia|]. split; [len|]. intros i Hi. rewrite znth_zupd by lia. destruct (Z.eqb_spec i m) as [->|Ne].
    + destruct (Z.ltb_spec m (m + 1)); [auto|lia].
    + rewrite H by auto. destruct (Z.ltb_spec i m), (Z.ltb_spec i (m + 1)); auto; lia.
  - intros u (L & H). split; auto. intros i Hi. rewrite H by auto. destruct (Z.ltb_spec i (Z.min vn (hcount h))), (Z.ltb_spec i vn), (Z.ltb_spec i (hcount h)); cbn [andb]; auto; lia.
Qed.
Lemma out_wp (h : hfields T) rh : h_rh h = Some rh -> 0 <= hcount h <= zlen rh ->
  wp (output_rhistory h) (fun L => zlen L = hcount h /\ forall i, 0 <= i < hcount h -> znth s0 L i = znth s0 rh i).
Proof.
  intros Hr Hc. unfold output_rhistory. rewrite Hr.
  apply (for_wp' (fun m u => zlen u = m /\ forall i, 0 <= i < m -> znth s0 u i = znth s0 rh i)); [lia| | |auto].
  - split; [reflexivity|]. intros; lia.
  - intros m u Hm (L & H). wrd s0; [lia|]. apply wp_ok. split; [rewrite zlen_app, L; reflexivity|]. intros i Hi. destruct (Z.eq_dec i m) as [->|Ne].
    + rewrite znth_app, L by lia. destruct (Z.ltb_spec m m); [lia|]. replace (m - m) with 0 by lia. reflexivity.
    + rewrite znth_app, L by lia. destruct (Z.ltb_spec i m); [apply H; lia|lia].
Qed.
Lemma counts (FT : is_field S) (EQ : eqb_ok S) (o : opts (T:=T)) n E b x v : 0 <= n -> valid o -> lis_solve o n E b x = Ok v ->
  h_rh (after v) = Some (v_rh v) /\ 0 <= hcount (after v) <= zlen (v_rh v) /\ znth s0 (v_rh v) 0 = s1 /\
  hcount (after v) = (if v_status v =? LIS_SUCCESS then v_iter v else v_iter v - 1) + 1.
Proof.
  intros Hn Hv E1. destruct (iterations FT EQ o n E b x v Hn Hv E1) as (H1 & H2 & H3 & H4).
  assert (Hm : 0 <= s_maxiter o) by (destruct Hv as (_ & _ & _ & _ & Hm & _); exact Hm).
  assert (R : v_ret v = 0).
  { destruct Hv as (V1 & V2 & V3 & V4 & V5 & V6 & V7 & V8). destruct (Z.eq_dec (v_ret v) 0) as [|Ne]; auto. exfalso.
    unfold lis_solve in E1. cbv zeta in E1.
    repeat match type of E1 with
    | Ok _ = Ok _ => injection E1 as <-; cbn [v_ret v_rh] in *; first [apply Ne; reflexivity | rewrite zlen_nil in H1; lia]
    | (if ?c then _ else _) = Ok _ => destruct c
    | bind ?m _ = Ok _ => let r := fresh in let Er := fresh in destruct m as [r|c'|] eqn:Er; cbn [bind] in E1; try discriminate E1
    | (let '(_, _) := ?p in _) = Ok _ => destruct p
    | Err _ = Ok _ => discriminate E1
    end. }
  unfold after, hcount. cbn [h_rh h_ret h_iter]. rewrite R. cbn [Z.eqb]. 
  destruct H4 as [[Es H4]|[[Es H4]|[Es H4]]]; rewrite Es; cbn; (split; [auto|split; [lia|split; [auto|lia]]]).
Qed.
Lemma queries_safe (FT : is_field S) (EQ : eqb_ok S) (o : opts (T:=T)) n E b x v vn w : 0 <= n -> valid o -> lis_solve o n E b x = Ok v -> 0 <= vn <= zlen w ->
  exists L w', output_rhistory (after v) = Ok L /\ get_rhistory (after v) vn w = Ok w' /\ overwritten vn w L w'.
Proof.
  intros Hn Hv E1 Hw. destruct (counts FT EQ o n E b x v Hn Hv E1) as (H1 & H2 & H3 & H4).
  pose proof (out_wp _ _ H1 H2) as W1. apply wp_inv in W1. destruct W1 as (L & E2 & L1 & L2).
  pose proof (get_wp _ _ vn w H1 (proj2 H2) Hw (proj1 H2)) as W2. apply wp_inv in W2. destruct W2 as (w' & E3 & G1 & G2).
  exists L, w'. split; auto. split; auto. split; auto. intros i Hi. rewrite G2 by auto. rewrite L1. destruct (Z.ltb_spec i vn), (Z.ltb_spec i (hcount (after v))); cbn [andb]; auto. symmetry. apply L2. lia.
Qed.
Lemma history_final (FT : is_field S) (EQ : eqb_ok S) (o : opts (T:=T)) n E b x v : 0 <= n -> valid o -> s_scale o = 0 -> s_mem o = true -> lis_solve o n E b x = Ok v ->
  sleb (initial_measure (s_conv o) n b (residual n E b (if s_zeros o then zeros n else x))) (sabs (s_tol o)) = false ->
  exists L, output_rhistory (after v) = Ok L /\ is_residual_history (bound (s_conv o) n (s_tol o) (s_tolw o) b) v L.
Proof.
  intros Hn Hv Hs Hm E1 Ha. destruct (counts FT EQ o n E b x v Hn Hv E1) as (H1 & H2 & H3 & H4). destruct (iterations FT EQ o n E b x v Hn Hv E1) as (_ & _ & Hi & _).
  pose proof (out_wp _ _ H1 H2) as W1. apply wp_inv in W1. destruct W1 as (L & E2 & L1 & L2). exists L. split; auto.
  destruct (history FT EQ o n E b x v Hn Hv Hs Hm E1 Ha) as (A1 & A2). unfold is_residual_history. cbv zeta. split; [lia|]. split; [rewrite L2; auto; destruct (v_status v =? LIS_SUCCESS); lia|]. split.
  - intros j Hj. rewrite L2; [auto|]. destruct (v_status v =? LIS_SUCCESS); lia.
  - intros Es. rewrite Es in *. cbn [Z.eqb LIS_SUCCESS] in *. destruct (A2 eq_refl) as [A3 A4]. change (0 =? 0) with true in *. cbv iota in *. rewrite L2 by lia. auto.
Qed.
End P.
