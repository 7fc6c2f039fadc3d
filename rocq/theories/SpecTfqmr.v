(** Textbook CGS (Sonneveld) with the right preconditioner M, and quasi-minimal residual smoothing
    (Freund; Zhou and Walker).  No code of the library.  Vectors are functions on 0..n-1. *)
Require Import Reals ZArith List.
From Verif Require Import Base Scalar ScalarReal Spec SpecSolver Solve SpecMore.
Open Scope R_scope.

Section C.
Variables (n : Z) (E M : list (entry R)) (b x0 rt : Z -> R).
Definition app (A : list (entry R)) (f : Z -> R) : Z -> R := fun i => mv_spec A n f i.
Definition inner (f g : Z -> R) : R := ssum (map (fun i => f i * g i) (zrange 0 n)).
Definition norm (f : Z -> R) : R := sqrt (inner f f).
Definition res_of (x : Z -> R) : Z -> R := fun i => b i - app E x i.

(** one CGS iterate: the point, the directions u and p, rho = <r, rt> *)
Record cgs := mkCgs { c_x : Z -> R; c_u : Z -> R; c_p : Z -> R; c_rho : R }.
Definition cgs_start : cgs := mkCgs x0 (res_of x0) (res_of x0) (inner (res_of x0) rt).
Definition c_alpha (c : cgs) : R := c_rho c / inner (app E (app M (c_p c))) rt.
Definition c_q (c : cgs) : Z -> R := fun i => c_u c i - c_alpha c * app E (app M (c_p c)) i.
(** the point half way, and the next one *)
Definition half (c : cgs) : Z -> R := fun i => c_x c i + c_alpha c * app M (c_u c) i.
Definition full (c : cgs) : Z -> R := fun i => half c i + c_alpha c * app M (c_q c) i.
Definition cgs_next (c : cgs) : cgs :=
  let r := res_of (full c) in let rho := inner r rt in let beta := rho / c_rho c in
  let u := fun i => r i + beta * c_q c i in
  mkCgs (full c) u (fun i => u i + beta * (c_q c i + beta * c_p c i)) rho.
Fixpoint cgs_at (k : nat) : cgs := match k with O => cgs_start | S k => cgs_next (cgs_at k) end.

(** a sequence of points y_1, y_2, ... with weights w_1, w_2, ... (small weight: good point), smoothed:
    x_0 = x0, tau_0 = t0, x_m the combination of x_(m-1) and y_m with weights 1/tau^2 and 1/w^2 *)
Fixpoint smooth (y : nat -> Z -> R) (w : nat -> R) (t0 : R) (m : nat) : (Z -> R) * R :=
  match m with
  | O => (x0, t0)
  | S m => let (x, t) := smooth y w t0 m in let g := t * t / (t * t + w m * w m) in
           (fun i => x i + g * (y m i - x i), t * w m / sqrt (t * t + w m * w m))
  end.
(** TFQMR: y_1, y_2, y_3, ... = half way to the first CGS iterate, first iterate, half way to the
    second, ...; weights: the residual norm of an iterate, and half way the geometric mean of the
    neighbours *)
Definition tf_points (m : nat) : Z -> R := let c := cgs_at (Nat.div2 m) in if Nat.even m then half c else full c.
Definition tf_weights (m : nat) : R :=
  let c := cgs_at (Nat.div2 m) in
  if Nat.even m then sqrt (norm (res_of (full c)) * norm (res_of (c_x c))) else norm (res_of (full c)).
(** the m-th TFQMR iterate and its quasi-residual norm *)
Definition tfqmr (m : nat) : (Z -> R) * R := smooth tf_points tf_weights (norm (res_of x0)) m.
End C.

(** what lis_solve leaves behind: the m-th iterate, the residual norm estimate
    tau_m sqrt(1 + (m odd: 0, m even: 1)) relative to the initial norm, and how m, the iteration count and
    the status belong together (two points per iteration) *)
Definition the_shadow (o : opts (T:=R)) n E (b : list R) (x0 : Z -> R) : Z -> R :=
  match s_shadow o with Some w => vcomp w | None => res_of n E (vcomp b) x0 end.
Definition tfqmr_result (o : opts (T:=R)) n (E M : list (entry R)) (b : list R) (x0 : Z -> R) (v : solved (T:=R)) (m : nat) : Prop :=
  let y := tfqmr n E M (vcomp b) x0 (the_shadow o n E b x0) m in
  (forall i, (0 <= i < n)%Z -> vcomp (v_x v) i = fst y i) /\
  (m <> O -> v_resid v = Some (snd y * sqrt (if Nat.even m then 2 else 1) / norm n (res_of n E (vcomp b) x0))) /\
  (v_status v = LIS_SUCCESS /\ (1 <= v_iter v)%Z /\ (m = (2 * Z.to_nat (v_iter v) - 1)%nat \/ m = (2 * Z.to_nat (v_iter v))%nat) \/
   v_status v = LIS_BREAKDOWN /\ (1 <= v_iter v)%Z /\ (m = (2 * Z.to_nat (v_iter v) - 2)%nat \/ m = (2 * Z.to_nat (v_iter v))%nat) \/
   v_status v = LIS_MAXITER /\ v_iter v = (s_maxiter o + 1)%Z /\ m = (2 * Z.to_nat (s_maxiter o))%nat).
