(** Proofs of the properties of single solver steps and of the dense output. *)
From Coq Require Import ZArith QArith Qreals Reals Lra Lia String List Bool.
From Verif Require Import Num Py Tensor M_Constants M_SolversOde M_Utils M_Interp.
From Verif Require Import Spec_Ode Spec_Trees Spec_RK Spec_Adaptive L_Base L_Vec L_Trees L_Steps L_Tables L_Steps2 L_Interp.
Import ListNotations.
Local Open Scope R_scope.

(** C21.  One dopri5 step (also with a precomputed first stage) is the explicit Runge-Kutta step
    of the published tableau with 7 stages; the error estimate is the difference of the two
    solutions; the returned new slope is f at the new point. *)
Lemma C21_dopri5_step_pf :
  forall n f t h x k1, field_on n f -> List.length x = n -> (forall k, k1 = Some k -> k = f t x) ->
  let x5 := erk_step (to_R_rows q_dopri5) (to_R qb5_dopri5) f t h x in
  let x4 := erk_step (to_R_rows q_dopri5) (to_R qb4_dopri5) f t h x in
  snd (@dopri5_step ROps f x t h k1) =
  Ok (Ret4 (f (t + h) x5) x5 (@vsub ROps x5 x4) (erk_stages (to_R_rows q_dopri5) f t h x)).
Proof. exact dopri5_full. Qed.

(** C21.  The order conditions of all rooted trees up to order 5 hold exactly for the solution
    weights and up to order 4 for the embedded ones (and not beyond); row sums equal nodes. *)
Lemma C21_dopri5_orders_pf :
  rk_order q_dopri5 qb5_dopri5 5 /\ ~ rk_order q_dopri5 qb5_dopri5 6 /\
  rk_order q_dopri5 qb4_dopri5 4 /\ ~ rk_order q_dopri5 qb4_dopri5 5 /\ row_sums q_dopri5.
Proof.
  exact (conj dopri5_order5 (conj dopri5_not_order6 (conj dopri5_order4 (conj dopri5_err_not_order5 dopri5_row_sums)))).
Qed.

Lemma C21_ex_pf : exists (f : R -> rvec -> rvec) x, field_on 2 f /\ List.length x = 2%nat /\
  f 1 x <> f 0 x.
Proof.
  exists (fun t x => map (fun a => t * a) x), [1; 2]. split; [|split].
  - intros t x Hx. now rewrite map_length.
  - reflexivity.
  - cbn [map]. intros E. injection E as E1 E2. lra.
Qed.

(** C22, refuted: on x' = t the rk4 step is not the classical Runge-Kutta step (the nodes used
    are 0, 0, 1/2, 1/2 instead of 0, 1/2, 1/2, 1: c[0], c[1], c[2] of a list that starts with 0). *)
Lemma C22_rk4_time_varying_refuted_pf :
  exists n f t h x, field_on n f /\ List.length x = n /\
  snd (@rk4_step ROps f x t h None) <>
  Ok (Ret3 None (erk_step (to_R_rows q_rk4) (to_R qb_rk4) f t h x) None).
Proof.
  exists 1%nat, clock, 0, 1, [0]. split; [|split; [reflexivity|]].
  - intros t x Hx. unfold clock. now rewrite map_length.
  - rewrite rk4_clock, rk4_clock_textbook. intros E. injection E as E. lra.
Qed.

(** C22, the size of the defect: solving x' = t by one step of size h from time t gives
    x + h t + h^2/4, whereas the exact solution (and the classical method) is x + h t + h^2/2:
    the method is only first order for time-varying vector fields. *)
Lemma C22_rk4_first_order_refuted_pf :
  forall t h x : R,
  let fld := fun (s : R) (y : rvec) => map (fun _ => s) y in
  snd (@rk4_step ROps fld [x] t h None) = Ok (Ret3 None [x + h * t + h ^ 2 / 4] None) /\
  erk_step (to_R_rows q_rk4) (to_R qb_rk4) fld t h [x] = [x + h * t + h ^ 2 / 2] /\
  derivable_pt_lim (fun s => x + (s - t) * t + (s - t) ^ 2 / 2) (t + h) (t + h).
Proof.
  intros t h x fld. split; [apply rk4_clock|]. split; [apply rk4_clock_textbook|].
  apply clock_solution.
Qed.

(** C22 for autonomous vector fields: the rk4 step is the classical Runge-Kutta step, which
    satisfies every order condition up to order 4. *)
Lemma C22_rk4_autonomous_partial_pf :
  forall n f t h x, field_on n f -> List.length x = n -> autonomous f ->
  snd (@rk4_step ROps f x t h None) =
  Ok (Ret3 None (erk_step (to_R_rows q_rk4) (to_R qb_rk4) f t h x) None).
Proof.
  intros n f t h x Hf Hx Ha. rewrite <- (rk4_autonomous n) by auto.
  rewrite <- (rk4_one_erk n) by auto. reflexivity.
Qed.

Lemma C22_classical_orders_pf :
  rk_order q_rk4 qb_rk4 4 /\ row_sums q_rk4 /\ rk_order q_midpoint qb_midpoint 2 /\
  rk_order q_euler qb_euler 1.
Proof. exact (conj rk4_order4 (conj rk4_row_sums (conj midpoint_order2 euler_order1))). Qed.

Lemma C22_ex_pf : exists f : R -> rvec -> rvec, field_on 2 f /\ autonomous f /\ f 0 [1; 2] <> [0; 0].
Proof.
  exists (fun _ x => x). split; [|split].
  - intros t x Hx; auto.
  - intros t t' x; reflexivity.
  - intros E; injection E as E _; lra.
Qed.

(** C23.  There is a rational tableau (the decimal constants of the file) such that each tsit5
    step is its explicit Runge-Kutta step with 7 stages, FSAL, error estimate the difference of
    two weights, and the tableau meets the order conditions up to 5 (embedded: 4) within 1e-80;
    row sums are within 1e-80 of the nodes. *)
Lemma C23_tsit5_pf :
  exists rows b bh,
  (forall n f t h x k1, field_on n f -> List.length x = n -> (forall k, k1 = Some k -> k = f t x) ->
   let x5 := erk_step (to_R_rows rows) (to_R b) f t h x in
   let x4 := erk_step (to_R_rows rows) (to_R bh) f t h x in
   snd (@tsit5_step ROps f x t h k1) =
   Ok (Ret4 (f (t + h) x5) x5 (@vsub ROps x5 x4) (erk_stages (to_R_rows rows) f t h x))) /\
  rk_order_within (1 # 10 ^ 80) rows b 5 /\ rk_order_within (1 # 10 ^ 80) rows bh 4 /\
  row_sums_within (1 # 10 ^ 80) rows /\ List.length rows = 7%nat.
Proof.
  exists (qrows7 (construct_tsit5 QRaw)), (qb7 (construct_tsit5 QRaw)), (q_embedded (construct_tsit5 QRaw)).
  split; [exact tsit5_full|]. split; [exact tsit5_order5|]. split; [exact tsit5_order4|].
  split; [exact tsit5_row_sums|reflexivity].
Qed.

(** C26, refuted as stated: with f(t,x) = t and dt = 1 from t = 0, x = 0, the residual vanishes
    at 0, which does not solve y = x + dt f(t+dt, y). *)
Lemma C26_implicit_euler_wrong_time_refuted_pf :
  exists n f x t dt y, field_on n f /\ List.length x = n /\ List.length y = n /\
    @implicit_euler_residual ROps f x t dt y = 0 /\
    y <> @vadd ROps x (@vscale ROps dt (f (t + dt) y)).
Proof.
  exists 1%nat, clock, [0], 0, 1, [0].
  assert (Hf : field_on 1 clock) by (intros t x Hx; unfold clock; now rewrite map_length).
  split; [auto|]. split; [reflexivity|]. split; [reflexivity|]. split.
  - apply (ie_residual_zero 1); auto. unfold clock, vadd, vscale; cbn [map map2]; rops. f_equal. lra.
  - unfold clock, vadd, vscale; cbn [map map2]; rops. intros E. injection E as E. lra.
Qed.

(** C26, true part: a zero of the residual solves y = x + dt f(t, y) (f taken at the start of
    the step), so for autonomous fields it solves the implicit Euler equation; and conversely. *)
Lemma C26_implicit_euler_partial_pf :
  forall n f x t dt y, field_on n f -> List.length x = n -> List.length y = n ->
  (@implicit_euler_residual ROps f x t dt y = 0 <-> y = @vadd ROps x (@vscale ROps dt (f t y))) /\
  (autonomous f -> @implicit_euler_residual ROps f x t dt y = 0 ->
     y = @vadd ROps x (@vscale ROps dt (f (t + dt) y))).
Proof.
  intros n f x t dt y Hf Hx Hy. split; [now apply (ie_residual_zero n)|].
  intros Ha H0. apply (ie_residual_zero n) in H0; auto. rewrite (Ha (t + dt) t). exact H0.
Qed.

Lemma C26_ex_pf : exists f x y, field_on 1 f /\ autonomous f /\
  @implicit_euler_residual ROps f x 0 1 y = 0 /\ x <> y.
Proof.
  exists (fun _ z => map (Rmult (-1)) z), [2], [1].
  assert (Hf : field_on 1 (fun _ z => map (Rmult (-1)) z)) by (intros t x Hx; now rewrite map_length).
  split; [auto|]. split; [intros ? ? ?; reflexivity|]. split.
  - apply (ie_residual_zero 1); auto. unfold vadd, vscale; cbn [map map2]; rops. f_equal. lra.
  - intros E; injection E as E; lra.
Qed.

(** C27.  A leapfrog step followed by the step of opposite size from the end time is the identity
    on (x, v). *)
Lemma C27_leapfrog_reversible_pf :
  forall n f x v t h, List.length x = n -> List.length v = n -> field_on n f ->
  exists y, List.length y = (2 * n)%nat /\
  (exists e, snd (@alf_step ROps false f (x ++ v) t h None) = Ok (Ret3 None y e)) /\
  (exists e, snd (@alf_step ROps false f y (t + h) (- h) None) = Ok (Ret3 None (x ++ v) e)).
Proof. intros n f x v t h. exact (alf_reversible n f x v t h). Qed.

(** C27, the value of the step: kick-drift in the form of the leapfrog paper. *)
Lemma C27_leapfrog_value_pf :
  forall n f x v t h, List.length x = n -> List.length v = n -> field_on n f ->
  snd (@alf_step ROps false f (x ++ v) t h None) =
  let xm := @vadd ROps x (@vscale ROps (/2 * h) v) in
  let v' := @vadd ROps (@vscale ROps 2 (@vsub ROps (f (t + /2 * h) xm) v)) v in
  Ok (Ret3 None (@vadd ROps xm (@vscale ROps (/2 * h) v') ++ v') None).
Proof. intros n f x v t h Hx Hv Hf. exact (alf_value false n f x v t h Hx Hv Hf). Qed.

Lemma C27_ex_pf : exists f, field_on 1 f /\
  snd (@alf_step ROps false f [1; 0] 0 2 None) = Ok (Ret3 None [3; 2] None).
Proof.
  exists (fun _ x => x). split; [intros t x Hx; auto|].
  etransitivity; [apply (alf_value false 1 (fun _ x => x) [1] [0] 0 2); auto; intros t x Hx; auto|].
  cbv zeta. unfold vadd, vsub, vscale. cbn [map map2 app]. rops. repeat f_equal; lra.
Qed.

(** C28.  A hypersolver step is the base step plus dt^(p+1) g(t,x), whatever base step and
    order p; the vector field is called exactly as by the base step. *)
Lemma C28_hypersolver_pf :
  forall base p net f x t dt k1 lg fn y e,
  base f x t dt k1 = (lg, Ok (Ret3 fn y e)) ->
  @hyper_step ROps base p net f x t dt k1 =
  (lg, Ok (Ret3 None (@vadd ROps y (@vscale ROps (dt ^ (p + 1)) (net t x))) None)).
Proof. exact hyper_value. Qed.

Lemma C28_zero_network_pf :
  forall base p net f x t dt k1 lg fn y e n,
  base f x t dt k1 = (lg, Ok (Ret3 fn y e)) ->
  List.length y = n -> net t x = repeat 0 n ->
  @hyper_step ROps base p net f x t dt k1 = (lg, Ok (Ret3 None y None)).
Proof.
  intros base p net f x t dt k1 lg fn y e n Hb Hy Hn.
  rewrite (hyper_value base p net f x t dt k1 lg fn y e Hb), Hn. do 4 f_equal.
  clear Hn Hb. revert n Hy. unfold vadd, vscale. rops. generalize (dt ^ (p + 1)). intros c.
  clear. induction y as [|a y IH]; intros [|n] Hy; try discriminate; [reflexivity|].
  cbn [repeat map map2]. f_equal; [lra|]. apply (IH n). now injection Hy.
Qed.

(** C29.  The interpolant fitted to a step [t0, t0+dt] with end states x0, x1, end slopes f0, f1
    and mid state xm evaluates at every t, component-wise, to a function q of t with
    q(t0)=x0, q(t0+dt/2)=xm, q(t0+dt)=x1, q'(t0)=f0, q'(t0+dt)=f1. *)
Lemma C29_interpolant_conditions_pf :
  forall n dt f0 f1 x0 x1 xm t0,
  List.length f0 = n -> List.length f1 = n -> List.length x0 = n -> List.length x1 = n ->
  List.length xm = n -> dt <> 0 ->
  exists q : nat -> R -> R,
  (forall t, exists y, @interp_evaluate ROps (@fourth_fit ROps dt f0 f1 x0 x1 xm) t0 (t0 + dt) t = Ok y /\
     List.length y = n /\ forall i, (i < n)%nat -> @nth R i y 0 = q i t) /\
  (forall i, (i < n)%nat ->
     q i t0 = nth i x0 0 /\ q i (t0 + dt / 2) = nth i xm 0 /\ q i (t0 + dt) = nth i x1 0 /\
     derivable_pt_lim (q i) t0 (nth i f0 0) /\ derivable_pt_lim (q i) (t0 + dt) (nth i f1 0)).
Proof.
  intros n dt f0 f1 x0 x1 xm t0 H1 H2 H3 H4 H5 Hd.
  exists (fun i t => quartic_interp dt (nth i f0 0) (nth i f1 0) (nth i x0 0) (nth i x1 0) (nth i xm 0)
        ((t - t0) / (t0 + dt - t0))).
  split.
  - intros t. exact (interp_value n dt f0 f1 x0 x1 xm t0 (t0 + dt) t H1 H2 H3 H4 H5).
  - intros i Hi. split; [|split; [|split; [|split]]].
    + replace ((t0 - t0) / (t0 + dt - t0)) with 0 by (field; lra). apply quartic_at_0.
    + replace ((t0 + dt / 2 - t0) / (t0 + dt - t0)) with (1/2) by (field; lra). apply quartic_at_half.
    + replace ((t0 + dt - t0) / (t0 + dt - t0)) with 1 by (field; lra). apply quartic_at_1.
    + now apply quartic_slope_left.
    + now apply quartic_slope_right.
Qed.

(** C29.  Hence it reproduces every quartic polynomial from its end values, end slopes and mid
    value. *)
Lemma C29_reproduces_quartics_pf :
  forall a0 a1 a2 a3 a4 t0 dt t, dt <> 0 ->
  let q s := a0 + a1 * s + a2 * s ^ 2 + a3 * s ^ 3 + a4 * s ^ 4 in
  let q' s := a1 + 2 * a2 * s + 3 * a3 * s ^ 2 + 4 * a4 * s ^ 3 in
  @interp_evaluate ROps (@fourth_fit ROps dt [q' t0] [q' (t0 + dt)] [q t0] [q (t0 + dt)] [q (t0 + dt / 2)])
     t0 (t0 + dt) t = Ok [q t].
Proof.
  intros a0 a1 a2 a3 a4 t0 dt t Hd q q'.
  destruct (interp_value 1 dt [q' t0] [q' (t0 + dt)] [q t0] [q (t0 + dt)] [q (t0 + dt / 2)] t0 (t0 + dt) t)
    as (y & Hy & Hl & Hv); auto.
  etransitivity; [exact Hy|]. f_equal. destruct y as [|y0 [|? ?]]; try discriminate.
  specialize (Hv 0%nat ltac:(lia)). cbn [nth] in Hv. f_equal. etransitivity; [exact Hv|].
  now apply quartic_reproduces.
Qed.

(** C29.  The mid state used with dopri5 comes from weights which satisfy the continuous order
    conditions at theta = 1/2 up to order 4, within 1e-15. *)
Lemma C29_mid_weights_pf :
  exists b, construct_4th ROps = to_R b /\ rk_order_at (1#2) (1 # 10^15) q_dopri5 b 4.
Proof. exists q_bmid. exact (conj bmid_R bmid_order4). Qed.
