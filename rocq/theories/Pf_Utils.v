(** Proofs of the properties of the step size controller, the error norm, the initial step. *)
From Coq Require Import ZArith QArith Qreals Reals Lra Lia String List Bool.
From Verif Require Import Num Py Tensor M_Utils Spec_Ode Spec_RK Spec_Norm L_Base L_Utils.
Import ListNotations.
Local Open Scope R_scope.

(** C17.  For factors 0 < min <= 1 <= max, 0 < safety < 1 and error ratio r >= 0, the next step
    is dt times a factor in [min, max]; at least 1 when r < 1; equal to max when r = 0; at most
    max(safety, min) when r >= 1. *)
Lemma C17_controller_bounds_pf :
  forall dt r safety mn mx order,
  0 < mn <= 1 -> 1 <= mx -> 0 < safety < 1 -> 0 <= r ->
  exists c, @adapt_step ROps dt r safety mn mx order = dt * c /\
    mn <= c <= mx /\ (r < 1 -> 1 <= c) /\ (r = 0 -> c = mx) /\ (1 <= r -> c <= Rmax safety mn).
Proof.
  intros dt r safety mn mx order Hmn Hmx Hs Hr. exists (factor_of r safety mn mx order).
  split; [apply adapt_factor|]. split; [now apply factor_range|]. split; [intros; now apply factor_grow|].
  split; [|intros; now apply factor_shrink].
  intros ->. unfold factor_of. rewrite (proj2 (Reqb_true 0 0)); auto.
Qed.

(** C17.  A larger error never yields a larger next step (for min <= safety). *)
Lemma C17_controller_monotone_pf :
  forall dt r r' safety mn mx order,
  0 < mn <= 1 -> 1 <= mx -> 0 < safety < 1 -> mn <= safety -> 0 <= dt -> 0 <= r <= r' ->
  @adapt_step ROps dt r' safety mn mx order <= @adapt_step ROps dt r safety mn mx order.
Proof.
  intros dt r r' safety mn mx order Hmn Hmx Hs Hsm Hdt Hr. rewrite !adapt_factor.
  apply Rmult_le_compat_l; auto. now apply factor_mono.
Qed.

(** The constants used by the solvers (safety 0.9, factors 0.2 and 10) meet the hypotheses. *)
Lemma C17_ex_pf : 0 < 1/5 <= 1 /\ 1 <= 10 /\ 0 < 9/10 < 1 /\ 1/5 <= 9/10.
Proof. lra. Qed.

(** C18.  Every vector field and non-empty state, with tolerances that give a positive scale, yield
    a strictly positive initial step, at most 1e-4 or at most d0/d1 when the scaled norms d0 of the
    state and d1 of the slope are both at least 1e-5; the vector field is called once.
    (With a zero scale, e.g. atol = 0 and a zero entry, the code divides by zero.) *)
Lemma C18_initial_step_pf :
  forall f (f0 x0 : list R) t0 order atol rtol,
  x0 <> [] -> (forall a, In a x0 -> 0 < atol + Rabs a * rtol) ->
  exists h lg, @init_step ROps f f0 x0 t0 order atol rtol = ([lg], Ok h) /\
  let scale := map (fun a => atol + Rabs a * rtol) x0 in
  let d0 := rms (map2 Rdiv x0 scale) in
  let d1 := rms (map2 Rdiv f0 scale) in
  0 < h /\ (h <= 1 / 10000 \/ (1 / 100000 <= d0 /\ 1 / 100000 <= d1 /\ h <= d0 / d1)).
Proof. intros; apply init_step_value. Qed.

Lemma C18_ex_pf : forall a, In a [0; 5] -> 0 < 1 / 1000 + Rabs a * (1 / 1000).
Proof. intros a _. pose proof (Rabs_pos a). lra. Qed.

(** C19.  hairer_norm is the root mean square, and the root mean square is a norm bounded by the
    largest entry (and bounding every entry up to sqrt n). *)
Lemma C19_error_norm_pf :
  forall l : list R, @hairer_norm ROps l = rms l /\
  0 <= rms l /\
  (rms l = 0 <-> forall a, In a l -> a = 0) /\
  (forall c, rms (map (Rmult c) l) = Rabs c * rms l) /\
  (forall m, List.length l = List.length m -> rms (plus_list l m) <= rms l + rms m) /\
  (forall M, 0 <= M -> (forall a, In a l -> Rabs a <= M) -> rms l <= M) /\
  (forall a, In a l -> Rabs a <= sqrt (INR (List.length l)) * rms l).
Proof.
  intros l. split; [apply hairer_rms|]. split; [apply rms_nonneg|]. split; [apply rms_zero|].
  split; [intros; apply rms_scale|]. split; [intros; now apply rms_triangle|].
  split; [intros; now apply rms_le_max|]. intros. now apply entry_le_rms.
Qed.
