(** Property theorems (generated by tools/genprop.py from Pf_Utils.v, which holds the proofs). *)
From Coq Require Import ZArith QArith Qreals Reals Lra Lia String List Bool.
From Verif Require Import Num Py Tensor M_Utils Spec_Ode Spec_RK Spec_Norm L_Base L_Utils.
Import ListNotations.
From Verif Require Import Pf_Utils.
Import ListNotations.
Local Open Scope R_scope.

(** C17.  For factors 0 < min <= 1 <= max, 0 < safety < 1 and error ratio r >= 0, the next step
    is dt times a factor in [min, max]; at least 1 when r < 1; equal to max when r = 0; at most
    max(safety, min) when r >= 1. *)
Theorem C17_controller_bounds :
  forall dt r safety mn mx order,
  0 < mn <= 1 -> 1 <= mx -> 0 < safety < 1 -> 0 <= r ->
  exists c, @adapt_step ROps dt r safety mn mx order = dt * c /\
    mn <= c <= mx /\ (r < 1 -> 1 <= c) /\ (r = 0 -> c = mx) /\ (1 <= r -> c <= Rmax safety mn).
Proof. exact C17_controller_bounds_pf. Qed.
Print Assumptions C17_controller_bounds.

(** C17.  A larger error never yields a larger next step (for min <= safety). *)
Theorem C17_controller_monotone :
  forall dt r r' safety mn mx order,
  0 < mn <= 1 -> 1 <= mx -> 0 < safety < 1 -> mn <= safety -> 0 <= dt -> 0 <= r <= r' ->
  @adapt_step ROps dt r' safety mn mx order <= @adapt_step ROps dt r safety mn mx order.
Proof. exact C17_controller_monotone_pf. Qed.
Print Assumptions C17_controller_monotone.

(** The constants used by the solvers (safety 0.9, factors 0.2 and 10) meet the hypotheses. *)
Example C17_ex : 0 < 1/5 <= 1 /\ 1 <= 10 /\ 0 < 9/10 < 1 /\ 1/5 <= 9/10.
Proof. exact C17_ex_pf. Qed.

(** C18.  Every vector field and non-empty state, with tolerances that give a positive scale, yield
    a strictly positive initial step, at most 1e-4 or at most d0/d1 when the scaled norms d0 of the
    state and d1 of the slope are both at least 1e-5; the vector field is called once.
    (With a zero scale, e.g. atol = 0 and a zero entry, the code divides by zero.) *)
Theorem C18_initial_step :
  forall f (f0 x0 : list R) t0 order atol rtol,
  x0 <> [] -> (forall a, In a x0 -> 0 < atol + Rabs a * rtol) ->
  exists h lg, @init_step ROps f f0 x0 t0 order atol rtol = ([lg], Ok h) /\
  let scale := map (fun a => atol + Rabs a * rtol) x0 in
  let d0 := rms (map2 Rdiv x0 scale) in
  let d1 := rms (map2 Rdiv f0 scale) in
  0 < h /\ (h <= 1 / 10000 \/ (1 / 100000 <= d0 /\ 1 / 100000 <= d1 /\ h <= d0 / d1)).
Proof. exact C18_initial_step_pf. Qed.
Print Assumptions C18_initial_step.

Example C18_ex : forall a, In a [0; 5] -> 0 < 1 / 1000 + Rabs a * (1 / 1000).
Proof. exact C18_ex_pf. Qed.

(** C19.  hairer_norm is the root mean square, and the root mean square is a norm bounded by the
    largest entry (and bounding every entry up to sqrt n). *)
Theorem C19_error_norm :
  forall l : list R, @hairer_norm ROps l = rms l /\
  0 <= rms l /\
  (rms l = 0 <-> forall a, In a l -> a = 0) /\
  (forall c, rms (map (Rmult c) l) = Rabs c * rms l) /\
  (forall m, List.length l = List.length m -> rms (plus_list l m) <= rms l + rms m) /\
  (forall M, 0 <= M -> (forall a, In a l -> Rabs a <= M) -> rms l <= M) /\
  (forall a, In a l -> Rabs a <= sqrt (INR (List.length l)) * rms l).
Proof. exact C19_error_norm_pf. Qed.
Print Assumptions C19_error_norm.

