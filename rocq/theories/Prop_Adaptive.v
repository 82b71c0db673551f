(** Property theorems (generated by tools/genprop.py from Pf_Adaptive.v, which holds the proofs). *)
From Coq Require Import ZArith QArith Qreals Reals Lra Lia String List Bool Sorted Floats.
From Verif Require Import Num Py Tensor M_Constants M_SolversOde M_Utils M_Interp M_Odeint.
From Verif Require Import Spec_Ode Spec_Trees Spec_RK Spec_Norm Spec_Adaptive.
From Verif Require Import L_Base L_Fixed L_Vec L_Steps L_Tables L_Steps2 L_Interp L_Utils L_Fixed2 L_Adaptive L_Run.
From Verif Require Import L_Adaptive2 L_Term L_Growth L_Adaptive3 L_Adaptive4 L_Nan.
Import ListNotations.
From Verif Require Import Pf_Adaptive.
Import ListNotations.
Local Open Scope R_scope.

(** C08 (adaptive).  A dopri5 or tsit5 solve that returns has attempted some number m of steps
    (m iterations of the loop are enough, fewer are not) and has called the vector field exactly
    2 + 6 m times. *)
Theorem C08_adaptive_evaluations :
  forall fuel s rows b bh f x t0 t1 ts atol rtol interp all save_at semi r,
  builtin_pair s rows b bh -> t0 <= t1 ->
  let solve k := @odeint ROps k f x (@TTensor ROps (t0 :: t1 :: ts)) s atol rtol interp all save_at semi in
  snd (solve fuel) = Ok r ->
  exists m, (m <= fuel)%nat /\ snd (solve m) = Ok r /\
    (forall k, (k < m)%nat -> snd (solve k) = OutOfFuel) /\
    List.length (fst (solve fuel)) = (2 + 6 * m)%nat.
Proof. exact C08_adaptive_evaluations_pf. Qed.
Print Assumptions C08_adaptive_evaluations.

(** C09.  Without interpolator (and without return_all_eval) an adaptive solve that returns has
    t_eval = t_span, one state per time, the first being the initial condition.
    [fuel] bounds the iterations of the while loop; the statement is about every run that
    returns. *)
Theorem C09_adaptive_times :
  forall fuel s rows b bh n f x ts atol rtol save_at semi times sol,
  builtin_pair s rows b bh -> field_on n f -> List.length x = n ->
  increasing ts -> (2 <= List.length ts)%nat ->
  snd (@odeint ROps fuel f x (@TTensor ROps ts) s atol rtol false false save_at semi) = Ok (times, sol) ->
  times = ts /\ List.length sol = List.length ts /\ nth_error sol 0 = Some x.
Proof. exact C09_adaptive_times_pf. Qed.
Print Assumptions C09_adaptive_times.

(** C10.  The same with the 4th-order interpolator, whatever the number of requested times crossed
    by one step. *)
Theorem C10_interpolated_times :
  forall fuel s rows b bh n f x ts atol rtol save_at semi times sol,
  builtin_pair s rows b bh -> field_on n f -> List.length x = n ->
  increasing ts -> (2 <= List.length ts)%nat ->
  snd (@odeint ROps fuel f x (@TTensor ROps ts) s atol rtol true false save_at semi) = Ok (times, sol) ->
  times = ts /\ List.length sol = List.length ts /\ nth_error sol 0 = Some x.
Proof. exact C10_interpolated_times_pf. Qed.
Print Assumptions C10_interpolated_times.

(** C10.  Every state returned with the interpolator (dopri5) is a state reached by accepted steps
    or the value, inside an accepted step, of the quartic interpolating both end states, both end
    slopes and the mid-point state of that step. *)
Theorem C10_interpolated_states :
  forall fuel n f x t0 t1 ts atol rtol all save_at semi times sol,
  let rows := to_R_rows q_dopri5 in let b := to_R qb5_dopri5 in let bh := to_R qb4_dopri5 in
  let accepts := pair_accepts rows b bh f atol rtol semi in
  field_on n f -> List.length x = n -> increasing (t0 :: t1 :: ts) ->
  snd (@odeint ROps fuel f x (@TTensor ROps (t0 :: t1 :: ts)) (DormandPrince45 ROps) atol rtol true all save_at semi)
    = Ok (times, sol) ->
  forall i tc xc, nth_error times i = Some tc -> nth_error sol i = Some xc ->
  chain accepts t0 x tc xc \/
  exists t h y y', chain accepts t0 x t y /\ accepts t h y y' /\ t < tc < t + h /\
    xc = pair_dense rows b (construct_4th ROps) f t h y tc.
Proof. exact C10_interpolated_states_pf. Qed.
Print Assumptions C10_interpolated_states.

(** C11.  With return_all_eval the times are strictly increasing, start and end at the ends of
    t_span and contain all of t_span; there is one state per time. *)
Theorem C11_all_evaluations :
  forall fuel s rows b bh n f x ts atol rtol interp save_at semi times sol d,
  builtin_pair s rows b bh -> field_on n f -> List.length x = n ->
  increasing ts -> (2 <= List.length ts)%nat ->
  snd (@odeint ROps fuel f x (@TTensor ROps ts) s atol rtol interp true save_at semi) = Ok (times, sol) ->
  increasing times /\ nth_error times 0 = nth_error ts 0 /\ last times d = last ts d /\
  (forall c, In c ts -> In c times) /\ List.length sol = List.length times /\ nth_error sol 0 = Some x.
Proof. exact C11_all_evaluations_pf. Qed.
Print Assumptions C11_all_evaluations.

(** C12.  Without interpolator, consecutive returned states are joined by a finite chain of steps of
    the embedded pair, contiguous in time, all of positive size and with scaled error norm at
    most 1. *)
Theorem C12_accepted_steps :
  forall fuel s rows b bh n f x t0 t1 ts atol rtol all save_at semi times sol,
  builtin_pair s rows b bh -> field_on n f -> List.length x = n -> increasing (t0 :: t1 :: ts) ->
  snd (@odeint ROps fuel f x (@TTensor ROps (t0 :: t1 :: ts)) s atol rtol false all save_at semi) = Ok (times, sol) ->
  forall i ta xa tb xb,
    nth_error times i = Some ta -> nth_error sol i = Some xa ->
    nth_error times (S i) = Some tb -> nth_error sol (S i) = Some xb ->
    chain (pair_accepts rows b bh f atol rtol semi) ta xa tb xb.
Proof. exact C12_accepted_steps_pf. Qed.
Print Assumptions C12_accepted_steps.

(** C13.  An adaptive solve that returns is a path of accepted steps of positive size with strictly
    increasing ends, none beyond t_span[-1], the last one at t_span[-1]; without interpolator every
    requested time is the end of a step, so none is stepped over. *)
Theorem C13_no_overshoot :
  forall fuel s rows b bh n f x t0 t1 ts atol rtol interp all save_at semi times sol,
  builtin_pair s rows b bh -> field_on n f -> List.length x = n -> increasing (t0 :: t1 :: ts) ->
  snd (@odeint ROps fuel f x (@TTensor ROps (t0 :: t1 :: ts)) s atol rtol interp all save_at semi) = Ok (times, sol) ->
  let T := last (t1 :: ts) t0 in
  exists ends xT,
    path (pair_accepts rows b bh f atol rtol semi) t0 x ends T xT /\
    increasing (t0 :: ends) /\ (forall e, In e ends -> e <= T) /\
    (interp = false -> forall c, In c (t1 :: ts) -> In c ends) /\
    (all = true -> forall e, In e ends -> In e times).
Proof. exact C13_no_overshoot_pf. Qed.
Print Assumptions C13_no_overshoot.

(** C13.  An adaptive solve on an increasing t_span never raises. *)
Theorem C13_never_raises :
  forall fuel s rows b bh n f x t0 t1 ts atol rtol interp all save_at semi e,
  builtin_pair s rows b bh -> field_on n f -> List.length x = n -> increasing (t0 :: t1 :: ts) ->
  snd (@odeint ROps fuel f x (@TTensor ROps (t0 :: t1 :: ts)) s atol rtol interp all save_at semi) <> Err e.
Proof. exact C13_never_raises_pf. Qed.
Print Assumptions C13_never_raises.

(** C14.  If, on a set D of states that accepted steps do not leave, every step of size at most hm
    has error norm strictly below 1, the adaptive solve terminates: enough iterations make it
    return. *)
Theorem C14_termination :
  forall s rows b bh n f x t0 t1 ts atol rtol interp all save_at semi (D : R -> list R -> Prop) hm,
  builtin_pair s rows b bh -> field_on n f -> List.length x = n -> increasing (t0 :: t1 :: ts) ->
  let T := last (t1 :: ts) t0 in
  let error t h y := scaled_error atol rtol semi y (erk_step rows b f t h y)
                       (minus_list (erk_step rows b f t h y) (erk_step rows bh f t h y)) in
  0 < hm -> D t0 x ->
  (forall t h y y', D t y -> List.length y = n -> 0 < h -> t + h <= T ->
     pair_accepts rows b bh f atol rtol semi t h y y' -> D (t + h) y') ->
  (forall t h y, D t y -> List.length y = n -> 0 < h <= hm -> t + h <= T -> error t h y < 1) ->
  exists fuel r,
    snd (@odeint ROps fuel f x (@TTensor ROps (t0 :: t1 :: ts)) s atol rtol interp all save_at semi) = Ok r.
Proof. exact C14_termination_pf. Qed.
Print Assumptions C14_termination.

(** C14.  For every vector field of linear growth |f t x| <= L (1 + |x|), continuous or not, and
    atol > 0 the adaptive solve terminates. *)
Theorem C14_linear_growth :
  forall s rows b bh n f L x t0 t1 ts atol rtol interp all save_at semi,
  builtin_pair s rows b bh -> field_on n f -> List.length x = n -> increasing (t0 :: t1 :: ts) ->
  (1 <= n)%nat -> semi <> Some 0%nat -> 0 < atol -> 0 <= rtol -> 0 <= L ->
  (forall t y B, List.length y = n -> 0 <= B -> bounded_by B y -> bounded_by (L * (1 + B)) (f t y)) ->
  exists fuel r,
    snd (@odeint ROps fuel f x (@TTensor ROps (t0 :: t1 :: ts)) s atol rtol interp all save_at semi) = Ok r.
Proof. exact C14_linear_growth_pf. Qed.
Print Assumptions C14_linear_growth.

(** A decay problem on [0; 1; 3] meets the hypotheses of C09-C14; by C14 its solve returns. *)
Example C14_ex : 
  let f := fun (t : R) (x : list R) => map (fun a => - a) x in
  builtin_pair (DormandPrince45 ROps) (to_R_rows q_dopri5) (to_R qb5_dopri5) (to_R qb4_dopri5) /\
  field_on 2 f /\ increasing [0; 1; 3] /\
  (forall t y B, List.length y = 2%nat -> 0 <= B -> bounded_by B y -> bounded_by (1 * (1 + B)) (f t y)) /\
  exists fuel sol, snd (@odeint ROps fuel f [1; 2] (@TTensor ROps [0; 1; 3]) (DormandPrince45 ROps) (1/1000) (1/1000)
     false false [] None) = Ok ([0; 1; 3], sol) /\ List.length sol = 3%nat.
Proof. exact C14_ex_pf. Qed.

(** C15, refuted.  The scalar field 1/t for t > 0 (and 0 for t <= 0), from state 0 over [0; 1] with
    default tolerances: every attempted step is rejected, dopri5 never returns. *)
Theorem C15_never_returns_refuted :
  exists (f : R -> list R -> list R) x ts, field_on 1 f /\ List.length x = 1%nat /\ increasing ts /\
  forall fuel, snd (@odeint ROps fuel f x (@TTensor ROps ts) (DormandPrince45 ROps) (1/1000) (1/1000)
     false false [] None) = OutOfFuel.
Proof. exact C15_never_returns_refuted_pf. Qed.
Print Assumptions C15_never_returns_refuted.

(** C15.  In general: if at the initial state every step size up to the end is rejected, the solve
    never returns (there is no lower bound on the step and no iteration limit). *)
Theorem C15_no_step_limit :
  forall s rows b bh n f x t0 t1 ts atol rtol interp all save_at semi,
  builtin_pair s rows b bh -> field_on n f -> List.length x = n -> increasing (t0 :: t1 :: ts) ->
  (forall h, 0 < h -> t0 + h <= last (t1 :: ts) t0 ->
     1 < scaled_error atol rtol semi x (erk_step rows b f t0 h x)
           (minus_list (erk_step rows b f t0 h x) (erk_step rows bh f t0 h x))) ->
  forall fuel, snd (@odeint ROps fuel f x (@TTensor ROps (t0 :: t1 :: ts)) s atol rtol interp all save_at semi) = OutOfFuel.
Proof. exact C15_no_step_limit_pf. Qed.
Print Assumptions C15_no_step_limit.

(** C16, refuted.  In IEEE-754 binary64 (whatever the power function [pw]) the zero field from
    state 0 over t_span = [0, 3.4] with dopri5 and default tolerances returns one time and one
    state instead of two: the last step starts at t = 1.111111 and t + (3.4 - t) rounds above 3.4. *)
Theorem C16_final_time_lost_refuted :
  forall pw : float -> float -> float,
  exists ts : list float, List.length ts = 2%nat /\
  exists times sol,
    snd (@odeint (FloatOps pw) 20 (fun _ _ => [0%float]) [0%float] (@TTensor (FloatOps pw) ts)
      (DormandPrince45 (FloatOps pw)) 0.001%float 0.001%float false false [] None) = Ok (times, sol) /\
    List.length times = 1%nat /\ List.length sol = 1%nat.
Proof. exact C16_final_time_lost_refuted_pf. Qed.
Print Assumptions C16_final_time_lost_refuted.

(** C15, refuted in binary64: a vector field that returns NaN makes dopri5 loop forever (whatever
    the power function). *)
Theorem C15_nan_field_refuted :
  forall pw : float -> float -> float,
  exists (f : float -> list float -> list float) (x ts : list float),
  forall fuel, snd (@odeint (FloatOps pw) fuel f x (@TTensor (FloatOps pw) ts) (DormandPrince45 (FloatOps pw))
     0.001%float 0.001%float false false [] None) = OutOfFuel.
Proof. exact C15_nan_field_refuted_pf. Qed.
Print Assumptions C15_nan_field_refuted.

(** C20 (what holds).  On a decreasing grid the solve is a run of accepted steps of the reversed field
    over the negated grid, so C09-C13 hold for it with the times negated; only the initial step size
    differs from that of solving the reversed field. *)
Theorem C20_reversed_run_partial :
  forall fuel s rows b bh n f x t0 t1 ts atol rtol interp all save_at semi times sol,
  builtin_pair s rows b bh -> field_on n f -> List.length x = n -> decreasing (t0 :: t1 :: ts) ->
  snd (@odeint ROps fuel f x (@TTensor ROps (t0 :: t1 :: ts)) s atol rtol interp all save_at semi) = Ok (times, sol) ->
  exists times' sol', times = - t0 :: times' /\ sol = x :: sol' /\
    run (pair_accepts rows b bh (reversed f) atol rtol semi)
        (pair_dense rows b (construct_4th ROps) (reversed f))
        (interp && negb (s_is_tsit5 s)) all (- t0) x (map Ropp (t1 :: ts)) times' sol'.
Proof. exact C20_reversed_run_partial_pf. Qed.
Print Assumptions C20_reversed_run_partial.

(** C20, refuted.  The constant field 1 over [0; -2] (return_all_eval, default tolerances): dopri5
    takes a first step different from the one it takes for the reversed field over [0; 2]. *)
Theorem C20_reversed_steps_refuted :
  exists (f : R -> list R -> list R) x ts, decreasing ts /\
  let solve g l k := snd (@odeint ROps k g x (@TTensor ROps l) (DormandPrince45 ROps) (1/1000) (1/1000)
      false true [] None) in
  exists k1 k2 times1 sol1 times2 sol2,
    solve f ts k1 = Ok (times1, sol1) /\ solve (reversed f) (map Ropp ts) k2 = Ok (times2, sol2) /\
    nth_error times1 1 <> nth_error times2 1.
Proof. exact C20_reversed_steps_refuted_pf. Qed.
Print Assumptions C20_reversed_steps_refuted.

