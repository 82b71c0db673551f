(** Property theorems (generated by tools/genprop.py from Pf_Event.v, which holds the proofs). *)
From Coq Require Import ZArith QArith Qreals Reals Lra Lia String List Bool Sorted Floats.
From Verif Require Import Num Py Tensor M_Constants M_SolversOde M_Utils M_Interp M_Odeint.
From Verif Require Import Spec_Ode Spec_Trees Spec_RK Spec_Norm Spec_Adaptive Spec_Hybrid Spec_Inv Spec_Lin.
From Verif Require Import L_Base L_Fixed L_Vec L_Steps L_Tables L_Steps2 L_Interp L_Utils L_Fixed2 L_Adaptive L_Run.
From Verif Require Import L_Adaptive2 L_Nan L_Hybrid L_Hybrid2 Pf_Adaptive Pf_Hybrid Pf_Lin.
Import ListNotations.
From Verif Require Import Pf_Event.
Import ListNotations.
Local Open Scope R_scope.

(** C141, refuted (binary64).  Zero field, dopri5, default tolerances, t_span [0, 0.6, 1], one event at t = 0.5: the step
    that was to end at 0.6 is replaced by the event, but the checkpoint counter has already advanced.  No returned time
    is between 0.55 and 0.65. *)
Theorem C141_time_lost_refuted :
  forall pw : float -> float -> float,
  exists f x ts cbs times sol,
    snd (@odeint_hybrid (FloatOps pw) 50 f x ts 5 (DormandPrince45 (FloatOps pw)) cbs
      0.001%float 0.001%float 0.0001%float true None) = Ok (times, sol) /\
    (forall t y, f t y = [0%float]) /\ In 0.6%float ts /\
    existsb (fun t => PrimFloat.leb 0.55 t && PrimFloat.leb t 0.65) times = false /\ last times 0%float = 1%float.
Proof. exact C141_time_lost_refuted_pf. Qed.
Print Assumptions C141_time_lost_refuted.

(** C141 (what holds).  Any solver, any callbacks: a solve with j_span at least 2 that returns ends at or after the last
    requested time. *)
Theorem C141_final_time :
  forall fuel f x t0 ts j_span s cbs atol rtol etol jump_first semi times sol d,
  (2 <= j_span)%nat ->
  snd (@odeint_hybrid ROps fuel f x (t0 :: ts) j_span s cbs atol rtol etol jump_first semi) = Ok (times, sol) ->
  last (t0 :: ts) d <= last times d.
Proof. exact C141_final_time_pf. Qed.
Print Assumptions C141_final_time.

(** C141 (what holds).  With persistent events and increasing t_span it ends exactly there, and starts at the first
    requested time. *)
Theorem C141_endpoints :
  forall fuel s rows b bh n f x t0 t1 ts j_span cbs atol rtol etol jump_first semi times sol,
  builtin_pair s rows b bh -> field_on n f -> List.length x = n -> 0 < etol -> (2 <= j_span)%nat ->
  (forall cb t y, In cb cbs -> List.length y = n -> List.length (snd cb t y) = n) ->
  increasing (t0 :: t1 :: ts) ->
  persistent (erk_step rows b f) cbs (fun y => List.length y = n) ->
  snd (@odeint_hybrid ROps fuel f x (t0 :: t1 :: ts) j_span s (mkcbs cbs) atol rtol etol jump_first semi)
    = Ok (times, sol) ->
  hd t1 times = t0 /\ last times t0 = last (t1 :: ts) t0.
Proof. exact C141_endpoints_pf. Qed.
Print Assumptions C141_endpoints.

(** C142, refuted.  dopri5, every atol, rtol > 0 and every event tolerance of at least 10^-6: the exact solution X of
    x' = f(t), x(0) = 0 stays below 3/4, yet the event x >= 1 fires (and its jump is applied, at time 0, from state 0). *)
Theorem C142_spurious_event_refuted :
  forall atol rtol etol fuel, 0 < atol -> 0 < rtol -> 1 / 1000000 <= etol -> (2 <= fuel)%nat ->
  exists (f : R -> R) (X : R -> R) (jump : R -> R) y,
    (forall t, derivable_pt_lim X t (f t)) /\ X 0 = 0 /\ (forall t, 0 <= t <= 1 / 1000000 -> 0 <= X t <= 3 / 4) /\
    snd (@odeint_hybrid ROps fuel (fun t _ => [f t]) [0] [0; 1 / 1000000] 10 (DormandPrince45 ROps)
          (mkcbs [(fun _ x => Rleb 1 (hd 0 x), fun _ x => [jump (hd 0 x)])]) atol rtol etol true None)
      = Ok ([0; 0; 0; 1 / 1000000], [[0]; [0]; [jump 0]; [y]]) /\ jump 0 < 0.
Proof. exact C142_spurious_event_refuted_pf. Qed.
Print Assumptions C142_spurious_event_refuted.

(** C142 (what holds).  If no solver step from a state of the region D (which contains the start) fires a callback, and
    the steps stay in D, then there are no jumps: the output consists of accepted solver steps. *)
Theorem C142_no_event_partial :
  forall fuel s rows b bh n f x t0 t1 ts j_span cbs atol rtol etol jump_first semi times sol (D : R -> list R -> Prop),
  builtin_pair s rows b bh -> field_on n f -> List.length x = n -> 0 <= etol ->
  (forall cb t y, In cb cbs -> List.length y = n -> List.length (snd cb t y) = n) ->
  let flow := erk_step rows b f in
  let accepted t h y := scaled_error atol rtol semi y (flow t h y)
                          (minus_list (flow t h y) (erk_step rows bh f t h y)) <= 1 in
  D t0 x -> ~ fires cbs t0 x ->
  (forall t h y, D t y -> D (t + h) (flow t h y) /\ ~ fires cbs (t + h) (flow t h y)) ->
  snd (@odeint_hybrid ROps fuel f x (t0 :: t1 :: ts) j_span s (mkcbs cbs) atol rtol etol jump_first semi)
    = Ok (times, sol) ->
  exists out, times = t0 :: map fst out /\ sol = x :: map snd out /\
    hrun flow accepted [] (fun _ _ _ _ _ _ => True) t0 x out.
Proof. exact C142_no_event_partial_pf. Qed.
Print Assumptions C142_no_event_partial.

(** A constant solution below the threshold meets the hypotheses of C142_no_event_partial (those of C141_endpoints are met
    by C37_ex). *)
Example C142_ex :
  let f := fun (t : R) (x : list R) => [0] in
  let cbs := [(fun (t : R) (x : list R) => Rleb 1 (hd 0 x), fun (t : R) (x : list R) => [hd 0 x - 1])] in
  let D := fun (t : R) (x : list R) => x = [1/2] in
  let flow := erk_step (to_R_rows q_dopri5) (to_R qb5_dopri5) f in
  field_on 1 f /\ D 0 [1/2] /\ ~ fires cbs 0 [1/2] /\
  (forall t h y, D t y -> D (t + h) (flow t h y) /\ ~ fires cbs (t + h) (flow t h y)).
Proof. exact C142_ex_pf. Qed.

