(** Property theorems (generated by tools/genprop.py from Pf_Hybrid.v, which holds the proofs). *)
From Coq Require Import ZArith QArith Qreals Reals Lra Lia String List Bool Sorted Floats.
From Verif Require Import Num Py Tensor M_Constants M_SolversOde M_Utils M_Interp M_Odeint.
From Verif Require Import Spec_Ode Spec_Trees Spec_RK Spec_Norm Spec_Adaptive Spec_Hybrid.
From Verif Require Import L_Base L_Fixed L_Vec L_Steps L_Tables L_Steps2 L_Interp L_Utils L_Fixed2 L_Adaptive L_Run.
From Verif Require Import L_Adaptive2 L_Nan L_Hybrid L_Hybrid2 Pf_Adaptive.
Import ListNotations.
From Verif Require Import Pf_Hybrid.
Import ListNotations.
Local Open Scope R_scope.

(** C34.  Every odeint_hybrid solve that returns is a hybrid run: each output is the end of a quiet,
    accepted solver step, or belongs to a pair of consecutive outputs at the same time, the second
    being the jump map, applied to the first, of the lowest-index callback that fires at the end of
    a further step from there.
    [mkcbs] builds the callback objects from (event test, jump map) pairs. *)
Theorem C34_event_outputs :
  forall fuel s rows b bh n f x t0 t1 ts j_span cbs atol rtol etol jump_first semi times sol,
  builtin_pair s rows b bh -> field_on n f -> List.length x = n -> 0 <= etol ->
  (forall cb t y, In cb cbs -> List.length y = n -> List.length (snd cb t y) = n) ->
  snd (@odeint_hybrid ROps fuel f x (t0 :: t1 :: ts) j_span s (mkcbs cbs) atol rtol etol jump_first semi)
    = Ok (times, sol) ->
  let flow := erk_step rows b f in
  let accepted t h y := scaled_error atol rtol semi y (flow t h y)
                          (minus_list (flow t h y) (erk_step rows bh f t h y)) <= 1 in
  exists x0 jn out, started cbs t0 x jump_first x0 jn /\
    times = t0 :: map fst out /\ sol = x0 :: map snd out /\
    hrun flow accepted cbs (fun _ _ _ _ _ _ => True) t0 x0 out.
Proof. exact C34_event_outputs_pf. Qed.
Print Assumptions C34_event_outputs.

(** C34 (what holds of the times) and C37.  If events persist until the jump ([persistent]) and t_span
    is increasing, then returned times never decrease and stay within t_span, and every event is located
    inside the step that triggered it; if that step is at most 4096 event tolerances long, it is located
    within one event tolerance. *)
Theorem C37_inside_step :
  forall fuel s rows b bh n f x t0 t1 ts j_span cbs atol rtol etol jump_first semi times sol,
  builtin_pair s rows b bh -> field_on n f -> List.length x = n -> 0 < etol ->
  (forall cb t y, In cb cbs -> List.length y = n -> List.length (snd cb t y) = n) ->
  increasing (t0 :: t1 :: ts) ->
  let flow := erk_step rows b f in
  let accepted t h y := scaled_error atol rtol semi y (flow t h y)
                          (minus_list (flow t h y) (erk_step rows bh f t h y)) <= 1 in
  persistent flow cbs (fun y => List.length y = n) ->
  snd (@odeint_hybrid ROps fuel f x (t0 :: t1 :: ts) j_span s (mkcbs cbs) atol rtol etol jump_first semi)
    = Ok (times, sol) ->
  nondecreasing times /\ (forall c, In c times -> t0 <= c <= last (t1 :: ts) t0) /\
  exists x0 jn out, started cbs t0 x jump_first x0 jn /\
    times = t0 :: map fst out /\ sol = x0 :: map snd out /\
    hrun flow accepted cbs (inside etol) t0 x0 out.
Proof. exact C37_inside_step_pf. Qed.
Print Assumptions C37_inside_step.

(** C37.  With persistent events and a t_span not longer than 4096 event tolerances, a hybrid solve
    never raises. *)
Theorem C37_never_raises :
  forall fuel s rows b bh n f x t0 t1 ts j_span cbs atol rtol etol jump_first semi e,
  builtin_pair s rows b bh -> field_on n f -> List.length x = n -> 0 < etol ->
  (forall cb t y, In cb cbs -> List.length y = n -> List.length (snd cb t y) = n) ->
  increasing (t0 :: t1 :: ts) ->
  persistent (erk_step rows b f) cbs (fun y => List.length y = n) ->
  last (t1 :: ts) t0 - t0 <= 4096 * etol ->
  snd (@odeint_hybrid ROps fuel f x (t0 :: t1 :: ts) j_span s (mkcbs cbs) atol rtol etol jump_first semi) <> Err e.
Proof. exact C37_never_raises_pf. Qed.
Print Assumptions C37_never_raises.

(** A sawtooth (unit slope, reset from 1 to 0) meets the hypotheses of C34 and C37. *)
Example C37_ex :
  let rows := to_R_rows q_dopri5 in let b := to_R qb5_dopri5 in let bh := to_R qb4_dopri5 in
  let f := fun (t : R) (x : list R) => [1] in
  let cbs := [(fun (t : R) (x : list R) => Rleb 1 (hd 0 x), fun (t : R) (x : list R) => [hd 0 x - 1])] in
  builtin_pair (DormandPrince45 ROps) rows b bh /\ field_on 1 f /\
  (forall cb t y, In cb cbs -> List.length y = 1%nat -> List.length (snd cb t y) = 1%nat) /\
  increasing [0; 3/10] /\ persistent (erk_step rows b f) cbs (fun y => List.length y = 1%nat) /\
  last [3/10] 0 - 0 <= 4096 * (1/10000).
Proof. exact C37_ex_pf. Qed.

(** C34, refuted (times never decrease).  In binary64, whatever the power function: zero field,
    t_span [0, 0.5, 0.6, 10], an event that fires around t = 0.5 and from t = 2 on.  The event is
    located near t = 2, past the requested time 0.6; the solver then steps back to 0.6. *)
Theorem C34_times_decrease_refuted :
  forall pw : float -> float -> float,
  exists f x ts cbs times sol,
    snd (@odeint_hybrid (FloatOps pw) 50 f x ts 5 (DormandPrince45 (FloatOps pw)) cbs
      0.001%float 0.001%float 0.0001%float true None) = Ok (times, sol) /\
    exists i a c, nth_error times i = Some a /\ nth_error times (S i) = Some c /\ PrimFloat.ltb c a = true.
Proof. exact C34_times_decrease_refuted_pf. Qed.
Print Assumptions C34_times_decrease_refuted.

(** C37, refuted (inside the step).  The same kind of event over t_span [0, 1]: the event is located
    near t = 2, after the end of t_span. *)
Theorem C37_outside_step_refuted :
  forall pw : float -> float -> float,
  exists f x ts cbs times sol,
    snd (@odeint_hybrid (FloatOps pw) 50 f x ts 5 (DormandPrince45 (FloatOps pw)) cbs
      0.001%float 0.001%float 0.0001%float true None) = Ok (times, sol) /\
    PrimFloat.ltb (last ts 0%float) (last times 0%float) = true.
Proof. exact C37_outside_step_refuted_pf. Qed.
Print Assumptions C37_outside_step_refuted.

(** C37, refuted (never crashes).  Zero field over [0, 10] with one persistent event "t >= 1.0798011"
    and default tolerances: the bisection uses up its 100 iterations on a state where nothing fires and
    [min] of an empty list raises ValueError. *)
Theorem C37_crash_refuted :
  forall pw : float -> float -> float,
  exists f x ts cbs,
    snd (@odeint_hybrid (FloatOps pw) 50 f x ts 5 (DormandPrince45 (FloatOps pw)) cbs
      0.001%float 0.001%float 0.0001%float true None) = Err ValueError.
Proof. exact C37_crash_refuted_pf. Qed.
Print Assumptions C37_crash_refuted.

(** C35 (what holds).  If no callback fires and every step that ends at a requested time is accepted,
    the returned times contain all of t_span. *)
Theorem C35_requested_times_partial :
  forall fuel s rows b bh n f x t0 t1 ts j_span cbs atol rtol etol jump_first semi times sol,
  builtin_pair s rows b bh -> field_on n f -> List.length x = n -> 0 < etol ->
  (forall cb t y, In cb cbs -> List.length y = n -> List.length (snd cb t y) = n) ->
  increasing (t0 :: t1 :: ts) -> (1 <= j_span)%nat ->
  (forall t y, List.length y = n -> ~ fires cbs t y) ->
  let flow := erk_step rows b f in
  let accepted t h y := scaled_error atol rtol semi y (flow t h y)
                          (minus_list (flow t h y) (erk_step rows bh f t h y)) <= 1 in
  (forall t c y, In c (t1 :: ts) -> t <= c -> List.length y = n -> accepted t (c - t) y) ->
  snd (@odeint_hybrid ROps fuel f x (t0 :: t1 :: ts) j_span s (mkcbs cbs) atol rtol etol jump_first semi)
    = Ok (times, sol) ->
  forall c, In c (t0 :: t1 :: ts) -> In c times.
Proof. exact C35_requested_times_partial_pf. Qed.
Print Assumptions C35_requested_times_partial.

(** C35, refuted.  No callbacks, t_span [0, 0.001, 1], a field with a spike: the step ending at 0.001
    is rejected, but the checkpoint counter has already advanced and 0.001 is never output.
    Assumes only that the power function maps infinity to infinity, as IEEE pow does. *)
Theorem C35_rejected_time_lost_refuted :
  forall pw : float -> float -> float, pw infinity (1 / 5)%float = infinity ->
  exists f x ts times sol,
    snd (@odeint_hybrid (FloatOps pw) 50 f x ts 5 (DormandPrince45 (FloatOps pw)) []
      0.001%float 0%float 0.0001%float true None) = Ok (times, sol) /\
    exists c, In c ts /\ existsb (fun t => PrimFloat.leb (c - 1e-5) t && PrimFloat.leb t (c + 1e-5)) times = false.
Proof. exact C35_rejected_time_lost_refuted_pf. Qed.
Print Assumptions C35_rejected_time_lost_refuted.

(** C36 (what the code does).  j_span does not bound the number of jumps: the result is the same for
    every j_span >= 2, and for every j_span >= 1 if there is no jump at the start. *)
Theorem C36_j_span_ignored :
  forall (K : NumOps) fuel f x t_span j1 j2 s cbs atol rtol etol jump_first semi,
  (2 <= j1)%nat -> (2 <= j2)%nat ->
  snd (@odeint_hybrid K fuel f x t_span j1 s cbs atol rtol etol jump_first semi) =
  snd (@odeint_hybrid K fuel f x t_span j2 s cbs atol rtol etol jump_first semi).
Proof. exact C36_j_span_ignored_pf. Qed.
Print Assumptions C36_j_span_ignored.

(** C36, refuted (at most j_span jumps).  Zero field over [0, 2], j_span = 1, an event met at
    t = 0.25, 0.5, 0.75 and 1 with jump x + 0.25: four jumps are made. *)
Theorem C36_jump_count_refuted :
  forall pw : float -> float -> float,
  exists f x ts cbs times sol,
    snd (@odeint_hybrid (FloatOps pw) 50 f x ts 1 (DormandPrince45 (FloatOps pw)) cbs
      0.001%float 0.001%float 0.01%float true None) = Ok (times, sol) /\
    last sol [] = [1%float] /\
    (* the field is zero and every jump adds exactly 1/4 *)
    x = [0%float] /\ (forall t y, f t y = [0%float]) /\
    (forall cb t y, In cb cbs -> jump_map cb t [y] = [y + 0.25]%float).
Proof. exact C36_jump_count_refuted_pf. Qed.
Print Assumptions C36_jump_count_refuted.

(** C36, refuted (terminates after j_span jumps).  Zero field over [0, 10], j_span = 1, one event
    "t >= 0.5" with an identity jump: the loop never ends, as it jumps forever just before t = 0.5. *)
Theorem C36_hang_refuted :
  forall pw : float -> float -> float,
  exists f x ts cbs, forall fuel,
    snd (@odeint_hybrid (FloatOps pw) fuel f x ts 1 (DormandPrince45 (FloatOps pw)) cbs
      0.001%float 0.001%float 0.0001%float true None) = OutOfFuel.
Proof. exact C36_hang_refuted_pf. Qed.
Print Assumptions C36_hang_refuted.

