(** Property theorems (generated by tools/genprop.py from Pf_Fixed.v, which holds the proofs). *)
From Coq Require Import ZArith QArith Qreals Reals Lra Lia String List Bool.
From Verif Require Import Num Py Tensor M_Constants M_SolversOde M_Utils M_Interp M_Odeint.
From Verif Require Import Spec_Ode Spec_Trees Spec_RK L_Base L_Fixed L_Vec L_Steps L_Steps2 L_Fixed2.
Import ListNotations.
From Verif Require Import Pf_Fixed.
Import ListNotations.
Local Open Scope R_scope.

(** C01.  For every fixed-step solver whose step is described by [one] (new state) and [lg]
    (vector field calls): without save_at, odeint returns t_span and the states obtained by
    applying [one] along the grid. *)
Theorem C01_fixed_trajectory :
  forall fuel (s : solver ROps (vec ROps)) f one lg x t0 t1 ts atol rtol interp all semi,
  s_fixed s = true ->
  fixed_stepper (s_step s) f one lg ->
  separated (t0 :: t1 :: ts) -> t0 <= t1 ->
  snd (@odeint ROps fuel f x (@TTensor ROps (t0 :: t1 :: ts)) s atol rtol interp all [] semi)
  = Ok (t0 :: t1 :: ts, one_step_traj one x (t0 :: t1 :: ts)).
Proof. exact C01_fixed_trajectory_pf. Qed.
Print Assumptions C01_fixed_trajectory.

(** C01, pointwise reading: one state per time, first the initial condition, each next one a
    single step of the grid spacing. *)
Theorem C01_trajectory_pointwise :
  forall (one : R -> R -> rvec -> rvec) x ts,
  List.length (one_step_traj one x ts) = List.length ts /\
  (ts <> [] -> nth_error (one_step_traj one x ts) 0 = Some x) /\
  (forall i a b xi, nth_error ts i = Some a -> nth_error ts (S i) = Some b ->
     nth_error (one_step_traj one x ts) i = Some xi ->
     nth_error (one_step_traj one x ts) (S i) = Some (one a (b - a) xi)).
Proof. exact C01_trajectory_pointwise_pf. Qed.
Print Assumptions C01_trajectory_pointwise.

(** The hypotheses of C01 hold for the Euler solver, the field f(t,x) = t + x and a grid. *)
Example C01_ex :
  exists (s : solver ROps (vec ROps)) f one lg,
    s_fixed s = true /\ fixed_stepper (s_step s) f one lg /\ separated [0; 1; 2] /\
    one_step_traj one [1] [0; 1; 2] = [[1]; [2]; [5]].
Proof. exact C01_ex_pf. Qed.

(** C02.  save_at given as a sub-grid of t_span (the entries of t_span at the positions where
    [mask] is true): exactly those states are returned, with the requested times. *)
Theorem C02_save_at_selects :
  forall fuel (s : solver ROps (vec ROps)) f one lg x t0 t1 ts mask atol rtol interp all semi,
  s_fixed s = true ->
  fixed_stepper (s_step s) f one lg ->
  separated (t0 :: t1 :: ts) -> t0 <= t1 ->
  List.length mask = List.length (t0 :: t1 :: ts) -> pick mask (t0 :: t1 :: ts) <> [] ->
  snd (@odeint ROps fuel f x (@TTensor ROps (t0 :: t1 :: ts)) s atol rtol interp all
         (pick mask (t0 :: t1 :: ts)) semi)
  = Ok (pick mask (t0 :: t1 :: ts), pick mask (one_step_traj one x (t0 :: t1 :: ts))).
Proof. exact C02_save_at_selects_pf. Qed.
Print Assumptions C02_save_at_selects.

(** C02, for an arbitrary save_at: the returned states are those whose time is identified with
    some entry of save_at. *)
Theorem C02_save_at_general :
  forall fuel (s : solver ROps (vec ROps)) f one lg x t0 t1 ts save_at out atol rtol interp all semi,
  s_fixed s = true ->
  fixed_stepper (s_step s) f one lg ->
  save_at <> [] -> separated save_at -> t0 <= t1 -> out <> [] ->
  selected save_at (t0 :: t1 :: ts) (one_step_traj one x (t0 :: t1 :: ts)) out ->
  snd (@odeint ROps fuel f x (@TTensor ROps (t0 :: t1 :: ts)) s atol rtol interp all save_at semi)
  = Ok (save_at, out).
Proof. exact C02_save_at_general_pf. Qed.
Print Assumptions C02_save_at_general.

Example C02_ex : pick [true; false; true] [0; 1; 2] = [0; 2] /\
  selected [0; 2] [0; 1; 2] [[1]; [2]; [5]] [[1]; [5]].
Proof. exact C02_ex_pf. Qed.

(** C03, refuted: a save_at with the time 5, which is not in t_span = [0,1,2], is accepted;
    two times and one state come back. *)
Theorem C03_outside_save_at_accepted_refuted :
  exists (ts save_at times : list R) (states : list rvec) bad,
    In bad save_at /\ (forall t, In t ts -> ~ close_to t bad) /\
    snd (@odeint ROps 0 (fun _ x => x) [1] (@TTensor ROps ts) (Euler ROps) (1/1000) (1/1000)
           false false save_at None) = Ok (times, states) /\
    List.length times = 2%nat /\ List.length states = 1%nat.
Proof. exact C03_outside_save_at_accepted_refuted_pf. Qed.
Print Assumptions C03_outside_save_at_accepted_refuted.

(** C03, what is true: the only rejections are an AssertionError when two entries of save_at
    itself are identified, and an IndexError when no grid time is selected. *)
Theorem C03_save_at_rejection_exact :
  forall fuel (s : solver ROps (vec ROps)) f one lg x t0 t1 ts save_at atol rtol interp all semi,
  s_fixed s = true -> fixed_stepper (s_step s) f one lg -> save_at <> [] -> t0 <= t1 ->
  let r := snd (@odeint ROps fuel f x (@TTensor ROps (t0 :: t1 :: ts)) s atol rtol interp all save_at semi) in
  (r = Err AssertionError <-> ~ separated save_at) /\
  (separated save_at ->
     (r = Err IndexError <-> forall t u, In t (t0 :: t1 :: ts) -> In u save_at -> ~ close_to t u)).
Proof. exact C03_save_at_rejection_exact_pf. Qed.
Print Assumptions C03_save_at_rejection_exact.

(** C04, refuted: the increasing grid [1000, 1000.001] raises AssertionError. *)
Theorem C04_fine_grid_rejected_refuted :
  exists ts : list R, increasing ts /\ List.length ts = 2%nat /\
    snd (@odeint ROps 0 (fun _ x => x) [1] (@TTensor ROps ts) (Euler ROps) (1/1000) (1/1000)
           false false [] None) = Err AssertionError.
Proof. exact C04_fine_grid_rejected_refuted_pf. Qed.
Print Assumptions C04_fine_grid_rejected_refuted.

(** C04, exact: without save_at, a grid starting upwards is accepted iff no two of its times
    are identified (|a-b| <= 1e-8 + 1e-5 |b|); otherwise AssertionError. *)
Theorem C04_grid_acceptance_exact :
  forall fuel (s : solver ROps (vec ROps)) f one lg x t0 t1 ts atol rtol interp all semi,
  s_fixed s = true -> fixed_stepper (s_step s) f one lg -> t0 <= t1 ->
  let r := snd (@odeint ROps fuel f x (@TTensor ROps (t0 :: t1 :: ts)) s atol rtol interp all [] semi) in
  (separated (t0 :: t1 :: ts) -> r = Ok (t0 :: t1 :: ts, one_step_traj one x (t0 :: t1 :: ts))) /\
  (~ separated (t0 :: t1 :: ts) -> r = Err AssertionError).
Proof. exact C04_grid_acceptance_exact_pf. Qed.
Print Assumptions C04_grid_acceptance_exact.

(** C04, a usable sufficient condition: spacing above 1e-8 + 1e-5 * (largest |t|). *)
Theorem C04_spaced_grid_accepted :
  forall (l : list R) (M g : R),
  (forall t, In t l -> Rabs t <= M) -> 1 / 100000000 + 1 / 100000 * M < g ->
  (forall i j a b, (i < j)%nat -> nth_error l i = Some a -> nth_error l j = Some b -> a + g <= b) ->
  separated l.
Proof. exact C04_spaced_grid_accepted_pf. Qed.
Print Assumptions C04_spaced_grid_accepted.

Example C04_ex : separated [0; 1; 2].
Proof. exact C04_ex_pf. Qed.

Theorem C05_reverse_is_negative_stepping :
  forall fuel s rows b n f x t0 t1 ts atol rtol interp all semi,
  erk_solver s rows b -> field_on n f -> List.length x = n ->
  separated (t0 :: t1 :: ts) -> t1 < t0 ->
  rmap snd (snd (@odeint ROps fuel f x (@TTensor ROps (t0 :: t1 :: ts)) s atol rtol interp all [] semi))
  = Ok (one_step_traj (erk_step rows b f) x (t0 :: t1 :: ts)).
Proof. exact C05_reverse_is_negative_stepping_pf. Qed.
Print Assumptions C05_reverse_is_negative_stepping.

Theorem C05_euler : erk_solver (Euler ROps) (to_R_rows q_euler) (to_R qb_euler).
Proof. exact C05_euler_pf. Qed.
Print Assumptions C05_euler.

Theorem C05_midpoint : erk_solver (Midpoint ROps) (to_R_rows q_midpoint) (to_R qb_midpoint).
Proof. exact C05_midpoint_pf. Qed.
Print Assumptions C05_midpoint.

Theorem C05_rk4 : erk_solver (RungeKutta4 ROps) (to_R_rows q_rk4_code) (to_R qb_rk4).
Proof. exact C05_rk4_pf. Qed.
Print Assumptions C05_rk4.

Example C05_ex : separated [2; 1; 0] /\ field_on 1 (fun t x => map (Rplus t) x) /\
  one_step_traj (erk_step (to_R_rows q_euler) (to_R qb_euler) (fun t x => map (Rplus t) x)) [1] [2; 1; 0]
  = [[1]; [-2]; [-1]].
Proof. exact C05_ex_pf. Qed.

(** C06: for an increasing grid the returned times are t_span (part of C01, C09);
    refuted for decreasing grids: the times come back negated. *)
Theorem C06_reversed_times_refuted :
  exists ts : list R, decreasing ts /\
    rmap fst (snd (@odeint ROps 0 (fun _ x => x) [1] (@TTensor ROps ts) (Euler ROps) (1/1000) (1/1000)
       false false [] None)) = Ok (map Ropp ts) /\ map Ropp ts <> ts.
Proof. exact C06_reversed_times_refuted_pf. Qed.
Print Assumptions C06_reversed_times_refuted.

(** C06 for every decreasing grid and every fixed-step solver *)
Theorem C06_reversed_times_exact :
  forall fuel (s : solver ROps (vec ROps)) f one lg x t0 t1 ts atol rtol interp all semi,
  s_fixed s = true -> fixed_stepper (s_step s) (@neg_field ROps f) one lg ->
  separated (t0 :: t1 :: ts) -> t1 < t0 ->
  rmap fst (snd (@odeint ROps fuel f x (@TTensor ROps (t0 :: t1 :: ts)) s atol rtol interp all [] semi))
  = Ok (map Ropp (t0 :: t1 :: ts)).
Proof. exact C06_reversed_times_exact_pf. Qed.
Print Assumptions C06_reversed_times_exact.

(** C06: a decreasing t_span given as a Python list raises TypeError. *)
Theorem C06_reversed_list_TypeError :
  forall fuel (s : solver ROps (vec ROps)) f x t0 t1 ts atol rtol interp all save_at semi,
  t1 < t0 ->
  @odeint ROps fuel f x (@TList ROps (t0 :: t1 :: ts)) s atol rtol interp all save_at semi
  = ([], Err TypeError).
Proof. exact C06_reversed_list_TypeError_pf. Qed.
Print Assumptions C06_reversed_list_TypeError.

(** C07.  Splitting the grid at one of its points and restarting gives the same states. *)
Theorem C07_restart :
  forall fuel (s : solver ROps (vec ROps)) f one lg x t0 pre tm post t1 ts t1' ts' atol rtol interp all semi,
  s_fixed s = true -> fixed_stepper (s_step s) f one lg ->
  t0 :: pre ++ [tm] = t0 :: t1 :: ts -> tm :: post = tm :: t1' :: ts' ->
  separated (t0 :: pre ++ tm :: post) -> t0 <= t1 -> tm <= t1' ->
  let solve x0 l := snd (@odeint ROps fuel f x0 (@TTensor ROps l) s atol rtol interp all [] semi) in
  exists xs xm ys,
    solve x (t0 :: pre ++ [tm]) = Ok (t0 :: pre ++ [tm], xs ++ [xm]) /\
    solve xm (tm :: post) = Ok (tm :: post, xm :: ys) /\
    solve x (t0 :: pre ++ tm :: post) = Ok (t0 :: pre ++ tm :: post, xs ++ xm :: ys).
Proof. exact C07_restart_pf. Qed.
Print Assumptions C07_restart.

Example C07_ex : exists t0 pre tm post t1 ts t1' ts',
  t0 :: pre ++ [tm] = t0 :: t1 :: ts /\ tm :: post = tm :: t1' :: ts' /\
  t0 :: pre ++ tm :: post = [0; 1; 2] /\ separated [0; 1; 2] /\ t0 <= t1 /\ tm <= t1'.
Proof. exact C07_ex_pf. Qed.

(** C08 (fixed step): the number of vector field evaluations is (calls per step) * intervals. *)
Theorem C08_fixed_evaluations :
  forall fuel (s : solver ROps (vec ROps)) f one lg c x t0 t1 ts atol rtol interp all semi,
  s_fixed s = true -> fixed_stepper (s_step s) f one lg ->
  (forall t dt y, List.length (lg t dt y) = c) ->
  separated (t0 :: t1 :: ts) -> t0 <= t1 ->
  List.length (fst (@odeint ROps fuel f x (@TTensor ROps (t0 :: t1 :: ts)) s atol rtol interp all [] semi))
  = (c * S (List.length ts))%nat.
Proof. exact C08_fixed_evaluations_pf. Qed.
Print Assumptions C08_fixed_evaluations.

(** C08: calls per step of the built-in fixed-step solvers *)
Theorem C08_calls_per_step : forall f : R -> rvec -> rvec,
  (exists one lg, fixed_stepper (s_step (Euler ROps)) f one lg /\ forall t dt y, List.length (lg t dt y) = 1%nat) /\
  (exists one lg, fixed_stepper (s_step (Midpoint ROps)) f one lg /\ forall t dt y, List.length (lg t dt y) = 2%nat) /\
  (exists one lg, fixed_stepper (s_step (RungeKutta4 ROps)) f one lg /\ forall t dt y, List.length (lg t dt y) = 4%nat) /\
  (exists one lg, fixed_stepper (s_step (AsynchronousLeapfrog ROps false)) f one lg /\
     forall t dt y, List.length (lg t dt y) = 2%nat).
Proof. exact C08_calls_per_step_pf. Qed.
Print Assumptions C08_calls_per_step.

(** C57.  Names: the documented names and only those are accepted; class, order and stepping. *)
Theorem C57_names : forall (name : string) (d : dtype),
  match str_to_solver name d with
  | Ok ns => In name ["euler"; "midpoint"; "rk4"; "rk-4"; "RungeKutta4"; "dopri5"; "DormandPrince45";
                      "DormandPrince5"; "tsit5"; "Tsitouras45"; "Tsitouras5"; "ieuler"; "implicit_euler";
                      "alf"; "AsynchronousLeapfrog"]%string
  | Err e => e = KeyError /\
      ~ In name ["euler"; "midpoint"; "rk4"; "rk-4"; "RungeKutta4"; "dopri5"; "DormandPrince45";
                      "DormandPrince5"; "tsit5"; "Tsitouras45"; "Tsitouras5"; "ieuler"; "implicit_euler";
                      "alf"; "AsynchronousLeapfrog"]%string
  | OutOfFuel => False
  end.
Proof. exact C57_names_pf. Qed.
Print Assumptions C57_names.

(** C57: what each name denotes (class, order, fixed stepping) *)
Theorem C57_meaning : forall d : dtype,
  let info name := rmap (fun ns => (ns_class ns, name_order (ns_class ns), name_fixed (ns_class ns)))
                        (str_to_solver name d) in
  info "euler"%string = Ok (NEuler, 1%nat, true) /\
  info "midpoint"%string = Ok (NMidpoint, 2%nat, true) /\
  info "rk4"%string = Ok (NRungeKutta4, 4%nat, true) /\
  info "rk-4"%string = Ok (NRungeKutta4, 4%nat, true) /\
  info "dopri5"%string = Ok (NDormandPrince45, 5%nat, false) /\
  info "tsit5"%string = Ok (NTsitouras45, 5%nat, false) /\
  info "ieuler"%string = Ok (NImplicitEuler, 1%nat, true) /\
  info "alf"%string = Ok (NALF, 2%nat, true).
Proof. exact C57_meaning_pf. Qed.
Print Assumptions C57_meaning.

(** C57, finding: for 'alf' the requested dtype is not applied (it is bound to the
    channel_index parameter), so a float64 state meets a float32 solver. *)
Theorem C57_alf_dtype_refuted : exists name d ns,
  str_to_solver name d = Ok ns /\ ns_dtype ns <> d /\ ns_channel_index ns = Some (inr d).
Proof. exact C57_alf_dtype_refuted_pf. Qed.
Print Assumptions C57_alf_dtype_refuted.

