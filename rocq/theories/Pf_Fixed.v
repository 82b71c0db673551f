(** Proofs of the properties of odeint with fixed-step solvers. *)
From Coq Require Import ZArith QArith Qreals Reals Lra Lia String List Bool.
From Verif Require Import Num Py Tensor M_Constants M_SolversOde M_Utils M_Interp M_Odeint.
From Verif Require Import Spec_Ode Spec_Trees Spec_RK L_Base L_Fixed L_Vec L_Steps L_Steps2 L_Fixed2.
Import ListNotations.
Local Open Scope R_scope.

(** C01.  For every fixed-step solver whose step is described by [one] (new state) and [lg]
    (vector field calls): without save_at, odeint returns t_span and the states obtained by
    applying [one] along the grid. *)
Lemma C01_fixed_trajectory_pf :
  forall fuel (s : solver ROps (vec ROps)) f one lg x t0 t1 ts atol rtol interp all semi,
  s_fixed s = true ->
  fixed_stepper (s_step s) f one lg ->
  separated (t0 :: t1 :: ts) -> t0 <= t1 ->
  snd (@odeint ROps fuel f x (@TTensor ROps (t0 :: t1 :: ts)) s atol rtol interp all [] semi)
  = Ok (t0 :: t1 :: ts, one_step_traj one x (t0 :: t1 :: ts)).
Proof.
  intros fuel s f one lg x t0 t1 ts atol rtol interp all semi Hfix Hst Hsep Hle.
  rewrite (odeint_fixed_inc fuel s atol rtol interp all semi Hfix) by auto.
  rewrite (fixed_default s f one lg) by (auto; simpl; lia). reflexivity.
Qed.

(** C01, pointwise reading: one state per time, first the initial condition, each next one a
    single step of the grid spacing. *)
Lemma C01_trajectory_pointwise_pf :
  forall (one : R -> R -> rvec -> rvec) x ts,
  List.length (one_step_traj one x ts) = List.length ts /\
  (ts <> [] -> nth_error (one_step_traj one x ts) 0 = Some x) /\
  (forall i a b xi, nth_error ts i = Some a -> nth_error ts (S i) = Some b ->
     nth_error (one_step_traj one x ts) i = Some xi ->
     nth_error (one_step_traj one x ts) (S i) = Some (one a (b - a) xi)).
Proof.
  intros one x ts. split; [apply traj_length|]. split.
  - destruct ts as [|t [|t1 ts]]; intros; try congruence; reflexivity.
  - intros i. revert x ts. induction i as [|i IH]; intros x ts a b xi Ha Hb Hx.
    + destruct ts as [|t [|t1 ts]]; try discriminate. simpl in Ha, Hb, Hx.
      injection Ha as <-. injection Hb as <-. injection Hx as <-.
      destruct ts; reflexivity.
    + destruct ts as [|t [|t1 ts]]; try (destruct i; discriminate).
      change (one_step_traj one x (t :: t1 :: ts)) with (x :: one_step_traj one (one t (t1 - t) x) (t1 :: ts)) in *.
      apply (IH (one t (t1 - t) x) (t1 :: ts) a b); auto.
Qed.

Lemma grid3_separated : separated [0; 1; 2].
Proof.
  apply (spaced_separated _ 2 1); [|lra|].
  - intros t [<-|[<-|[<-|[]]]]; rewrite Rabs_right; lra.
  - intros i j a b Hij Ha Hb.
    destruct i as [|[|[|i]]]; try (destruct i; discriminate);
    destruct j as [|[|[|j]]]; try lia; try (destruct j; discriminate);
    simpl in *; injection Ha as <-; injection Hb as <-; lra.
Qed.

(** The hypotheses of C01 hold for the Euler solver, the field f(t,x) = t + x and a grid. *)
Lemma C01_ex_pf :
  exists (s : solver ROps (vec ROps)) f one lg,
    s_fixed s = true /\ fixed_stepper (s_step s) f one lg /\ separated [0; 1; 2] /\
    one_step_traj one [1] [0; 1; 2] = [[1]; [2]; [5]].
Proof.
  exists (Euler ROps), (fun t x => map (Rplus t) x), (euler_one (fun t x => map (Rplus t) x)), euler_log.
  split; [reflexivity|]. split; [apply (euler_stepper (fun t x => map (Rplus t) x))|].
  split; [apply grid3_separated|].
  unfold euler_one, vadd, vscale. cbn [one_step_traj map map2]. rops.
  repeat f_equal; lra.
Qed.

(** C02.  save_at given as a sub-grid of t_span (the entries of t_span at the positions where
    [mask] is true): exactly those states are returned, with the requested times. *)
Lemma C02_save_at_selects_pf :
  forall fuel (s : solver ROps (vec ROps)) f one lg x t0 t1 ts mask atol rtol interp all semi,
  s_fixed s = true ->
  fixed_stepper (s_step s) f one lg ->
  separated (t0 :: t1 :: ts) -> t0 <= t1 ->
  List.length mask = List.length (t0 :: t1 :: ts) -> pick mask (t0 :: t1 :: ts) <> [] ->
  snd (@odeint ROps fuel f x (@TTensor ROps (t0 :: t1 :: ts)) s atol rtol interp all
         (pick mask (t0 :: t1 :: ts)) semi)
  = Ok (pick mask (t0 :: t1 :: ts), pick mask (one_step_traj one x (t0 :: t1 :: ts))).
Proof.
  intros fuel s f one lg x t0 t1 ts mask atol rtol interp all semi Hfix Hst Hsep Hle Hm Hne.
  rewrite (odeint_fixed_inc fuel s atol rtol interp all semi Hfix) by auto.
  rewrite (fixed_save s f one lg) by (auto; simpl; lia). reflexivity.
Qed.

(** C02, for an arbitrary save_at: the returned states are those whose time is identified with
    some entry of save_at. *)
Lemma C02_save_at_general_pf :
  forall fuel (s : solver ROps (vec ROps)) f one lg x t0 t1 ts save_at out atol rtol interp all semi,
  s_fixed s = true ->
  fixed_stepper (s_step s) f one lg ->
  save_at <> [] -> separated save_at -> t0 <= t1 -> out <> [] ->
  selected save_at (t0 :: t1 :: ts) (one_step_traj one x (t0 :: t1 :: ts)) out ->
  snd (@odeint ROps fuel f x (@TTensor ROps (t0 :: t1 :: ts)) s atol rtol interp all save_at semi)
  = Ok (save_at, out).
Proof.
  intros fuel s f one lg x t0 t1 ts save_at out atol rtol interp all semi Hfix Hst Hne Hsep Hle Hout Hsel.
  rewrite (odeint_fixed_inc fuel s atol rtol interp all semi Hfix) by auto.
  destruct (fixed_odeint_full f (s_step s) one lg Hst x (t0 :: t1 :: ts) save_at) as (_ & _ & H).
  assert (E : match save_at with [] => t0 :: t1 :: ts | _ => save_at end = save_at) by (destruct save_at; congruence).
  rewrite E in H. etransitivity; [exact (f_equal snd (H Hsep ltac:(simpl; lia)))|]. cbn [snd].
  rewrite (selected_det _ _ _ _ _ (select_selected save_at (t0 :: t1 :: ts) (one_step_traj one x (t0 :: t1 :: ts)) (eq_sym (traj_length one x (t0 :: t1 :: ts)))) Hsel).
  destruct out; congruence.
Qed.

Lemma C02_ex_pf : pick [true; false; true] [0; 1; 2] = [0; 2] /\
  selected [0; 2] [0; 1; 2] [[1]; [2]; [5]] [[1]; [5]].
Proof.
  split; [reflexivity|].
  assert (forall t s, close_to t s -> Rabs (t - s) <= 1 / 100000000 + 1 / 100000 * Rabs s) by auto.
  apply sel_take. { exists 0; split; [now left|apply close_to_refl]. }
  apply sel_skip.
  { intros s [<-|[<-|[]]] Hc; apply H in Hc.
    - replace (1 - 0) with 1 in Hc by ring. rewrite Rabs_R0, (Rabs_right 1) in Hc by lra. lra.
    - rewrite (Rabs_left (1 - 2)), (Rabs_right 2) in Hc by lra. lra. }
  apply sel_take. { exists 2; split; [right; now left|apply close_to_refl]. }
  constructor.
Qed.

(** C03, refuted: a save_at with the time 5, which is not in t_span = [0,1,2], is accepted;
    two times and one state come back. *)
Lemma C03_outside_save_at_accepted_refuted_pf :
  exists (ts save_at times : list R) (states : list rvec) bad,
    In bad save_at /\ (forall t, In t ts -> ~ close_to t bad) /\
    snd (@odeint ROps 0 (fun _ x => x) [1] (@TTensor ROps ts) (Euler ROps) (1/1000) (1/1000)
           false false save_at None) = Ok (times, states) /\
    List.length times = 2%nat /\ List.length states = 1%nat.
Proof.
  exists [0; 1; 2], [0; 5], [0; 5], [[1]], 5.
  split; [right; now left|]. split.
  { intros t Ht Hc. unfold close_to in Hc. rewrite (Rabs_right 5) in Hc by lra.
    destruct Ht as [<-|[<-|[<-|[]]]]; rewrite Rabs_left in Hc by lra; lra. }
  split; [|split; reflexivity].
  apply (C02_save_at_general_pf 0 (Euler ROps) (fun _ x => x) (euler_one (fun _ x => x)) euler_log); auto.
  - apply (euler_stepper (fun _ x => x)).
  - discriminate.
  - apply (spaced_separated _ 5 4); [|lra|].
    + intros t [<-|[<-|[]]]; rewrite Rabs_right; lra.
    + intros i j a b Hij Ha Hb.
      destruct i as [|[|i]]; try (destruct i; discriminate);
      destruct j as [|[|j]]; try lia; try (destruct j; discriminate).
      simpl in *; injection Ha as <-; injection Hb as <-; lra.
  - lra.
  - discriminate.
  - cbn [one_step_traj].
    assert (Hno : forall t, 1 <= t <= 2 -> forall s, In s [0; 5] -> ~ close_to t s).
    { intros t Ht s [<-|[<-|[]]] Hc; unfold close_to in Hc.
      - rewrite Rabs_R0 in Hc. rewrite Rabs_right in Hc by lra. lra.
      - rewrite (Rabs_left (t - 5)), (Rabs_right 5) in Hc by lra. lra. }
    apply sel_take. { exists 0; split; [now left|apply close_to_refl]. }
    apply sel_skip; [apply Hno; lra|]. apply sel_skip; [apply Hno; lra|]. constructor.
Qed.

(** C03, what is true: the only rejections are an AssertionError when two entries of save_at
    itself are identified, and an IndexError when no grid time is selected. *)
Lemma C03_save_at_rejection_exact_pf :
  forall fuel (s : solver ROps (vec ROps)) f one lg x t0 t1 ts save_at atol rtol interp all semi,
  s_fixed s = true -> fixed_stepper (s_step s) f one lg -> save_at <> [] -> t0 <= t1 ->
  let r := snd (@odeint ROps fuel f x (@TTensor ROps (t0 :: t1 :: ts)) s atol rtol interp all save_at semi) in
  (r = Err AssertionError <-> ~ separated save_at) /\
  (separated save_at ->
     (r = Err IndexError <-> forall t u, In t (t0 :: t1 :: ts) -> In u save_at -> ~ close_to t u)).
Proof.
  intros fuel s f one lg x t0 t1 ts save_at atol rtol interp all semi Hfix Hst Hne Hle r.
  unfold r; clear r. rewrite (odeint_fixed_inc fuel s atol rtol interp all semi Hfix) by auto.
  destruct (fixed_odeint_full f (s_step s) one lg Hst x (t0 :: t1 :: ts) save_at) as (H1 & _ & H2).
  assert (E : match save_at with [] => t0 :: t1 :: ts | _ => save_at end = save_at) by (destruct save_at; congruence).
  cbv zeta in H1, H2. rops. rewrite E in H1. rewrite E in H2. clear E.
  set (xs := one_step_traj one x (t0 :: t1 :: ts)) in *.
  assert (Hx : List.length xs = List.length (t0 :: t1 :: ts)) by apply traj_length.
  assert (Hsel : select save_at (t0 :: t1 :: ts) xs = [] <->
     forall t u, In t (t0 :: t1 :: ts) -> In u save_at -> ~ close_to t u).
  { clearbody xs. clear H1 H2. revert xs Hx. generalize (t0 :: t1 :: ts). clear.
    induction l as [|t l IH]; intros [|y xs] Hx; try discriminate.
    - split; [intros _ t u []|auto].
    - cbn [select]. destruct (Nat.eqb_spec (@isclose_count ROps t save_at) 0) as [E|E].
      + rewrite isclose_count_zero in E. rewrite IH by (simpl in Hx; lia). split.
        * intros H t' u [<-|Ht] Hu; auto.
        * intros H t' u Ht Hu. apply H; auto. now right.
      + split; [discriminate|]. intros H. apply isclose_count_pos in E. destruct E as (u & Hu & Hc).
        exfalso; eapply H; eauto. now left. }
  split.
  - split.
    + intros Hr Hsep. assert (Hr2 := f_equal snd (H2 Hsep ltac:(simpl; lia))). cbn [snd] in Hr2.
      assert (Hc : match select save_at (t0 :: t1 :: ts) xs with [] => Err IndexError | _ => Ok (save_at, select save_at (t0 :: t1 :: ts) xs) end = Err AssertionError).
      { etransitivity; [symmetry; exact Hr2|exact Hr]. }
      destruct (select save_at (t0 :: t1 :: ts) xs); discriminate.
    + intros Hns. exact (f_equal snd (H1 Hns)).
  - intros Hsep. rewrite <- Hsel.
    assert (Hr2 := f_equal snd (H2 Hsep ltac:(simpl; lia))). cbn [snd] in Hr2.
    split.
    + intros Hr.
      assert (Hc : match select save_at (t0 :: t1 :: ts) xs with [] => Err IndexError | _ => Ok (save_at, select save_at (t0 :: t1 :: ts) xs) end = Err IndexError).
      { etransitivity; [symmetry; exact Hr2|exact Hr]. }
      destruct (select save_at (t0 :: t1 :: ts) xs); [reflexivity|discriminate].
    + intros Hs. etransitivity; [exact Hr2|]. rewrite Hs. reflexivity.
Qed.

(** C04, refuted: the increasing grid [1000, 1000.001] raises AssertionError. *)
Lemma C04_fine_grid_rejected_refuted_pf :
  exists ts : list R, increasing ts /\ List.length ts = 2%nat /\
    snd (@odeint ROps 0 (fun _ x => x) [1] (@TTensor ROps ts) (Euler ROps) (1/1000) (1/1000)
           false false [] None) = Err AssertionError.
Proof.
  exists [1000; 1000 + 1/1000].
  split; [|split; [reflexivity|]].
  - intros i j a b Hij Ha Hb.
    destruct i as [|[|i]]; try (destruct i; discriminate);
    destruct j as [|[|j]]; try lia; try (destruct j; discriminate).
    simpl in *; injection Ha as <-; injection Hb as <-; lra.
  - rewrite (odeint_fixed_inc 0 (Euler ROps)) by (auto; lra).
    destruct (fixed_odeint_full (fun _ x => x) (@euler_step ROps) (euler_one (fun _ x => x)) euler_log
       (euler_stepper _) [1] [1000; 1000 + 1/1000] []) as (H1 & _ & _).
    refine (f_equal snd (H1 _)).
    intros Hs. apply (Hs 0%nat 1%nat 1000 (1000 + 1/1000)); auto.
    unfold close_to. rewrite Rabs_left by lra. rewrite Rabs_right by lra. lra.
Qed.

(** C04, exact: without save_at, a grid starting upwards is accepted iff no two of its times
    are identified (|a-b| <= 1e-8 + 1e-5 |b|); otherwise AssertionError. *)
Lemma C04_grid_acceptance_exact_pf :
  forall fuel (s : solver ROps (vec ROps)) f one lg x t0 t1 ts atol rtol interp all semi,
  s_fixed s = true -> fixed_stepper (s_step s) f one lg -> t0 <= t1 ->
  let r := snd (@odeint ROps fuel f x (@TTensor ROps (t0 :: t1 :: ts)) s atol rtol interp all [] semi) in
  (separated (t0 :: t1 :: ts) -> r = Ok (t0 :: t1 :: ts, one_step_traj one x (t0 :: t1 :: ts))) /\
  (~ separated (t0 :: t1 :: ts) -> r = Err AssertionError).
Proof.
  intros fuel s f one lg x t0 t1 ts atol rtol interp all semi Hfix Hst Hle r. unfold r; clear r. split.
  - intros Hsep. now apply (C01_fixed_trajectory_pf fuel s f one lg).
  - intros Hn. rewrite (odeint_fixed_inc fuel s atol rtol interp all semi Hfix) by auto.
    destruct (fixed_odeint_full f (s_step s) one lg Hst x (t0 :: t1 :: ts) []) as (H1 & _ & _).
    exact (f_equal snd (H1 Hn)).
Qed.

(** C04, a usable sufficient condition: spacing above 1e-8 + 1e-5 * (largest |t|). *)
Lemma C04_spaced_grid_accepted_pf :
  forall (l : list R) (M g : R),
  (forall t, In t l -> Rabs t <= M) -> 1 / 100000000 + 1 / 100000 * M < g ->
  (forall i j a b, (i < j)%nat -> nth_error l i = Some a -> nth_error l j = Some b -> a + g <= b) ->
  separated l.
Proof. exact spaced_separated. Qed.

Lemma C04_ex_pf : separated [0; 1; 2].
Proof. exact grid3_separated. Qed.

(** C05.  On a decreasing (separated) grid the states are those of the explicit Runge-Kutta
    method applied along the given grid, i.e. with negative steps.  [rows], [b] is the tableau
    of the step; instances for euler, midpoint, rk4 follow. *)
Definition erk_solver (s : solver ROps (vec ROps)) (rows : list (R * list R)) (b : list R) : Prop :=
  s_fixed s = true /\
  forall n f, field_on n f -> exists one lg, fixed_stepper (s_step s) f one lg /\
    forall t h x, List.length x = n -> one t h x = erk_step rows b f t h x.

Lemma neg_field_on n f : field_on n f -> field_on n (@neg_field ROps f).
Proof. intros H t x Hx. unfold neg_field. apply vopp_len. apply H; auto. Qed.

Lemma C05_reverse_is_negative_stepping_pf :
  forall fuel s rows b n f x t0 t1 ts atol rtol interp all semi,
  erk_solver s rows b -> field_on n f -> List.length x = n ->
  separated (t0 :: t1 :: ts) -> t1 < t0 ->
  rmap snd (snd (@odeint ROps fuel f x (@TTensor ROps (t0 :: t1 :: ts)) s atol rtol interp all [] semi))
  = Ok (one_step_traj (erk_step rows b f) x (t0 :: t1 :: ts)).
Proof.
  intros fuel s rows b n f x t0 t1 ts atol rtol interp all semi [Hfix Hs] Hf Hx Hsep Hlt.
  rewrite (odeint_fixed_dec fuel s atol rtol interp all semi Hfix) by auto.
  destruct (Hs n (@neg_field ROps f) (neg_field_on n f Hf)) as (one & lg & Hst & Hone).
  pose proof (fixed_default s (@neg_field ROps f) one lg x (map Ropp (t0 :: t1 :: ts)) Hst) as H.
  assert (E : snd (@fixed_odeint ROps (vec ROps) (@neg_field ROps f) x (map Ropp (t0 :: t1 :: ts)) (s_step s) [])
     = Ok (map Ropp (t0 :: t1 :: ts), one_step_traj one x (map Ropp (t0 :: t1 :: ts)))).
  { rewrite H; auto. - simpl; lia. - now apply separated_opp in Hsep. }
  rewrite E. unfold rmap, rbind. f_equal. cbn [snd].
  rewrite (one_step_traj_ext (erk_step rows b (@neg_field ROps f)) one (fun y => List.length y = n)); auto.
  - apply (traj_neg (erk_step rows b f) _ (fun y => List.length y = n)); auto.
    + intros t h y _. apply erk_step_neg.
    + intros t h y Hy. now apply erk_step_len.
  - intros t h y Hy. apply erk_step_len; auto. now apply neg_field_on.
Qed.

Lemma C05_euler_pf : erk_solver (Euler ROps) (to_R_rows q_euler) (to_R qb_euler).
Proof.
  split; [reflexivity|]. intros n f Hf. exists (euler_one f), euler_log.
  split; [apply (euler_stepper f)|]. intros. now apply (euler_one_erk n).
Qed.
Lemma C05_midpoint_pf : erk_solver (Midpoint ROps) (to_R_rows q_midpoint) (to_R qb_midpoint).
Proof.
  split; [reflexivity|]. intros n f Hf. exists (midpoint_one f), (midpoint_log f).
  split; [apply (midpoint_stepper f)|]. intros. now apply (midpoint_one_erk n).
Qed.
Lemma C05_rk4_pf : erk_solver (RungeKutta4 ROps) (to_R_rows q_rk4_code) (to_R qb_rk4).
Proof.
  split; [reflexivity|]. intros n f Hf. exists (rk4_one f), (rk4_log f).
  split; [apply (rk4_stepper f)|]. intros. now apply (rk4_one_erk n).
Qed.

Lemma C05_ex_pf : separated [2; 1; 0] /\ field_on 1 (fun t x => map (Rplus t) x) /\
  one_step_traj (erk_step (to_R_rows q_euler) (to_R qb_euler) (fun t x => map (Rplus t) x)) [1] [2; 1; 0]
  = [[1]; [-2]; [-1]].
Proof.
  split; [|split].
  - intros i j a b Hij Ha Hb Hc. unfold close_to in Hc.
    destruct i as [|[|[|i]]]; try (destruct i; discriminate);
    destruct j as [|[|[|j]]]; try congruence; try (destruct j; discriminate);
    simpl in *; injection Ha as <-; injection Hb as <-;
    revert Hc; unfold Rabs; repeat destruct Rcase_abs; lra.
  - intros t x Hx. now rewrite map_length.
  - unfold erk_step, erk_stages, comb, axpy, to_R_rows, to_R, q_euler, qb_euler.
    cbn [map fold_left app combine fst snd one_step_traj]. qlit. repeat f_equal; lra.
Qed.

(** C06: for an increasing grid the returned times are t_span (part of C01, C09);
    refuted for decreasing grids: the times come back negated. *)
Lemma C06_reversed_times_refuted_pf :
  exists ts : list R, decreasing ts /\
    rmap fst (snd (@odeint ROps 0 (fun _ x => x) [1] (@TTensor ROps ts) (Euler ROps) (1/1000) (1/1000)
       false false [] None)) = Ok (map Ropp ts) /\ map Ropp ts <> ts.
Proof.
  exists [2; 1; 0]. split; [|split].
  - intros i j a b Hij Ha Hb.
    destruct i as [|[|[|i]]]; try (destruct i; discriminate);
    destruct j as [|[|[|j]]]; try lia; try (destruct j; discriminate);
    simpl in *; injection Ha as <-; injection Hb as <-; lra.
  - rewrite (odeint_fixed_dec 0 (Euler ROps)) by (auto; lra).
    pose proof (fixed_default (Euler ROps) (@neg_field ROps (fun _ x => x)) _ _ [1] (map Ropp [2; 1; 0])
      (euler_stepper (@neg_field ROps (fun _ x => x)))) as H.
    assert (Hs : separated [2; 1; 0]) by apply C05_ex_pf.
    apply separated_opp in Hs. specialize (H ltac:(simpl; lia) Hs).
    refine (eq_trans (f_equal (fun r => rmap fst (snd r)) H) _). reflexivity.
  - simpl. intros E. injection E as E1 E2. lra.
Qed.

(** C06 for every decreasing grid and every fixed-step solver *)
Lemma C06_reversed_times_exact_pf :
  forall fuel (s : solver ROps (vec ROps)) f one lg x t0 t1 ts atol rtol interp all semi,
  s_fixed s = true -> fixed_stepper (s_step s) (@neg_field ROps f) one lg ->
  separated (t0 :: t1 :: ts) -> t1 < t0 ->
  rmap fst (snd (@odeint ROps fuel f x (@TTensor ROps (t0 :: t1 :: ts)) s atol rtol interp all [] semi))
  = Ok (map Ropp (t0 :: t1 :: ts)).
Proof.
  intros fuel s f one lg x t0 t1 ts atol rtol interp all semi Hfix Hst Hsep Hlt.
  rewrite (odeint_fixed_dec fuel s atol rtol interp all semi Hfix) by auto.
  pose proof (fixed_default s (@neg_field ROps f) one lg x (map Ropp (t0 :: t1 :: ts)) Hst ltac:(simpl; lia)
    (proj1 (separated_opp _) Hsep)) as H.
  refine (eq_trans (f_equal (fun r => rmap fst (snd r)) H) _). reflexivity.
Qed.

(** C06: a decreasing t_span given as a Python list raises TypeError. *)
Lemma C06_reversed_list_TypeError_pf :
  forall fuel (s : solver ROps (vec ROps)) f x t0 t1 ts atol rtol interp all save_at semi,
  t1 < t0 ->
  @odeint ROps fuel f x (@TList ROps (t0 :: t1 :: ts)) s atol rtol interp all save_at semi
  = ([], Err TypeError).
Proof.
  intros fuel s f x t0 t1 ts atol rtol interp all save_at semi H.
  unfold odeint, prep_time. cbn [ts_list pyget nth_error rbind]. rops.
  rewrite (proj2 (Rltb_true t1 t0)) by lra. reflexivity.
Qed.

(** C07.  Splitting the grid at one of its points and restarting gives the same states. *)
Lemma C07_restart_pf :
  forall fuel (s : solver ROps (vec ROps)) f one lg x t0 pre tm post t1 ts t1' ts' atol rtol interp all semi,
  s_fixed s = true -> fixed_stepper (s_step s) f one lg ->
  t0 :: pre ++ [tm] = t0 :: t1 :: ts -> tm :: post = tm :: t1' :: ts' ->
  separated (t0 :: pre ++ tm :: post) -> t0 <= t1 -> tm <= t1' ->
  let solve x0 l := snd (@odeint ROps fuel f x0 (@TTensor ROps l) s atol rtol interp all [] semi) in
  exists xs xm ys,
    solve x (t0 :: pre ++ [tm]) = Ok (t0 :: pre ++ [tm], xs ++ [xm]) /\
    solve xm (tm :: post) = Ok (tm :: post, xm :: ys) /\
    solve x (t0 :: pre ++ tm :: post) = Ok (t0 :: pre ++ tm :: post, xs ++ xm :: ys).
Proof.
  intros fuel s f one lg x t0 pre tm post t1 ts t1' ts' atol rtol interp all semi
    Hfix Hst E1 E2 Hsep Hle Hle' solve.
  destruct (last_traj_app one x (t0 :: pre) tm x) as (xs & xm & Ea & _ & Ep).
  assert (Sub : forall l1 l2, separated (l1 ++ l2) -> separated l1 /\ separated l2).
  { clear. intros l1 l2 H. split; intros i j a b Hij Ha Hb.
    - apply (H i j a b Hij); rewrite nth_error_app1; auto; apply nth_error_Some; congruence.
    - apply (H (List.length l1 + i)%nat (List.length l1 + j)%nat a b); [lia| |];
      rewrite nth_error_app2 by lia;
      [replace (List.length l1 + i - List.length l1)%nat with i by lia
      |replace (List.length l1 + j - List.length l1)%nat with j by lia]; auto. }
  assert (S1 : separated (t0 :: pre ++ [tm])).
  { replace (t0 :: pre ++ tm :: post) with ((t0 :: pre ++ [tm]) ++ post) in Hsep
      by (simpl; rewrite <- app_assoc; reflexivity). apply (Sub _ _ Hsep). }
  assert (S2 : separated (tm :: post)).
  { apply (Sub (t0 :: pre)). exact Hsep. }
  injection E2 as E2. subst post.
  exists xs, xm, (one_step_traj one (one tm (t1' - tm) xm) (t1' :: ts')).
  assert (Ef : t0 :: pre ++ tm :: t1' :: ts' = t0 :: t1 :: ts ++ t1' :: ts').
  { replace (t0 :: pre ++ tm :: t1' :: ts') with ((t0 :: pre ++ [tm]) ++ t1' :: ts')
      by (simpl; rewrite <- app_assoc; reflexivity). rewrite E1. reflexivity. }
  split; [|split].
  - change (t0 :: pre ++ [tm]) with ((t0 :: pre) ++ [tm]) in Ea |- *. rewrite <- Ea.
    change ((t0 :: pre) ++ [tm]) with (t0 :: pre ++ [tm]). unfold solve. rewrite E1 in S1 |- *.
    now apply (C01_fixed_trajectory_pf fuel s f one lg).
  - unfold solve. rewrite (C01_fixed_trajectory_pf fuel s f one lg) by auto. reflexivity.
  - assert (Et : xs ++ xm :: one_step_traj one (one tm (t1' - tm) xm) (t1' :: ts')
                 = one_step_traj one x (t0 :: pre ++ tm :: t1' :: ts')) by (symmetry; apply Ep).
    rewrite Et. unfold solve. rewrite Ef in Hsep |- *.
    now apply (C01_fixed_trajectory_pf fuel s f one lg).
Qed.

Lemma C07_ex_pf : exists t0 pre tm post t1 ts t1' ts',
  t0 :: pre ++ [tm] = t0 :: t1 :: ts /\ tm :: post = tm :: t1' :: ts' /\
  t0 :: pre ++ tm :: post = [0; 1; 2] /\ separated [0; 1; 2] /\ t0 <= t1 /\ tm <= t1'.
Proof.
  exists 0, [], 1, [2], 1, [], 2, []. repeat split; auto; try lra. apply grid3_separated.
Qed.

(** C08 (fixed step): the number of vector field evaluations is (calls per step) * intervals. *)
Lemma C08_fixed_evaluations_pf :
  forall fuel (s : solver ROps (vec ROps)) f one lg c x t0 t1 ts atol rtol interp all semi,
  s_fixed s = true -> fixed_stepper (s_step s) f one lg ->
  (forall t dt y, List.length (lg t dt y) = c) ->
  separated (t0 :: t1 :: ts) -> t0 <= t1 ->
  List.length (fst (@odeint ROps fuel f x (@TTensor ROps (t0 :: t1 :: ts)) s atol rtol interp all [] semi))
  = (c * S (List.length ts))%nat.
Proof.
  intros fuel s f one lg c x t0 t1 ts atol rtol interp all semi Hfix Hst Hc Hsep Hle.
  rewrite (odeint_fixed_inc fuel s atol rtol interp all semi Hfix) by auto.
  rewrite (fixed_default s f one lg) by (auto; simpl; lia). cbn [fst].
  rewrite (traj_log_length one lg c) by (try discriminate; exact Hc). cbn [List.length]. f_equal; lia.
Qed.

(** C08: calls per step of the built-in fixed-step solvers *)
Lemma C08_calls_per_step_pf : forall f : R -> rvec -> rvec,
  (exists one lg, fixed_stepper (s_step (Euler ROps)) f one lg /\ forall t dt y, List.length (lg t dt y) = 1%nat) /\
  (exists one lg, fixed_stepper (s_step (Midpoint ROps)) f one lg /\ forall t dt y, List.length (lg t dt y) = 2%nat) /\
  (exists one lg, fixed_stepper (s_step (RungeKutta4 ROps)) f one lg /\ forall t dt y, List.length (lg t dt y) = 4%nat) /\
  (exists one lg, fixed_stepper (s_step (AsynchronousLeapfrog ROps false)) f one lg /\
     forall t dt y, List.length (lg t dt y) = 2%nat).
Proof.
  intros f. split; [|split; [|split]].
  - exists (euler_one f), euler_log. split; [apply (euler_stepper f)|reflexivity].
  - exists (midpoint_one f), (midpoint_log f). split; [apply (midpoint_stepper f)|reflexivity].
  - exists (rk4_one f), (rk4_log f). split; [apply (rk4_stepper f)|reflexivity].
  - exists (fun t dt y => match snd (@alf_step ROps false f y t dt None) with Ok (Ret3 _ z _) => z | _ => [] end),
      (fun t dt y => fst (@alf_step ROps false f y t dt None)).
    split; [|reflexivity]. intros x t dt. exists None, None. reflexivity.
Qed.

(** C57.  Names: the documented names and only those are accepted; class, order and stepping. *)
Lemma C57_names_pf : forall (name : string) (d : dtype),
  match str_to_solver name d with
  | Ok ns => In name ["euler"; "midpoint"; "rk4"; "rk-4"; "RungeKutta4"; "dopri5"; "DormandPrince45";
                      "DormandPrince5"; "tsit5"; "Tsitouras45"; "Tsitouras5"; "ieuler"; "implicit_euler";
                      "alf"; "AsynchronousLeapfrog"]%string
  | Err e => e = KeyError /\
      ~ In name ["euler"; "midpoint"; "rk4"; "rk-4"; "RungeKutta4"; "dopri5"; "DormandPrince45";
                      "DormandPrince5"; "tsit5"; "Tsitouras45"; "Tsitouras5"; "ieuler"; "implicit_euler";
                      "alf"; "AsynchronousLeapfrog"]%string
  | OutOfFuel => False
  end.
Proof.
  intros name d. unfold str_to_solver, SOLVER_DICT. cbn [dict_get In].
  repeat match goal with |- context [String.eqb ?a name] => destruct (String.eqb_spec a name); [cbn; tauto|] end.
  cbn [rbind]. split; auto. intros H. repeat destruct H as [H|H]; auto.
Qed.

(** C57: what each name denotes (class, order, fixed stepping) *)
Lemma C57_meaning_pf : forall d : dtype,
  let info name := rmap (fun ns => (ns_class ns, name_order (ns_class ns), name_fixed (ns_class ns)))
                        (str_to_solver name d) in
  info "euler"%string = Ok (NEuler, 1%nat, true) /\
  info "midpoint"%string = Ok (NMidpoint, 2%nat, true) /\
  info "rk4"%string = Ok (NRungeKutta4, 4%nat, true) /\
  info "rk-4"%string = Ok (NRungeKutta4, 4%nat, true) /\
  info "dopri5"%string = Ok (NDormandPrince45, 5%nat, false) /\
  info "tsit5"%string = Ok (NTsitouras45, 5%nat, false) /\
  info "ieuler"%string = Ok (NImplicitEuler, 1%nat, true) /\
  info "alf"%string = Ok (NALF, 2%nat, true).
Proof. intros d info. repeat split. Qed.

(** C57, finding: for 'alf' the requested dtype is not applied (it is bound to the
    channel_index parameter), so a float64 state meets a float32 solver. *)
Lemma C57_alf_dtype_refuted_pf : exists name d ns,
  str_to_solver name d = Ok ns /\ ns_dtype ns <> d /\ ns_channel_index ns = Some (inr d).
Proof.
  exists "alf"%string, float64. eexists. split; [reflexivity|]. split; [discriminate|reflexivity].
Qed.
