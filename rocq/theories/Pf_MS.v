(** Proofs of the properties of the multiple shooting solvers. *)
From Coq Require Import ZArith QArith Qreals Reals Lra Lia List Bool.
From Verif Require Import Num Py Tensor M_SolversOde M_Odeint M_MS Spec_Ode Spec_MS.
From Verif Require Import L_Base L_Fixed L_Fixed2 L_Vec L_Steps L_Steps2 L_Jagged L_Conv L_MS Pf_Fixed.
Import ListNotations.
Local Open Scope R_scope.

(** the map of one shooting interval: the last state of a fixed-step solve on the grid [sub] *)
Definition flow (one : R -> R -> rvec -> rvec) (sub : list R) (b : rvec) : rvec := last (one_step_traj one b sub) [].
Definition keeps_length (n : nat) (one : R -> R -> rvec -> rvec) : Prop := forall t h x, length x = n -> length (one t h x) = n.

Lemma ms_zero_general coarse fine f oc lc off lf n t0 t1 ts B fine_steps maxiter :
  fixed_stepper (s_step coarse) f oc lc -> fixed_stepper (s_step fine) f off lf ->
  keeps_length n oc -> keeps_length n off -> (2 <= fine_steps)%nat -> separated (@linspace0 ROps (t1 - t0) fine_steps) ->
  length B = length (t0 :: t1 :: ts) -> (forall b, In b B -> length b = n) ->
  let sub := @linspace0 ROps (t1 - t0) fine_steps in
  ((maxiter < Z.of_nat (length (t0 :: t1 :: ts)))%Z ->
   exists B', @mszero_root_solve ROps coarse fine f (t0 :: t1 :: ts) B fine_steps maxiter = Ok B' /\ length B' = length B /\
     (forall b, In b B' -> length b = n) /\
     parareal_passes (flow oc sub) (flow off sub) (Z.to_nat (maxiter + 1)) 1 B B') /\
  ((Z.of_nat (length (t0 :: t1 :: ts)) <= maxiter)%Z ->
   @mszero_root_solve ROps coarse fine f (t0 :: t1 :: ts) B fine_steps maxiter = Err IndexError).
Proof.
  intros Hc Hf Kc Kf H2 Hs HB Hr sub.
  assert (Hsl : (2 <= length sub)%nat) by (unfold sub; rewrite linspace0_len; auto).
  assert (HG : forall b, length b = n -> @ms_flow ROps f coarse sub b = Ok (flow oc sub b) /\ length (flow oc sub b) = n).
  { intros b Hb. split; [now apply (ms_flow_ok coarse f oc lc)|]. apply flow_len; auto. apply (Nat.le_trans _ 2); [lia|exact Hsl]. }
  assert (HF : forall b, length b = n -> @ms_flow ROps f fine sub b = Ok (flow off sub b) /\ length (flow off sub b) = n).
  { intros b Hb. split; [now apply (ms_flow_ok fine f off lf)|]. apply flow_len; auto. apply (Nat.le_trans _ 2); [lia|exact Hsl]. }
  unfold mszero_root_solve. cbn [pyget nth_error rbind].
  change (@nsub ROps t1 t0) with (t1 - t0). fold sub.
  change (vec ROps) with (list R) in *. change (num ROps) with R in *.
  split; intros Hm.
  - destruct (zero_sweeps_ok n (@ms_flow ROps f coarse sub) (@ms_flow ROps f fine sub) _ _ HG HF
      (Z.to_nat (maxiter + 1)) 1 B Hr ltac:(lia) ltac:(lia)) as (B' & E & R1 & L & P).
    exists B'. rewrite HB in E. split; [exact E|]. auto.
  - pose proof (zero_sweeps_crash n (@ms_flow ROps f coarse sub) (@ms_flow ROps f fine sub) _ _ HG HF
      (Z.to_nat (maxiter + 1)) 1 B Hr ltac:(lia) ltac:(lia) ltac:(lia)) as E.
    rewrite HB in E. exact E.
Qed.

(** C30.  Parareal.  For every fixed-step coarse and fine method, grid, initial guess B and maxiter
    smaller than the number of times: the result is obtained from B by maxiter + 1 parareal passes,
    and its rows 0 .. maxiter + 1 are the fine flow applied 0 .. maxiter + 1 times to B[0].  With
    maxiter + 2 >= len(t_span) all rows are. *)
Lemma C30_parareal_exact_partial_pf :
  forall coarse fine f oc lc off lf n t0 t1 ts B fine_steps maxiter b0,
  fixed_stepper (s_step coarse) f oc lc -> fixed_stepper (s_step fine) f off lf ->
  keeps_length n oc -> keeps_length n off -> (2 <= fine_steps)%nat -> separated (@linspace0 ROps (t1 - t0) fine_steps) ->
  length B = length (t0 :: t1 :: ts) -> (forall b, In b B -> length b = n) -> nth_error B 0 = Some b0 ->
  (-1 <= maxiter < Z.of_nat (length (t0 :: t1 :: ts)))%Z ->
  let sub := @linspace0 ROps (t1 - t0) fine_steps in
  exists B', @mszero_root_solve ROps coarse fine f (t0 :: t1 :: ts) B fine_steps maxiter = Ok B' /\ length B' = length B /\
    parareal_passes (flow oc sub) (flow off sub) (Z.to_nat (maxiter + 1)) 1 B B' /\
    (forall j, (Z.of_nat j <= maxiter + 1)%Z -> (j < length B)%nat ->
       nth_error B' j = Some (sequential (flow off sub) b0 j)) /\
    ((Z.of_nat (length B) <= maxiter + 2)%Z -> B' = map (sequential (flow off sub) b0) (seq 0 (length B))).
Proof.
  intros coarse fine f oc lc off lf n t0 t1 ts B fine_steps maxiter b0 Hc Hf Kc Kf H2 Hs HB Hr H0 Hm sub.
  destruct (ms_zero_general coarse fine f oc lc off lf n t0 t1 ts B fine_steps maxiter Hc Hf Kc Kf H2 Hs HB Hr) as [H _].
  destruct (H ltac:(lia)) as (B' & E & L & R' & P). fold sub in P. exists B'. split; [exact E|]. split; [exact L|]. split; [exact P|].
  assert (Hsl : (2 <= length sub)%nat) by (unfold sub; rewrite linspace0_len; auto).
  assert (Hb0 : length b0 = n) by (apply Hr; eapply nth_error_In; eauto).
  assert (X : exact_to (flow off sub) b0 (0 + Z.to_nat (maxiter + 1)) B').
  { apply (passes_exact n (flow oc sub) (flow off sub)) with (B := B); auto.
    - intros b Hb. apply flow_len; auto. apply (Nat.le_trans _ 2); [lia|exact Hsl].
    - intros b Hb. apply flow_len; auto. apply (Nat.le_trans _ 2); [lia|exact Hsl].
    - intros j Hj _. replace j with 0%nat by lia. exact H0. }
  change (vec ROps) with (list R) in *. change (num ROps) with R in *. split.
  - intros j Hj HjB. apply X; lia.
  - intros Hfull. apply nth_ext_error. intros j. destruct (Nat.lt_ge_cases j (length B)) as [Hj|Hj].
    + rewrite X by lia. symmetry. rewrite (map_nth_error _ _ _ (d := j)); [reflexivity|].
      rewrite (nth_error_nth' _ 0%nat) by (rewrite seq_length; exact Hj). rewrite seq_nth by exact Hj. reflexivity.
    + transitivity (@None rvec); [|symmetry]; apply nth_error_None; [|rewrite map_length, seq_length]; lia.
Qed.

(** C30 without an initial guess (B0 = None) on an increasing grid: the first returned state is the
    initial condition x, the first maxiter + 2 states are the sequential fine solution from x. *)
Lemma C30_default_guess_pf :
  forall fuel coarse fine f oc lc off lf n x t0 t1 ts fine_steps maxiter,
  s_fixed coarse = true ->
  fixed_stepper (s_step coarse) f oc lc -> fixed_stepper (s_step fine) f off lf ->
  keeps_length n oc -> keeps_length n off -> length x = n ->
  (2 <= fine_steps)%nat -> separated (@linspace0 ROps (t1 - t0) fine_steps) ->
  separated (t0 :: t1 :: ts) -> t0 <= t1 ->
  (-1 <= maxiter < Z.of_nat (length (t0 :: t1 :: ts)))%Z ->
  let sub := @linspace0 ROps (t1 - t0) fine_steps in
  exists B', @odeint_mszero ROps fuel f x (t0 :: t1 :: ts) coarse fine None fine_steps maxiter = Ok (t0 :: t1 :: ts, B') /\
    length B' = length (t0 :: t1 :: ts) /\ nth_error B' 0 = Some x /\
    (forall j, (Z.of_nat j <= maxiter + 1)%Z -> (j < length B')%nat ->
       nth_error B' j = Some (sequential (flow off sub) x j)) /\
    ((Z.of_nat (length B') <= maxiter + 2)%Z -> B' = map (sequential (flow off sub) x) (seq 0 (length B'))).
Proof.
  intros fuel coarse fine f oc lc off lf n x t0 t1 ts fine_steps maxiter Hfix Hc Hf Kc Kf Hx H2 Hs Hsep Hle Hm sub.
  unfold odeint_mszero, ms_first_guess.
  rewrite (C01_fixed_trajectory_pf fuel coarse f oc lc x t0 t1 ts _ _ false false None Hfix Hc Hsep Hle).
  cbn [rmap rbind snd].
  destruct (C30_parareal_exact_partial_pf coarse fine f oc lc off lf n t0 t1 ts (one_step_traj oc x (t0 :: t1 :: ts)) fine_steps maxiter x
    Hc Hf Kc Kf H2 Hs (traj_length _ _ _) (traj_rows n oc (t0 :: t1 :: ts) Kc x Hx) eq_refl Hm) as (B' & E & L & _ & P1 & P2).
  rbx E. exists B'. rewrite traj_length in L, P1, P2. split; [reflexivity|]. split; [exact L|]. split.
  - apply (P1 0%nat); cbn; lia.
  - rewrite L. split; [exact P1|exact P2].
Qed.

(** C30: the sub-grid hypothesis holds whenever the fine step is larger than 1e-8 + 1e-5 * dt. *)
Lemma C30_subgrid_pf :
  forall dt k, 0 < dt -> (2 <= k)%nat -> 1 / 100000000 + 1 / 100000 * dt < dt / INR (k - 1) ->
  separated (@linspace0 ROps dt k).
Proof.
  intros dt k Hd Hk Hg. rewrite linspace0_uniform by auto.
  set (h := dt / INR (k - 1)) in *.
  assert (HI : 0 < INR (k - 1)) by (apply lt_0_INR; lia).
  assert (Hh : 0 < h) by (apply Rdiv_lt_0_compat; auto).
  assert (Edt : dt = INR (k - 1) * h) by (unfold h; field; lra).
  apply (spaced_separated _ dt h); auto.
  - intros t Ht. apply in_map_iff in Ht. destruct Ht as (j & <- & Hj). apply in_seq in Hj.
    assert (0 <= INR j) by apply pos_INR. assert (INR j <= INR (k - 1)) by (apply le_INR; lia).
    rewrite Rabs_right by (apply Rle_ge; nra). nra.
  - intros i j a b Hij Ha Hb.
    assert (Hjk : (j < k)%nat).
    { assert (nth_error (map (fun j0 => 0 + INR j0 * h) (seq 0 k)) j <> None) as Hn by congruence.
      apply nth_error_Some in Hn. rewrite map_length, seq_length in Hn. exact Hn. }
    assert (G : forall i, (i < k)%nat -> nth_error (map (fun j0 => 0 + INR j0 * h) (seq 0 k)) i = Some (0 + INR i * h)).
    { intros i' Hi'. apply (map_nth_error (fun j0 => 0 + INR j0 * h)).
      rewrite (nth_error_nth' _ 0%nat) by (rewrite seq_length; exact Hi'). rewrite seq_nth by exact Hi'. reflexivity. }
    rewrite G in Ha by lia. rewrite G in Hb by lia. injection Ha as <-. injection Hb as <-.
    assert (INR i + 1 <= INR j) by (rewrite <- S_INR; apply le_INR; lia). nra.
Qed.

(** C30: for a fine method that does not depend on the time (an autonomous vector field), "sequential
    fine solution" is the plain fixed-step solution with step dt / (fine_steps - 1) after
    j (fine_steps - 1) steps, on the grid t0, t0 + h, t0 + 2 h, ... *)
Lemma C30_sequential_is_fine_solve_pf :
  forall (off : R -> R -> rvec -> rvec) t0 dt k x j, (2 <= k)%nat ->
  (forall t s h x, off t h x = off s h x) ->
  sequential (flow off (@linspace0 ROps dt k)) x j =
  last (one_step_traj off x (map (fun i => t0 + INR i * (dt / INR (k - 1))) (seq 0 (S (j * (k - 1)))))) [].
Proof.
  intros off t0 dt k x j Hk Hone. rewrite traj_uniform by (intros; apply Hone).
  rewrite linspace0_uniform by auto. set (h := dt / INR (k - 1)).
  induction j as [|j IH]; [reflexivity|]. cbn [sequential]. rewrite IH. unfold flow.
  pose proof (traj_uniform off h (fun t s x => Hone t s h x) (k - 1) 0 (Nat.iter (j * (k - 1)) (off 0 h) x)) as T.
  replace (S (k - 1)) with k in T by lia. etransitivity; [exact T|]. clear T.
  replace (S j * (k - 1))%nat with ((k - 1) + j * (k - 1))%nat by lia.
  generalize (k - 1)%nat as p. intros p. generalize (j * p)%nat as q. intros q.
  induction p as [|p IHp]; [reflexivity|]. cbn [Nat.iter nat_rect Nat.add]. exact (f_equal (off 0 h) IHp).
Qed.

(** ** Concrete runs: Euler for both methods, x' = 1, two fine points per interval *)
Definition ones : R -> rvec -> rvec := fun _ x => map (fun _ => 1) x.
Notation eul := (Euler ROps).
Definition eu : R -> R -> rvec -> rvec := euler_one ones.

Lemma eu_step t h a : eu t h [a] = [a + h].
Proof. unfold eu, euler_one, ones, vadd, vscale. cbn [map map2]. rops. f_equal. lra. Qed.
Lemma eu_keeps n : keeps_length n eu.
Proof. intros t h x Hx. unfold eu, euler_one. apply vadd_len; auto. rewrite vscale_len. unfold ones. now rewrite map_length. Qed.
Lemma sub2 (dt : R) : @linspace0 ROps dt 2 = [0; dt].
Proof. unfold linspace0. cbn [seq map]. rewrite !nnat_INR. rops. cbn. repeat f_equal; field. Qed.
Lemma sub2_sep dt : 1 / 10 < dt -> separated (@linspace0 ROps dt 2).
Proof. intros H. apply C30_subgrid_pf; [lra|lia|]. cbn. lra. Qed.
Lemma flow_eu dt a : flow eu (@linspace0 ROps dt 2) [a] = [a + dt].
Proof. rewrite sub2. unfold flow. cbn [one_step_traj last]. rewrite eu_step. f_equal. lra. Qed.

Lemma C30_ex_pf :
  fixed_stepper (s_step eul) ones eu euler_log /\ keeps_length 1 eu /\ separated (@linspace0 ROps (1 - 0) 2) /\
  separated [0; 1; 2] /\
  exists B', @odeint_mszero ROps 0 ones [5] [0; 1; 2] eul eul None 2 1 = Ok ([0; 1; 2], B') /\ B' = [[5]; [6]; [7]].
Proof.
  split; [apply euler_stepper|]. split; [apply eu_keeps|]. split; [apply sub2_sep; lra|]. split; [exact grid3_separated|].
  destruct (C30_default_guess_pf 0 eul eul ones eu euler_log eu euler_log 1 [5] 0 1 [2] 2 1) as (B' & E & L & _ & _ & H);
    auto; try (apply euler_stepper); try apply eu_keeps; try (apply sub2_sep; lra); try exact grid3_separated; try lra; try (cbn; lia).
  exists B'. split; [exact E|]. rewrite H by (rewrite L; cbn; lia). rewrite L. cbn [length seq map sequential].
  rewrite !flow_eu. repeat f_equal; lra.
Qed.

(** Finding: with an initial guess B0 the argument x is ignored; the first returned state is B0[0]. *)
Lemma C30_guess_replaces_x_refuted_pf :
  exists x B0 B', @odeint_mszero ROps 0 ones x [0; 1; 2] eul eul (Some B0) 2 1 = Ok ([0; 1; 2], B') /\
    length B0 = 3%nat /\ nth_error B' 0 <> Some x.
Proof.
  exists [5], [[0]; [0]; [0]].
  destruct (C30_parareal_exact_partial_pf eul eul ones eu euler_log eu euler_log 1 0 1 [2] [[0]; [0]; [0]] 2 1 [0])
    as (B' & E & L & _ & H & _);
    auto; try (apply euler_stepper); try apply eu_keeps; try (apply sub2_sep; lra); try (cbn; lia).
  { intros b Hb. cbn in Hb. intuition subst; reflexivity. }
  exists B'. unfold odeint_mszero, ms_first_guess. cbn [rbind]. rbx E. split; [reflexivity|]. split; [reflexivity|].
  rewrite (H 0%nat) by (cbn; lia). cbn [sequential]. intros X. injection X. lra.
Qed.

(** Finding: only the first interval's length is used.  On the grid 0, 1, 3 the converged last state
    for x' = 1 is x + 2 instead of x + 3. *)
Lemma C30_nonuniform_refuted_pf :
  exists B', @odeint_mszero ROps 0 ones [0] [0; 1; 3] eul eul None 2 2 = Ok ([0; 1; 3], B') /\
    nth_error B' 2 = Some [2] /\ snd (@odeint ROps 0 ones [0] (@TTensor ROps [0; 1; 3]) eul (1/1000) (1/1000) false false [] None)
      = Ok ([0; 1; 3], [[0]; [1]; [3]]).
Proof.
  assert (S3 : separated [0; 1; 3]).
  { apply (spaced_separated _ 3 1); [|lra|].
    - intros t [<-|[<-|[<-|[]]]]; rewrite Rabs_right; lra.
    - intros i j a b Hij Ha Hb.
      destruct i as [|[|[|i]]]; try (destruct i; discriminate);
      destruct j as [|[|[|j]]]; try lia; try (destruct j; discriminate);
      simpl in *; injection Ha as <-; injection Hb as <-; lra. }
  destruct (C30_default_guess_pf 0 eul eul ones eu euler_log eu euler_log 1 [0] 0 1 [3] 2 2) as (B' & E & L & _ & _ & H);
    auto; try (apply euler_stepper); try apply eu_keeps; try (apply sub2_sep; lra); try lra; try (cbn; lia).
  exists B'. split; [exact E|]. split.
  - rewrite H by (rewrite L; cbn; lia). rewrite L. cbn [length seq map sequential nth_error].
    rewrite !flow_eu. repeat f_equal; lra.
  - rewrite (C01_fixed_trajectory_pf 0 eul ones eu euler_log [0] 0 1 [3]); auto; try (apply euler_stepper); try lra.
    cbn [one_step_traj]. rewrite !eu_step. repeat f_equal; lra.
Qed.

(** C31, mszero: what happens for every maxiter.  One state per time is returned if and only if
    maxiter < len(t_span); otherwise the call fails with an IndexError. *)
Lemma C31_mszero_actual_partial_pf :
  forall coarse fine f oc lc off lf n t0 t1 ts B fine_steps maxiter,
  fixed_stepper (s_step coarse) f oc lc -> fixed_stepper (s_step fine) f off lf ->
  keeps_length n oc -> keeps_length n off -> (2 <= fine_steps)%nat -> separated (@linspace0 ROps (t1 - t0) fine_steps) ->
  length B = length (t0 :: t1 :: ts) -> (forall b, In b B -> length b = n) ->
  let r := @mszero_root_solve ROps coarse fine f (t0 :: t1 :: ts) B fine_steps maxiter in
  ((maxiter < Z.of_nat (length (t0 :: t1 :: ts)))%Z -> exists B', r = Ok B' /\ length B' = length (t0 :: t1 :: ts)) /\
  ((Z.of_nat (length (t0 :: t1 :: ts)) <= maxiter)%Z -> r = Err IndexError).
Proof.
  intros coarse fine f oc lc off lf n t0 t1 ts B fine_steps maxiter Hc Hf Kc Kf H2 Hs HB Hr r.
  destruct (ms_zero_general coarse fine f oc lc off lf n t0 t1 ts B fine_steps maxiter Hc Hf Kc Kf H2 Hs HB Hr) as [H1 H3].
  split; [|exact H3]. intros Hm. destruct (H1 Hm) as (B' & E & L & _). exists B'. split; [exact E|]. congruence.
Qed.

(** Finding: with the default maxiter = 4 and fine_steps = 4 a grid of three points fails. *)
Lemma C31_default_maxiter_refuted_pf :
  @odeint_mszero ROps 0 ones [5] [0; 1; 2] eul eul None 4 4 = Err IndexError.
Proof.
  unfold odeint_mszero, ms_first_guess.
  rewrite (C01_fixed_trajectory_pf 0 eul ones eu euler_log [5] 0 1 [2]);
    [|reflexivity|apply euler_stepper|exact grid3_separated|lra].
  cbn [rmap rbind snd].
  destruct (C31_mszero_actual_partial_pf eul eul ones eu euler_log eu euler_log 1 0 1 [2] (one_step_traj eu [5] [0; 1; 2]) 4 4) as [_ H];
    auto; try (apply euler_stepper); try apply eu_keeps.
  - apply C30_subgrid_pf; [lra|lia|cbn; lra].
  - apply (traj_rows 1 eu [0; 1; 2]); [apply eu_keeps|reflexivity].
  - rbx (H ltac:(cbn; lia)). reflexivity.
Qed.

(** Finding: fine_steps = 1 gives a one-point sub-grid, on which the fixed-step driver fails; so every
    call with at least one pass fails. *)
Lemma C31_one_fine_step_refuted_pf :
  forall coarse fine f oc lc t0 t1 ts b B maxiter, fixed_stepper (s_step coarse) f oc lc -> (0 <= maxiter)%Z ->
  @mszero_root_solve ROps coarse fine f (t0 :: t1 :: ts) (b :: B) 1 maxiter = Err IndexError.
Proof.
  intros coarse fine f oc lc t0 t1 ts b B maxiter Hst Hm. unfold mszero_root_solve. cbn [pyget nth_error rbind].
  replace (Z.to_nat (maxiter + 1)) with (S (Z.to_nat maxiter)) by lia. cbn [sweeps linspace0]. unfold zero_sweep.
  cbn [Nat.sub skipn traverse].
  assert (E : @ms_flow ROps f coarse [@nQ ROps 0] b = Err IndexError).
  { unfold ms_flow. change (@nQ ROps 0) with (Q2R 0). rewrite RMicromega.Q2R_0.
    destruct (fixed_odeint_full f (s_step coarse) oc lc Hst b [0] []) as (_ & H & _).
    assert (S1 : separated [0]).
    2: { specialize (H S1 ltac:(cbn; lia)). etransitivity; [exact (f_equal (fun p => rbind (snd p) (fun r => pylast (snd r))) H)|reflexivity]. }
    apply (spaced_separated _ 0 1); [|lra|].
    - intros t [<-|[]]. rewrite Rabs_R0. lra.
    - intros [|i] [|j] u v Hij Hu Hv; try lia; destruct j; discriminate. }
  rbx E. reflexivity.
Qed.

Lemma ms_back_general fine f off lf vjp n t0 t1 ts fine_steps :
  fixed_stepper (s_step fine) f off lf -> keeps_length n off ->
  (2 <= fine_steps)%nat -> separated (@linspace0 ROps (t1 - t0) fine_steps) ->
  let sub := @linspace0 ROps (t1 - t0) fine_steps in
  (forall b, length b = n -> @ms_flow ROps f fine sub b = Ok (flow off sub b) /\ length (flow off sub b) = n) /\
  (forall B maxiter, @msbackward_root_solve ROps fine vjp f (t0 :: t1 :: ts) B fine_steps maxiter =
     @sweeps ROps (@back_sweep ROps (@ms_flow ROps f fine sub) (vjp sub) (length (t0 :: t1 :: ts))) (Z.to_nat (maxiter + 1)) 1 B).
Proof.
  intros Hf Kf H2 Hs sub.
  assert (Hsl : (2 <= length sub)%nat) by (unfold sub; rewrite linspace0_len; auto).
  split; [|reflexivity].
  intros b Hb. split; [now apply (ms_flow_ok fine f off lf)|]. apply flow_len; auto. apply (Nat.le_trans _ 2); [lia|exact Hsl].
Qed.

(** C31, msbackward: one or two passes (maxiter = 0, 1) return one state per time; from maxiter = 2
    on, every grid with at least four points fails with an IndexError. *)
Lemma C31_msbackward_actual_partial_pf :
  forall fine f off lf vjp n t0 t1 ts B fine_steps maxiter,
  fixed_stepper (s_step fine) f off lf -> keeps_length n off ->
  (forall sub b v, length b = n -> length v = n -> length (vjp sub b v) = n) ->
  (2 <= fine_steps)%nat -> separated (@linspace0 ROps (t1 - t0) fine_steps) ->
  length B = length (t0 :: t1 :: ts) -> (forall b, In b B -> length b = n) ->
  let r := @msbackward_root_solve ROps fine vjp f (t0 :: t1 :: ts) B fine_steps maxiter in
  ((maxiter <= 1)%Z -> exists B', r = Ok B' /\ length B' = length (t0 :: t1 :: ts)) /\
  ((2 <= maxiter)%Z -> (4 <= length (t0 :: t1 :: ts))%nat -> r = Err IndexError).
Proof.
  intros fine f off lf vjp n t0 t1 ts B fine_steps maxiter Hf Kf Kv H2 Hs HB Hr r.
  destruct (ms_back_general fine f off lf vjp n t0 t1 ts fine_steps Hf Kf H2 Hs) as (HF & Er).
  change (vec ROps) with (list R) in *. change (num ROps) with R in *.
  assert (HB2 : (2 <= length B)%nat) by (rewrite HB; cbn; lia).
  unfold r. rewrite Er. clear Er r. set (sub := @linspace0 ROps (t1 - t0) fine_steps) in *. rewrite <- HB.
  destruct (back_sweep1 n (@ms_flow ROps f fine sub) (flow off sub) (vjp sub) HF (Kv sub) B Hr (Nat.le_trans 1 2 _ (le_S _ _ (le_n _)) HB2))
    as (B1 & E1 & R1 & L1 & _ & _).
  assert (E2 := back_sweep2 n (@ms_flow ROps f fine sub) (flow off sub) (vjp sub) HF B1 R1 (Nat.le_trans 2 _ _ HB2 (Nat.eq_le_incl _ _ (eq_sym L1)))).
  set (B2 := firstn 2 B1 ++ map (flow off sub) (skipn 2 B1)) in *.
  assert (L2 : length B2 = length B).
  { unfold B2. rewrite app_length, map_length, firstn_length, skipn_length, L1, HB. cbn. lia. }
  assert (R2 : forall b, In b B2 -> length b = n).
  { intros b Hb. unfold B2 in Hb. apply in_app_or in Hb. destruct Hb as [Hb|Hb].
    - apply R1. rewrite <- (firstn_skipn 2 B1). apply in_or_app; now left.
    - apply in_map_iff in Hb. destruct Hb as (c & <- & Hc). apply HF. apply R1.
      rewrite <- (firstn_skipn 2 B1). apply in_or_app; now right. }
  change (vec ROps) with (list R) in *. rewrite L1 in E2.
  split.
  - intros Hm. destruct (Z.le_gt_cases maxiter (-1)) as [Hn|Hn].
    + replace (Z.to_nat (maxiter + 1)) with 0%nat by lia. exists B. auto.
    + destruct (Z.eq_dec maxiter 0) as [->|Hz].
      * change (Z.to_nat (0 + 1)) with 1%nat. cbn [sweeps]. rbx E1. exists B1. auto.
      * replace maxiter with 1%Z by lia. change (Z.to_nat (1 + 1)) with 2%nat. cbn [sweeps]. rbx E1.
        change (1 + 1)%nat with 2%nat. rbx E2. exists B2. auto.
  - intros Hm H4. replace (Z.to_nat (maxiter + 1)) with (S (S (S (Z.to_nat (maxiter - 2))))) by lia. cbn [sweeps]. rbx E1.
    change (1 + 1)%nat with 2%nat. rbx E2. change (2 + 1)%nat with 3%nat. rewrite <- L2.
    assert (E3 := back_sweep3 n (@ms_flow ROps f fine sub) (flow off sub) (vjp sub) HF B2 3 R2 ltac:(rewrite L2, HB; lia)).
    rbx E3. reflexivity.
Qed.

Lemma grid4_sep : separated (@linspace0 ROps (1 - 0) 4).
Proof. apply C30_subgrid_pf; [lra|lia|cbn; lra]. Qed.

(** Finding: the default maxiter = 4 fails for msbackward on a four-point grid. *)
Lemma C31_msbackward_refuted_pf :
  @msbackward_root_solve ROps eul (fun _ _ v => v) ones [0; 1; 2; 3] [[0]; [0]; [0]; [0]] 4 4 = Err IndexError.
Proof.
  destruct (C31_msbackward_actual_partial_pf eul ones eu euler_log (fun _ _ v => v) 1 0 1 [2; 3] [[0]; [0]; [0]; [0]] 4 4) as [_ H];
    auto; try (apply euler_stepper); try apply eu_keeps; try exact grid4_sep.
  - intros b Hb. cbn in Hb. intuition subst; reflexivity.
  - apply H; cbn; lia.
Qed.

(** C58.  One msbackward pass: the first row is kept and row m + 1 is
    F(B[m]) + vjp_{B[m]}(B'[m] - B[m]) for the fine flow F; in particular rows 0 and 1 are exact if
    the vector-Jacobian product maps 0 to 0. *)
Lemma C58_first_pass_partial_pf :
  forall fine f off lf vjp n t0 t1 ts B b0 fine_steps,
  fixed_stepper (s_step fine) f off lf -> keeps_length n off ->
  (forall sub b v, length b = n -> length v = n -> length (vjp sub b v) = n) ->
  (2 <= fine_steps)%nat -> separated (@linspace0 ROps (t1 - t0) fine_steps) ->
  length B = length (t0 :: t1 :: ts) -> (forall b, In b B -> length b = n) -> nth_error B 0 = Some b0 ->
  let sub := @linspace0 ROps (t1 - t0) fine_steps in
  exists B', @msbackward_root_solve ROps fine vjp f (t0 :: t1 :: ts) B fine_steps 0 = Ok B' /\
    length B' = length B /\ nth_error B' 0 = Some b0 /\
    (forall m a old, (S m < length B)%nat -> nth_error B' m = Some a -> nth_error B m = Some old ->
       nth_error B' (S m) = Some (add_list (flow off sub old) (vjp sub old (sub_list a old)))).
Proof.
  intros fine f off lf vjp n t0 t1 ts B b0 fine_steps Hf Kf Kv H2 Hs HB Hr H0 sub.
  destruct (ms_back_general fine f off lf vjp n t0 t1 ts fine_steps Hf Kf H2 Hs) as (HF & Er).
  change (vec ROps) with (list R) in *. change (num ROps) with R in *.
  assert (HB2 : (2 <= length B)%nat) by (rewrite HB; cbn; lia).
  rewrite Er. change (Z.to_nat (0 + 1)) with 1%nat. fold sub in HF |- *.
  destruct (back_sweep1 n (@ms_flow ROps f fine sub) (flow off sub) (vjp sub) HF (Kv sub) B Hr (Nat.le_trans 1 2 _ (le_S _ _ (le_n _)) HB2))
    as (B1 & E1 & R1 & L1 & H1 & HS).
  cbn [sweeps]. rewrite <- HB. rbx E1. exists B1. split; [reflexivity|]. split; [exact L1|]. split; [exact (eq_trans H1 H0)|exact HS].
Qed.

(** C58, what the second pass does: every row from row 2 on is replaced by its own fine flow, so
    converged rows move on by one interval. *)
Lemma C58_second_pass_partial_pf :
  forall fine f off lf vjp n t0 t1 ts B B1 fine_steps,
  fixed_stepper (s_step fine) f off lf -> keeps_length n off ->
  (forall sub b v, length b = n -> length v = n -> length (vjp sub b v) = n) ->
  (2 <= fine_steps)%nat -> separated (@linspace0 ROps (t1 - t0) fine_steps) ->
  length B = length (t0 :: t1 :: ts) -> (forall b, In b B -> length b = n) ->
  @msbackward_root_solve ROps fine vjp f (t0 :: t1 :: ts) B fine_steps 0 = Ok B1 ->
  @msbackward_root_solve ROps fine vjp f (t0 :: t1 :: ts) B fine_steps 1 =
    Ok (firstn 2 B1 ++ map (flow off (@linspace0 ROps (t1 - t0) fine_steps)) (skipn 2 B1)).
Proof.
  intros fine f off lf vjp n t0 t1 ts B B1 fine_steps Hf Kf Kv H2 Hs HB Hr E0.
  destruct (ms_back_general fine f off lf vjp n t0 t1 ts fine_steps Hf Kf H2 Hs) as (HF & Er).
  change (vec ROps) with (list R) in *. change (num ROps) with R in *.
  assert (HB2 : (2 <= length B)%nat) by (rewrite HB; cbn; lia).
  rewrite Er in E0 |- *. set (sub := @linspace0 ROps (t1 - t0) fine_steps) in *. rewrite <- HB in *.
  destruct (back_sweep1 n (@ms_flow ROps f fine sub) (flow off sub) (vjp sub) HF (Kv sub) B Hr (Nat.le_trans 1 2 _ (le_S _ _ (le_n _)) HB2))
    as (B1' & E1 & R1 & L1 & _ & _).
  change (Z.to_nat (0 + 1)) with 1%nat in E0. change (Z.to_nat (1 + 1)) with 2%nat. cbn [sweeps] in *.
  rewrite E1 in E0. cbn [rbind] in E0. injection E0 as <-. rbx E1. change (1 + 1)%nat with 2%nat.
  assert (E2 := back_sweep2 n (@ms_flow ROps f fine sub) (flow off sub) (vjp sub) HF B1' R1 (Nat.le_trans 2 _ _ HB2 (Nat.eq_le_incl _ _ (eq_sym L1)))).
  change (vec ROps) with (list R) in *. rewrite L1 in E2. rbx E2. reflexivity.
Qed.

(** Finding: for x' = 1 from 0 on the grid 0, 1, 2 one pass gives the exact 0, 1, 2 and the second
    pass destroys it: 0, 1, 3. *)
Lemma C58_second_pass_refuted_pf :
  @msbackward_root_solve ROps eul (fun _ _ v => v) ones [0; 1; 2] [[0]; [1]; [2]] 2 0 = Ok [[0]; [1]; [2]] /\
  @msbackward_root_solve ROps eul (fun _ _ v => v) ones [0; 1; 2] [[0]; [1]; [2]] 2 1 = Ok [[0]; [1]; [3]].
Proof.
  assert (Hr : forall b : rvec, In b [[0]; [1]; [2]] -> length b = 1%nat).
  { intros b Hb. cbn in Hb. intuition subst; reflexivity. }
  destruct (C58_first_pass_partial_pf eul ones eu euler_log (fun _ _ v => v) 1 0 1 [2] [[0]; [1]; [2]] [0] 2) as (B' & E & L & H0 & HS);
    auto; try (apply euler_stepper); try apply eu_keeps; try (apply sub2_sep; lra).
  assert (EB : B' = [[0]; [1]; [2]]).
  { assert (H1 := HS 0%nat [0] [0] ltac:(cbn; lia) H0 eq_refl). rewrite flow_eu in H1.
    assert (E1 : add_list [0 + (1 - 0)] (sub_list [0] [0]) = [1]) by (cbn; f_equal; lra). rewrite E1 in H1.
    assert (H2 := HS 1%nat [1] [1] ltac:(cbn; lia) H1 eq_refl). rewrite flow_eu in H2.
    assert (E2 : add_list [1 + (1 - 0)] (sub_list [1] [1]) = [2]) by (cbn; f_equal; lra). rewrite E2 in H2.
    destruct B' as [|a [|b [|c [|d l]]]]; try discriminate. cbn in H0, H1, H2. injection H0 as ->. injection H1 as ->. injection H2 as ->. reflexivity. }
  subst B'. split; [exact E|].
  etransitivity; [apply (C58_second_pass_partial_pf eul ones eu euler_log (fun _ _ v => v) 1 0 1 [2] [[0]; [1]; [2]] [[0]; [1]; [2]] 2)|];
    auto; try (apply euler_stepper); try apply eu_keeps; try (apply sub2_sep; lra).
  cbn [firstn skipn map app]. rewrite flow_eu. repeat f_equal; lra.
Qed.

(** C59.  If the fine flow is affine and the product used is its directional derivative
    (F(a) = F(b) + J(a - b) for all a, b), one pass gives the exact sequential fine solution from any
    initial guess. *)
Lemma C59_affine_one_pass_partial_pf :
  forall fine f off lf vjp n t0 t1 ts B b0 fine_steps,
  fixed_stepper (s_step fine) f off lf -> keeps_length n off ->
  (forall sub b v, length b = n -> length v = n -> length (vjp sub b v) = n) ->
  (2 <= fine_steps)%nat -> separated (@linspace0 ROps (t1 - t0) fine_steps) ->
  length B = length (t0 :: t1 :: ts) -> (forall b, In b B -> length b = n) -> nth_error B 0 = Some b0 ->
  let sub := @linspace0 ROps (t1 - t0) fine_steps in
  (forall a b, length a = n -> length b = n -> flow off sub a = add_list (flow off sub b) (vjp sub b (sub_list a b))) ->
  exists B', @msbackward_root_solve ROps fine vjp f (t0 :: t1 :: ts) B fine_steps 0 = Ok B' /\
    B' = map (sequential (flow off sub) b0) (seq 0 (length B)).
Proof.
  intros fine f off lf vjp n t0 t1 ts B b0 fine_steps Hf Kf Kv H2 Hs HB Hr H0 sub Haff.
  destruct (C58_first_pass_partial_pf fine f off lf vjp n t0 t1 ts B b0 fine_steps Hf Kf Kv H2 Hs HB Hr H0) as (B' & E & L & HB0 & HS).
  fold sub in HS. exists B'. split; [exact E|].
  assert (Hsl : (2 <= length sub)%nat) by (unfold sub; rewrite linspace0_len; auto).
  assert (Hb0 : length b0 = n) by (apply Hr; eapply nth_error_In; eauto).
  assert (X : forall j, (j < length B)%nat -> nth_error B' j = Some (sequential (flow off sub) b0 j)).
  { induction j as [|j IH]; intros Hj; [exact HB0|].
    destruct (nth_error B j) as [old|] eqn:Eo; [|apply nth_error_None in Eo; lia].
    rewrite (HS j _ old Hj (IH ltac:(lia)) Eo). cbn [sequential]. f_equal. symmetry. apply Haff.
    - apply (seq_len n (flow off sub)); auto. intros b Hb. apply flow_len; auto. apply (Nat.le_trans _ 2); [lia|exact Hsl].
    - apply Hr. eapply nth_error_In; eauto. }
  change (vec ROps) with (list R) in *. change (num ROps) with R in *.
  apply nth_ext_error. intros j. destruct (Nat.lt_ge_cases j (length B)) as [Hj|Hj].
  + rewrite X by lia. symmetry. rewrite (map_nth_error _ _ _ (d := j)); [reflexivity|].
    rewrite (nth_error_nth' _ 0%nat) by (rewrite seq_length; exact Hj). rewrite seq_nth by exact Hj. reflexivity.
  + transitivity (@None rvec); [|symmetry]; apply nth_error_None; [|rewrite map_length, seq_length]; lia.
Qed.

Definition dot (a b : list R) : R := fold_right Rplus 0 (map (fun p => fst p * snd p) (combine a b)).
Definition shear : R -> rvec -> rvec := fun _ x => match x with [_; b] => [b; 0] | _ => x end.
Definition shear_vjp : list R -> rvec -> rvec -> rvec := fun _ _ v => match v with [p; q] => [p; p + q] | _ => v end.

Lemma shear_step t h a b : euler_one shear t h [a; b] = [a + h * b; b].
Proof. unfold euler_one, shear, vadd, vscale. cbn [map map2]. rops. repeat f_equal; lra. Qed.
Lemma shear_flow a b : flow (euler_one shear) (@linspace0 ROps (1 - 0) 2) [a; b] = [a + b; b].
Proof. rewrite sub2. unfold flow. cbn [one_step_traj last]. rewrite shear_step. repeat f_equal; lra. Qed.
Lemma shear_keeps : keeps_length 2 (euler_one shear).
Proof. intros t h x Hx. destruct x as [|a [|b [|c x]]]; try discriminate. rewrite shear_step. reflexivity. Qed.

(** Finding: msbackward multiplies by the transposed Jacobian (a vector-Jacobian product) where the
    Newton update needs the Jacobian.  For the linear system x' = y, y' = 0 one pass is not exact:
    the last row is (1, 2), the fine solution is (2, 1).  The product is the true gradient: its
    scalar product with w is the scalar product of v with F(b + w) - F(b). *)
Lemma C59_transposed_jacobian_refuted_pf :
  exists B B', @msbackward_root_solve ROps eul shear_vjp shear [0; 1; 2] B 2 0 = Ok B' /\
    let F := flow (euler_one shear) (@linspace0 ROps (1 - 0) 2) in
    (forall sub b v w, length b = 2%nat -> length v = 2%nat -> length w = 2%nat ->
       dot (shear_vjp sub b v) w = dot v (sub_list (F (add_list b w)) (F b))) /\
    length B = 3%nat /\ nth_error B' 2 = Some [1; 2] /\ sequential F [0; 1] 2 = [2; 1] /\ nth_error B 0 = Some [0; 1].
Proof.
  exists [[0; 1]; [0; 0]; [0; 0]].
  destruct (C58_first_pass_partial_pf eul shear (euler_one shear) euler_log shear_vjp 2 0 1 [2] [[0; 1]; [0; 0]; [0; 0]] [0; 1] 2)
    as (B' & E & L & H0 & HS);
    auto; try (apply euler_stepper); try apply shear_keeps; try (apply sub2_sep; lra).
  { intros sub b v _ Hv. destruct v as [|p [|q [|r v]]]; try discriminate. reflexivity. }
  { intros b Hb. cbn in Hb. intuition subst; reflexivity. }
  exists B'. split; [exact E|]. split.
  { intros sub b v w Hb Hv Hw. destruct b as [|b1 [|b2 [|? ?]]]; try discriminate.
    destruct v as [|v1 [|v2 [|? ?]]]; try discriminate. destruct w as [|w1 [|w2 [|? ?]]]; try discriminate.
    unfold add_list. cbn [combine map fst snd]. rewrite !shear_flow. cbn. ring. }
  split; [reflexivity|]. split.
  - assert (H1 := HS 0%nat [0; 1] [0; 1] ltac:(cbn; lia) H0 eq_refl). rewrite shear_flow in H1.
    assert (E1 : add_list [0 + 1; 1] (shear_vjp (@linspace0 ROps (1 - 0) 2) [0; 1] (sub_list [0; 1] [0; 1])) = [1; 1])
      by (cbn; repeat f_equal; lra). rewrite E1 in H1.
    assert (H2 := HS 1%nat [1; 1] [0; 0] ltac:(cbn; lia) H1 eq_refl). rewrite shear_flow in H2. rewrite H2.
    f_equal. cbn. repeat f_equal; lra.
  - split; [|reflexivity]. cbn [sequential]. rewrite !shear_flow. repeat f_equal; lra.
Qed.

(** C59's affine case is not vacuous: scalar problems (here x' = 1, J = 1) satisfy its hypothesis. *)
Lemma C59_ex_pf :
  (forall a b, length a = 1%nat -> length b = 1%nat ->
     flow eu (@linspace0 ROps (1 - 0) 2) a = add_list (flow eu (@linspace0 ROps (1 - 0) 2) b) ((fun _ _ v => v) (@nil R) b (sub_list a b))) /\
  @msbackward_root_solve ROps eul (fun _ _ v => v) ones [0; 1; 2] [[7]; [0]; [-3]] 2 0 = Ok [[7]; [8]; [9]].
Proof.
  assert (Ha : forall a b, length a = 1%nat -> length b = 1%nat ->
     flow eu (@linspace0 ROps (1 - 0) 2) a = add_list (flow eu (@linspace0 ROps (1 - 0) 2) b) (sub_list a b)).
  { intros a b Ha Hb. destruct a as [|a [|? ?]]; try discriminate. destruct b as [|b [|? ?]]; try discriminate.
    rewrite !flow_eu. cbn. f_equal. lra. }
  split; [exact Ha|].
  destruct (C59_affine_one_pass_partial_pf eul ones eu euler_log (fun _ _ v => v) 1 0 1 [2] [[7]; [0]; [-3]] [7] 2) as (B' & E & EB);
    auto; try (apply euler_stepper); try apply eu_keeps; try (apply sub2_sep; lra).
  { intros b Hb. cbn in Hb. intuition subst; reflexivity. }
  etransitivity; [exact E|]. rewrite EB. cbn [length seq map sequential]. rewrite !flow_eu. repeat f_equal; lra.
Qed.

(** ** C32: parallel implicit Euler *)
Lemma sq_zero (d : rvec) : @vsum ROps (@vmul ROps d d) = 0 <-> d = @vzeros ROps (length d).
Proof.
  rewrite sum_sq_zero. unfold vzeros. rops. rewrite Q2R_0'. split.
  - induction d as [|a d IH]; intros H; [reflexivity|]. cbn. f_equal.
    + apply (H 0%nat). cbn; lia.
    + apply IH. intros i Hi. apply (H (S i)). cbn; lia.
  - intros E i Hi. rewrite E. apply nth_repeat.
Qed.

Lemma sub_zero n : forall (a b : rvec), length a = n -> length b = n -> @vsub ROps a b = @vzeros ROps n <-> a = b.
Proof.
  unfold vzeros, vsub. rops. rewrite Q2R_0'. induction n as [|n IH]; intros [|x a] [|y b] Ha Hb; try discriminate; [cbn; tauto|].
  injection Ha as Ha. injection Hb as Hb. cbn. split; intros E.
  - injection E as E1 E2. f_equal; [lra|]. now apply IH.
  - injection E as -> ->. f_equal; [lra|]. now apply IH.
Qed.

Lemma vsub_len n (a b : rvec) : length a = n -> length b = n -> length (@vsub ROps a b) = n.
Proof. intros Ha Hb. rewrite map2_vsub_list. now apply sub_len. Qed.

Lemma vsub_shift n : forall (b a c : rvec), length b = n -> length a = n -> length c = n ->
  @vsub ROps (@vsub ROps b a) c = @vzeros ROps n <-> b = add_list a c.
Proof.
  intros b a c Hb Ha Hc. rewrite (sub_zero n) by (auto using vsub_len).
  rewrite <- map2_vadd_list. revert b a c Hb Ha Hc. unfold vsub, vadd. rops.
  induction n as [|n IH]; intros [|x b] [|y a] [|z c] Hb Ha Hc; try discriminate; [cbn; tauto|].
  injection Ha as Ha. injection Hb as Hb. injection Hc as Hc. cbn. specialize (IH b a c Hb Ha Hc). split; intros E; injection E as E1 E2.
  - f_equal; [lra|]. now apply IH.
  - f_equal; [lra|]. now apply IH.
Qed.

Lemma resid_zero n (b a c : rvec) : length b = n -> length a = n -> length c = n ->
  let d := @vsub ROps (@vsub ROps b a) c in
  0 <= @vsum ROps (@vmul ROps d d) /\ (@vsum ROps (@vmul ROps d d) = 0 <-> b = add_list a c).
Proof.
  intros Hb Ha Hc d. split; [apply sum_sq_nonneg|].
  assert (Hd : @length R d = n) by (apply (vsub_len n); [apply (vsub_len n)|]; assumption).
  etransitivity; [apply sq_zero|]. rewrite Hd. now apply vsub_shift.
Qed.

Lemma fold_from (l : list R) : forall a, fold_left Rplus l a = a + fold_left Rplus l 0.
Proof. induction l as [|b l IH]; intros a; cbn; [lra|]. rewrite (IH (a + b)), (IH (0 + b)). lra. Qed.

(** the sum over the rows B[2:] *)
Lemma rest_zero n (f : R -> rvec -> rvec) : (forall t x, length x = n -> length (f t x) = n) ->
  forall (B : list rvec) t ts b, length b = n -> (forall c, In c B -> length c = n) -> length ts = length B ->
  let dts := map2 Rminus ts (removelast (t :: ts)) in
  let rest := fold_left Rplus (map (fun d => @vsum ROps (@vmul ROps d d))
     (map2 (@vsub ROps) (map2 (@vsub ROps) B (removelast (b :: B))) (map2 (@vscale ROps) dts (map (f 0) B)))) 0 in
  0 <= rest /\
  (rest = 0 <-> forall k ta tb a c, nth_error (t :: ts) k = Some ta -> nth_error ts k = Some tb ->
     nth_error (b :: B) k = Some a -> nth_error B k = Some c -> c = add_list a (scale_list (tb - ta) (f 0 c))).
Proof.
  intros Hf. induction B as [|c B IH]; intros t ts b Hb HB Hl.
  - cbn. split; [lra|]. split; auto. intros _ [|k] ta tb a c _ _ _ Hc; discriminate.
  - destruct ts as [|t' ts]; [discriminate|]. injection Hl as Hl.
    assert (Hc : length c = n) by (apply HB; now left).
    specialize (IH t' ts c Hc (fun c0 H => HB c0 (or_intror H)) Hl).
    change (removelast (b :: c :: B)) with (b :: removelast (c :: B)).
    change (removelast (t :: t' :: ts)) with (t :: removelast (t' :: ts)).
    cbn [map2 map fold_left]. cbv zeta in *.
    set (r := fold_left Rplus _ 0) in IH. rewrite fold_from. fold r.
    destruct (resid_zero n c b (@vscale ROps (t' - t) (f 0 c)) Hc Hb (eq_trans (vscale_len _ _) (Hf _ _ Hc))) as [P1 P2].
    destruct IH as [I1 I2]. set (q := @vsum ROps _) in *. split; [lra|]. split.
    + intros E. assert (Eq : q = 0) by lra. assert (Er : r = 0) by lra.
      intros [|k] ta tb a d Hta Htb Ha Hd.
      * injection Hta as <-. injection Htb as <-. injection Ha as <-. injection Hd as <-. now apply P2.
      * apply (proj1 I2 Er k ta tb a d Hta Htb Ha Hd).
    + intros H. assert (Eq : q = 0) by (apply P2; apply (H 0%nat t t' b c); reflexivity).
      assert (Er : r = 0) by (apply I2; intros k ta tb a d; exact (H (S k) ta tb a d)). lra.
Qed.

(** C32.  On every grid and for every field the residual is zero exactly when the shooting states
    B[1], B[2], ... satisfy the implicit Euler recursion from x, where the field is always taken at
    time 0 (so this is implicit Euler for every field without time dependence). *)
Lemma C32_residual_zero_partial_pf :
  forall n (f : R -> rvec -> rvec) x B ts, (2 <= length ts)%nat -> length B = length ts ->
  (forall t x, length x = n -> length (f t x) = n) -> length x = n -> (forall b, In b B -> length b = n) ->
  exists r, @pie_residual ROps f x B ts = Ok r /\ 0 <= r /\ (r = 0 <-> implicit_euler_rows f (fun _ => 0) x B ts).
Proof.
  intros n f x B ts H2 HB Hf Hx Hr.
  destruct ts as [|t0 [|t1 ts]]; try (cbn in H2; lia). destruct B as [|b0 [|b1 B]]; try discriminate.
  injection HB as HB. unfold pie_residual. cbn [skipn map].
  change (removelast (t0 :: t1 :: ts)) with (t0 :: removelast (t1 :: ts)). cbn [map2 skipn pyget nth_error rbind].
  change (@nQ ROps 0) with (Q2R 0). rewrite !Q2R_0'.
  eexists. split; [reflexivity|].
  assert (Hb1 : length b1 = n) by (apply Hr; right; now left).
  destruct (rest_zero n f Hf B t1 ts b1 Hb1 (fun c H => Hr c (or_intror (or_intror H))) (eq_sym HB)) as [P1 P2].
  destruct (resid_zero n b1 x (@vscale ROps (t1 - t0) (f 0 b1)) Hb1 Hx (eq_trans (vscale_len _ _) (Hf _ _ Hb1))) as [Q1 Q2].
  cbv zeta in *. 
  match type of P1 with 0 <= ?r => set (rest := r) in * end.
  match type of Q1 with 0 <= ?r => set (first := r) in * end.
  change (0 <= rest + first /\ (rest + first = 0 <-> implicit_euler_rows f (fun _ => 0) x (b0 :: b1 :: B) (t0 :: t1 :: ts))).
  split; [lra|]. unfold implicit_euler_rows. split.
  - intros E. assert (E1 : rest = 0) by lra. assert (E2 : first = 0) by lra.
    intros [|k] ta tb a b Hta Htb Ha Hb.
    + injection Hta as <-. injection Htb as <-. injection Ha as <-. injection Hb as <-. now apply Q2.
    + apply (proj1 P2 E1 k ta tb a b Hta Htb Ha Hb).
  - intros H. assert (E2 : first = 0) by (apply Q2; apply (H 0%nat t0 t1 x b1); reflexivity).
    assert (E1 : rest = 0) by (apply P2; intros k ta tb a b; exact (H (S k) ta tb a b)). lra.
Qed.

(** Finding: for a field with time dependence a zero residual is not implicit Euler. *)
Lemma C32_time_dependent_refuted_pf :
  exists (f : R -> rvec -> rvec) x B ts, @pie_residual ROps f x B ts = Ok 0 /\ ~ implicit_euler_rows f (fun t => t) x B ts.
Proof.
  exists (fun t x => map (fun _ => t) x), [0], [[0]; [0]], [0; 1].
  destruct (C32_residual_zero_partial_pf 1 (fun t x => map (fun _ => t) x) [0] [[0]; [0]] [0; 1]) as (r & E & _ & H); auto.
  - intros t x Hx. now rewrite map_length.
  - intros b Hb. cbn in Hb. intuition subst; reflexivity.
  - split.
    + rewrite E. f_equal. apply H. intros [|[|k]] ta tb a b Hta Htb Ha Hb; try discriminate.
      injection Hta as <-. injection Htb as <-. injection Ha as <-. injection Hb as <-. cbn. f_equal. lra.
    + intros X. specialize (X 0%nat 0 1 [0] [0] eq_refl eq_refl eq_refl eq_refl). cbn in X. injection X. lra.
Qed.

(** C32's equivalence is not vacuous: x' = -x from 2 with step 1 has the implicit Euler rows 1, 1/2. *)
Lemma C32_ex_pf :
  implicit_euler_rows (fun _ x => map Ropp x) (fun _ => 0) [2] [[9]; [1]; [1/2]] [0; 1; 2] /\
  @pie_residual ROps (fun _ x => map Ropp x) [2] [[9]; [1]; [1/2]] [0; 1; 2] = Ok 0.
Proof.
  assert (I : implicit_euler_rows (fun _ x => map Ropp x) (fun _ => 0) [2] [[9]; [1]; [1/2]] [0; 1; 2]).
  { intros [|[|[|k]]] ta tb a b Hta Htb Ha Hb; try discriminate.
    - injection Hta as <-. injection Htb as <-. injection Ha as <-. injection Hb as <-. cbn. f_equal. lra.
    - injection Hta as <-. injection Htb as <-. injection Ha as <-. injection Hb as <-. cbn. f_equal. lra. }
  split; [exact I|].
  destruct (C32_residual_zero_partial_pf 1 (fun _ x => map Ropp x) [2] [[9]; [1]; [1/2]] [0; 1; 2]) as (r & E & _ & H);
    try reflexivity; try (cbn; lia).
  - intros t x Hx. now rewrite map_length.
  - intros b Hb. cbn in Hb. intuition subst; reflexivity.
  - etransitivity; [exact E|]. f_equal. now apply H.
Qed.
