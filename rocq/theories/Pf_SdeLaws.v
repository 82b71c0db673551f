(** Proofs of the properties about restarting SDE solves and about units in SDE solves. *)
From Coq Require Import ZArith QArith Qreals Reals Lra Lia String List Bool.
From Verif Require Import Num Py Tensor M_SolversOde M_Odeint M_Sde Spec_Ode Spec_Sde.
From Verif Require Import L_Base L_Fixed L_Fixed2 L_Vec L_Jagged L_Conv L_Sde Pf_Sde.
Import ListNotations.
Local Notation length := List.length.
Local Open Scope R_scope.

Lemma sdeint_grid name sde bm s x ts : @sde_str_to_solver ROps name sde bm = Ok s -> ss_fixed s = true -> (2 <= length ts)%nat ->
  @sdeint ROps sde x ts name bm [] = Ok (ts, one_step_traj (fun t h x => ss_step s x t h) x ts).
Proof.
  intros Es Hf Hl. destruct ts as [|t0 [|t1 ts]]; cbn [List.length] in Hl; try lia.
  unfold sdeint. rewrite Es. cbn [rbind]. rewrite Hf, fixed_sdeint_full. rewrite L_Sde.select_all; [reflexivity|apply traj_length|auto].
Qed.
Lemma solver_fixed name sde bm s : @sde_str_to_solver ROps name sde bm = Ok s -> ss_fixed s = true.
Proof.
  unfold sde_str_to_solver, EulerMaruyama, EulerHeun, MilsteinIto, MilsteinStratonovich. intros H.
  repeat (match type of H with context [if ?c then _ else _] => destruct c end); try discriminate;
  try (injection H as <-; reflexivity); destruct (check_types _ _ _); cbn [rbind] in H; try discriminate; injection H as <-; reflexivity.
Qed.

(** Solving up to a time of the grid and continuing from there with the same Brownian path gives the states of the whole solve:
    every solver that can be built, every grid (also with decreasing or repeated times). *)
Lemma C190_restart_pf :
  forall name sde bm s x pre tm post, @sde_str_to_solver ROps name sde bm = Ok s -> pre <> [] -> post <> [] ->
  let solve x0 l := @sdeint ROps sde x0 l name bm [] in
  exists xs xm ys, solve x (pre ++ [tm]) = Ok (pre ++ [tm], xs ++ [xm]) /\ solve xm (tm :: post) = Ok (tm :: post, xm :: ys) /\
    solve x (pre ++ tm :: post) = Ok (pre ++ tm :: post, xs ++ xm :: ys).
Proof.
  intros name sde bm s x pre tm post Es Hp Hq solve. pose proof (solver_fixed _ _ _ _ Es) as Hf.
  set (one := fun t h x => @ss_step ROps s x t h).
  destruct (last_traj_app one x pre tm x) as (xs & xm & Ea & _ & Ep).
  destruct post as [|p post]; [congruence|]. exists xs, xm, (one_step_traj one (one tm (p - tm) xm) (p :: post)).
  split; [|split].
  - unfold solve. rewrite (sdeint_grid _ _ _ s); auto; [|rewrite app_length; destruct pre; [congruence|cbn; lia]]. now rewrite <- Ea.
  - unfold solve. rewrite (sdeint_grid _ _ _ s); auto. cbn [List.length]. lia.
  - unfold solve. rewrite (sdeint_grid _ _ _ s); auto; [|rewrite app_length; cbn [List.length]; lia]. fold one. now rewrite Ep.
Qed.

(** The hypotheses are met: the SDE of C41 with Euler-Maruyama, restarted in the middle of [0; 1; 3]. *)
Lemma C190_ex_pf : (exists s, @sde_str_to_solver ROps "euler" (ex_sde "ito") ex_bm = Ok s) /\ [0; 1; 3] = [0] ++ 1 :: [3].
Proof. split; [eexists; reflexivity|reflexivity]. Qed.

(** ** Units *)
Definition sc (c : R) (x : list R) : list R := map (Rmult c) x.

Lemma map2_sc (g g' : R -> R -> R) c a b : forall u v, (forall p q, g' (a * p) (b * q) = c * g p q) -> map2 g' (sc a u) (sc b v) = sc c (map2 g u v).
Proof.
  intros u v H. revert v. induction u as [|p u IH]; intros [|q v]; cbn; auto. f_equal; [apply H|apply IH].
Qed.
Lemma add_sc c u v : @vadd ROps (sc c u) (sc c v) = sc c (@vadd ROps u v).
Proof. unfold vadd. apply map2_sc. intros p q. rops. ring. Qed.
Lemma sub_sc c u v : @vsub ROps (sc c u) (sc c v) = sc c (@vsub ROps u v).
Proof. unfold vsub. apply map2_sc. intros p q. rops. ring. Qed.
Lemma mul_sc c a b u v : a * b = c -> @vmul ROps (sc a u) (sc b v) = sc c (@vmul ROps u v).
Proof. intros H. unfold vmul. apply map2_sc. intros p q. rops. rewrite <- H. ring. Qed.
Lemma scale_sc c a h k u : k * a = c * h -> @vscale ROps k (sc a u) = sc c (@vscale ROps h u).
Proof. intros H. unfold vscale, sc. rewrite !map_map. apply map_ext. intros p. rops. rewrite <- Rmult_assoc, H. ring. Qed.

(** The same SDE in other units: time t becomes tau t + sigma, the state x becomes c x, and Brownian increments grow with sqrt tau. *)
Definition other_units (tau sigma c : R) (sde sde' : sde_func ROps) (bm bm' : brownian ROps) : Prop :=
  (forall t x, sde_f sde' (tau * t + sigma) (sc c x) = sc (c / tau) (sde_f sde t x)) /\
  (forall t x, sde_g sde' (tau * t + sigma) (sc c x) = sc (c / sqrt tau) (sde_g sde t x)) /\
  (forall r t, bm' (tau * r + sigma) (tau * t + sigma) = sc (sqrt tau) (bm r t)) /\
  sde_noise sde' = sde_noise sde /\ sde_type sde' = sde_type sde.

Section Units.
Variables (tau sigma c : R) (sde sde' : sde_func ROps) (bm bm' : brownian ROps).
Hypothesis Ht : 0 < tau.
Hypothesis HU : other_units tau sigma c sde sde' bm bm'.
Let st := sqrt tau.
Let Hst : 0 < st. Proof. apply sqrt_lt_R0. exact Ht. Qed.
Let Hst2 : st * st = tau. Proof. apply sqrt_sqrt. lra. Qed.
Let now t h : tau * t + sigma + tau * h = tau * (t + h) + sigma. Proof. ring. Qed.

Lemma em_units x t h : @em_step ROps sde' bm' (sc c x) (tau * t + sigma) (tau * h) = sc c (@em_step ROps sde bm x t h).
Proof.
  destruct HU as (Hf & Hg & Hb & _). unfold em_step. change (@nadd ROps) with Rplus. rewrite now, Hf, Hg, Hb. fold st.
  rewrite (scale_sc c (c / tau) h (tau * h)) by (field; lra). rewrite (mul_sc c (c / st) st) by (field; lra). now rewrite !add_sc.
Qed.
Lemma heun_units x t h : @heun_step ROps sde' bm' (sc c x) (tau * t + sigma) (tau * h) = sc c (@heun_step ROps sde bm x t h).
Proof.
  destruct HU as (Hf & Hg & Hb & _). unfold heun_step. cbv zeta. change (@nadd ROps) with Rplus. rewrite now, Hf, Hg, Hb. fold st.
  rewrite (scale_sc c (c / tau) h (tau * h)) by (field; lra). rewrite (mul_sc c (c / st) st) by (field; lra). rewrite !add_sc. rewrite Hg. fold st. rewrite add_sc.
  rewrite (scale_sc (c / st) (c / st) _ _ _ (Rmult_comm _ _)). rewrite (mul_sc c (c / st) st) by (field; lra). now rewrite add_sc.
Qed.
Lemma milstein_units v x t h : (forall u k, v (sc st u) (tau * k) = sc tau (v u k)) ->
  @milstein_step ROps v sde' bm' (sc c x) (tau * t + sigma) (tau * h) = sc c (@milstein_step ROps v sde bm x t h).
Proof.
  intros Hv. destruct HU as (Hf & Hg & Hb & _). unfold milstein_step. cbv zeta. change (@nadd ROps) with Rplus. rewrite now, Hf, Hg, Hb. fold st. rewrite Hv.
  change (@nsqrt ROps (tau * h)) with (sqrt (tau * h)). change (@nsqrt ROps h) with (sqrt h). rewrite sqrt_mult_alt by lra. fold st.
  rewrite (scale_sc c (c / tau) h (tau * h)) by (field; lra). rewrite (scale_sc c (c / st) (sqrt h) (st * sqrt h)) by (field; lra). rewrite (mul_sc c (c / st) st) by (field; lra).
  rewrite !add_sc, Hg. fold st. rewrite sub_sc.
  match goal with |- context [map ?k (sc (c / st) ?u)] => assert (E : map k (sc (c / st) u) = sc (c / tau) (map (fun a : num ROps => (a * n1 / (nQ 2 * (sqrt h : num ROps)))%N) u)) end.
  { unfold sc. rewrite !map_map. apply map_ext. intros a. rops. rewrite <- Hst2. unfold Rdiv. rewrite !Rinv_mult. ring. }
  rewrite E. rewrite (mul_sc c (c / tau) tau) by (field; lra). now rewrite add_sc.
Qed.
Lemma v_ito_units u k : @v_ito ROps (sc st u) (tau * k) = sc tau (@v_ito ROps u k).
Proof. unfold v_ito, sc. rewrite !map_map. apply map_ext. intros a. rops. rewrite <- Hst2. ring. Qed.
Lemma v_strat_units u k : @v_strat ROps (sc st u) (tau * k) = sc tau (@v_strat ROps u k).
Proof. unfold v_strat, sc. rewrite !map_map. apply map_ext. intros a. rops. rewrite <- Hst2. ring. Qed.

Lemma check_same a l : check_types sde' a l = check_types sde a l.
Proof. destruct HU as (_ & _ & _ & H1 & H2). unfold check_types. now rewrite H1, H2. Qed.

Lemma solver_units name s : @sde_str_to_solver ROps name sde bm = Ok s ->
  exists s', @sde_str_to_solver ROps name sde' bm' = Ok s' /\ forall x t h, ss_step s' (sc c x) (tau * t + sigma) (tau * h) = sc c (ss_step s x t h).
Proof.
  unfold sde_str_to_solver, EulerMaruyama, EulerHeun, MilsteinIto, MilsteinStratonovich. rewrite !check_same. intros H.
  destruct (name =? "euler")%string.
  { destruct (check_types sde "ito" all_noises); try discriminate. injection H as <-. eexists. split; [reflexivity|]. intros x t h. apply em_units. }
  destruct (name =? "eulerHeun")%string.
  { destruct (check_types sde "stratonovich" all_noises); try discriminate. injection H as <-. eexists. split; [reflexivity|]. intros x t h. apply heun_units. }
  destruct (name =? "midpoint")%string; [discriminate|].
  destruct (name =? "milstein_ito")%string.
  { injection H as <-. eexists. split; [reflexivity|]. intros x t h. apply milstein_units. exact v_ito_units. }
  destruct (name =? "milstein_stratonovich")%string; [|discriminate].
  injection H as <-. eexists. split; [reflexivity|]. intros x t h. apply milstein_units. exact v_strat_units.
Qed.
Lemma traj_units (one one' : R -> R -> list R -> list R) : (forall t h x, one' (tau * t + sigma) (tau * h) (sc c x) = sc c (one t h x)) ->
  forall ts x, one_step_traj one' (sc c x) (map (fun t => tau * t + sigma) ts) = map (sc c) (one_step_traj one x ts).
Proof.
  intros H. induction ts as [|t [|t1 ts] IH]; intros x; try reflexivity. cbn [map] in *. rewrite !L_Jagged.traj_cons. cbn [map]. f_equal.
  replace (tau * t1 + sigma - (tau * t + sigma)) with (tau * (t1 - t)) by ring. rewrite H. apply IH.
Qed.
End Units.

(** Solving the SDE in other units gives the solution in other units, exactly and for all four solvers. *)
Lemma C191_units_pf :
  forall name tau sigma c sde sde' bm bm' s x ts, 0 < tau -> other_units tau sigma c sde sde' bm bm' ->
  @sde_str_to_solver ROps name sde bm = Ok s -> (2 <= length ts)%nat ->
  exists sol, @sdeint ROps sde x ts name bm [] = Ok (ts, sol) /\
    @sdeint ROps sde' (sc c x) (map (fun t => tau * t + sigma) ts) name bm' [] = Ok (map (fun t => tau * t + sigma) ts, map (sc c) sol).
Proof.
  intros name tau sigma c sde sde' bm bm' s x ts Ht HU Es Hl.
  destruct (solver_units tau sigma c sde sde' bm bm' Ht HU name s Es) as (s' & Es' & H).
  eexists. split; [apply (sdeint_grid _ _ _ s); eauto using solver_fixed|].
  rewrite (sdeint_grid _ _ _ s'); eauto using solver_fixed; [|now rewrite map_length]. do 2 f_equal. apply traj_units. intros t h y. apply H.
Qed.

(** The hypotheses are met: geometric Brownian motion in units of a quarter of the time and twice the state. *)
Lemma C191_ex_pf :
  let gbm a b := @MkSde ROps (fun _ x => sc a x) (fun _ x => sc b x) (Some "diagonal"%string) (Some "ito"%string) in
  let w := fun r t : R => [t - r] in let w' := fun r t : R => [(t - r) / 2] in
  other_units 4 1 2 (gbm 3 5) (gbm (3 / 4) (5 / 2)) w w' /\ (exists s, @sde_str_to_solver ROps "euler" (gbm 3 5) w = Ok s) /\
  (exists s, @sde_str_to_solver ROps "milstein_ito" (gbm 3 5) w = Ok s).
Proof.
  intros gbm w w'. split; [|split; eexists; reflexivity]. assert (E : sqrt 4 = 2) by (replace 4 with (2 * 2) by ring; apply sqrt_square; lra).
  unfold other_units. rewrite E. split; [|split; [|split; [|split; reflexivity]]].
  - intros t x. unfold gbm, sc. cbn [sde_f]. rewrite !map_map. apply map_ext. intros p. field.
  - intros t x. unfold gbm, sc. cbn [sde_g]. rewrite !map_map. apply map_ext. intros p. field.
  - intros r t. unfold w, w', sc. cbn [map]. f_equal. field.
Qed.
