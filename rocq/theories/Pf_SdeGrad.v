(** Derivatives computed by autograd through SDE solves along a given Brownian path. *)
From Coq Require Import ZArith QArith Qreals Reals Lra Lia List Bool String.
From Verif Require Import Num Py Tensor M_Odeint M_Sde M_Autograd.
From Verif Require Import Spec_Autograd.
From Verif Require Import L_Base L_Nan Pf_Autograd.
Import ListNotations.
Local Notation length := List.length.
Local Open Scope R_scope.

(** The SDE with derivatives describes a family of SDEs with the same declared types *)
Definition tracks_sde (n : nat) (SD : sde_func DR) (sd : R -> sde_func ROps) : Prop :=
  tracks_field n (sde_f SD) (fun e => sde_f (sd e)) /\ tracks_field n (sde_g SD) (fun e => sde_g (sd e)) /\
  (forall e, sde_noise (sd e) = sde_noise SD) /\ (forall e, sde_type (sd e) = sde_type SD).
(** The Brownian path does not depend on the parameter *)
Definition same_path (n : nat) (B : brownian DR) (b : brownian ROps) : Prop :=
  forall t u : R, B (t, 0) (u, 0) = map (fun z : R => (z, 0)) (b t u) /\ length (b t u) = n.
Definition increasing (ts : list R) : Prop := forall k, (S k < length ts)%nat -> nth k ts 0 < nth (S k) ts 0.

Lemma tv_const n (l : list R) : length l = n -> tracks_vec n (map (fun z : R => (z, 0)) l) (fun _ => l).
Proof.
  intros H. split; [now rewrite map_length|]. split; [auto|]. intros i Hi.
  rewrite (map_nth (fun z : R => (z, 0)) l 0 i).
  split; cbn; [reflexivity|apply derivable_pt_lim_const].
Qed.
Lemma tv_mul n A B a b : tracks_vec n A a -> tracks_vec n B b -> tracks_vec n (@vmul DR A B) (fun e => @vmul ROps (a e) (b e)).
Proof. apply (tv_map2 n (@nmul DR) Rmult). apply tr_mul. Qed.

Definition vec_step_tracks (n : nat) (ok : R -> Prop) (sd : list (R * R) -> R * R -> R * R -> list (R * R)) (sr : R -> list R -> R -> R -> list R) : Prop :=
  forall X x t h, ok h -> tracks_vec n X x -> tracks_vec n (sd X (t, 0) (h, 0)) (fun e => sr e (x e) t h).

Section Steps.
Variables (n : nat) (SD : sde_func DR) (sd : R -> sde_func ROps) (B : brownian DR) (b : brownian ROps).
Hypothesis HS : tracks_sde n SD sd.
Hypothesis HB : same_path n B b.

Lemma path_tracks t u : tracks_vec n (B (t, 0) (u, 0)) (fun _ => b t u).
Proof. destruct (HB t u) as [E L]. refine (eq_ind_r (fun v => tracks_vec n v _) _ E). now apply tv_const. Qed.
Lemma em_tracks : vec_step_tracks n (fun _ => True) (em_step SD B) (fun e => em_step (sd e) b).
Proof.
  intros X x t h _ HX. destruct HS as (HF & HG & _). unfold em_step. rewrite t_add.
  apply tv_add; [apply tv_add; [exact HX|apply tv_scale; [reflexivity|now apply HF]]|apply tv_mul; [now apply HG|apply path_tracks]].
Qed.
Lemma heun_tracks : vec_step_tracks n (fun _ => True) (heun_step SD B) (fun e => heun_step (sd e) b).
Proof.
  intros X x t h _ HX. destruct HS as (HF & HG & _). unfold heun_step. rewrite t_add.
  apply tv_add; [apply tv_add; [exact HX|apply tv_scale; [reflexivity|now apply HF]]|].
  apply tv_mul; [|apply path_tracks]. apply tv_scale; [apply t_lit|]. apply tv_add; [now apply HG|].
  apply (HG (t + h)). apply tv_add; [exact HX|apply tv_mul; [now apply HG|apply path_tracks]].
Qed.
Lemma t_sqrt h : @nsqrt DR (h, 0) = (sqrt h, 0).
Proof. cbn. f_equal. unfold Rdiv. apply Rmult_0_l. Qed.
Lemma milstein_tracks VT vt : (forall Y y h, tracks_vec n Y y -> tracks_vec n (VT Y (h, 0)) (fun e => vt (y e) h)) ->
  vec_step_tracks n (fun h => 0 < h) (@milstein_step DR VT SD B) (fun e => @milstein_step ROps vt (sd e) b).
Proof.
  intros HV X x t h Hh HX. destruct HS as (HF & HG & _). unfold milstein_step. rewrite t_add, t_sqrt.
  pose proof (HF t X x HX) as Hf. pose proof (HG t X x HX) as Hg.
  assert (Hd : tracks_vec n (@vadd DR X (@vscale DR (h, 0) (sde_f SD (t, 0) X))) (fun e => @vadd ROps (x e) (@vscale ROps h (sde_f (sd e) t (x e)))))
    by (apply tv_add; [exact HX|apply tv_scale; [reflexivity|exact Hf]]).
  apply tv_add; [apply tv_add; [exact Hd|apply tv_mul; [exact Hg|apply path_tracks]]|].
  apply tv_mul; [|apply HV, path_tracks].
  apply (tv_map n (fun a : DR => (a * n1 / (nQ 2 * ((sqrt h, 0) : DR)))%N) (fun a : R => (a * @nQ ROps 1 / (@nQ ROps 2 * sqrt h))%R)).
  - intros a c Ha. rewrite !t_lit, t_mul.
    pose proof (tr_mul a (Q2R 1, 0) c (fun _ => Q2R 1) Ha) as H1. rewrite <- cst_eq in H1. specialize (H1 (tr_cst _)). rewrite cst_eq in H1.
    pose proof (tr_cst (Q2R 2 * sqrt h)) as H2. rewrite cst_eq in H2.
    destruct (C143_rules_pf _ _ _ _ H1 H2) as (_ & _ & _ & _ & _ & D & _). apply D.
    pose proof (sqrt_lt_R0 h Hh). replace (Q2R 2) with 2 by (unfold Q2R; cbn; lra). lra.
  - apply tv_sub; [|exact Hg]. apply (HG t). apply tv_add; [exact Hd|apply tv_scale; [reflexivity|exact Hg]].
Qed.
Lemma v_ito_tracks Y y h : tracks_vec n Y y -> tracks_vec n (@v_ito DR Y (h, 0)) (fun e => @v_ito ROps (y e) h).
Proof.
  apply (tv_map n (fun b : DR => (b * b - ((h, 0) : DR))%N) (fun b : R => (b * b - h)%R)). intros a c Ha.
  apply (tr_sub _ (h, 0) (fun e => c e * c e) (fun _ => h)); [now apply tr_mul|]. rewrite <- cst_eq. apply tr_cst.
Qed.
Lemma v_strat_tracks Y y h : tracks_vec n Y y -> tracks_vec n (@v_strat DR Y (h, 0)) (fun e => @v_strat ROps (y e) h).
Proof.
  apply (tv_map n (fun b : DR => (b * b)%N) (fun b : R => (b * b)%R)). intros a c Ha. now apply tr_mul.
Qed.
End Steps.

Section Loop.
Variables (n : nat) (ok : R -> Prop) (sd : list (R * R) -> R * R -> R * R -> list (R * R)) (sr : R -> list R -> R -> R -> list R).
Hypothesis Hstep : vec_step_tracks n ok sd sr.
Variables ts sv : list R.
Hypothesis Hts : forall k, (S k < length ts)%nat -> ok (nth (S k) ts 0 - nth k ts 0).

Lemma sde_loop_tracks m : forall k X x (dt : R) SOL sol, (S k + m = length ts)%nat ->
  ((0 < m)%nat -> dt = nth (S k) ts 0 - nth k ts 0) -> tracks_vec n X x -> tracks_states n SOL sol ->
  exists SOL' sol', @sde_loop DR sd (map c0 ts) (map c0 sv) m (S k) X (nth k ts 0, 0) (dt, 0) SOL = Ok SOL' /\
    (forall e, @sde_loop ROps (sr e) ts sv m (S k) (x e) (nth k ts 0) dt (sol e) = Ok (sol' e)) /\ tracks_states n SOL' sol'.
Proof.
  induction m as [|m IH]; intros k X x dt SOL sol Hk Hdt HX HSol.
  { exists SOL, sol. auto. }
  specialize (Hdt ltac:(lia)). subst dt.
  pose proof (Hstep X x (nth k ts 0) _ (Hts k ltac:(lia)) HX) as HX'.
  set (h := nth (S k) ts 0 - nth k ts 0) in *.
  assert (Et : nth k ts 0 + h = nth (S k) ts 0) by (unfold h; lra).
  set (SOL1 := if (@isclose_count ROps (nth (S k) ts 0%R) sv =? 0)%nat then SOL else SOL ++ [sd X (nth k ts 0, 0) (h, 0)]).
  set (sol1 := fun e => if (@isclose_count ROps (nth (S k) ts 0%R) sv =? 0)%nat then sol e else sol e ++ [sr e (x e) (nth k ts 0) h]).
  assert (HS1 : tracks_states n SOL1 sol1).
  { unfold SOL1, sol1. destruct (_ =? 0)%nat; [exact HSol|now apply ts_snoc]. }
  set (dt' := if (S k <? length ts - 1)%nat then nth (S (S k)) ts 0 - nth (S k) ts 0 else h).
  destruct (IH (S k) (sd X (nth k ts 0, 0) (h, 0)) (fun e => sr e (x e) (nth k ts 0) h) dt' SOL1 sol1 ltac:(lia)) as (SOL' & sol' & E1 & E2 & E3).
  { intros Hm. unfold dt'. replace (S k <? length ts - 1)%nat with true; [reflexivity|]. symmetry. apply Nat.ltb_lt. lia. }
  { exact HX'. } { exact HS1. }
  exists SOL', sol'. split; [|split; [|exact E3]].
  - cbn [sde_loop]. rewrite t_add, Et, count_cst, map_length. fold SOL1. rewrite pyget_map. unfold dt' in E1.
    destruct (S k <? length ts - 1)%nat eqn:El.
    + apply Nat.ltb_lt in El. unfold pyget. rewrite (nth_error_nth' ts 0) by lia. cbn [rmap rbind].
      rewrite t_sub. replace (S k + 1)%nat with (S (S k)) in * by lia. exact E1.
    + cbn [rbind]. replace (S k + 1)%nat with (S (S k)) by lia. exact E1.
  - intros e. specialize (E2 e). cbn [sde_loop]. change (@nadd ROps (nth k ts 0) h) with (nth k ts 0 + h). rewrite Et. unfold dt' in E2.
    change (num ROps) with R in *. destruct (S k <? length ts - 1)%nat eqn:El.
    + apply Nat.ltb_lt in El. unfold pyget. rewrite (nth_error_nth' ts 0) by lia. cbn [rbind].
      replace (S k + 1)%nat with (S (S k)) in * by lia. exact E2.
    + cbn [rbind]. replace (S k + 1)%nat with (S (S k)) by lia. exact E2.
Qed.

Lemma fixed_sdeint_tracks X x : tracks_vec n X x ->
  tracks_solve n (@fixed_sdeint DR X (map c0 ts) sd (map c0 sv)) (fun e => @fixed_sdeint ROps (x e) ts (sr e) sv).
Proof.
  intros HX. destruct ts as [|t0 [|t1 l]] eqn:E.
  { right. exists IndexError. split; reflexivity. }
  { right. exists IndexError. split; reflexivity. }
  rewrite <- E in *.
  assert (G0 : pyget ts 0 = Ok t0) by (rewrite E; reflexivity). assert (G1 : pyget ts 1 = Ok t1) by (rewrite E; reflexivity).
  assert (GL : exists tl, pylast ts = Ok tl).
  { unfold pylast. destruct (rev ts) eqn:Er; [|eauto]. apply (f_equal (@length _)) in Er. rewrite rev_length, E in Er. discriminate. }
  destruct GL as (tl & GL).
  set (S0 := if (@isclose_count ROps t0 sv =? 0)%nat then [] else [X]).
  set (s0 := fun e => if (@isclose_count ROps t0 sv =? 0)%nat then [] else [x e]).
  assert (HS0 : tracks_states n S0 s0).
  { unfold S0, s0. destruct (_ =? 0)%nat; [split; [reflexivity|intros k Hk; cbn in Hk; lia]|].
    apply (ts_snoc n [] (fun _ => []) X x); [split; [reflexivity|intros k Hk; cbn in Hk; lia]|exact HX]. }
  destruct (sde_loop_tracks (length ts - 1) 0 X x (t1 - t0) S0 s0) as (SOL' & sol' & E1 & E2 & E3); auto.
  { rewrite E. cbn. lia. } { intros _. rewrite E. reflexivity. }
  replace (nth 0 ts 0) with t0 in E1, E2 by (rewrite E; reflexivity).
  assert (F1 : @fixed_sdeint DR X (map c0 ts) sd (map c0 sv) = match SOL' with [] => Err IndexError | _ => Ok (map c0 sv, SOL') end).
  { unfold fixed_sdeint. rewrite !pyget_map, pylast_map, map_length, G0, G1, GL. cbn [rmap rbind].
    rewrite t_sub, count_cst. fold S0. exact (f_equal (fun r => rbind r _) E1). }
  assert (F2 : forall e, @fixed_sdeint ROps (x e) ts (sr e) sv = match sol' e with [] => Err IndexError | _ => Ok (sv, sol' e) end).
  { intros e. unfold fixed_sdeint. change (num ROps) with R. rewrite G0, G1, GL. cbn [rbind]. exact (f_equal (fun r => rbind r _) (E2 e)). }
  destruct E3 as [L H]. destruct SOL' as [|A SOL'].
  - right. exists IndexError. split; [exact F1|]. intros e. specialize (F2 e). rewrite F2. specialize (L e). destruct (sol' e); [reflexivity|discriminate].
  - left. exists sv, (A :: SOL'), sol'. split; [exact F1|]. split; [|split; [exact L|exact H]]. intros e. rewrite (F2 e). specialize (L e). destruct (sol' e); [discriminate|reflexivity].
Qed.
End Loop.

(** C164.  Any solver name, any declared types, any save_at; for the Milstein solvers the grid has to be increasing (they divide by the root of the
    step size).  If autograd differentiates drift and diffusion correctly in state and parameter, the derivatives of the returned
    states along a Brownian path that autograd computes are the derivatives of the returned states; exceptions are raised with
    gradients exactly when they are raised without. *)
Lemma C164_gradient_pf :
  forall (n : nat) (SD : sde_func DR) (sd : R -> sde_func ROps) (B : brownian DR) (b : brownian ROps) (X : list (R * R)) (x : R -> list R)
    (name : string) (ts save_at : list R),
  tracks_sde n SD sd -> same_path n B b -> tracks_vec n X x ->
  (name = "milstein_ito"%string \/ name = "milstein_stratonovich"%string -> increasing ts) ->
  tracks_solve n (@sdeint DR SD X (map (fun t => (t, 0)) ts) name B (map (fun t => (t, 0)) save_at))
    (fun e => @sdeint ROps (sd e) (x e) ts name b save_at).
Proof.
  intros n SD sd B b X x name ts sv HS HB HX Hinc. unfold sdeint.
  set (sv' := match sv with [] => ts | _ => sv end).
  assert (T : forall s l, (exists er, @check_types DR SD s l = Err er /\ forall e, @check_types ROps (sd e) s l = Err er) \/
    (@check_types DR SD s l = Ok tt /\ forall e, @check_types ROps (sd e) s l = Ok tt)).
  { intros s l. destruct HS as (_ & _ & HN & HT). unfold check_types.
    assert (E1 : forall e, opt_eqb (sde_type (sd e)) s = opt_eqb (sde_type SD) s) by (intros e; now rewrite HT).
    assert (E2 : forall e, existsb (opt_eqb (sde_noise (sd e))) l = existsb (opt_eqb (sde_noise SD)) l) by (intros e; now rewrite HN).
    destruct (opt_eqb (sde_type SD) s); cbn [negb].
    - destruct (existsb (opt_eqb (sde_noise SD)) l); cbn [negb].
      + right. split; [reflexivity|]. intros e. now rewrite E1, E2.
      + left. exists ValueError. split; [reflexivity|]. intros e. now rewrite E1, E2.
    - left. exists ValueError. split; [reflexivity|]. intros e. now rewrite E1. }
  assert (Inc : increasing ts -> forall k, (S k < length ts)%nat -> 0 < nth (S k) ts 0 - nth k ts 0).
  { intros H k Hk. specialize (H k Hk). lra. }
  unfold sde_str_to_solver. destruct sv as [|s0 sv0].
  {  destruct (String.eqb_spec name "euler") as [_|_].
  { unfold EulerMaruyama. destruct (T "ito"%string all_noises) as [(er & E1 & E2)|(E1 & E2)].
    - right. exists er. rewrite E1. split; [reflexivity|]. intros e. now rewrite E2.
    - destruct (fixed_sdeint_tracks n (fun _ => True) _ _ (em_tracks n SD sd B b HS HB) ts sv' (fun _ _ => I) X x HX) as [(times & A & a & G1 & G2 & G3)|(er & G1 & G2)].
      + left. exists times, A, a. rewrite E1. cbn [rbind ss_fixed ss_step].  split; [exact G1|]. split; [|exact G3]. intros e. rewrite E2. exact (G2 e).
      + right. exists er. rewrite E1. cbn [rbind ss_fixed ss_step].  split; [exact G1|]. intros e. rewrite E2. exact (G2 e). }
  destruct (String.eqb_spec name "eulerHeun") as [_|_].
  { unfold EulerHeun. destruct (T "stratonovich"%string all_noises) as [(er & E1 & E2)|(E1 & E2)].
    - right. exists er. rewrite E1. split; [reflexivity|]. intros e. now rewrite E2.
    - destruct (fixed_sdeint_tracks n (fun _ => True) _ _ (heun_tracks n SD sd B b HS HB) ts sv' (fun _ _ => I) X x HX) as [(times & A & a & G1 & G2 & G3)|(er & G1 & G2)].
      + left. exists times, A, a. rewrite E1. cbn [rbind ss_fixed ss_step].  split; [exact G1|]. split; [|exact G3]. intros e. rewrite E2. exact (G2 e).
      + right. exists er. rewrite E1. cbn [rbind ss_fixed ss_step].  split; [exact G1|]. intros e. rewrite E2. exact (G2 e). }
  destruct (String.eqb_spec name "midpoint") as [_|_]; [right; exists TypeError; split; reflexivity|].
  destruct (String.eqb_spec name "milstein_ito") as [Hn|_].
  { cbn [rbind MilsteinIto ss_fixed ss_step]. 
    exact (fixed_sdeint_tracks n (fun h => 0 < h) _ _ (milstein_tracks n SD sd B b HS HB _ _ (v_ito_tracks n)) ts sv' (Inc (Hinc (or_introl Hn))) X x HX). }
  destruct (String.eqb_spec name "milstein_stratonovich") as [Hn|_].
  { cbn [rbind MilsteinStratonovich ss_fixed ss_step]. 
    exact (fixed_sdeint_tracks n (fun h => 0 < h) _ _ (milstein_tracks n SD sd B b HS HB _ _ (v_strat_tracks n)) ts sv' (Inc (Hinc (or_intror Hn))) X x HX). }
  right. exists KeyError. split; reflexivity. }
  {  destruct (String.eqb_spec name "euler") as [_|_].
  { unfold EulerMaruyama. destruct (T "ito"%string all_noises) as [(er & E1 & E2)|(E1 & E2)].
    - right. exists er. rewrite E1. split; [reflexivity|]. intros e. now rewrite E2.
    - destruct (fixed_sdeint_tracks n (fun _ => True) _ _ (em_tracks n SD sd B b HS HB) ts sv' (fun _ _ => I) X x HX) as [(times & A & a & G1 & G2 & G3)|(er & G1 & G2)].
      + left. exists times, A, a. rewrite E1. cbn [rbind ss_fixed ss_step].  split; [exact G1|]. split; [|exact G3]. intros e. rewrite E2. exact (G2 e).
      + right. exists er. rewrite E1. cbn [rbind ss_fixed ss_step].  split; [exact G1|]. intros e. rewrite E2. exact (G2 e). }
  destruct (String.eqb_spec name "eulerHeun") as [_|_].
  { unfold EulerHeun. destruct (T "stratonovich"%string all_noises) as [(er & E1 & E2)|(E1 & E2)].
    - right. exists er. rewrite E1. split; [reflexivity|]. intros e. now rewrite E2.
    - destruct (fixed_sdeint_tracks n (fun _ => True) _ _ (heun_tracks n SD sd B b HS HB) ts sv' (fun _ _ => I) X x HX) as [(times & A & a & G1 & G2 & G3)|(er & G1 & G2)].
      + left. exists times, A, a. rewrite E1. cbn [rbind ss_fixed ss_step].  split; [exact G1|]. split; [|exact G3]. intros e. rewrite E2. exact (G2 e).
      + right. exists er. rewrite E1. cbn [rbind ss_fixed ss_step].  split; [exact G1|]. intros e. rewrite E2. exact (G2 e). }
  destruct (String.eqb_spec name "midpoint") as [_|_]; [right; exists TypeError; split; reflexivity|].
  destruct (String.eqb_spec name "milstein_ito") as [Hn|_].
  { cbn [rbind MilsteinIto ss_fixed ss_step]. 
    exact (fixed_sdeint_tracks n (fun h => 0 < h) _ _ (milstein_tracks n SD sd B b HS HB _ _ (v_ito_tracks n)) ts sv' (Inc (Hinc (or_introl Hn))) X x HX). }
  destruct (String.eqb_spec name "milstein_stratonovich") as [Hn|_].
  { cbn [rbind MilsteinStratonovich ss_fixed ss_step]. 
    exact (fixed_sdeint_tracks n (fun h => 0 < h) _ _ (milstein_tracks n SD sd B b HS HB _ _ (v_strat_tracks n)) ts sv' (Inc (Hinc (or_intror Hn))) X x HX). }
  right. exists KeyError. split; reflexivity. }
Qed.

(** dX = (1 + e) X dt + e X dW from 2 + e along the path W(t) = t, increasing grid *)
Lemma C164_ex_pf :
  let SD := @MkSde DR (fun (_ : R * R) Y => map (@nmul DR (1, 1)) Y) (fun (_ : R * R) Y => map (@nmul DR (0, 1)) Y) (Some "diagonal"%string) (Some "ito"%string) : sde_func DR in
  let sd := fun e => @MkSde ROps (fun (_ : R) y => map (Rmult (1 + e)) y) (fun (_ : R) y => map (Rmult e) y) (Some "diagonal"%string) (Some "ito"%string) : sde_func ROps in
  tracks_sde 1 SD sd /\ same_path 1 (fun t u : R * R => [(fst u - fst t, 0)]) (fun t u : R => [u - t]) /\
  tracks_vec 1 [(2, 1)] (fun e => [2 + e]) /\ increasing [0; 1; 3].
Proof.
  cbv zeta.
  assert (I : tracks (0, 1) (fun e => e)) by (split; [reflexivity|apply (derivable_pt_lim_id 0)]).
  assert (A : forall a, tracks (a, 1) (fun e => a + e)).
  { intros a. split; [cbn; lra|]. cbn [snd]. replace 1 with (0 + 1) by lra. apply (derivable_pt_lim_plus (fun _ => a) (fun e => e)); [apply derivable_pt_lim_const|apply (derivable_pt_lim_id 0)]. }
  assert (M : forall k c n, tracks k c -> tracks_field n (fun _ Y => map (@nmul DR k) Y) (fun e _ y => map (Rmult (c e)) y)).
  { intros k c n Hk t Y y (L1 & L2 & H). split; [now rewrite map_length|]. split; [intros e; now rewrite map_length|].
    intros i Hi. refine (eq_ind_r (fun d => tracks d _) _ (eq_trans (nth_indep (map (@nmul DR k) Y) (0, 0) (@nmul DR k (0, 0)) _) (map_nth (@nmul DR k) Y (0, 0) i)));
      [|rewrite map_length; change (num DR) with (R * R)%type; lia].
    apply (tr_ext _ (fun e => c e * nth i (y e) 0)); [|apply tr_mul; auto].
    intros e. symmetry. rewrite (nth_indep _ 0 (Rmult (c e) 0)) by (rewrite map_length, L2; exact Hi). apply map_nth. }
  split; [|split; [|split]].
  - split; [exact (M (1, 1) (fun e => 1 + e) 1%nat (A 1))|]. split; [exact (M (0, 1) (fun e => e) 1%nat I)|]. split; reflexivity.
  - intros t u. split; reflexivity.
  - split; [reflexivity|]. split; [reflexivity|]. intros [|i] Hi; [apply A|lia].
  - intros [|[|k]] Hk; cbn in *; [lra|lra|lia].
Qed.
