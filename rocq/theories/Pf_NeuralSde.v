From Coq Require Import ZArith QArith Qreals Reals Lra Lia String List Bool.
From Verif Require Import Num Py Tensor M_Odeint M_Core M_Sde M_Nn M_NeuralSde.
From Verif Require Import Spec_Sde Spec_Core Spec_NeuralSde Spec_Nn L_Base L_Vec L_Adaptive L_Sde Pf_Sde.
Import ListNotations.
Local Open Scope R_scope.
Local Notation length := List.length.

Lemma chunks_rows {K : NumOps} w n (v : vec K) : chunks w n v = rows_of n w v.
Proof.
  unfold rows_of. enough (H : forall a v, map (fun i => firstn w (skipn (i * w) v)) (seq a n) = chunks w n (skipn (a * w) v)) by (symmetry; apply (H 0%nat)).
  clear v. induction n as [|n IH]; intros a v; [reflexivity|]. cbn [seq map chunks]. f_equal. rewrite IH. f_equal.
  clear. revert v. replace (S a * w)%nat with (a * w + w)%nat by lia. generalize (a * w)%nat. clear. intros m.
  induction m as [|m IH]; intros v; [reflexivity|]. destruct v; cbn [plus skipn]; [now destruct w|auto].
Qed.

Lemma rows_shaped {K : NumOps} n w (v : vec K) : length v = (n * w)%nat -> shaped n w (rows_of n w v).
Proof.
  intros H. split; [unfold rows_of; now rewrite map_length, seq_length|]. apply Forall_forall. intros r Hr.
  apply in_map_iff in Hr. destruct Hr as (i & <- & Hi). apply in_seq in Hi.
  rewrite firstn_length, skipn_length, H. assert (i * w + w <= n * w)%nat by nia. lia.
Qed.

Lemma concat_shaped {T} n w (x : list (list T)) : shaped n w x -> length (concat x) = (n * w)%nat.
Proof.
  intros [Hl H]. subst n. induction H as [|r x Hr H IH]; [reflexivity|]. cbn. rewrite app_length, IH, Hr. reflexivity.
Qed.

Lemma computes_call {K : NumOps} {A} n w (c : @callable K A) F t x :
  computes n w c F -> shaped n w x -> sdefunc_call c t x = Ok (F t x).
Proof.
  intros H Hx. destruct (H t x Hx) as (_ & env & He & Hb). unfold sdefunc_call, call_callable.
  destruct He as [p Hs Hp|p Hs Hp]; unfold takes in Hs; rewrite Hs; cbn [sg_params mem existsb].
  - apply String.eqb_neq in Hp. rewrite (String.eqb_sym "t" p), Hp. cbn [orb]. unfold bind_args. cbn.
    rewrite String.eqb_refl. cbn. apply Hb.
  - rewrite String.eqb_refl. cbn [orb]. unfold bind_args. cbn. rewrite String.eqb_refl. cbn.
    rewrite orb_true_r || idtac. rewrite ?String.eqb_refl, ?orb_true_r. cbn. apply Hb.
Qed.

Lemma computes_flat {K : NumOps} {A} n w (c : @callable K A) F t v :
  computes n w c F -> length v = (n * w)%nat -> on_flat w n c t v = Ok (flat n w F t v).
Proof.
  intros H Hv. unfold on_flat, flat. rewrite chunks_rows, (computes_call n w c F); auto. now apply rows_shaped.
Qed.
Lemma flat_len {K : NumOps} {A} n w (c : @callable K A) F t v :
  computes n w c F -> length v = (n * w)%nat -> length (flat n w F t v) = (n * w)%nat.
Proof. intros H Hv. unfold flat. apply concat_shaped. apply (H t _ (rows_shaped n w v Hv)). Qed.

(** the loop with partial functions is the loop with total ones *)
Section Loop.
Context {K : NumOps}.
Variables (n : nat) (stepr : vec K -> K -> K -> res (vec K)) (step : vec K -> K -> K -> vec K).
Hypothesis Hs : forall x t h, length x = n -> stepr x t h = Ok (step x t h) /\ length (step x t h) = n.
Lemma loop_r ts save : forall m k x t dt sol, length x = n ->
  sde_loop_r stepr ts save m k x t dt sol = sde_loop step ts save m k x t dt sol.
Proof.
  induction m as [|m IH]; intros k x t dt sol Hx; [reflexivity|]. cbn [sde_loop_r sde_loop].
  destruct (Hs x t dt Hx) as [E L]. rewrite E. cbn [rbind].
  destruct (if (k <? length ts - 1)%nat then rbind (pyget ts (k + 1)) (fun tn => Ok (tn - (t + dt))%N) else Ok dt); cbn [rbind]; auto.
Qed.
Lemma fixed_r x ts save : length x = n -> fixed_sdeint_r x ts stepr save = fixed_sdeint x ts step save.
Proof.
  intros Hx. unfold fixed_sdeint_r, fixed_sdeint. destruct (pyget ts 0); cbn [rbind]; [|reflexivity..].
  destruct (pylast ts); cbn [rbind]; [|reflexivity..]. destruct (pyget ts 1); cbn [rbind]; [|reflexivity..].
  now rewrite loop_r.
Qed.
End Loop.

Lemma nsde_step {A} n w (cf cg : @callable ROps A) F G (b : brownian ROps) name noise type s :
  computes n w cf F -> computes n w cg G -> (forall s t, length (b s t) = (n * w)%nat) ->
  @sde_str_to_solver ROps name (@MkSde ROps (flat n w F) (flat n w G) noise type) b = Ok s ->
  exists stepr, sde_step_r (on_flat w n cf) (on_flat w n cg) (Some b) name noise type = Ok stepr /\
  forall x t h, length x = (n * w)%nat -> stepr x t h = Ok (ss_step s x t h) /\ length (ss_step s x t h) = (n * w)%nat.
Proof.
  intros Hf Hg Hb Es.
  assert (Lf : forall t x, length x = (n * w)%nat -> length (flat n w F t x) = (n * w)%nat) by (intros; eapply flat_len; eauto).
  assert (Lg : forall t x, length x = (n * w)%nat -> length (flat n w G t x) = (n * w)%nat) by (intros; eapply flat_len; eauto).
  set (sde := @MkSde ROps (flat n w F) (flat n w G) noise type) in *.
  assert (Hz : sized (n * w) sde b) by (repeat split; auto).
  assert (L1 : forall (x : vec ROps) t h, length x = (n * w)%nat -> length (@em_step ROps sde b x t h) = (n * w)%nat) by (intros; now apply em_sized).
  unfold sde_str_to_solver in Es. unfold sde_step_r.
  destruct (name =? "euler")%string.
  { unfold EulerMaruyama, check_types in Es. unfold types_ok. cbn [sde_type sde_noise sde] in *.
    destruct (negb (opt_eqb type "ito")); [discriminate|]. destruct (negb (existsb (opt_eqb noise) all_noises)); [discriminate|].
    cbn [rbind] in *. injection Es as <-. eexists. split; [reflexivity|]. intros x t h Hx. cbn [ss_step]. split; [|now apply L1].
    unfold em_step_r. rewrite (computes_flat n w cf F), (computes_flat n w cg G) by auto. reflexivity. }
  destruct (name =? "eulerHeun")%string.
  { unfold EulerHeun, check_types in Es. unfold types_ok. cbn [sde_type sde_noise sde] in *.
    destruct (negb (opt_eqb type "stratonovich")); [discriminate|]. destruct (negb (existsb (opt_eqb noise) all_noises)); [discriminate|].
    cbn [rbind] in *. injection Es as <-. eexists. split; [reflexivity|]. intros x t h Hx. cbn [ss_step].
    split; [|now apply heun_sized].
    unfold heun_step_r. rewrite (computes_flat n w cf F), (computes_flat n w cg G) by auto. cbn [rbind call_bm].
    rewrite (computes_flat n w cg G); [reflexivity|auto|]. apply vadd_len'; auto. apply vmul_len; auto. }
  destruct (name =? "midpoint")%string; [discriminate|].
  assert (Hm : forall v, (forall b h, length b = (n * w)%nat -> length (v b h) = (n * w)%nat) ->
     forall x t h, length x = (n * w)%nat ->
     milstein_step_r (on_flat w n cf) (on_flat w n cg) (Some b) v x t h = Ok (@milstein_step ROps v sde b x t h) /\
     length (@milstein_step ROps v sde b x t h) = (n * w)%nat).
  { intros v Hv x t h Hx. split; [|now apply mil_sized].
    unfold milstein_step_r. rewrite (computes_flat n w cf F), (computes_flat n w cg G) by auto. cbn [rbind call_bm].
    rewrite (computes_flat n w cg G); [reflexivity|auto|]. apply vadd_len'; [apply vadd_len'; auto|]; apply vscale_len'; auto. }
  destruct (name =? "milstein_ito")%string; [injection Es as <-; eexists; split; [reflexivity|]; cbn [ss_step]; apply Hm|].
  { intros; unfold v_ito; now rewrite map_length. }
  destruct (name =? "milstein_stratonovich")%string; [injection Es as <-; eexists; split; [reflexivity|]; cbn [ss_step]; apply Hm|discriminate].
  intros; unfold v_strat; now rewrite map_length.
Qed.

(** C89.  A first-order NeuralSDE with sensitivity "autograd" and a Brownian motion integrates the SDE
    given by its drift and diffusion, each written f(x) or f(t, x): it returns the grid (unless
    return_t_eval=False) and a trajectory of the documented scheme from x.  States are flattened. *)
Lemma C89_neuralsde_pf :
  forall (A : Type) n w (drift diffusion : @callable ROps A) F G name noise type own b ret x t0 t1 ts S s,
  computes n w drift F -> computes n w diffusion G -> (forall s t, length (b s t) = (n * w)%nat) -> shaped n w x ->
  @sde_str_to_solver ROps name (@MkSde ROps (flat n w F) (flat n w G) (Some noise) (Some type)) b = Ok s ->
  scheme_of name (flat n w F) (flat n w G) b = Some S ->
  exists xs,
  neuralsde_forward w (@MkNsde ROps A drift diffusion 1 name noise type own "autograd" (Some b) ret) x (Some (t0 :: t1 :: ts)) [] =
    Ok (if ret then Some (t0 :: t1 :: ts) else None, xs) /\
  follows S (concat x) (t0 :: t1 :: ts) xs.
Proof.
  intros A n w cf cg F G name noise type own b ret x t0 t1 ts S s Hf Hg Hb Hx Es ES.
  destruct (nsde_step n w cf cg F G b name (Some noise) (Some type) s Hf Hg Hb Es) as (stepr & Er & Hr).
  assert (Hz : sized (n * w) (@MkSde ROps (flat n w F) (flat n w G) (Some noise) (Some type)) b).
  { repeat split; auto; intros; cbn [sde_f sde_g]; eapply flat_len; eauto. }
  destruct (C41_sde_trajectory_pf (n * w) name _ b s S (concat x) t0 t1 ts Hz (concat_shaped n w x Hx) Es ES) as (xs & E & Hfo).
  exists xs. split; [|exact Hfo]. unfold neuralsde_forward. cbn [ns_order Nat.eqb negb ns_span ns_sens ns_drift ns_diffusion ns_bm ns_solver ns_noise ns_type ns_return_t].
  rewrite String.eqb_refl. cbn [negb]. cbv zeta. destruct Hx as [Hn Hx].
  assert (Hn' : @List.length (vec ROps) x = n) by exact Hn. rewrite Hn'. rbw Er. cbn [rbind].
  rewrite (fixed_r (n * w) stepr (ss_step s) Hr) by (apply concat_shaped; split; auto).
  unfold sdeint in E. rewrite Es in E. cbn [rbind] in E.
  destruct (ss_fixed s); [|discriminate]. rbw E. reflexivity.
Qed.

Lemma sde_solver_fixed name sde b s : @sde_str_to_solver ROps name sde b = Ok s -> ss_fixed s = true.
Proof.
  unfold sde_str_to_solver, EulerMaruyama, EulerHeun. intros E.
  repeat match type of E with
  | (if ?c then _ else _) = _ => destruct c
  | rbind ?r _ = _ => destruct r; cbn [rbind] in E
  end; try discriminate; injection E as <-; reflexivity.
Qed.
(** C89.  With any grid and any save_at, forward is sdeint on the flattened problem: same states, same error. *)
Lemma C89_is_sdeint_pf :
  forall (A : Type) n w (drift diffusion : @callable ROps A) F G name noise type own b ret x ts save_at s,
  computes n w drift F -> computes n w diffusion G -> (forall s t, length (b s t) = (n * w)%nat) -> shaped n w x ->
  let sde := @MkSde ROps (flat n w F) (flat n w G) (Some noise) (Some type) in
  @sde_str_to_solver ROps name sde b = Ok s ->
  neuralsde_forward w (@MkNsde ROps A drift diffusion 1 name noise type own "autograd" (Some b) ret) x (Some ts) save_at =
  rbind (@sdeint ROps sde (concat x) ts name b save_at) (fun r => Ok (if ret then Some (fst r) else None, snd r)).
Proof.
  intros A n w cf cg F G name noise type own b ret x ts save_at s Hf Hg Hb Hx sde Es.
  destruct (nsde_step n w cf cg F G b name (Some noise) (Some type) s Hf Hg Hb Es) as (stepr & Er & Hr).
  unfold neuralsde_forward. cbn [ns_order Nat.eqb negb ns_span ns_sens ns_drift ns_diffusion ns_bm ns_solver ns_noise ns_type ns_return_t].
  rewrite String.eqb_refl. cbn [negb]. cbv zeta. destruct Hx as [Hn Hx].
  assert (Hn' : @List.length (vec ROps) x = n) by exact Hn. rewrite Hn'. rbw Er. cbn [rbind].
  rewrite (fixed_r (n * w) stepr (ss_step s) Hr) by (apply concat_shaped; split; auto).
  assert (Hfix : ss_fixed s = true) by exact (sde_solver_fixed name sde b s Es).
  unfold sdeint. rbw Es. cbn [rbind]. rewrite Hfix. reflexivity.
Qed.

(** a drift f(x) = -x, a diffusion g(t, x) = t x and a constant increment *)
Definition ex_drift : @callable ROps unit := @MkCall ROps unit true (Some (MkSig ["x"]%string 0 false false)) (fun _ env =>
  match env with [(_, VState x)] => Ok (map (map Ropp) x) | _ => Err TypeError end).
Definition ex_diffusion : @callable ROps unit := @MkCall ROps unit false (Some (MkSig ["t"; "x"]%string 0 false false)) (fun _ env =>
  match env with [(_, VTime t); (_, VState x)] => Ok (map (map (Rmult t)) x) | _ => Err TypeError end).
Lemma map_shaped {T} n w (g : T -> T) x : shaped n w x -> shaped n w (map (map g) x).
Proof.
  intros [H1 H2]. split; [now rewrite map_length|]. apply Forall_map. eapply Forall_impl; [|exact H2].
  intros r Hr. cbn. now rewrite map_length.
Qed.
Lemma C89_ex_pf :
  computes 2 1 ex_drift (fun (_ : R) => map (map Ropp)) /\ computes 2 1 ex_diffusion (fun t : R => map (map (Rmult t))) /\
  neuralsde_forward 1 (@MkNsde ROps unit ex_drift ex_diffusion 1 "euler" "diagonal" "ito" None "autograd" (Some (fun _ _ : R => [1; 1])) true)
    [[1]; [3]] (Some [1; 2]) [] = Ok (Some [1; 2], [[1; 3]; [1; 3]]).
Proof.
  assert (H1 : computes 2 1 ex_drift (fun (_ : R) => map (map Ropp))).
  { intros t x Hx. split; [now apply map_shaped|]. exists [("x"%string, VState x)]. split; [|reflexivity].
    apply sees_state; [reflexivity|discriminate]. }
  assert (H2 : computes 2 1 ex_diffusion (fun t : R => map (map (Rmult t)))).
  { intros t x Hx. split; [now apply map_shaped|]. exists [("t"%string, VTime t); ("x"%string, VState x)]. split; [|reflexivity].
    apply sees_time; [reflexivity|discriminate]. }
  split; [exact H1|]. split; [exact H2|].
  destruct (C89_neuralsde_pf unit 2 1 ex_drift ex_diffusion (fun (_ : R) => map (map Ropp)) (fun t : R => map (map (Rmult t)))
      "euler" "diagonal" "ito" None (fun _ _ : R => [1; 1]) true [[1]; [3]] 1 2 []
      _ _ H1 H2 ltac:(reflexivity) ltac:(split; [reflexivity|repeat constructor]) eq_refl eq_refl) as (xs & E & Hl & H0 & Hstep).
  refine (eq_trans E _). do 2 f_equal.
      destruct xs as [|a [|b [|c xs]]]; cbn in Hl; try discriminate. cbn in H0. injection H0 as ->.
      specialize (Hstep 0%nat 1 2 _ b eq_refl eq_refl eq_refl eq_refl). destruct Hstep as [Lb Hb].
      f_equal. f_equal. destruct b as [|b0 [|b1 [|]]]; cbn in Lb; try discriminate.
      assert (B0 := Hb 0%nat ltac:(cbn; lia)). assert (B1 := Hb 1%nat ltac:(cbn; lia)). clear Hb.
      unfold comp, flat, rows_of in B0, B1. cbn in B0, B1. f_equal; [lra|f_equal; lra].
Qed.

(** C90, refuted: without a Brownian motion (the default, bm=None) no accepted solver makes a single
    step: forward raises TypeError, for every drift, diffusion and initial condition. *)
Lemma C90_default_bm_refuted_pf :
  forall (A : Type) n w (drift diffusion : @callable ROps A) F G name noise type own ret x t0 t1 ts b s,
  computes n w drift F -> computes n w diffusion G -> shaped n w x ->
  @sde_str_to_solver ROps name (@MkSde ROps (flat n w F) (flat n w G) (Some noise) (Some type)) b = Ok s ->
  neuralsde_forward w (@MkNsde ROps A drift diffusion 1 name noise type own "autograd" None ret) x (Some (t0 :: t1 :: ts)) [] =
    Err TypeError /\
  neuralsde_forward w (default_nsde drift diffusion) x None [] = Err TypeError.
Proof.
  intros A n w cf cg F G name noise type own ret x t0 t1 ts b s Hf Hg Hx Es.
  assert (Lx := concat_shaped n w x Hx).
  assert (G0 : forall name noise type s,
    @sde_str_to_solver ROps name (@MkSde ROps (flat n w F) (flat n w G) (Some noise) (Some type)) b = Ok s ->
    exists stepr, sde_step_r (on_flat w n cf) (on_flat w n cg) None name (Some noise) (Some type) = Ok stepr /\
      forall t h, stepr (concat x) t h = Err TypeError).
  { clear name noise type s own t0 t1 Es. intros name noise type s Es. unfold sde_str_to_solver in Es. unfold sde_step_r.
    destruct (name =? "euler")%string.
    { unfold EulerMaruyama, check_types in Es. unfold types_ok. cbn [sde_type sde_noise] in *.
      destruct (negb (opt_eqb (Some type) "ito")); [discriminate|]. destruct (negb (existsb (opt_eqb (Some noise)) all_noises)); [discriminate|].
      eexists. split; [reflexivity|]. intros t h. unfold em_step_r.
      rewrite (computes_flat n w cf F), (computes_flat n w cg G) by auto. reflexivity. }
    destruct (name =? "eulerHeun")%string.
    { unfold EulerHeun, check_types in Es. unfold types_ok. cbn [sde_type sde_noise] in *.
      destruct (negb (opt_eqb (Some type) "stratonovich")); [discriminate|]. destruct (negb (existsb (opt_eqb (Some noise)) all_noises)); [discriminate|].
      eexists. split; [reflexivity|]. intros t h. unfold heun_step_r.
      rewrite (computes_flat n w cf F), (computes_flat n w cg G) by auto. reflexivity. }
    destruct (name =? "midpoint")%string; [discriminate|].
    destruct (name =? "milstein_ito")%string; [eexists; split; reflexivity|].
    destruct (name =? "milstein_stratonovich")%string; [eexists; split; reflexivity|discriminate]. }
  assert (Hn' : @List.length (vec ROps) x = n) by apply Hx.
  assert (G1 : forall stepr t0 t1 ts, (forall t h, stepr (concat x) t h = Err TypeError) ->
     fixed_sdeint_r (concat x) (t0 :: t1 :: ts) stepr (t0 :: t1 :: ts) = Err TypeError).
  { clear. intros stepr t0 t1 ts H. unfold fixed_sdeint_r. cbn [pyget nth_error rbind].
    rbw (pylast_last (t0 :: t1 :: ts) t0 ltac:(discriminate)). cbn [rbind].
    replace (length (t0 :: t1 :: ts) - 1)%nat with (S (length ts)) by (cbn; lia). cbn [sde_loop_r]. rewrite H. reflexivity. }
  split.
  - unfold neuralsde_forward. cbn [ns_order Nat.eqb negb ns_span ns_sens ns_drift ns_diffusion ns_bm ns_solver ns_noise ns_type ns_return_t].
    rewrite String.eqb_refl. cbn [negb]. cbv zeta. rewrite Hn'.
    destruct (G0 name noise type s Es) as (stepr & E & Hr). rbw E. cbn [rbind]. rbw (G1 stepr t0 t1 ts Hr). reflexivity.
  - unfold neuralsde_forward, default_nsde. cbn [ns_order Nat.eqb negb ns_span ns_sens ns_drift ns_diffusion ns_bm ns_solver ns_noise ns_type ns_return_t].
    rewrite String.eqb_refl. cbn [negb]. cbv zeta. rewrite Hn'.
    destruct (G0 "euler" "diagonal" "ito" _ eq_refl)%string as (stepr & E & Hr). rbw E. cbn [rbind]. rbw (G1 stepr (nQ 0) n1 [] Hr). reflexivity.
Qed.

(** C91, refuted: any sensitivity other than "autograd" raises NotImplementedError *)
Lemma C91_sensitivity_refuted_pf :
  forall (K : NumOps) (A : Type) w (m : @neural_sde K A) x ts save,
  ns_sens m <> "autograd"%string -> neuralsde_forward w m x ts save = Err NotImplementedError.
Proof.
  intros K A w m x ts save H. unfold neuralsde_forward. destruct (negb (ns_order m =? 1)%nat); [reflexivity|].
  apply String.eqb_neq in H. rewrite H. reflexivity.
Qed.

Definition as_tensor {T} (w : nat) (x : list (list T)) : tensor T 2 := ([length x; w], x).
(* [timed]: forward(t, x) instead of forward(x) *)
Definition depth_drift {A : Type} (timed : bool) (w : nat) (g : list (vec ROps) -> res (list (vec ROps))) : @callable ROps A :=
  @MkCall ROps A true (Some (MkSig (if timed then ["t"; "x"] else ["x"])%string 0 false timed)) (fun depth env =>
    match env with
    | [(_, VState x)] | (_, VTime _) :: (_, VState x) :: _ => rbind (@depthcat ROps 2 1 depth (as_tensor w x)) (fun y => g (snd y))
    | _ => Err TypeError
    end).
Lemma depthcat_rows w t (x : list (vec ROps)) :
  @depthcat ROps 2 1 (Some t) (as_tensor w x) = Ok ([length x; w + 1]%nat, map (fun row => row ++ [t]) x).
Proof.
  unfold depthcat, torch_cat, as_tensor. change (dim_index 2 1) with (@Ok nat 1%nat). cbn [rbind fst snd upd].
  match goal with |- context [if ?c then _ else _] => destruct c as [_|N]; [|now contradict N] end.
  cbn [nth]. f_equal. f_equal. rops. rewrite Q2R_1', Rmult_1_r.
  induction x as [|r x IH]; [reflexivity|]. cbn [map]. rewrite <- IH. reflexivity.
Qed.
(** C92, refuted: a drift forward(x) or forward(t, x) that starts with DepthCat(1), which works in a NeuralODE, raises TypeError in a
    NeuralSDE, because SDEFunc never sets the attribute t. *)
Lemma C92_depthcat_refuted_pf :
  forall (A : Type) (empty : A) timed w g diffusion noise own b ret x t0 t1 ts, (1 <= w)%nat ->
  neuralsde_forward w (@MkNsde ROps A (depth_drift timed w g) diffusion 1 "euler" noise "ito" own "autograd" (Some b) ret) x (Some (t0 :: t1 :: ts)) []
    = Err (if existsb (String.eqb noise) ["general"; "diagonal"; "scalar"; "additive"]%string then TypeError else ValueError) /\
  (shaped (length x) w x -> exists v, neuralode_vf (depth_drift timed w g) 1 None "adjoint" = Ok v /\
    forall t, solver_call empty v t x = g (map (fun row => row ++ [t]) x)).
Proof.
  intros A empty timed w g dif noise own b ret x t0 t1 ts Hw. split.
  - unfold neuralsde_forward. cbn [ns_order Nat.eqb negb ns_span ns_sens ns_drift ns_diffusion ns_bm ns_solver ns_noise ns_type ns_return_t].
    rewrite String.eqb_refl. cbn [negb]. cbv zeta. unfold sde_step_r, types_ok.
    cbn [String.eqb Ascii.eqb Bool.eqb opt_eqb negb].
    replace (existsb (opt_eqb (Some noise)) all_noises) with (existsb (String.eqb noise) ["general"; "diagonal"; "scalar"; "additive"]%string) by reflexivity.
    destruct (existsb (String.eqb noise) _); [|reflexivity]. cbn [negb rbind]. unfold fixed_sdeint_r. cbn [pyget nth_error rbind].
    rbw (pylast_last (t0 :: t1 :: ts) t0 ltac:(discriminate)). cbn [rbind].
    replace (length (t0 :: t1 :: ts) - 1)%nat with (S (length ts)) by (cbn; lia). cbn [sde_loop_r]. destruct timed; reflexivity.
  - intros Hx. exists (Def (if timed then User (depth_drift timed w g) else Base (depth_drift timed w g) false) 1 None "adjoint").
    split; [destruct timed; reflexivity|]. intros t.
    transitivity (rbind (@depthcat ROps 2 1 (Some t) (as_tensor w x)) (fun y => g (snd y))); [destruct timed; reflexivity|].
    rewrite depthcat_rows. reflexivity.
Qed.
