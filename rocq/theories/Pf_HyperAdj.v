(** Proofs: hypersolvers and the adjoint method. *)
From Coq Require Import ZArith QArith Qreals Reals Lra Lia List Bool.
From Verif Require Import Num Py Tensor M_Constants M_SolversOde M_Utils M_Interp M_Odeint M_Sens M_Hyper.
From Verif Require Import Spec_Ode Spec_Trees Spec_RK.
From Verif Require Import L_Base L_Fixed L_Vec L_Steps L_Steps2 L_Fixed2 Pf_Fixed L_Reach L_Inv Pf_Hyper.
Import ListNotations.
Local Notation length := List.length.
Local Open Scope R_scope.

(** The hypersolvers whose network g accepts states with n elements *)
Definition sized_hypersolver {K : NumOps} (n : nat) (g : K -> vec K -> vec K) (s : solver K (vec K)) : Prop :=
  s = HyperEulerN n g \/ s = HyperMidpointN n g \/ s = HyperRungeKutta4N n g.

Lemma sized_step_raises {K : NumOps} n g (s : solver K (vec K)) : sized_hypersolver n g s ->
  s_fixed s = true /\ forall f x t dt, length x <> n -> snd (s_step s f x t dt None) = Err RuntimeError.
Proof.
  intros [-> | [-> | ->]]; (split; [reflexivity|]); intros f x t dt Hx; cbn [s_step HyperEulerN HyperMidpointN HyperRungeKutta4N mk_solver];
    unfold hyper_step_res; rewrite snd_mbind.
  - unfold euler_step, first_stage, call. rewrite !mbind_Ok. cbn [snd mret rbind]. rewrite snd_mbind, snd_mlift.
    unfold sized. now rewrite (proj2 (Nat.eqb_neq _ _) Hx).
  - unfold midpoint_step, first_stage, call. rewrite !mbind_Ok. cbn [snd mret rbind]. rewrite snd_mbind, snd_mlift.
    unfold sized. now rewrite (proj2 (Nat.eqb_neq _ _) Hx).
  - unfold rk4_step, first_stage, call. rewrite !mbind_Ok. cbn [snd mret rbind]. rewrite snd_mbind, snd_mlift.
    unfold sized. now rewrite (proj2 (Nat.eqb_neq _ _) Hx).
Qed.

(** a solve on two times whose step raises *)
Lemma two_point_raises {K : NumOps} fuel f (A : vec K) a c s atol rtol semi : s_fixed s = true ->
  (forall f t dt, snd (s_step s f A t dt None) = Err RuntimeError) ->
  exists e, snd (@odeint K fuel f A (TTensor [a; c]) s atol rtol false false [] semi) = Err e /\ (e = RuntimeError \/ e = AssertionError).
Proof.
  intros Hfix Hs. unfold odeint. rewrite snd_mbind, snd_mlift.
  unfold prep_time. cbn [ts_list pyget nth_error rbind].
  assert (G : forall f t t', exists e, snd (@fixed_odeint K (vec K) f A [t; t'] (s_step s) []) = Err e /\ (e = RuntimeError \/ e = AssertionError)).
  { intros f0 t t'. unfold fixed_odeint. cbv zeta. destruct (negb _); [exists AssertionError; auto|]. exists RuntimeError. split; [|auto].
    rewrite snd_mbind, snd_mlift. change (pyget [t; t'] 0) with (Ok t). cbn [rbind]. rewrite snd_mbind, snd_mlift. change (pylast [t; t']) with (Ok t'). cbn [rbind].
    rewrite snd_mbind, snd_mlift. change (pyget [t; t'] 1) with (Ok t'). cbn [rbind]. rewrite snd_mbind. cbn [length Nat.sub fixed_loop]. rewrite snd_mbind, Hs. reflexivity. }
  destruct (c <? a)%N; cbn [rbind]; rewrite Hfix; apply G.
Qed.

(** C147 (REFUTED).  The adjoint solver defaults to the solver of the forward pass, so the correction network is applied to the
    concatenation of state, adjoint, parameter gradients and time gradient.  For every vector field, every state with at least one
    element, every number of parameters, any arithmetic: if the network accepts the states of the equation only, the backward pass raises. *)
Lemma C147_backward_raises_refuted_pf :
  forall (K : NumOps) fuel n g s F nmu atol rtol t_sol sol gt gx, sized_hypersolver n g s ->
  (forall x, In x sol -> length x = n) -> (forall w, In w gx -> length w = n) ->
  length sol = length t_sol -> length gx = length t_sol -> length gt = length t_sol -> (2 <= length t_sol)%nat ->
  exists e, @adjoint_backward K fuel F nmu s atol rtol t_sol sol gt gx = Err e /\ (e = RuntimeError \/ e = AssertionError).
Proof.
  intros K fuel n g s F nmu atol rtol t_sol sol gt gx Hs Hsol Hgx L1 L2 L3 L4.
  destruct (sized_step_raises n g s Hs) as [Hfix Hr].
  assert (P : forall {X} (l : list X), (2 <= length l)%nat -> exists l' a b, l = l' ++ [b; a] /\ pylast l = Ok a /\ In a l).
  { intros X l Hl. destruct (exists_last (l := l)) as (l1 & a & E); [destruct l; cbn in Hl; [lia|discriminate]|].
    destruct (exists_last (l := l1)) as (l2 & b & E2). { intros ->. subst l. cbn in Hl. lia. }
    subst l l1. rewrite <- app_assoc. exists l2, a, b. split; [reflexivity|]. split; [|apply in_or_app; right; right; now left].
    unfold pylast. rewrite rev_app_distr. reflexivity. }
  destruct (P (vec K) sol (eq_ind_r (fun k => (2 <= k)%nat) L4 L1)) as (sol' & xT & x0 & E1 & Q1 & I1). destruct (P (vec K) gx (eq_ind_r (fun k => (2 <= k)%nat) L4 L2)) as (gx' & lT & g0 & E2 & Q2 & I2).
  destruct (P (num K) t_sol L4) as (ts' & tT & tp & E3 & Q3 & _). destruct (P (num K) gt (eq_ind_r (fun k => (2 <= k)%nat) L4 L3)) as (gt' & gT & gp & E4 & _ & _).
  unfold adjoint_backward. rewrite Q1, Q2, Q3. cbn [rbind]. rewrite E3, E2, E4, !rev_app_distr. cbn [rev app]. cbn [adj_loop]. unfold adj_interval.
  destruct (negb _); [exists RuntimeError; auto|].
  match goal with |- context [odeint fuel ?d ?A ?T s atol rtol false false [] ?m] => 
    destruct (two_point_raises fuel d A tT tp s atol rtol m Hfix) as (e & Ee & He) end.
  { intros f t dt. apply Hr. rewrite !app_length. rewrite (Hsol _ I1), (Hgx _ I2). cbn. lia. }
  rewrite Ee. exists e. auto.
Qed.

Lemma fixed_loop_agree {K : NumOps} {X} (f : K -> X -> X) (step step' : @step_fun K X) (P : X -> Prop) :
  (forall x t dt, P x -> snd (step' f x t dt None) = snd (step f x t dt None)) ->
  (forall x t dt fn y e, P x -> snd (step f x t dt None) = Ok (Ret3 fn y e) -> P y) ->
  forall n ts sv k x t dt sol, P x -> snd (@fixed_loop K X f step' ts sv n k x t dt sol) = snd (@fixed_loop K X f step ts sv n k x t dt sol).
Proof.
  intros H HP. induction n as [|n IH]; intros ts sv k x t dt sol Hx; cbn [fixed_loop]; [reflexivity|].
  rewrite !snd_mbind, H by auto. destruct (snd (step f x t dt None)) as [[fn y e|]| |] eqn:E; cbn [rbind]; try reflexivity.
  rewrite !snd_mbind. match goal with |- rbind ?r _ = _ => destruct r end; cbn [rbind]; try reflexivity. apply IH. eapply HP; eauto.
Qed.
Lemma fixed_odeint_agree {K : NumOps} {X} (f : K -> X -> X) (step step' : @step_fun K X) (P : X -> Prop) x ts sv :
  (forall x t dt, P x -> snd (step' f x t dt None) = snd (step f x t dt None)) ->
  (forall x t dt fn y e, P x -> snd (step f x t dt None) = Ok (Ret3 fn y e) -> P y) -> P x ->
  snd (@fixed_odeint K X f x ts step' sv) = snd (@fixed_odeint K X f x ts step sv).
Proof.
  intros H HP Hx. unfold fixed_odeint. cbv zeta. destruct (negb _); [reflexivity|]. rewrite !snd_mbind. destruct (snd (mlift (pyget ts 0))); cbn [rbind]; try reflexivity.
  rewrite !snd_mbind. destruct (snd (mlift (pylast ts))); cbn [rbind]; try reflexivity.
  rewrite ?snd_mbind. destruct (snd (mlift (pyget ts 1))); cbn [rbind]; try reflexivity.
  rewrite !snd_mbind. now rewrite (fixed_loop_agree f step step' P H HP).
Qed.

(** C147 (the true part).  The forward pass is that of the hypersolver: on states of the right size the network never raises, whatever
    grid and save_at (reversed time included). *)
Lemma C147_forward_partial_pf :
  forall fuel n g s s' base p f x ts atol rtol interp all save_at semi,
  (s = HyperEulerN n g /\ s' = @HyperEuler ROps g \/ s = HyperMidpointN n g /\ s' = @HyperMidpoint ROps g \/
   s = HyperRungeKutta4N n g /\ s' = @HyperRungeKutta4 ROps g) ->
  hypersolver g s' base p -> field_on n f -> field_on n g -> length x = n ->
  snd (@odeint ROps fuel f x (@TTensor ROps ts) s atol rtol interp all save_at semi) =
  snd (@odeint ROps fuel f x (@TTensor ROps ts) s' atol rtol interp all save_at semi).
Proof.
  intros fuel n g s s' base p f x ts atol rtol interp all sv semi Hs Hh Hf Hg Hx.
  assert (F : s_fixed s = true /\ s_fixed s' = true) by (destruct Hs as [[-> ->]|[[-> ->]|[-> ->]]]; split; reflexivity).
  assert (A : forall f x t dt, length x = n -> snd (s_step s f x t dt None) = snd (s_step s' f x t dt None)).
  { intros f0 x0 t dt Hx0. destruct Hs as [[-> ->]|[[-> ->]|[-> ->]]];
      cbn [s_step HyperEulerN HyperMidpointN HyperRungeKutta4N HyperEuler HyperMidpoint HyperRungeKutta4 mk_solver];
      rewrite <- (hyper_step_res_total _ _ g); unfold hyper_step_res; rewrite !snd_mbind;
      (match goal with |- rbind ?r _ = _ => destruct r as [[| ]| |] end; cbn [rbind]; try reflexivity);
      rewrite !snd_mbind, !snd_mlift; unfold sized; rewrite (proj2 (Nat.eqb_eq _ _) Hx0); reflexivity. }
  assert (B : exists rows b, builtin_fixed base rows b).
  { destruct Hh as [(_ & -> & _)|[(_ & -> & _)|(_ & -> & _)]]; do 2 eexists; [left|right; left|right; right]; eauto. }
  destruct B as (rows & b & HB).
  assert (G : forall f, field_on n f -> forall ts, snd (@fixed_odeint ROps (vec ROps) f x ts (s_step s) sv) = snd (@fixed_odeint ROps (vec ROps) f x ts (s_step s') sv)).
  { intros f0 Hf0 ts0. apply (@fixed_odeint_agree ROps (vec ROps) f0 (s_step s') (s_step s) (fun z => length z = n)); auto.
    intros z t dt fn y e Hz E. destruct (hyper_stepper_erk g s' base p rows b n f0 Hh HB Hf0 Hg) as (one & lg & Hst & Hone).
    destruct (Hst z t dt) as (fn' & e' & E'). rewrite E' in E. cbn [snd] in E. injection E as _ <- _.
    refine (eq_trans (f_equal (@length R) (Hone t dt z Hz)) _). now apply len_corrected. }
  unfold odeint. rewrite !snd_mbind, !snd_mlift. rewrite (proj1 F), (proj2 F).
  unfold prep_time. destruct (pyget (ts_list _) 0) as [a| |]; cbn [rbind]; try reflexivity. destruct (pyget (ts_list _) 1) as [c| |]; cbn [rbind]; try reflexivity.
  destruct (c <? a)%N; cbn [rbind]; apply G; auto. { now apply neg_field_on. } all: destruct (pyget (ts_list (@TTensor ROps ts)) 1); reflexivity.
Qed.

(** C147: a hypersolver whose network accepts states with one element; the forward solve returns, the backward pass raises. *)
Lemma C147_ex_pf :
  let g := fun (_ : R) (x : list R) => map (Rmult (/ 2)) x in let f := fun (_ : R) (x : list R) => x in
  @sized_hypersolver ROps 1 g (@HyperEulerN ROps 1 g) /\
  (exists times sol, snd (@odeint ROps 0 f [1] (@TTensor ROps [0; 1]) (@HyperEulerN ROps 1 g) 0 0 false false [] None) = Ok (times, sol)) /\
  (forall F : @adj_field ROps, exists e, @adjoint_backward ROps 0 F 1 (@HyperEulerN ROps 1 g) 0 0 [0; 1] [[1]; [5 / 2]] [0; 0] [[0]; [1]] = Err e /\ (e = RuntimeError \/ e = AssertionError)).
Proof.
  cbv zeta. split; [left; reflexivity|]. split.
  - do 2 eexists. etransitivity;
      [apply (C147_forward_partial_pf 0 1 (fun _ x => map (Rmult (/ 2)) x) _ _ (Euler ROps) 1 (fun _ x => x) [1] [0; 1] 0 0 false false [] None (or_introl (conj eq_refl eq_refl)));
       [left; auto|intros t x Hx; exact Hx|intros t x Hx; now rewrite map_length|reflexivity]|].
    apply (hyper_grid 0 (fun _ x => map (Rmult (/ 2)) x) _ (Euler ROps) 1 (to_R_rows q_euler) (to_R qb_euler) 1); [left; auto|left; auto|intros t x Hx; exact Hx|intros t x Hx; now rewrite map_length|reflexivity|lra|].
    intros [|[|i]] [|[|j]] a c Hij Ha Hb; try lia; cbn in Ha, Hb; try (destruct i; discriminate); try (destruct j; discriminate);
      injection Ha as <-; injection Hb as <-; unfold close_to; unfold Rabs; repeat destruct (Rcase_abs _); lra.
  - intros F. apply (C147_backward_raises_refuted_pf ROps 0 1 (fun _ x => map (Rmult (/ 2)) x)); try reflexivity; try (cbn; lia).
    + left. reflexivity.
    + intros x [<- | [<- | []]]; reflexivity.
    + intros x [<- | [<- | []]]; reflexivity.
Qed.
