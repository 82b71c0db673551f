(** Options without effect and the warnings about them. *)
From Coq Require Import ZArith QArith Qreals Reals Lra Lia String List Bool.
From Verif Require Import Num Py Tensor M_SolversOde M_Utils M_Interp M_Odeint M_Sde M_Core M_Warn L_Base.
Import ListNotations.
Local Notation length := List.length.
Local Open Scope R_scope.

(** times that odeint accepts: a tensor with two entries or more, or a list of times that does not start backwards *)
Definition accepted (ts : tspan ROps) : Prop :=
  exists a b l, ts_list ts = a :: b :: l /\ (ts = TTensor (a :: b :: l) \/ a <= b).

(** the option is the only one in which the two calls may differ *)
Definition same_outcome (s : solver ROps (vec ROps)) (o o' : options ROps) : Prop :=
  forall fuel f x ts, snd (odeint_call fuel f x ts s o) = snd (odeint_call fuel f x ts s o').

Lemma Reqb_neg a b : negb (@neqb ROps a b) = true <-> a <> b.
Proof. cbn. unfold Reqb. destruct (Req_EM_T a b); cbn; split; congruence. Qed.

Lemma tol_warn_in a r w : In w (@tol_warn ROps a r) <-> w = WTol /\ (a <> Q2R (1 # 1000) \/ r <> Q2R (1 # 1000)).
Proof.
  unfold tol_warn. rewrite <- !Reqb_neg. destruct (negb _), (negb _); cbn; intuition congruence.
Qed.

Lemma accepted_warn ts s a r v n : accepted ts ->
  @odeint_warn ROps ts s a r v n =
  (if match ts_list ts with t0 :: t1 :: _ => (@nltb ROps t1 t0) | _ => false end && v then [WReversed] else [])
  ++ (if s_is_tsit5 s && v then [WTsit5] else [])
  ++ (if s_fixed s then tol_warn a r else if (0 <? n)%nat then [WSave] else []).
Proof.
  intros (t0 & t1 & l & E & H). unfold odeint_warn. rewrite E.
  change (pyget (t0 :: t1 :: l) 1) with (Ok t1). change (pyget (t0 :: t1 :: l) 0) with (Ok t0). cbn [rbind].
  destruct H as [->|H]; [destruct (t1 <? t0)%N; reflexivity|].
  assert (@nltb ROps t1 t0 = false) as -> by (cbn; unfold Rltb; destruct (Rlt_dec t1 t0); [lra|easy]).
  destruct ts; reflexivity.
Qed.
Lemma quiet_warn ts s a r n : accepted ts ->
  @odeint_warn ROps ts s a r false n = (if s_fixed s then tol_warn a r else if (0 <? n)%nat then [WSave] else []).
Proof. intros H. rewrite accepted_warn by exact H. now rewrite !andb_false_r. Qed.

(** C166: tolerances given to a fixed-step solver and save_at given to an adaptive one do not change the outcome, and
    exactly then the corresponding warning is issued; verbose changes nothing but the warnings about reversed times
    and about tsit5. *)
Lemma C166_announced_partial_pf : forall s o ts, accepted ts ->
  (s_fixed s = true -> forall a r, same_outcome s o
     (MkOpt a r (o_stops o) (o_verbose o) (o_interp o) (o_all o) (o_save o) (o_args o) (o_semi o))) /\
  (s_fixed s = false -> forall l, same_outcome s o
     (MkOpt (o_atol o) (o_rtol o) (o_stops o) (o_verbose o) (o_interp o) (o_all o) l (o_args o) (o_semi o))) /\
  (forall v, same_outcome s o
     (MkOpt (o_atol o) (o_rtol o) (o_stops o) v (o_interp o) (o_all o) (o_save o) (o_args o) (o_semi o))) /\
  (forall fuel f x, let ws := fst (odeint_call fuel f x ts s o) in
     (In WTol ws <-> s_fixed s = true /\ (o_atol o <> Q2R (1 # 1000) \/ o_rtol o <> Q2R (1 # 1000))) /\
     (In WSave ws <-> s_fixed s = false /\ o_save o <> []) /\
     (In WTsit5 ws <-> s_is_tsit5 s = true /\ o_verbose o = true) /\
     (In WReversed ws <-> o_verbose o = true /\ exists a b l, ts_list ts = a :: b :: l /\ b < a)).
Proof.
  intros s o ts A. split; [|split; [|split]].
  - intros F a r fuel f x ts'. cbn. unfold odeint. now rewrite F.
  - intros F l fuel f x ts'. cbn. unfold odeint. now rewrite F.
  - intros v fuel f x ts'. reflexivity.
  - intros fuel f x ws. subst ws. cbn [odeint_call fst]. rewrite accepted_warn by exact A. rewrite !in_app_iff.
    destruct A as (t0 & t1 & l & E & H). rewrite E.
    assert (R : (@nltb ROps t1 t0 = true) <-> t1 < t0) by (cbn; unfold Rltb; destruct (Rlt_dec t1 t0); split; congruence || easy).
    assert (Q : (exists a b l0, t0 :: t1 :: l = a :: b :: l0 /\ b < a) <-> (@nltb ROps t1 t0 = true)).
    { rewrite R. split; [intros (a & b & l0 & E1 & H1); injection E1 as -> -> ->; exact H1|intros; now exists t0, t1, l]. }
    pose proof (tol_warn_in (o_atol o) (o_rtol o)) as T.
    rewrite Q. clear Q R H E. generalize (@nltb ROps t1 t0) (s_is_tsit5 s) (o_verbose o). intros b1 b2 b3.
    pose proof (T WTol) as T1. pose proof (T WSave) as T2. pose proof (T WTsit5) as T3. pose proof (T WReversed) as T4. clear T.
    destruct (o_save o) as [|y sv]; cbn [length Nat.ltb Nat.leb];
    destruct b1, b2, b3, (s_fixed s); cbn [andb In]; repeat split; intuition (try discriminate; auto).
Qed.

(** C166: without a warning and without effect: t_stops and args for every solver; the interpolator, return_all_eval and
    seminorm for every fixed-step solver; the interpolator for tsit5 *)
Lemma C166_silent_pf : forall s a r v sa stops stops' n n' i i' al al' se se',
  same_outcome s (MkOpt a r stops v i al sa n se) (MkOpt a r stops' v i al sa n' se) /\
  (s_fixed s = true -> same_outcome s (MkOpt a r stops v i al sa n se) (MkOpt a r stops v i' al' sa n se')) /\
  (s_is_tsit5 s = true -> same_outcome s (MkOpt a r stops v i al sa n se) (MkOpt a r stops v i' al sa n se)) /\
  (forall fuel f x ts, fst (odeint_call fuel f x ts s (MkOpt a r stops v i al sa n se))
                     = fst (odeint_call fuel f x ts s (MkOpt a r stops' v i' al' sa n' se'))).
Proof.
  intros. split; [|split; [|split]].
  - intros fuel f x ts. reflexivity.
  - intros F fuel f x ts. cbn. unfold odeint. now rewrite F.
  - intros F fuel f x ts. cbn. unfold odeint. now rewrite F.
  - intros fuel f x ts. reflexivity.
Qed.

(** C166 is refuted: t_stops=[1/2] has no effect on any solve, and no call with it warns *)
Lemma C166_silent_refuted_pf :
  ~ (forall s (o : options ROps), o <> odeint_defaults -> same_outcome s o odeint_defaults ->
       forall fuel f x ts, accepted ts -> fst (odeint_call fuel f x ts s o) <> []).
Proof.
  intros H.
  set (s := @Euler ROps) in *.
  apply (H s (@MkOpt ROps (Q2R (1 # 1000)) (Q2R (1 # 1000)) (Some [1 / 2]) false false false [] 0%nat None)
           ltac:(discriminate) ltac:(intros fuel f x ts; reflexivity) 0%nat (fun _ y => y) [] (@TTensor ROps [0; 1])).
  - exists 0, 1, []. split; [reflexivity|now left].
  - cbn [odeint_call fst]. rewrite quiet_warn by (exists 0, 1, []; split; [reflexivity|now left]). cbn [s_fixed s].
    unfold tol_warn. cbn [o_atol o_rtol]. unfold milli. cbn. unfold Reqb. destruct (Req_EM_T _ _); [reflexivity|congruence].
Qed.

Lemma tol_warn_other a r : a <> Q2R (1 # 1000) -> @tol_warn ROps a r = [WTol].
Proof. intros H. unfold tol_warn. assert (negb (@neqb ROps a milli) = true) as -> by now apply Reqb_neg. reflexivity. Qed.
Lemma tol_warn_milli : @tol_warn ROps (Q2R (1 # 1000)) (Q2R (1 # 1000)) = [].
Proof. unfold tol_warn, milli. cbn. unfold Reqb. destruct (Req_EM_T _ _); [reflexivity|congruence]. Qed.
Lemma q_4 : Q2R (1 # 10000) <> Q2R (1 # 1000). Proof. unfold Q2R. cbn. lra. Qed.

Lemma back_warn s (tl : tolerances ROps) rts : s_fixed s = true -> tl_atol_adj tl <> Q2R (1 # 1000) ->
  adjoint_warn s tl rts = repeat WTol (length rts - 1).
Proof.
  intros F H. induction rts as [|a [|b l] IH]; [reflexivity|reflexivity|].
  assert (E : adjoint_warn s tl (a :: b :: l) = odeint_warn (TTensor [a; b]) s (tl_atol_adj tl) (tl_rtol_adj tl) false 0 ++ adjoint_warn s tl (b :: l)) by reflexivity.
  rewrite E, IH, quiet_warn, F, tol_warn_other; [|exact H|exists a, b, []; split; [reflexivity|now left]].
  cbn [length]. now rewrite !Nat.sub_succ, !Nat.sub_0_r.
Qed.

(** C166: warnings about options that nobody has given.  ODEProblem(f, solver=...) with any fixed-step solver and its
    own default tolerances warns about tolerances in every solve; NeuralODE does so in the backward pass of the adjoint,
    once for each interval, although its forward pass does not; with an adjoint sensitivity, args produces the warning
    about save_at, while save_at itself is ignored without a warning *)
Lemma C166_unrequested_pf : forall s sens ts, accepted ts -> (sens = "autograd" \/ sens = "adjoint" \/ sens = "interpolated_adjoint")%string ->
  (s_fixed s = true ->
     problem_warn sens ts s (@problem_tol ROps) 0 0 = [WTol] /\
     problem_warn sens ts s (@neuralode_tol ROps) 0 0 = [] /\
     forall t_sol, adjoint_warn s neuralode_tol (rev t_sol) = repeat WTol (length t_sol - 1)) /\
  (s_fixed s = false -> sens <> "autograd"%string -> forall tl nsave nargs, (0 < nargs)%nat ->
     problem_warn sens ts s tl 0 nargs = [WSave] /\ problem_warn sens ts s tl nsave 0 = []).
Proof.
  intros s sens ts A Hs. split.
  - intros F. split; [|split].
    + destruct Hs as [->|[->| ->]]; unfold problem_warn; cbn [sens_of String.eqb Ascii.eqb Bool.eqb];
      rewrite quiet_warn, F by exact A; exact (tol_warn_other _ _ q_4).
    + destruct Hs as [->|[->| ->]]; unfold problem_warn; cbn [sens_of String.eqb Ascii.eqb Bool.eqb];
      rewrite quiet_warn, F by exact A; exact tol_warn_milli.
    + intros t_sol. rewrite back_warn; [now rewrite rev_length|exact F|exact q_4].
  - intros F N tl nsave nargs Hn.
    assert ((0 <? nargs)%nat = true) as L by now apply Nat.ltb_lt.
    destruct Hs as [->|[->| ->]]; [congruence| |]; unfold problem_warn; cbn [sens_of String.eqb Ascii.eqb Bool.eqb];
    rewrite !quiet_warn, F by exact A; rewrite L; split; reflexivity.
Qed.

(** C166 is refuted in the other direction: a problem for which no option was given warns *)
Lemma C166_unrequested_refuted_pf :
  ~ (forall s ts, accepted ts -> problem_warn "autograd" ts s (@problem_tol ROps) 0 0 = []).
Proof.
  intros H. assert (A : accepted (@TTensor ROps [0; 1])) by (exists 0, 1, []; split; [reflexivity|now left]).
  specialize (H (@RungeKutta4 ROps) _ A).
  destruct (C166_unrequested_pf (@RungeKutta4 ROps) "autograd"%string _ A (or_introl eq_refl)) as [[E _] _]; [reflexivity|].
  rewrite E in H. discriminate H.
Qed.

(** rk4 with atol=1e-4, a reversed tensor of times and verbose=True: two warnings *)
Lemma C166_ex_pf :
  fst (@odeint_call ROps 0 (fun _ y => y) [1] (@TTensor ROps [1; 0]) (@RungeKutta4 ROps)
        (@MkOpt ROps (Q2R (1 # 10000)) (Q2R (1 # 1000)) None true false false [] 0 None)) = [WReversed; WTol].
Proof.
  cbn [odeint_call fst]. rewrite accepted_warn by (exists 1, 0, []; split; [reflexivity|now left]).
  cbn [o_atol o_rtol o_verbose]. rewrite (tol_warn_other _ _ q_4).
  cbn. unfold Rltb. destruct (Rlt_dec 0 1); [reflexivity|lra].
Qed.

(** C166: odeint_symplectic with an adaptive solver ignores save_at without a warning; sdeint announces tolerances *)
Lemma C166_others_pf : forall fuel (f : num ROps -> vec ROps -> vec ROps) ord x ts s alf a r all l l',
  (s_fixed s = false ->
     odeint_symplectic fuel f ord x ts s alf a r all l = odeint_symplectic fuel f ord x ts s alf a r all l' /\
     @symplectic_warn ROps ord alf ts s a r false = []) /\
  (forall sde name bm sv,
     (exists sol, sdeint sde x (ts_list ts) name bm sv = Ok sol) ->
     forall w, In w (@sdeint_warn ROps sde name bm a r) <-> w = WTol /\ (a <> Q2R (1 # 1000) \/ r <> Q2R (1 # 1000))).
Proof.
  intros. split.
  - intros F. split; [unfold odeint_symplectic; now rewrite F|].
    unfold symplectic_warn. rewrite F. destruct (rbind _ _) as [b| |]; [|easy..]. rewrite andb_false_r. cbn [app].
    destruct b, ts, ord as [o|]; try reflexivity; destruct (alf && (o =? 2)%nat); reflexivity.
  - intros sde name bm sv (sol & E) w. unfold sdeint in E. unfold sdeint_warn.
    destruct (sde_str_to_solver name sde bm) as [s'| |]; [|discriminate..]. cbn [rbind] in E.
    destruct (ss_fixed s'); [|discriminate]. apply tol_warn_in.
Qed.

(** C166: a call with the default options warns about nothing *)
Lemma C166_defaults_pf : forall fuel f x ts s, accepted ts -> fst (@odeint_call ROps fuel f x ts s odeint_defaults) = [].
Proof.
  intros fuel f x ts s A. unfold odeint_call, odeint_defaults. cbn [fst o_atol o_rtol o_verbose o_save]. rewrite quiet_warn by exact A.
  destruct (s_fixed s); [exact tol_warn_milli|reflexivity].
Qed.

(** C166: odeint_symplectic announces tolerances of fixed-step solvers, unless it raises before (field without order, or
    asynchronous leapfrog with a field of order two) *)
Lemma C166_symplectic_pf : forall ord alf ts s a r v, accepted ts ->
  In WTol (@symplectic_warn ROps ord alf ts s a r v) <->
  (exists o, ord = Some o /\ ~ (alf = true /\ o = 2%nat)) /\ s_fixed s = true /\ (a <> Q2R (1 # 1000) \/ r <> Q2R (1 # 1000)).
Proof.
  intros ord alf ts s a r v (t0 & t1 & l & E & H). unfold symplectic_warn. rewrite E. cbn [pyget rbind]. 
  change (pyget (t0 :: t1 :: l) 1) with (Ok t1). change (pyget (t0 :: t1 :: l) 0) with (Ok t0). cbn [rbind].
  set (b := @nltb ROps t1 t0) in *.
  assert (W : (exists l0, ts = TTensor l0) \/ b = false).
  { destruct H as [->|H]; [left; now eexists|right]. unfold b. cbn. unfold Rltb. destruct (Rlt_dec t1 t0); [lra|reflexivity]. }
  pose proof (tol_warn_in a r WTol) as T. rewrite in_app_iff.
  assert (N : ~ In WTol (if b && v then [WReversed] else [])) by (destruct (b && v); [intros [X|[]]; discriminate X|intros []]).
  assert (G : In WTol (match ord with None => [] | Some o => if alf && (o =? 2)%nat then [] else if s_fixed s then @tol_warn ROps a r else [] end) <->
    (exists o, ord = Some o /\ ~ (alf = true /\ o = 2%nat)) /\ s_fixed s = true /\ (a <> Q2R (1 # 1000) \/ r <> Q2R (1 # 1000))).
  { destruct ord as [o|]; [|split; [intros []|intros [(o & X & _) _]; discriminate X]].
    destruct (alf && (o =? 2)%nat) eqn:B.
    - apply andb_true_iff in B. destruct B as [B1 B2]. apply Nat.eqb_eq in B2. split; [intros []|]. intros [(o' & X & Y) _]. injection X as <-. now destruct Y.
    - assert (Y : ~ (alf = true /\ o = 2%nat)) by (intros [-> ->]; discriminate B).
      destruct (s_fixed s); [|split; [intros []|intros (_ & X & _); discriminate X]]. rewrite T. split; [intros [_ X]; split; [now exists o|auto]|intros (_ & _ & X); auto]. }
  rewrite <- G. clear G T E H. destruct W as [[l0 ->]|W].
  - destruct b; tauto.
  - rewrite W in *. tauto.
Qed.
