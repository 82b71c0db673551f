(** Property theorems (generated by tools/genprop.py from Pf_Warn.v, which holds the proofs). *)
From Coq Require Import ZArith QArith Qreals Reals Lra Lia String List Bool.
From Verif Require Import Num Py Tensor M_SolversOde M_Utils M_Interp M_Odeint M_Sde M_Core M_Warn L_Base.
Import ListNotations.
Local Notation length := List.length.
From Verif Require Import Pf_Warn.
Import ListNotations.
Local Open Scope R_scope.

(** C166: tolerances given to a fixed-step solver and save_at given to an adaptive one do not change the outcome, and
    exactly then the corresponding warning is issued; verbose changes nothing but the warnings about reversed times
    and about tsit5. *)
Theorem C166_announced_partial : forall s o ts, accepted ts ->
  (s_fixed s = true -> forall a r, same_outcome s o
     (MkOpt a r (o_stops o) (o_verbose o) (o_interp o) (o_all o) (o_save o) (o_args o) (o_semi o))) /\
  (s_fixed s = false -> forall l, same_outcome s o
     (MkOpt (o_atol o) (o_rtol o) (o_stops o) (o_verbose o) (o_interp o) (o_all o) l (o_args o) (o_semi o))) /\
  (forall v, same_outcome s o
     (MkOpt (o_atol o) (o_rtol o) (o_stops o) v (o_interp o) (o_all o) (o_save o) (o_args o) (o_semi o))) /\
  (forall fuel f x, let ws := fst (odeint_call fuel f x ts s o) in
     (In WTol ws <-> s_fixed s = true /\ (o_atol o <> Q2R (1 # 1000) \/ o_rtol o <> Q2R (1 # 1000))) /\
     (In WSave ws <-> s_fixed s = false /\ o_save o <> []) /\
     (In WTsit5 ws <-> s_is_tsit5 s = true /\ o_verbose o = true) /\
     (In WReversed ws <-> o_verbose o = true /\ exists a b l, ts_list ts = a :: b :: l /\ b < a)).
Proof. exact C166_announced_partial_pf. Qed.
Print Assumptions C166_announced_partial.

(** C166: without a warning and without effect: t_stops and args for every solver; the interpolator, return_all_eval and
    seminorm for every fixed-step solver; the interpolator for tsit5 *)
Theorem C166_silent : forall s a r v sa stops stops' n n' i i' al al' se se',
  same_outcome s (MkOpt a r stops v i al sa n se) (MkOpt a r stops' v i al sa n' se) /\
  (s_fixed s = true -> same_outcome s (MkOpt a r stops v i al sa n se) (MkOpt a r stops v i' al' sa n se')) /\
  (s_is_tsit5 s = true -> same_outcome s (MkOpt a r stops v i al sa n se) (MkOpt a r stops v i' al sa n se)) /\
  (forall fuel f x ts, fst (odeint_call fuel f x ts s (MkOpt a r stops v i al sa n se))
                     = fst (odeint_call fuel f x ts s (MkOpt a r stops' v i' al' sa n' se'))).
Proof. exact C166_silent_pf. Qed.
Print Assumptions C166_silent.

(** C166 is refuted: t_stops=[1/2] has no effect on any solve, and no call with it warns *)
Theorem C166_silent_refuted :
  ~ (forall s (o : options ROps), o <> odeint_defaults -> same_outcome s o odeint_defaults ->
       forall fuel f x ts, accepted ts -> fst (odeint_call fuel f x ts s o) <> []).
Proof. exact C166_silent_refuted_pf. Qed.
Print Assumptions C166_silent_refuted.

(** C166: warnings about options that nobody has given.  ODEProblem(f, solver=...) with any fixed-step solver and its
    own default tolerances warns about tolerances in every solve; NeuralODE does so in the backward pass of the adjoint,
    once for each interval, although its forward pass does not; with an adjoint sensitivity, args produces the warning
    about save_at, while save_at itself is ignored without a warning *)
Theorem C166_unrequested : forall s sens ts, accepted ts -> (sens = "autograd" \/ sens = "adjoint" \/ sens = "interpolated_adjoint")%string ->
  (s_fixed s = true ->
     problem_warn sens ts s (@problem_tol ROps) 0 0 = [WTol] /\
     problem_warn sens ts s (@neuralode_tol ROps) 0 0 = [] /\
     forall t_sol, adjoint_warn s neuralode_tol (rev t_sol) = repeat WTol (length t_sol - 1)) /\
  (s_fixed s = false -> sens <> "autograd"%string -> forall tl nsave nargs, (0 < nargs)%nat ->
     problem_warn sens ts s tl 0 nargs = [WSave] /\ problem_warn sens ts s tl nsave 0 = []).
Proof. exact C166_unrequested_pf. Qed.
Print Assumptions C166_unrequested.

(** C166 is refuted in the other direction: a problem for which no option was given warns *)
Theorem C166_unrequested_refuted :
  ~ (forall s ts, accepted ts -> problem_warn "autograd" ts s (@problem_tol ROps) 0 0 = []).
Proof. exact C166_unrequested_refuted_pf. Qed.
Print Assumptions C166_unrequested_refuted.

(** rk4 with atol=1e-4, a reversed tensor of times and verbose=True: two warnings *)
Example C166_ex :
  fst (@odeint_call ROps 0 (fun _ y => y) [1] (@TTensor ROps [1; 0]) (@RungeKutta4 ROps)
        (@MkOpt ROps (Q2R (1 # 10000)) (Q2R (1 # 1000)) None true false false [] 0 None)) = [WReversed; WTol].
Proof. exact C166_ex_pf. Qed.

(** C166: odeint_symplectic with an adaptive solver ignores save_at without a warning; sdeint announces tolerances *)
Theorem C166_others : forall fuel (f : num ROps -> vec ROps -> vec ROps) ord x ts s alf a r all l l',
  (s_fixed s = false ->
     odeint_symplectic fuel f ord x ts s alf a r all l = odeint_symplectic fuel f ord x ts s alf a r all l' /\
     @symplectic_warn ROps ord alf ts s a r false = []) /\
  (forall sde name bm sv,
     (exists sol, sdeint sde x (ts_list ts) name bm sv = Ok sol) ->
     forall w, In w (@sdeint_warn ROps sde name bm a r) <-> w = WTol /\ (a <> Q2R (1 # 1000) \/ r <> Q2R (1 # 1000))).
Proof. exact C166_others_pf. Qed.
Print Assumptions C166_others.

(** C166: a call with the default options warns about nothing *)
Theorem C166_defaults : forall fuel f x ts s, accepted ts -> fst (@odeint_call ROps fuel f x ts s odeint_defaults) = [].
Proof. exact C166_defaults_pf. Qed.
Print Assumptions C166_defaults.

(** C166: odeint_symplectic announces tolerances of fixed-step solvers, unless it raises before (field without order, or
    asynchronous leapfrog with a field of order two) *)
Theorem C166_symplectic : forall ord alf ts s a r v, accepted ts ->
  In WTol (@symplectic_warn ROps ord alf ts s a r v) <->
  (exists o, ord = Some o /\ ~ (alf = true /\ o = 2%nat)) /\ s_fixed s = true /\ (a <> Q2R (1 # 1000) \/ r <> Q2R (1 # 1000)).
Proof. exact C166_symplectic_pf. Qed.
Print Assumptions C166_symplectic.

