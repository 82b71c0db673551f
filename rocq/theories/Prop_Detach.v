(** Property theorems (generated by tools/genprop.py from Pf_Detach.v, which holds the proofs). *)
From Coq Require Import ZArith QArith Qreals Reals Lra Lia List Bool Floats.
From Verif Require Import Num Py Tensor M_Constants M_SolversOde M_Utils M_Interp M_Odeint M_Autograd.
From Verif Require Import Spec_Ode Spec_Trees Spec_RK Spec_Autograd.
From Verif Require Import L_Base L_Fixed L_Vec L_Steps L_Steps2 L_Tables L_Fixed2 L_Utils L_Nan Pf_Fixed Pf_Hybrid Pf_Autograd.
Import ListNotations.
Local Notation length := List.length.
From Verif Require Import Pf_Detach.
Import ListNotations.
Local Open Scope R_scope.

(** C144 (what the code does).  An iteration that finds an event: the event time carries the derivative of the time at which the
    step started, whatever the event depends on, and the state before the jump is the state at the start of the step or carries no
    derivative at all. *)
Theorem C144_event_detached :
  forall p st st' h old ck fn xn xe stg,
  @hybrid_attempt DR p st = (h, old, ck) ->
  snd (s_step (hp_solver p) (hp_f p) (h_x st) (h_t st) h (h_k1 st)) = Ok (Ret4 fn xn xe stg) ->
  (exists cb, In cb (hp_cbs p) /\ check_event cb (@nadd DR (h_t st) h) xn = true) ->
  snd (hybrid_iter_autograd p st) = Ok st' ->
  exists t' x' cb, In cb (hp_cbs p) /\ h_times st' = h_times st ++ [t'; t'] /\ h_sol st' = h_sol st ++ [x'; jump_map cb t' x'] /\
    h_t st' = t' /\ h_x st' = jump_map cb t' x' /\
    snd t' = snd (h_t st) /\ (x' = h_x st \/ forall a, In a x' -> snd a = 0).
Proof. exact C144_event_detached_pf. Qed.
Print Assumptions C144_event_detached.

(** C144 (REFUTED).  Zero vector field, event "x positive and t at least 6e-7", jump x -> -x, dopri5 on [0, 1e-6], any
    tolerances with 5e-7 <= event_tol < 1e-6: from every u > 0 the solve returns u, u, -u, -u; with the derivative v of u the
    computed derivatives are v, 0, 0, 0. *)
Theorem C144_run :
  forall fuel u v atol rtol etol datol drtol detol, 0 < u -> / 2000000 <= etol < / 1000000 ->
  snd (@odeint_hybrid ROps (S (S fuel)) (fun _ _ => [0]) [u] [0; / 1000000] 1 (DormandPrince45 ROps)
         [@MkCb ROps (fun t x => Rltb 0 (hd 0 x) && Rleb (6 / 10000000) t) (fun _ x => map Ropp x)] atol rtol etol false None)
    = Ok ([0; / 2000000; / 2000000; / 1000000], [[u]; [u]; [- u]; [- u]]) /\
  snd (@odeint_hybrid_autograd ROps (S (S fuel)) (fun _ _ => [(0, 0)]) [(u, v)] [(0, 0); (/ 1000000, 0)] 1 (DormandPrince45 DR)
         [@MkCb DR (fun t x => Rltb 0 (fst (hd (0, 0) x)) && Rleb (6 / 10000000) (fst t)) (fun _ x => map (@nopp DR) x)]
         (atol, datol) (rtol, drtol) (etol, detol) false None)
    = Ok ([(0, 0); (/ 2000000, 0); (/ 2000000, 0); (/ 1000000, 0)], [[(u, v)]; [(u, 0)]; [(- u, 0)]; [(- u, 0)]]).
Proof. exact C144_run_pf. Qed.
Print Assumptions C144_run.

(** C144 (REFUTED), as a statement about derivatives: field, event and jump are differentiated correctly, and the derivatives of
    the returned states are not those of the states returned from x0 = exp(e) at e = 0 (the last state is -exp(e)). *)
Theorem C144_event_gradient_refuted :
  exists F f X x (cbD : @callback DR) (cbR : @callback ROps) fuel ts etol,
  tracks_field 1 F f /\ tracks_vec 1 X x /\
  (forall (t : R) Y y, tracks_vec 1 Y y -> check_event cbD (t, 0) Y = check_event cbR t (y 0) /\
     tracks_vec 1 (jump_map cbD (t, 0) Y) (fun e => jump_map cbR t (y e))) /\
  (forall e, exists times s1 s2 s3 s4, snd (@odeint_hybrid ROps fuel (f e) (x e) ts 1 (DormandPrince45 ROps) [cbR] (/ 1000) (/ 1000) etol false None)
     = Ok (times, [s1; s2; s3; s4])) /\
  ~ tracks_solve 1
    (snd (@odeint_hybrid_autograd ROps fuel F X (map (fun t => (t, 0)) ts) 1 (DormandPrince45 DR) [cbD] (/ 1000, 0) (/ 1000, 0) (etol, 0) false None))
    (fun e => snd (@odeint_hybrid ROps fuel (f e) (x e) ts 1 (DormandPrince45 ROps) [cbR] (/ 1000) (/ 1000) etol false None)).
Proof. exact C144_event_gradient_refuted_pf. Qed.
Print Assumptions C144_event_gradient_refuted.

(** C144 (REFUTED), double precision and the default tolerances: the same field and jump, event "x positive and t at least 0.6", t_span
    [0, 1], initial state 1 with derivative 1: the last state is -1 and its computed derivative is 0. *)
Theorem C144_default_refuted :
  forall pw : float -> float -> float,
  match snd (@odeint_hybrid_autograd (FloatOps pw) 50 (fun _ _ => [(0, 0)%float]) [(1, 1)%float] [(0, 0)%float; (1, 0)%float] 1 (DormandPrince45 (DualOps (FloatOps pw)))
         [@MkCb (DualOps (FloatOps pw)) (fun t x => (PrimFloat.ltb 0 (fst (hd (0, 0)%float x)) && PrimFloat.leb 0.6 (fst t))%float%bool) (fun _ x => map (@nopp (DualOps (FloatOps pw))) x)]
         (0.001, 0)%float (0.001, 0)%float (0.0001, 0)%float true None) with
  | Ok (times, sol) => fst (last times (0, 0)%float) = 1%float /\ last sol [] = [(-1, 0)%float]
  | _ => False
  end.
Proof. exact C144_default_refuted_pf. Qed.
Print Assumptions C144_default_refuted.

