(** Property theorems (generated by tools/genprop.py from Pf_AdGrad.v, which holds the proofs). *)
From Coq Require Import ZArith QArith Qreals Reals Lra Lia List Bool.
From Verif Require Import Num Py Tensor M_Constants M_SolversOde M_Utils M_Interp M_Odeint M_Autograd.
From Verif Require Import Spec_Ode Spec_Autograd L_Base L_Fixed L_Vec L_Steps L_Utils L_Rel Pf_Fixed Pf_Values Pf_Autograd.
Import ListNotations.
Local Notation length := List.length.
From Verif Require Import Pf_AdGrad.
Import ListNotations.
Local Open Scope R_scope.

(** C155.  One step of dopri5 or tsit5 differentiates correctly, also in time, step size and first stage: the new state, the last stage and the
    error estimate.  (partial: true of a step; C155_adaptive_refuted shows that it is false for a solve.) *)
Theorem C155_step_partial : forall n sd s F f X x T t H h K1 k1,
  adaptive_pair sd s -> smooth_field n F f -> tracks_vec n X x -> tracks T t -> tracks H h -> tracks_vec n K1 k1 ->
  exists K' k' X' x' E err SD S, snd (s_step sd F X T H (Some K1)) = Ok (Ret4 K' X' E SD) /\
    (forall e, snd (s_step s (f e) (x e) (t e) (h e) (Some (k1 e))) = Ok (Ret4 (k' e) (x' e) (err e) (S e))) /\
    tracks_vec n K' k' /\ tracks_vec n X' x' /\ tracks_vec n E err.
Proof. exact C155_step_partial_pf. Qed.
Print Assumptions C155_step_partial.

(** C155 for solves of one step: if, for all small e, the initial step size passes the end of the interval and the step over the interval is accepted, then the
    gradient of the final state is exact. (partial: more steps are C155_adaptive_refuted.) *)
Theorem C155_single_partial : forall fuel fuel' n sd s F f X x t0 t1 atol rtol interp all (del : posreal),
  adaptive_pair sd s -> smooth_field n F f -> @values_of ROps F (f 0) -> tracks_vec n X x -> t0 < t1 ->
  (forall e, Rabs e < del -> exists h xn er fn st,
     snd (@init_step ROps (f e) (f e t0 (x e)) (x e) t0 5 atol rtol) = Ok h /\ t1 < t0 + h /\
     snd (s_step s (f e) (x e) t0 (t1 - t0) (Some (f e t0 (x e)))) = Ok (Ret4 fn xn er st) /\ @error_ratio ROps atol rtol None (x e) xn er <= 1) ->
  exists X' x', tracks_vec n X' x' /\
    snd (@odeint_autograd ROps (S fuel) F X (@TTensor DR [(t0, 0); (t1, 0)]) sd (atol, 0) (rtol, 0) interp all [] None) = Ok ([(t0, 0); (t1, 0)], [X; X']) /\
    forall e, Rabs e < del -> snd (@odeint ROps (S fuel') (f e) (x e) (@TTensor ROps [t0; t1]) s atol rtol interp all [] None) = Ok ([t0; t1], [x e; x' e]).
Proof. exact C155_single_partial_pf. Qed.
Print Assumptions C155_single_partial.

(** C155 is violated: x' = 1 + t^5 / 10^5 over [0, 12] with dopri5, atol = 50000, rtol = 0.  For initial states x near 1 the initial step size is x, the next ones are
    ten times as large and the rest.  The solve returns [P5 x]; its derivative at 1 is 1 - 0.011111, autograd returns 1: adapt_step is
    decorated with no_grad, the step size from [init_step] is not. *)
Theorem C155_adaptive_refuted : forall fuel, (3 <= fuel)%nat ->
  let G := fun (t : R) (_ : list R) => [@G5 ROps t] in let GD := fun (t : R * R) (_ : list (R * R)) => [@G5 DR t] in
  let result := fun x => x + 12 + 1 / 100000 * (12 ^ 6 / 6 - (x ^ 6 + (10 * x) ^ 6 + (12 - 11 * x) ^ 6) / 5400) in
  (forall t x, G t x = [1 + 1 / 100000 * t ^ 5]) /\ smooth_field 1 GD (fun _ => G) /\
  (forall e, Rabs e < 1 / 100 ->
    snd (@odeint ROps fuel G [1 + e] (@TTensor ROps [0; 12]) (DormandPrince45 ROps) 50000 0 false false [] None) = Ok ([0; 12], [[1 + e]; [result (1 + e)]])) /\
  snd (@odeint_autograd ROps fuel GD [(1, 1)] (@TTensor DR [(0, 0); (12, 0)]) (DormandPrince45 DR) (50000, 0) (0, 0) false false [] None)
    = Ok ([(0, 0); (12, 0)], [[(1, 1)]; [(result 1, 1)]]) /\
  derivable_pt_lim (fun e => result (1 + e)) 0 (1 - 11111 / 1000000).
Proof. exact C155_adaptive_refuted_pf. Qed.
Print Assumptions C155_adaptive_refuted.

(** The hypotheses of C155 are met: x' = 1 + e over [0, 1/10] from 2 + e, by dopri5 with atol = 1 and rtol = 0. *)
Example C155_ex :
  let F := fun (_ : R * R) (_ : list (R * R)) => [(1, 1)] in let f := fun (e _ : R) (_ : list R) => [1 + e] in
  adaptive_pair (DormandPrince45 DR) (DormandPrince45 ROps) /\ smooth_field 1 F f /\ @values_of ROps F (f 0) /\
  tracks_vec 1 [(2, 1)] (fun e => [2 + e]) /\
  (forall e, Rabs e < 1 / 2 -> exists h xn er fn st,
     snd (@init_step ROps (f e) (f e 0 [2 + e]) [2 + e] 0 5 1 0) = Ok h /\ 1 / 10 < 0 + h /\
     snd (s_step (DormandPrince45 ROps) (f e) [2 + e] 0 (1 / 10 - 0) (Some (f e 0 [2 + e]))) = Ok (Ret4 fn xn er st) /\ @error_ratio ROps 1 0 None [2 + e] xn er <= 1).
Proof. exact C155_ex_pf. Qed.

