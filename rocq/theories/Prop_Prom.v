(** Property theorems (generated by tools/genprop.py from Pf_Prom.v, which holds the proofs). *)
From Coq Require Import ZArith QArith Lia List Bool Floats.
From Verif Require Import Num Py Tensor M_Constants M_SolversOde M_Utils M_Interp M_Odeint M_Dtype M_Autograd M_Cast M_Prom L_Rel.
Import ListNotations.
Local Notation length := List.length.
From Verif Require Import Pf_Prom.
Import ListNotations.
Local Open Scope nat_scope.

(** C151 for fixed-step solvers.  Whatever the dtypes of the state and of the times: the field is called with states of the dtype of x
    only and all states returned have this dtype. *)
Theorem C151_fixed : forall (K : NumOps) (xd td : dtype) (f : TypedOps K -> vec (TypedOps K) -> vec (TypedOps K))
    (s : solver (TypedOps K) (vec (TypedOps K))) (fuel : nat) (x ts : list K) (save_at : list (TypedOps K))
    (atol rtol : TypedOps K) (interp all : bool) (semi : option nat),
  fixed_keeping xd s -> (forall t y, has_dtype xd y -> has_dtype xd (f t y)) ->
  let r := odeint_typed fuel td f (state_of xd x) (TTensor (times_of td ts)) s atol rtol interp all save_at semi in
  Forall (fun c => has_dtype xd (snd c)) (fst r) /\
  forall times sol, snd r = Ok (times, sol) -> Forall (has_dtype xd) sol.
Proof. exact C151_fixed_pf. Qed.
Print Assumptions C151_fixed.

(** C151 (partial), dopri5 and tsit5.  If the dtype of the state holds float32 and the dtype of the times, then the field is called with
    states of the dtype of x only and all states returned have this dtype, in both directions of time, with and without
    interpolation. *)
Theorem C151_keeps_partial : forall (K : NumOps) (xd td : dtype) (f : TypedOps K -> vec (TypedOps K) -> vec (TypedOps K))
    (s : solver (TypedOps K) (vec (TypedOps K))) (fuel : nat) (x ts : list K) (save_at : list (TypedOps K))
    (atol rtol : K) (interp all : bool) (semi : option nat),
  adaptive_builtin s -> (forall t y, has_dtype xd y -> has_dtype xd (f t y)) -> holds xd Float -> holds xd td ->
  let r := odeint_typed fuel td f (state_of xd x) (TTensor (times_of td ts)) s (with_kind PyNumber atol) (with_kind PyNumber rtol)
             interp all save_at semi in
  Forall (fun c => has_dtype xd (snd c)) (fst r) /\
  forall times sol, snd r = Ok (times, sol) -> Forall (has_dtype xd) sol.
Proof. exact C151_keeps_partial_pf. Qed.
Print Assumptions C151_keeps_partial.

(** C151 (partial), hybrid solves: the same for odeint_hybrid with dopri5 or tsit5 if jump maps keep the dtype. *)
Theorem C151_hybrid_partial : forall (K : NumOps) (xd td : dtype) (f : TypedOps K -> vec (TypedOps K) -> vec (TypedOps K))
    (s : solver (TypedOps K) (vec (TypedOps K))) (fuel : nat) (x ts : list K) (j_span : nat) (cbs : list (@callback (TypedOps K)))
    (atol rtol etol : K) (jump_first : bool) (semi : option nat),
  adaptive_builtin s -> (forall t y, has_dtype xd y -> has_dtype xd (f t y)) ->
  (forall cb t y, In cb cbs -> has_dtype xd y -> has_dtype xd (jump_map cb t y)) -> holds xd Float -> holds xd td ->
  let r := odeint_hybrid_typed fuel td f (state_of xd x) (times_of td ts) j_span s cbs (with_kind PyNumber atol) (with_kind PyNumber rtol)
             (with_kind PyNumber etol) jump_first semi in
  Forall (fun c => has_dtype xd (snd c)) (fst r) /\
  forall times sol, snd r = Ok (times, sol) -> Forall (has_dtype xd) sol.
Proof. exact C151_hybrid_partial_pf. Qed.
Print Assumptions C151_hybrid_partial.

(** C151: the dtypes are the only difference to the model without dtypes.  In any arithmetic the typed solve has the values, the exceptions
    and the calls of [odeint]. *)
Theorem C151_values : forall (K : NumOps) (td : dtype) (F : TypedOps K -> vec (TypedOps K) -> vec (TypedOps K)) (f : K -> vec K -> vec K)
    (S : solver (TypedOps K) (vec (TypedOps K))) (s : solver K (vec K)) (fuel : nat) (x : vec (TypedOps K)) (ts : list (TypedOps K))
    (save_at : list (TypedOps K)) (atol rtol : TypedOps K) (interp all : bool) (semi : option nat),
  computes F f -> same_builtin S s ->
  let typed := odeint_typed fuel td F x (TTensor ts) S atol rtol interp all save_at semi in
  let plain := odeint fuel f (untyped x) (TTensor (untyped ts)) s (fst atol) (fst rtol) interp all (untyped save_at) semi in
  untyped_calls (fst typed) = fst plain /\ untyped_res (snd typed) = snd plain.
Proof. exact C151_values_pf. Qed.
Print Assumptions C151_values.

(** C151 fails.  dopri5 with default arguments, the field 0 and x(0) = 1 over [0, 1] in double precision arithmetic: a float32
    state with a float64 t_span ends as a float64 state, after calls of the field with float64 states; a float16 (or bfloat16) state with a t_span of
    the same dtype ends as a float32 state. *)
Theorem C151_dtype_refuted : forall pw : float -> float -> float,
  let K := FloatOps pw in
  let f := @zero_slopes K 0%float in
  let run xd td := @odeint_typed K 40 td f (@state_of K xd [1%float]) (TTensor (@times_of K td [0; 1]%float)) (DormandPrince45 (TypedOps K))
                     (@with_kind K PyNumber 0.001%float) (@with_kind K PyNumber 0.001%float) false false [] None in
  let last_dtypes xd td := match snd (run xd td) with Ok (_, sol) => Some (map snd (last sol [])) | _ => None end in
  let called xd td := map (fun c : TypedOps K * vec (TypedOps K) => map snd (snd c)) (fst (run xd td)) in
  keeps_dtype f /\
  last_dtypes Float Double = Some [Axes Double] /\ In [Axes Double] (called Float Double) /\
  last_dtypes Half Half = Some [Axes Float] /\ In [Axes Float] (called Half Half) /\
  last_dtypes Bfloat16 Bfloat16 = Some [Axes Float] /\ In [Axes Float] (called Bfloat16 Bfloat16).
Proof. exact C151_dtype_refuted_pf. Qed.
Print Assumptions C151_dtype_refuted.

(** C151, the times of Euler's method and the midpoint rule (the solvers without tableau; the entries of tableaux take part in the times of
    the others): the field is called at times of the dtype of t_span only, in both directions of time and whatever the dtype of
    the state; the times returned have the dtype of t_span if those of save_at do. *)
Theorem C151_times : forall (K : NumOps) (td : dtype) (f : TypedOps K -> vec (TypedOps K) -> vec (TypedOps K))
    (s : solver (TypedOps K) (vec (TypedOps K))) (fuel : nat) (x : vec (TypedOps K)) (ts : list K) (save_at : list K)
    (atol rtol : TypedOps K) (interp all : bool) (semi : option nat),
  s = Euler (TypedOps K) \/ s = Midpoint (TypedOps K) ->
  let r := odeint_typed fuel td f x (TTensor (times_of td ts)) s atol rtol interp all (times_of td save_at) semi in
  Forall (fun c => snd (fst c) = NoAxes td) (fst r) /\
  forall times sol, snd r = Ok (times, sol) -> Forall (fun t => snd t = NoAxes td) times.
Proof. exact C151_times_pf. Qed.
Print Assumptions C151_times.

(** The hypotheses of C151 are met: float32 states with float32 times, float64 states with any times; the solve of C151_dtype_refuted with
    float32 throughout returns float32 states, and Euler's method keeps float16 states with float64 times. *)
Example C151_ex : forall pw : float -> float -> float,
  let K := FloatOps pw in
  let f := @zero_slopes K 0%float in
  let run s xd td := @odeint_typed K 40 td f (@state_of K xd [1%float]) (TTensor (@times_of K td [0; 1]%float)) s
                     (@with_kind K PyNumber 0.001%float) (@with_kind K PyNumber 0.001%float) false false [] None in
  let last_dtypes s xd td := match snd (run s xd td) with Ok (_, sol) => Some (map snd (last sol [])) | _ => None end in
  (holds Float Float /\ holds Double Float /\ forall e, holds Double e) /\
  (forall t y, has_dtype Float y -> has_dtype Float (f t y)) /\
  adaptive_builtin (DormandPrince45 (TypedOps K)) /\ fixed_keeping Half (Euler (TypedOps K)) /\
  last_dtypes (DormandPrince45 (TypedOps K)) Float Float = Some [Axes Float] /\
  last_dtypes (DormandPrince45 (TypedOps K)) Double Half = Some [Axes Double] /\
  last_dtypes (Euler (TypedOps K)) Half Double = Some [Axes Half].
Proof. exact C151_ex_pf. Qed.

