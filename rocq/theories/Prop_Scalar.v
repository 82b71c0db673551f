(** Property theorems (generated by tools/genprop.py from Pf_Scalar.v, which holds the proofs). *)
From Coq Require Import ZArith QArith Lia List Bool Floats.
From Verif Require Import Num Py Tensor M_Constants M_SolversOde M_Utils M_Interp M_Odeint M_Dtype M_Autograd M_Cast M_Prom M_Scalar L_Rel Pf_Prom.
Import ListNotations.
Local Notation length := List.length.
From Verif Require Import Pf_Scalar.
Import ListNotations.
Local Open Scope nat_scope.

(** C152 (partial), Euler and Midpoint.  A state without axes gives the calls, the values and the exceptions of the solve
    of the state with one entry. *)
Theorem C152_fixed_partial : forall (K : NumOps) (xd td : dtype) (F : TypedOps K -> vec (TypedOps K) -> vec (TypedOps K)) (f : K -> vec K -> vec K)
    (S : solver (TypedOps K) (vec (TypedOps K))) (s : solver K (vec K)) (fuel : nat) (a : K) (ts : list K) (save_at : list (TypedOps K))
    (atol rtol : TypedOps K) (interp all : bool) (semi : option nat),
  (S = Euler (TypedOps K) /\ s = Euler K) \/ (S = Midpoint (TypedOps K) /\ s = Midpoint K) ->
  adds_no_axes F -> computes F f ->
  let scalar := stacked (odeint_typed fuel td F (scalar_of xd a) (TTensor (times_of td ts)) S atol rtol interp all save_at semi) in
  let plain := odeint fuel f [a] (TTensor ts) s (fst atol) (fst rtol) interp all (untyped save_at) semi in
  untyped_calls (fst scalar) = fst plain /\ untyped_res (snd scalar) = snd plain.
Proof. exact C152_fixed_partial_pf. Qed.
Print Assumptions C152_fixed_partial.

(** C152 fails for rk4.  In any arithmetic, for any field that keeps shapes, for all times: no solve of a state without axes returns the initial
    state together with another one. *)
Theorem C152_rk4_refuted : forall (K : NumOps) (xd td : dtype) (f : TypedOps K -> vec (TypedOps K) -> vec (TypedOps K)) (fuel : nat) (a : K)
    (ts : list K) (save_at : list (TypedOps K)) (atol rtol : TypedOps K) (interp all : bool) (semi : option nat) times sol,
  keeps_axes f ->
  snd (stacked (odeint_typed fuel td f (scalar_of xd a) (TTensor (times_of td ts)) (rk4_rows xd) atol rtol interp all save_at semi)) = Ok (times, sol) ->
  In (scalar_of xd a) sol -> sol = [scalar_of xd a].
Proof. exact C152_rk4_refuted_pf. Qed.
Print Assumptions C152_rk4_refuted.

(** C152 fails for dopri5.  In any arithmetic, for any field that keeps shapes, for all times and tolerances: no solve of a state without axes
    returns more than the initial state. *)
Theorem C152_dopri5_refuted : forall (K : NumOps) (xd td : dtype) (f : TypedOps K -> vec (TypedOps K) -> vec (TypedOps K)) (fuel : nat) (a : K)
    (ts : list K) (save_at : list (TypedOps K)) (atol rtol : TypedOps K) (all : bool) (semi : option nat) times sol,
  keeps_axes f ->
  snd (stacked (odeint_typed fuel td f (scalar_of xd a) (TTensor (times_of td ts)) (dopri5_rows xd) atol rtol false all save_at semi)) = Ok (times, sol) ->
  sol = [scalar_of xd a].
Proof. exact C152_dopri5_refuted_pf. Qed.
Print Assumptions C152_dopri5_refuted.

(** C152 fails for tsit5.  In any arithmetic, for any field that keeps shapes, for all tolerances and increasing times: unless the very first step size, before any
    clipping, leads exactly to the first requested time, no solve of a state without axes returns more than the initial state. *)
Theorem C152_tsit5_refuted : forall (K : NumOps) (xd td : dtype) (f : TypedOps K -> vec (TypedOps K) -> vec (TypedOps K)) (fuel : nat) (a : K)
    (t0 t1 : K) (ts : list K) (save_at : list (TypedOps K)) (atol rtol : TypedOps K) (interp : bool) (semi : option nat) times sol,
  keeps_axes f -> nltb t1 t0 = false ->
  (forall dt, snd (init_step_cast (to_dtype td) f (f (with_kind (NoAxes td) t0) (scalar_of xd a)) (scalar_of xd a) (with_kind (NoAxes td) t0) 5 atol rtol) = Ok dt ->
     neqb (nadd t0 (fst dt)) t1 = false) ->
  snd (stacked (odeint_typed fuel td f (scalar_of xd a) (TTensor (times_of td (t0 :: t1 :: ts))) (Tsitouras45 (TypedOps K)) atol rtol interp false save_at semi)) = Ok (times, sol) ->
  sol = [scalar_of xd a].
Proof. exact C152_tsit5_refuted_pf. Qed.
Print Assumptions C152_tsit5_refuted.

(** C152 fails, runs.  The field 0 with x(0) = 1 and default arguments over [0, 1] in double precision arithmetic: rk4 and dopri5 raise
    RuntimeError for the state without axes; Euler and Midpoint return it unchanged, and so do all four for the state with one entry.  The
    hypotheses of C152_tsit5_refuted are met. *)
Theorem C152_scalar_refuted : forall pw : float -> float -> float,
  let K := FloatOps pw in
  let f := @zero_slopes K 0%float in
  let tol := @with_kind K PyNumber 0.001%float in
  let run x s := snd (stacked (@odeint_typed K 40 Float f x (TTensor (@times_of K Float [0; 1]%float)) s tol tol false false [] None)) in
  let values x s := match run x s with Ok (_, sol) => Ok (map (map fst) sol) | Err e => Err e | OutOfFuel => OutOfFuel end in
  let s0 := @scalar_of K Float 1%float in
  let s1 := @state_of K Float [1%float] in
  let z := @with_kind K (NoAxes Float) 0%float in
  (keeps_axes f /\ adds_no_axes f) /\
  values s0 (rk4_rows Float) = Err RuntimeError /\ values s0 (dopri5_rows Float) = Err RuntimeError /\
  values s0 (Euler (TypedOps K)) = Ok [[1%float]; [1%float]] /\ values s0 (Midpoint (TypedOps K)) = Ok [[1%float]; [1%float]] /\
  Forall (fun s => values s1 s = Ok [[1%float]; [1%float]])
    [rk4_rows Float; dopri5_rows Float; Euler (TypedOps K); Midpoint (TypedOps K)] /\
  (forall dt, snd (init_step_cast (to_dtype Float) f (f z s0) s0 z 5 tol tol) = Ok dt -> @neqb K (@nadd K 0%float (fst dt)) 1%float = false).
Proof. exact C152_scalar_refuted_pf. Qed.
Print Assumptions C152_scalar_refuted.

