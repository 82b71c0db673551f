(** Property theorems (generated by tools/genprop.py from Pf_Dict.v, which holds the proofs). *)
From Coq Require Import ZArith QArith Floats String List Bool Lia.
From Verif Require Import Num Py Tensor M_SolversOde M_Odeint M_Dict.
Import ListNotations.
From Verif Require Import Pf_Dict.
Import ListNotations.
Local Open Scope list_scope.

(** A dictionary cannot be integrated with any solver of the package, given by name or as an object: the solver asks the
    state for its dtype or its device. *)
Theorem C123_dict_states_refuted : forall (K : NumOps) (f : K -> dict -> dict) (x : dict) (t0 t1 : K) (ts save_at : list K)
  (name : string) (s : solver K dict),
  snd (dict_odeint f x (t0 :: t1 :: ts) (ByName name) save_at) = Err AttributeError /\
  snd (dict_odeint f x (t0 :: t1 :: ts) (Inherits s) save_at) = Err AttributeError.
Proof. exact C123_dict_states_refuted_pf. Qed.
Print Assumptions C123_dict_states_refuted.

(** With a fixed-step solver that overrides sync_device_dtype, and keeps keys and sizes, the result has the keys of the
    initial state, and under each key the entries of the states saved by the loop, in their order. *)
Theorem C123_custom_solver : forall (K : NumOps) (f : K -> dict -> dict) (x : dict) (t_span : list K) (step : @step_fun K dict)
  (save_at sa : list K) (sol : list dict),
  (forall d t dt fn d' er, NoDup (keys d) -> snd (step f d t dt None) = Ok (Ret3 fn d' er) -> NoDup (keys d') /\ same_shape d d') ->
  NoDup (keys x) ->
  snd (fixed_odeint f x t_span step save_at) = Ok (sa, sol) ->
  exists out, snd (dict_fixed_odeint f x t_span step save_at) = Ok (sa, out) /\
    (forall k, In k (keys out) <-> In k (keys x)) /\
    forall k, In k (keys x) -> lookup k out = Some (map (entry k) sol).
Proof. exact C123_custom_solver_pf. Qed.
Print Assumptions C123_custom_solver.

(** The keys are taken from the last state: an entry that a step drops is returned with fewer points than save_at has,
    without an error. *)
Theorem C123_lost_key_refuted : forall (K : NumOps) (a b : vec K), List.length a = List.length b ->
  stack_dicts [("x"%string, b)] [[("x"%string, a); ("y"%string, a)]; [("x"%string, b)]] =
    Ok [("x"%string, [a; b]); ("y"%string, [a])].
Proof. exact C123_lost_key_refuted_pf. Qed.
Print Assumptions C123_lost_key_refuted.

Example C123_custom_solver_ex : forall pw : float -> float -> float,
  (forall d t dt fn d' er, NoDup (keys d) -> snd (ex_step pw (fun _ d => d) d t dt None) = Ok (Ret3 fn d' er) -> NoDup (keys d') /\ same_shape d d') /\
  snd (dict_fixed_odeint (K := FloatOps pw) (fun _ d => d) [("x"%string, [0; 5]%float); ("y"%string, [7]%float)] [0; 1; 3]%float (ex_step pw) [0; 3]%float)
    = Ok ([0; 3]%float, [("x"%string, [[0; 5]; [3; 8]]%float); ("y"%string, [[7]; [7]]%float)]).
Proof. exact C123_custom_solver_ex_pf. Qed.

