(** Property theorems (generated by tools/genprop.py from Pf_NeuralSde.v, which holds the proofs). *)
From Coq Require Import ZArith QArith Qreals Reals Lra Lia String List Bool.
From Verif Require Import Num Py Tensor M_Odeint M_Core M_Sde M_Nn M_NeuralSde.
From Verif Require Import Spec_Sde Spec_Core Spec_NeuralSde Spec_Nn L_Base L_Vec L_Adaptive L_Sde Pf_Sde.
Import ListNotations.
From Verif Require Import Pf_NeuralSde.
Import ListNotations.
Local Open Scope R_scope.

(** C89.  A first-order NeuralSDE with sensitivity "autograd" and a Brownian motion integrates the SDE
    given by its drift and diffusion, each written f(x) or f(t, x): it returns the grid (unless
    return_t_eval=False) and a trajectory of the documented scheme from x.  States are flattened. *)
Theorem C89_neuralsde :
  forall (A : Type) n w (drift diffusion : @callable ROps A) F G name noise type own b ret x t0 t1 ts S s,
  computes n w drift F -> computes n w diffusion G -> (forall s t, length (b s t) = (n * w)%nat) -> shaped n w x ->
  @sde_str_to_solver ROps name (@MkSde ROps (flat n w F) (flat n w G) (Some noise) (Some type)) b = Ok s ->
  scheme_of name (flat n w F) (flat n w G) b = Some S ->
  exists xs,
  neuralsde_forward w (@MkNsde ROps A drift diffusion 1 name noise type own "autograd" (Some b) ret) x (Some (t0 :: t1 :: ts)) [] =
    Ok (if ret then Some (t0 :: t1 :: ts) else None, xs) /\
  follows S (concat x) (t0 :: t1 :: ts) xs.
Proof. exact C89_neuralsde_pf. Qed.
Print Assumptions C89_neuralsde.

(** C89.  With any grid and any save_at, forward is sdeint on the flattened problem: same states, same error. *)
Theorem C89_is_sdeint :
  forall (A : Type) n w (drift diffusion : @callable ROps A) F G name noise type own b ret x ts save_at s,
  computes n w drift F -> computes n w diffusion G -> (forall s t, length (b s t) = (n * w)%nat) -> shaped n w x ->
  let sde := @MkSde ROps (flat n w F) (flat n w G) (Some noise) (Some type) in
  @sde_str_to_solver ROps name sde b = Ok s ->
  neuralsde_forward w (@MkNsde ROps A drift diffusion 1 name noise type own "autograd" (Some b) ret) x (Some ts) save_at =
  rbind (@sdeint ROps sde (concat x) ts name b save_at) (fun r => Ok (if ret then Some (fst r) else None, snd r)).
Proof. exact C89_is_sdeint_pf. Qed.
Print Assumptions C89_is_sdeint.

Example C89_ex :
  computes 2 1 ex_drift (fun (_ : R) => map (map Ropp)) /\ computes 2 1 ex_diffusion (fun t : R => map (map (Rmult t))) /\
  neuralsde_forward 1 (@MkNsde ROps unit ex_drift ex_diffusion 1 "euler" "diagonal" "ito" None "autograd" (Some (fun _ _ : R => [1; 1])) true)
    [[1]; [3]] (Some [1; 2]) [] = Ok (Some [1; 2], [[1; 3]; [1; 3]]).
Proof. exact C89_ex_pf. Qed.

(** C90, refuted: without a Brownian motion (the default, bm=None) no accepted solver makes a single
    step: forward raises TypeError, for every drift, diffusion and initial condition. *)
Theorem C90_default_bm_refuted :
  forall (A : Type) n w (drift diffusion : @callable ROps A) F G name noise type own ret x t0 t1 ts b s,
  computes n w drift F -> computes n w diffusion G -> shaped n w x ->
  @sde_str_to_solver ROps name (@MkSde ROps (flat n w F) (flat n w G) (Some noise) (Some type)) b = Ok s ->
  neuralsde_forward w (@MkNsde ROps A drift diffusion 1 name noise type own "autograd" None ret) x (Some (t0 :: t1 :: ts)) [] =
    Err TypeError /\
  neuralsde_forward w (default_nsde drift diffusion) x None [] = Err TypeError.
Proof. exact C90_default_bm_refuted_pf. Qed.
Print Assumptions C90_default_bm_refuted.

(** C91, refuted: any sensitivity other than "autograd" raises NotImplementedError *)
Theorem C91_sensitivity_refuted :
  forall (K : NumOps) (A : Type) w (m : @neural_sde K A) x ts save,
  ns_sens m <> "autograd"%string -> neuralsde_forward w m x ts save = Err NotImplementedError.
Proof. exact C91_sensitivity_refuted_pf. Qed.
Print Assumptions C91_sensitivity_refuted.

(** C92, refuted: a drift forward(x) or forward(t, x) that starts with DepthCat(1), which works in a NeuralODE, raises TypeError in a
    NeuralSDE, because SDEFunc never sets the attribute t. *)
Theorem C92_depthcat_refuted :
  forall (A : Type) (empty : A) timed w g diffusion noise own b ret x t0 t1 ts, (1 <= w)%nat ->
  neuralsde_forward w (@MkNsde ROps A (depth_drift timed w g) diffusion 1 "euler" noise "ito" own "autograd" (Some b) ret) x (Some (t0 :: t1 :: ts)) []
    = Err (if existsb (String.eqb noise) ["general"; "diagonal"; "scalar"; "additive"]%string then TypeError else ValueError) /\
  (shaped (length x) w x -> exists v, neuralode_vf (depth_drift timed w g) 1 None "adjoint" = Ok v /\
    forall t, solver_call empty v t x = g (map (fun row => row ++ [t]) x)).
Proof. exact C92_depthcat_refuted_pf. Qed.
Print Assumptions C92_depthcat_refuted.

