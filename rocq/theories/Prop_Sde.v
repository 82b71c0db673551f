(** Property theorems (generated by tools/genprop.py from Pf_Sde.v, which holds the proofs). *)
From Coq Require Import ZArith QArith Qreals Reals Lra Lia String List Bool.
From Verif Require Import Num Py Tensor M_SolversOde M_Odeint M_Sde Spec_Ode Spec_Sde.
From Verif Require Import L_Base L_Fixed L_Fixed2 L_Vec L_Jagged L_Conv L_MS L_Sde.
Import ListNotations.
From Verif Require Import Pf_Sde.
Import ListNotations.
Local Open Scope R_scope.

(** C41.  For every drift, diffusion, Brownian path and every grid with at least two points (no
    separation is needed), if the solver name is accepted then sdeint returns the grid and one state
    per time, starting with x, consecutive states being related by the documented scheme with the
    Brownian increment over exactly the interval between the two times. *)
Theorem C41_sde_trajectory :
  forall n name sde bm s S x t0 t1 ts, sized n sde bm -> length x = n ->
  @sde_str_to_solver ROps name sde bm = Ok s -> scheme_of name (sde_f sde) (sde_g sde) bm = Some S ->
  exists xs, @sdeint ROps sde x (t0 :: t1 :: ts) name bm [] = Ok (t0 :: t1 :: ts, xs) /\ follows S x (t0 :: t1 :: ts) xs.
Proof. exact C41_sde_trajectory_pf. Qed.
Print Assumptions C41_sde_trajectory.

Example C41_ex :
  sized 1 (ex_sde "ito") ex_bm /\
  (exists s, @sde_str_to_solver ROps "euler" (ex_sde "ito") ex_bm = Ok s) /\
  @sdeint ROps (ex_sde "ito") [1] [0; 1; 3] "euler" ex_bm [] = Ok ([0; 1; 3], [[1]; [3]; [18]]).
Proof. exact C41_ex_pf. Qed.

(** C42, noise-free limit: with zero diffusion every scheme is the Euler step of the drift. *)
Theorem C42_zero_diffusion :
  forall n name sde bm s x t h, sized n sde bm -> length x = n ->
  @sde_str_to_solver ROps name sde bm = Ok s ->
  (forall t x i, comp (sde_g sde t x) i = 0) ->
  let y := ss_step s x t h in
  length y = n /\ forall i, (i < n)%nat -> comp y i = comp x i + comp (sde_f sde t x) i * h.
Proof. exact C42_zero_diffusion_pf. Qed.
Print Assumptions C42_zero_diffusion.

(** C42, additive noise: if the diffusion does not depend on the state, both Milstein steps equal the
    Euler-Maruyama step; if it does not depend on the time either, so does the Euler-Heun step. *)
Theorem C42_additive_noise :
  forall n sde bm x t h, sized n sde bm -> length x = n ->
  (forall t x y, sde_g sde t x = sde_g sde t y) ->
  let em := @em_step ROps sde bm x t h in
  @milstein_step ROps (@v_ito ROps) sde bm x t h = em /\ @milstein_step ROps (@v_strat ROps) sde bm x t h = em /\
  ((forall s t x, sde_g sde s x = sde_g sde t x) -> @heun_step ROps sde bm x t h = em).
Proof. exact C42_additive_noise_pf. Qed.
Print Assumptions C42_additive_noise.

(** C42: the Stratonovich and the Ito Milstein step differ exactly by (g(p) - g(x)) sqrt(h) / 2 where
    p = x + f h + g sqrt(h); for linear diffusion g(x) = b x (per component) this is the Ito correction
    b g h / 2 plus b f h^(3/2) / 2. *)
Theorem C42_ito_stratonovich :
  forall n sde bm x t h, sized n sde bm -> length x = n -> 0 < h ->
  let yi := @milstein_step ROps (@v_ito ROps) sde bm x t h in
  let ys := @milstein_step ROps (@v_strat ROps) sde bm x t h in
  exists p, length p = n /\
    (forall i, (i < n)%nat -> comp p i = comp x i + comp (sde_f sde t x) i * h + comp (sde_g sde t x) i * sqrt h) /\
    (forall i, (i < n)%nat -> comp ys i - comp yi i = (comp (sde_g sde t p) i - comp (sde_g sde t x) i) * sqrt h / 2) /\
    (forall b, (forall t x i, comp (sde_g sde t x) i = comp b i * comp x i) ->
       forall i, (i < n)%nat -> comp ys i - comp yi i =
         comp b i * comp (sde_g sde t x) i * h / 2 + comp b i * comp (sde_f sde t x) i * (h * sqrt h) / 2).
Proof. exact C42_ito_stratonovich_pf. Qed.
Print Assumptions C42_ito_stratonovich.

(** C42 is not vacuous: x = 1, f = 0 at time 0, g(x) = x, h = 4, increment 5. *)
Example C42_ex :
  @milstein_step ROps (@v_strat ROps) (ex_sde "ito") ex_bm [1] 0 4 = [1 + 5 + 25 / 2] /\
  @milstein_step ROps (@v_ito ROps) (ex_sde "ito") ex_bm [1] 0 4 = [1 + 5 + 21 / 2].
Proof. exact C42_ex_pf. Qed.

Theorem C43_checked_partial :
  forall name ty sde bm x ts save, type_of_solver name = Some ty ->
  (sde_type sde = Some ty /\ (exists nz, sde_noise sde = Some nz /\ In nz ["general"; "diagonal"; "scalar"; "additive"]%string) ->
     exists s, @sde_str_to_solver ROps name sde bm = Ok s) /\
  (~ (sde_type sde = Some ty /\ exists nz, sde_noise sde = Some nz /\ In nz ["general"; "diagonal"; "scalar"; "additive"]%string) ->
     @sdeint ROps sde x ts name bm save = Err ValueError).
Proof. exact C43_checked_partial_pf. Qed.
Print Assumptions C43_checked_partial.

(** Finding: the Milstein solvers never check.  An Ito solver runs on a Stratonovich SDE with an
    unknown noise type, for every drift, diffusion, path and grid. *)
Theorem C43_milstein_unchecked_refuted :
  forall f g bm n x t0 t1 ts,
  sized n (@MkSde ROps f g (Some "unknown"%string) (Some "stratonovich"%string)) bm -> length x = n ->
  exists xs, @sdeint ROps (@MkSde ROps f g (Some "unknown"%string) (Some "stratonovich"%string)) x (t0 :: t1 :: ts) "milstein_ito" bm []
    = Ok (t0 :: t1 :: ts, xs).
Proof. exact C43_milstein_unchecked_refuted_pf. Qed.
Print Assumptions C43_milstein_unchecked_refuted.

(** Finding: the solver name 'midpoint' always raises TypeError (wrong constructor signature). *)
Theorem C43_midpoint_refuted :
  forall sde x ts bm save, @sdeint ROps sde x ts "midpoint" bm save = Err TypeError.
Proof. exact C43_midpoint_refuted_pf. Qed.
Print Assumptions C43_midpoint_refuted.

Theorem C60_general_noise_refuted :
  forall b d m, em_shape [b; d] [b; d] [b; d; m] [b; m] <> Ok [b; d].
Proof. exact C60_general_noise_refuted_pf. Qed.
Print Assumptions C60_general_noise_refuted.

(** C60, the case that works: diagonal noise (all shapes equal). *)
Theorem C60_diagonal_shape_partial :
  forall s, em_shape s s s s = Ok s.
Proof. exact C60_diagonal_shape_partial_pf. Qed.
Print Assumptions C60_diagonal_shape_partial.

(** C60, another case that works: a diffusion of the shape of the state and one increment for all entries of a sample. *)
Theorem C60_shared_increment_partial :
  forall b d, em_shape [b; d] [b; d] [b; d] [b; 1%nat] = Ok [b; d].
Proof. exact C60_shared_increment_partial_pf. Qed.
Print Assumptions C60_shared_increment_partial.

(** C61, save_at for SDEs: the returned states are those of the full trajectory whose time is close to
    a requested time; if there is none, IndexError. *)
Theorem C61_save_at_actual_partial :
  forall name sde bm s x t0 t1 ts sv svs, @sde_str_to_solver ROps name sde bm = Ok s -> ss_fixed s = true ->
  exists out, selected (sv :: svs) (t0 :: t1 :: ts) (one_step_traj (fun t h x => ss_step s x t h) x (t0 :: t1 :: ts)) out /\
    @sdeint ROps sde x (t0 :: t1 :: ts) name bm (sv :: svs) =
      match out with [] => Err IndexError | _ => Ok (sv :: svs, out) end.
Proof. exact C61_save_at_actual_partial_pf. Qed.
Print Assumptions C61_save_at_actual_partial.

(** C61, save_at a sub-grid of a separated grid: exactly the requested states. *)
Theorem C61_subgrid_partial :
  forall name sde bm s x t0 t1 ts mask, @sde_str_to_solver ROps name sde bm = Ok s -> ss_fixed s = true ->
  separated (t0 :: t1 :: ts) -> length mask = length (t0 :: t1 :: ts) -> pick mask (t0 :: t1 :: ts) <> [] ->
  @sdeint ROps sde x (t0 :: t1 :: ts) name bm (pick mask (t0 :: t1 :: ts)) =
    Ok (pick mask (t0 :: t1 :: ts), pick mask (one_step_traj (fun t h x => ss_step s x t h) x (t0 :: t1 :: ts))).
Proof. exact C61_subgrid_partial_pf. Qed.
Print Assumptions C61_subgrid_partial.

(** Finding: nothing checks save_at.  A requested time off the grid is silently dropped, so the
    returned times and states do not correspond: two times, one state. *)
Theorem C61_off_grid_refuted :
  @sdeint ROps (ex_sde "ito") [1] [0; 1] "euler" ex_bm [0; 1/2] = Ok ([0; 1/2], [[1]]).
Proof. exact C61_off_grid_refuted_pf. Qed.
Print Assumptions C61_off_grid_refuted.

