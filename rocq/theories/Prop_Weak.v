(** Property theorems (generated by tools/genprop.py from Pf_Weak.v, which holds the proofs). *)
From Coq Require Import ZArith QArith Qreals Reals Lra Lia String List Bool Psatz.
From Verif Require Import Num Py Tensor M_SolversOde M_Odeint M_Sde Spec_Ode Spec_RK Spec_Sde Spec_Lin Spec_Moment Spec_Conv.
From Verif Require Import L_Base L_Fixed L_Fixed2 L_Vec L_Steps L_Conv L_Sde Pf_Fixed Pf_Sde Pf_Moment Pf_Order.
Import ListNotations.
Local Notation length := List.length.
From Verif Require Import Pf_Weak.
Import ListNotations.
Local Open Scope R_scope.

(** C177, Ito: the mean of the solutions converges with first order to the mean exp(alpha t) x of the exact solution. *)
Theorem C177_ito_mean_partial :
  forall n name sde alpha beta D B x t0 t1 ts sol H,
  name = "euler"%string \/ name = "milstein_ito"%string ->
  linear_sde n sde alpha beta -> length x = n -> (forall h, In h (spacings (t0 :: t1 :: ts)) -> 0 < h <= H) ->
  Forall2 (white n) (spacings (t0 :: t1 :: ts)) D -> solved_along n sde name x (t0 :: t1 :: ts) D B sol ->
  forall i t j, nth_error (t0 :: t1 :: ts) i = Some t -> (j < n)%nat ->
  Rabs (average (fun p => comp (nth i (sol p) []) j) (paths D) - exp (alpha j * (t - t0)) * comp x j) <=
  alpha j ^ 2 * H * (t - t0) * exp (Rabs (alpha j) * (t - t0)) * Rabs (comp x j).
Proof. exact C177_ito_mean_partial_pf. Qed.
Print Assumptions C177_ito_mean_partial.

(** C177, Ito, euler: the mean square converges with first order to exp((2 a + b^2) t) x^2. *)
Theorem C177_ito_square_partial :
  forall sde a b D B x t0 t1 ts sol H,
  linear_sde 1 sde (fun _ => a) (fun _ => b) -> length x = 1%nat -> (forall h, In h (spacings (t0 :: t1 :: ts)) -> 0 < h <= H) ->
  Forall2 (white 1) (spacings (t0 :: t1 :: ts)) D -> solved_along 1 sde "euler" x (t0 :: t1 :: ts) D B sol ->
  forall i t, nth_error (t0 :: t1 :: ts) i = Some t ->
  Rabs (average (fun p => comp (nth i (sol p) []) 0 ^ 2) (paths D) - exp ((2 * a + b ^ 2) * (t - t0)) * comp x 0 ^ 2) <=
  ((2 * a + b ^ 2) ^ 2 + a ^ 2) * H * (t - t0) * exp ((2 * Rabs a + b ^ 2) * (t - t0)) * comp x 0 ^ 2.
Proof. exact C177_ito_square_partial_pf. Qed.
Print Assumptions C177_ito_square_partial.

(** C177, Stratonovich, eulerHeun: the mean converges with first order to exp((alpha + beta^2 / 2) t) x. *)
Theorem C177_heun_mean_partial :
  forall n sde alpha beta D B x t0 t1 ts sol H,
  linear_sde n sde alpha beta -> length x = n -> (forall h, In h (spacings (t0 :: t1 :: ts)) -> 0 < h <= H) ->
  Forall2 (white n) (spacings (t0 :: t1 :: ts)) D -> solved_along n sde "eulerHeun" x (t0 :: t1 :: ts) D B sol ->
  forall i t j, nth_error (t0 :: t1 :: ts) i = Some t -> (j < n)%nat ->
  let l := alpha j + beta j ^ 2 / 2 in
  Rabs (average (fun p => comp (nth i (sol p) []) j) (paths D) - exp (l * (t - t0)) * comp x j) <=
  l ^ 2 * H * (t - t0) * exp (Rabs l * (t - t0)) * Rabs (comp x j).
Proof. exact C177_heun_mean_partial_pf. Qed.
Print Assumptions C177_heun_mean_partial.

(** C177, Stratonovich, milstein_stratonovich: the mean converges, with the square root of the step size. *)
Theorem C177_milstein_half_order_partial :
  forall n sde alpha beta D B x t0 t1 ts sol H,
  linear_sde n sde alpha beta -> length x = n -> H <= 1 -> (forall h, In h (spacings (t0 :: t1 :: ts)) -> 0 < h <= H) ->
  Forall2 (white n) (spacings (t0 :: t1 :: ts)) D -> solved_along n sde "milstein_stratonovich" x (t0 :: t1 :: ts) D B sol ->
  forall i t j, nth_error (t0 :: t1 :: ts) i = Some t -> (j < n)%nat ->
  let l := alpha j + beta j ^ 2 / 2 in let c := Rabs (alpha j * beta j) / 2 in
  Rabs (average (fun p => comp (nth i (sol p) []) j) (paths D) - exp (l * (t - t0)) * comp x j) <=
  (l ^ 2 + c) * sqrt H * (t - t0) * exp ((Rabs l + c) * (t - t0)) * Rabs (comp x j).
Proof. exact C177_milstein_half_order_partial_pf. Qed.
Print Assumptions C177_milstein_half_order_partial.

(** C177 fails for milstein_stratonovich: dX = X dt + X o dW from 1 over [[0, 1]] with coin tosses; the error of the mean
    is not bounded by a multiple of the step size 1 / m. *)
Theorem C177_milstein_refuted :
  forall C, exists m, (0 < m)%nat /\
  let h := / INR m in let grid := ugrid h m 0 in
  let sde := gbm "stratonovich" in
  linear_sde 1 sde (fun _ => 1) (fun _ => 1) /\ (forall d, In d (spacings grid) -> d = h) /\ nth_error grid m = Some 1 /\
  Forall2 (white 1) (spacings grid) (coins grid) /\
  exists B sol, solved_along 1 sde "milstein_stratonovich" [1] grid (coins grid) B sol /\
  C * h < Rabs (average (fun p => comp (nth m (sol p) []) 0) (paths (coins grid)) - exp ((1 + 1 ^ 2 / 2) * (1 - 0)) * 1).
Proof. exact C177_milstein_refuted_pf. Qed.
Print Assumptions C177_milstein_refuted.

(** the hypotheses of C177 hold for geometric Brownian motion with coin tosses along every increasing grid *)
Example C177_ex :
  forall t0 t1 ts, increasing (t0 :: t1 :: ts) ->
  linear_sde 1 (gbm "ito") (fun _ => 1) (fun _ => 1) /\ (forall h, In h (spacings (t0 :: t1 :: ts)) -> 0 < h) /\
  Forall2 (white 1) (spacings (t0 :: t1 :: ts)) (coins (t0 :: t1 :: ts)) /\
  solved_along 1 (gbm "ito") "euler" [1] (t0 :: t1 :: ts) (coins (t0 :: t1 :: ts)) (tosses (t0 :: t1 :: ts)) (tossed (gbm "ito") [1] (t0 :: t1 :: ts) "euler") /\
  solved_along 1 (gbm "stratonovich") "eulerHeun" [1] (t0 :: t1 :: ts) (coins (t0 :: t1 :: ts)) (tosses (t0 :: t1 :: ts))
    (tossed (gbm "stratonovich") [1] (t0 :: t1 :: ts) "eulerHeun").
Proof. exact C177_ex_pf. Qed.

