(** Property theorems (generated by tools/genprop.py from Pf_Moment.v, which holds the proofs). *)
From Coq Require Import ZArith QArith Qreals Reals Lra Lia String List Bool Psatz.
From Verif Require Import Num Py Tensor M_SolversOde M_Odeint M_Sde Spec_Ode Spec_RK Spec_Sde Spec_Lin Spec_Moment.
From Verif Require Import L_Base L_Fixed L_Fixed2 L_Vec L_Steps L_Conv L_Sde Pf_Fixed Pf_Sde.
Import ListNotations.
Local Notation length := List.length.
From Verif Require Import Pf_Moment.
Import ListNotations.
Local Open Scope R_scope.

(** C127.  The average of the solutions of the Ito solvers over all paths with independent increments of mean zero and
    variance h is the Euler solution of the drift, if the drift is affine in the state, for every diffusion. *)
Theorem C127_ito_mean :
  forall n name (sde : sde_func ROps) A b D B x t0 t1 ts sol fuel atol rtol interp all semi times ode,
  name = "euler"%string \/ name = "milstein_ito"%string ->
  affine_field n (sde_f sde) A b -> length x = n -> separated (t0 :: t1 :: ts) -> t0 <= t1 ->
  Forall2 (white n) (spacings (t0 :: t1 :: ts)) D ->
  (forall p, In p (paths D) -> sized n sde (B p) /\ increments (B p) (t0 :: t1 :: ts) p /\
     @sdeint ROps sde x (t0 :: t1 :: ts) name (B p) [] = Ok (t0 :: t1 :: ts, sol p)) ->
  snd (@odeint ROps fuel (sde_f sde) x (@TTensor ROps (t0 :: t1 :: ts)) (Euler ROps) atol rtol interp all [] semi) = Ok (times, ode) ->
  forall i y j, nth_error ode i = Some y -> (j < n)%nat ->
  average (fun p => comp (nth i (sol p) []) j) (paths D) = comp y j.
Proof. exact C127_ito_mean_pf. Qed.
Print Assumptions C127_ito_mean.

(** C128.  Stratonovich, diffusion beta x per component: the average of the solutions of the Euler-Heun solver is the
    Euler solution of the drift with the correction beta^2 x / 2. *)
Theorem C128_heun_mean :
  forall n (sde : sde_func ROps) A b beta D B x t0 t1 ts sol fuel atol rtol interp all semi times ode,
  affine_field n (sde_f sde) A b ->
  (forall t y j, length y = n -> (j < n)%nat -> comp (sde_g sde t y) j = beta j * comp y j) ->
  length x = n -> separated (t0 :: t1 :: ts) -> t0 <= t1 ->
  Forall2 (white n) (spacings (t0 :: t1 :: ts)) D ->
  (forall p, In p (paths D) -> sized n sde (B p) /\ increments (B p) (t0 :: t1 :: ts) p /\
     @sdeint ROps sde x (t0 :: t1 :: ts) "eulerHeun" (B p) [] = Ok (t0 :: t1 :: ts, sol p)) ->
  snd (@odeint ROps fuel (corrected n (sde_f sde) beta) x (@TTensor ROps (t0 :: t1 :: ts)) (Euler ROps) atol rtol interp all [] semi) = Ok (times, ode) ->
  forall i y j, nth_error ode i = Some y -> (j < n)%nat ->
  average (fun p => comp (nth i (sol p) []) j) (paths D) = comp y j.
Proof. exact C128_heun_mean_pf. Qed.
Print Assumptions C128_heun_mean.

(** C128, milstein_stratonovich under the same hypotheses: the average follows another recursion, in which the drift is
    multiplied by 1 + beta sqrt(h) / 2. *)
Theorem C128_milstein_mean :
  forall n (sde : sde_func ROps) A b beta D B x t0 t1 ts sol ys,
  affine_field n (sde_f sde) A b ->
  (forall t y j, length y = n -> (j < n)%nat -> comp (sde_g sde t y) j = beta j * comp y j) ->
  length x = n -> (forall h, In h (spacings (t0 :: t1 :: ts)) -> 0 < h) ->
  Forall2 (white n) (spacings (t0 :: t1 :: ts)) D ->
  (forall p, In p (paths D) -> sized n sde (B p) /\ increments (B p) (t0 :: t1 :: ts) p /\
     @sdeint ROps sde x (t0 :: t1 :: ts) "milstein_stratonovich" (B p) [] = Ok (t0 :: t1 :: ts, sol p)) ->
  follows (fun s t a c => length a = n -> length c = n /\ forall j, (j < n)%nat -> comp c j =
     comp a j + (t - s) * (comp (sde_f sde s a) j * (1 + beta j * sqrt (t - s) / 2) + beta j ^ 2 / 2 * comp a j)) x (t0 :: t1 :: ts) ys ->
  forall i y j, nth_error ys i = Some y -> (j < n)%nat ->
  average (fun p => comp (nth i (sol p) []) j) (paths D) = comp y j.
Proof. exact C128_milstein_mean_pf. Qed.
Print Assumptions C128_milstein_mean.

Example C127_ito_mean_ex :
  affine_field 1 (sde_f (gbm "ito")) (fun _ _ _ => 1) (fun _ _ => 0) /\ separated [0; 1; 2] /\
  Forall2 (white 1) (spacings [0; 1; 2]) [coin; coin] /\ List.length (paths [coin; coin]) = 4%nat /\
  (forall p, In p (paths [coin; coin]) -> sized 1 (gbm "ito") (walk p) /\ increments (walk p) [0; 1; 2] p /\
     @sdeint ROps (gbm "ito") [1] [0; 1; 2] "euler" (walk p) [] = Ok ([0; 1; 2], solutions (gbm "ito") [1] [0; 1; 2] "euler" p)) /\
  average (fun p => comp (nth 2 (solutions (gbm "ito") [1] [0; 1; 2] "euler" p) []) 0) (paths [coin; coin]) = 4.
Proof. exact C127_ito_mean_ex_pf. Qed.

(** C128 fails for milstein_stratonovich: dX = X dt + X o dW, one step of length 1 with increments 1 and -1.  The
    average is 3; the corrected drift gives 5/2. *)
Theorem C128_milstein_refuted :
  exists n (sde : sde_func ROps) A b beta D B x sol ode,
  affine_field n (sde_f sde) A b /\
  (forall t y j, length y = n -> (j < n)%nat -> comp (sde_g sde t y) j = beta j * comp y j) /\
  length x = n /\ separated [0; 1; 2] /\ Forall2 (white n) (spacings [0; 1; 2]) D /\
  (forall p, In p (paths D) -> sized n sde (B p) /\ increments (B p) [0; 1; 2] p /\
     @sdeint ROps sde x [0; 1; 2] "milstein_stratonovich" (B p) [] = Ok ([0; 1; 2], sol p)) /\
  snd (@odeint ROps 0 (corrected n (sde_f sde) beta) x (@TTensor ROps [0; 1; 2]) (Euler ROps) 0 0 false false [] None) = Ok ([0; 1; 2], ode) /\
  average (fun p => comp (nth 1 (sol p) []) 0) (paths D) = 3 /\ comp (nth 1 ode []) 0 = 5 / 2.
Proof. exact C128_milstein_refuted_pf. Qed.
Print Assumptions C128_milstein_refuted.

Example C128_heun_mean_ex :
  (forall p, In p (paths [coin; coin]) -> sized 1 (gbm "stratonovich") (walk p) /\ increments (walk p) [0; 1; 2] p /\
     @sdeint ROps (gbm "stratonovich") [1] [0; 1; 2] "eulerHeun" (walk p) [] = Ok ([0; 1; 2], solutions (gbm "stratonovich") [1] [0; 1; 2] "eulerHeun" p)) /\
  average (fun p => comp (nth 1 (solutions (gbm "stratonovich") [1] [0; 1; 2] "eulerHeun" p) []) 0) (paths [coin; coin]) = 5 / 2.
Proof. exact C128_heun_mean_ex_pf. Qed.

(** C129.  dX = (a X + c) dt + (b X + sigma) dW with the Euler-Maruyama solver: the average of the squares obeys an
    explicit recursion. *)
Theorem C129_second_moment :
  forall (sde : sde_func ROps) a c b sigma D B x t0 t1 ts sol,
  (forall t y, length y = 1%nat -> comp (sde_f sde t y) 0 = a * comp y 0 + c) ->
  (forall t y, length y = 1%nat -> comp (sde_g sde t y) 0 = b * comp y 0 + sigma) ->
  length x = 1%nat -> Forall2 (white 1) (spacings (t0 :: t1 :: ts)) D ->
  (forall p, In p (paths D) -> sized 1 sde (B p) /\ increments (B p) (t0 :: t1 :: ts) p /\
     @sdeint ROps sde x (t0 :: t1 :: ts) "euler" (B p) [] = Ok (t0 :: t1 :: ts, sol p)) ->
  let M := fun i => average (fun p => comp (nth i (sol p) []) 0) (paths D) in
  let Q := fun i => average (fun p => comp (nth i (sol p) []) 0 ^ 2) (paths D) in
  M 0%nat = comp x 0 /\ Q 0%nat = comp x 0 ^ 2 /\
  forall i s t, nth_error (t0 :: t1 :: ts) i = Some s -> nth_error (t0 :: t1 :: ts) (S i) = Some t ->
  let h := t - s in
  M (S i) = (1 + a * h) * M i + c * h /\
  Q (S i) = ((1 + a * h) ^ 2 + b ^ 2 * h) * Q i + 2 * h * ((1 + a * h) * c + b * sigma) * M i + h * (c ^ 2 * h + sigma ^ 2).
Proof. exact C129_second_moment_pf. Qed.
Print Assumptions C129_second_moment.

(** C129.  Geometric Brownian motion dX = a X dt + b X dW: the mean square is multiplied by (1 + a h)^2 + b^2 h per
    step.  It never grows if 2 a + b^2 + a^2 h <= 0 for all spacings h, and grows in every step if 2 a + b^2 + a^2 h > 0. *)
Theorem C129_mean_square_stability :
  forall (sde : sde_func ROps) a b D B x t0 t1 ts sol,
  (forall t y, length y = 1%nat -> comp (sde_f sde t y) 0 = a * comp y 0) ->
  (forall t y, length y = 1%nat -> comp (sde_g sde t y) 0 = b * comp y 0) ->
  length x = 1%nat -> (forall h, In h (spacings (t0 :: t1 :: ts)) -> 0 < h) ->
  Forall2 (white 1) (spacings (t0 :: t1 :: ts)) D ->
  (forall p, In p (paths D) -> sized 1 sde (B p) /\ increments (B p) (t0 :: t1 :: ts) p /\
     @sdeint ROps sde x (t0 :: t1 :: ts) "euler" (B p) [] = Ok (t0 :: t1 :: ts, sol p)) ->
  let Q := fun i => average (fun p => comp (nth i (sol p) []) 0 ^ 2) (paths D) in
  (forall i, (i < length (t0 :: t1 :: ts))%nat -> Q i = grid_product (fun h => (1 + a * h) ^ 2 + b ^ 2 * h) (t0 :: t1 :: ts) i * comp x 0 ^ 2) /\
  ((forall h, In h (spacings (t0 :: t1 :: ts)) -> 2 * a + b ^ 2 + a ^ 2 * h <= 0) ->
   forall i, (S i < length (t0 :: t1 :: ts))%nat -> Q (S i) <= Q i) /\
  ((forall h, In h (spacings (t0 :: t1 :: ts)) -> 0 < 2 * a + b ^ 2 + a ^ 2 * h) -> comp x 0 <> 0 ->
   forall i, (S i < length (t0 :: t1 :: ts))%nat -> Q i < Q (S i)).
Proof. exact C129_mean_square_stability_pf. Qed.
Print Assumptions C129_mean_square_stability.

Example C129_mean_square_stability_ex :
  (forall h, In h (spacings [0; 1; 2]) -> 0 < h) /\ Forall2 (white 1) (spacings [0; 1; 2]) [coin; coin] /\
  (forall h, In h (spacings [0; 1; 2]) -> 0 < 2 * 1 + 1 ^ 2 + 1 ^ 2 * h) /\
  average (fun p => comp (nth 2 (solutions (gbm "ito") [1] [0; 1; 2] "euler" p) []) 0 ^ 2) (paths [coin; coin]) = 25.
Proof. exact C129_mean_square_stability_ex_pf. Qed.

