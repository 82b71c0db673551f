(** The adjoint gradient of a nonlinear equation is the gradient of the solve up to first order in the step size. *)
From Coq Require Import ZArith QArith Qreals Reals Lra Lia List Bool.
From Verif Require Import Num Py Tensor M_SolversOde M_Utils M_Odeint M_Root M_Sens Spec_Ode Spec_Trees Spec_RK Spec_Root Spec_Sens Spec_Conv Spec_Grad.
From Verif Require Import L_Base L_Fixed L_Vec L_Steps L_Steps2 L_Tables L_Fixed2 L_Root L_Sens L_SensP L_Conv L_Models L_Tangent Pf_Fixed Pf_Sens Pf_SensP L_Adj L_Adj2.
Import ListNotations.
Local Notation length := List.length.
Local Notation rvl := (list R).
Local Open Scope R_scope.

Lemma last_In {A} (l : list A) d : l <> [] -> In (last l d) l.
Proof. intros H. destruct (exists_last H) as (l0 & a & ->). rewrite last_last. apply in_or_app. right. now left. Qed.

Lemma increasing_le l t : increasing (t :: l) -> forall s, In s (t :: l) -> t <= s.
Proof.
  intros H s [->|Hs]; [lra|]. apply In_nth_error in Hs. destruct Hs as (i & Hi). left. apply (H 0%nat (S i) t s); auto. lia.
Qed.
Lemma increasing_last l t : increasing (t :: l) -> forall s, In s (t :: l) -> s <= last (t :: l) 0.
Proof.
  revert t. induction l as [|t1 l IH]; intros t Hi s Hs.
  - destruct Hs as [->|[]]. cbn. lra.
  - assert (Hi' : increasing (t1 :: l)) by (intros i j a c Hij; apply (Hi (S i) (S j) a c); lia).
    change (last (t :: t1 :: l) 0) with (last (t1 :: l) 0). destruct Hs as [->|Hs]; [|now apply IH].
    apply Rle_trans with t1; [left; apply (Hi 0%nat 1%nat s t1); auto; lia|apply IH; auto; now left].
Qed.

Lemma total_pos g : 0 <= total g.
Proof. unfold total. induction g as [|v g IH]; cbn; [lra|]. pose proof (asum_pos v) as P. unfold asum in P. lra. Qed.

Lemma traj_length {X} (one : R -> R -> X -> X) : forall ts x, length (one_step_traj one x ts) = length ts.
Proof. induction ts as [|t [|t1 ts] IH]; intros x; cbn [one_step_traj length]; auto. f_equal. apply IH. Qed.
Lemma map_fst_combine {A B} (l : list A) : forall l' : list B, length l' = length l -> map fst (combine l l') = l.
Proof. induction l as [|a l IH]; intros [|c l'] H; try discriminate; cbn; auto. f_equal. apply IH. now injection H. Qed.
Lemma map_snd_combine {A B} (l : list A) : forall l' : list B, length l' = length l -> map snd (combine l l') = l'.
Proof. induction l as [|a l IH]; intros [|c l'] H; try discriminate; cbn; auto. f_equal. apply IH. now injection H. Qed.

(** C114: nonlinear f(t, x, p), two explicit Runge-Kutta methods with weights that sum to one (forward and backward).
    [gx] are the gradients of the loss with respect to the returned states.  For every perturbation of the
    initial state and of the parameters of size E, the change of the loss predicted by the adjoint is the change computed
    by the perturbed solve up to C |gx| E (H + E), where H bounds the steps of the grid, and C depends only on the methods, the
    Lipschitz constant L, the length T of the interval and the initial speed M. *)
Lemma C114_adjoint_first_order_pf :
  forall L M T rows b rows' b', 0 <= L -> 0 <= M -> 0 <= T -> consistent rows b -> consistent rows' b' ->
  exists C, 0 <= C /\
  forall fuel fuel' s s' n m (f : rvl -> R -> rvl -> rvl) p D (F : adj_field (K := ROps)) x t0 t1 ts H gt gx atol rtol atol' rtol' interp,
  erk_solver s rows b -> erk_solver s' rows' b' -> smooth_family n m L f p D ->
  af_f F = f p -> transposes n m D (af_vjp_x F) (fun t x w => @cat_params ROps (af_vjp_p F t x w)) -> af_dg F = None ->
  separated (t0 :: t1 :: ts) -> increasing (t0 :: t1 :: ts) -> last (t0 :: t1 :: ts) 0 - t0 <= T -> 0 <= H -> steps_at_most H (t0 :: t1 :: ts) ->
  length x = n -> within n M (f p t0 x) ->
  length gx = length (t0 :: t1 :: ts) -> length gt = length (t0 :: t1 :: ts) -> Forall (fun g => length g = n) gx ->
  let solve p x := snd (@odeint ROps fuel (f p) x (@TTensor ROps (t0 :: t1 :: ts)) s atol rtol interp false [] None) in
  exists t_sol sol out, solve p x = Ok (t_sol, sol) /\
    @adjoint_backward ROps fuel' F m s' atol' rtol' t_sol sol gt gx = Ok out /\ length (ao_x out) = n /\ length (ao_params out) = m /\
    forall p' x' E, length p' = m -> length x' = n -> 0 <= E -> near n E x' x -> near m E p' p ->
      exists sol', solve p' x' = Ok (t_sol, sol') /\
      Rabs (pairing gx sol' - pairing gx sol - (dot (ao_x out) (minus_vec x' x) + dot (ao_params out) (minus_vec p' p))) <= C * total gx * E * (H + E).
Proof.
  intros L M T rows b rows' b' HL HM HT Hc Hc'.
  destruct (step_euler L T rows b HL HT Hc) as (K & HK & Heu). destruct (step_euler L T rows' b' HL HT Hc') as (K' & HK' & Heu').
  set (Fm := (1 + M) * exp (L * (2 + K * T) * T)).
  assert (HF : 0 <= Fm) by (apply Rmult_le_pos; [lra|left; apply exp_pos]).
  set (S := (1 + K * T) * (1 + Fm)). set (al := L + K' * L * T). set (be := L + L * S + (K + K') * (1 + Fm)).
  set (B := exp (al * T) * (be * T)). set (F1 := Fm + L * (B * T)).
  pose proof (PS T K Fm HT HK HF) as P1. fold S in P1. pose proof (PB L HL T K K' Fm HT HK HK' HF) as P2. fold S al be B in P2.
  assert (HF1 : 0 <= F1) by (assert (0 <= L * (B * T)) by (apply Rmult_le_pos; auto; now apply Rmult_le_pos); unfold F1; lra).
  destruct (transposed_euler L T rows' b' F1 HL HT HF1 Hc') as (K2 & HK2 & Htr).
  destruct (pair_step L T rows b Fm HL HT HF Hc) as (K3 & HK3 & Hps).
  set (C0 := K2 + L * (1 + B + S)).
  assert (PC0 : 0 <= C0) by (assert (0 <= L * (1 + B + S)) by (apply Rmult_le_pos; lra); unfold C0; lra).
  set (W := exp (K3 * T)). set (U := exp ((L + C0 * T) * T)).
  assert (PW : 0 <= W) by (left; apply exp_pos). assert (PU : 0 <= U) by (left; apply exp_pos).
  exists (exp (L * T) * ((K3 * W * (1 + W) + C0 * U) * T)).
  assert (PCC : 0 <= (K3 * W * (1 + W) + C0 * U) * T).
  { apply Rmult_le_pos; auto. assert (0 <= K3 * W * (1 + W)) by (apply Rmult_le_pos; [now apply Rmult_le_pos|lra]). assert (0 <= C0 * U) by (now apply Rmult_le_pos). lra. }
  split; [apply Rmult_le_pos; auto; left; apply exp_pos|].
  intros fuel fuel' s s' n m f p D F x t0 t1 ts H gt gx atol rtol atol' rtol' interp Hs Hs2 Hsm EF Htp Hdg Hsep Hinc Hlast HH Hst Hx HMx Hgx Hgt Hg solve.
  pose proof Hs as (Hfix & Hs'). pose proof Hsm as (Hp & Hf & _).
  assert (Hle : t0 <= t1) by (left; apply (Hinc 0%nat 1%nat t0 t1); auto).
  assert (Hsol : forall q y, length q = m -> length y = n -> solve q y = Ok (t0 :: t1 :: ts, one_step_traj (erk_step rows b (f q)) y (t0 :: t1 :: ts))).
  { intros q y Hq Hy. destruct (Hs' n (f q) (Hf q Hq)) as (one & lg & Hst' & Hone). unfold solve.
    rewrite (C01_fixed_trajectory_pf fuel s (f q) one lg) by auto. do 2 f_equal.
    apply (one_step_traj_ext (erk_step rows b (f q)) one (fun z => length z = n)); auto.
    intros t h z Hz. apply erk_step_len; auto. }
  set (grid := t0 :: t1 :: ts) in *. set (sol := one_step_traj (erk_step rows b (f p)) x grid).
  assert (Hall : Forall (fun y : rvl => length y = n) sol) by (apply traj_rows; auto).
  assert (Hsn : sol <> []) by (unfold sol, grid; cbn; discriminate).
  assert (Hgn : grid <> []) by discriminate.
  destruct (adjoint_backward_smooth n m L f p D F Hsm EF Htp Hdg fuel' s' rows' b' atol' rtol' Hs2 grid sol gt gx) as (out & E & Hl & Hl2 & HI); auto.
  { rewrite Forall_forall in Hall. apply Hall. now apply last_In. }
  exists grid, sol, out. split; [now apply Hsol|]. split; [exact E|]. split; [exact Hl|]. split; [exact Hl2|].
  intros p' x' Er Hp' Hx' HE Nx Np. exists (one_step_traj (erk_step rows b (f p')) x' grid). split; [now apply Hsol|].
  rewrite HI by (apply minus_len; auto).
  (* the step bound may be taken at most T *)
  set (H' := Rmin H T).
  assert (HH' : 0 <= H' <= T) by (unfold H'; split; [now apply Rmin_glb|apply Rmin_r]).
  assert (Hend : forall t, In t grid -> t - t0 <= T).
  { intros t Ht. pose proof (increasing_last _ _ Hinc t Ht) as Hq. fold grid in Hq. lra. }
  assert (Hst' : steps_at_most H' grid).
  { intros i a c Ha Hc2. apply Rmin_glb; [now apply (Hst i)|]. pose proof (Hend c (nth_error_In _ _ Hc2)). pose proof (increasing_le _ _ Hinc a (nth_error_In _ _ Ha)). lra. }
  pose proof (grid_links H' grid Hinc Hst') as Gl.
  assert (Heu1 : forall t h x F, length x = n -> Rabs h <= T -> 0 <= F -> within n F (f p t x) ->
    near n (Rabs h * (K * (1 + F) * Rabs h)) (erk_step rows b (f p) t h x) (axpy h (f p t x) x)) by (intros; eapply Heu; eauto).
  assert (Heu1' : forall t h x F, length x = n -> Rabs h <= T -> 0 <= F -> within n F (f p t x) ->
    near n (Rabs h * (K' * (1 + F) * Rabs h)) (erk_step rows' b' (f p) t h x) (axpy h (f p t x) x)) by (intros; eapply Heu'; eauto).
  pose proof (forward_links n m L f p D Hsm HL rows b T K HT HK Heu1 H' M t0 HM (t1 :: ts) t0 x ltac:(lra) Hx) as FL.
  fold grid in FL. fold sol in FL.
  specialize (FL ltac:(replace (t0 - t0) with 0 by ring; rewrite Rmult_0_r, exp_0; eapply within_le; [|exact HMx]; lra) Gl Hend). fold Fm in FL.
  set (l := combine grid sol) in *.
  assert (Lsol : length sol = length grid) by apply traj_length.
  assert (M1 : map fst l = grid) by now apply map_fst_combine.
  assert (M2 : map snd l = sol) by now apply map_snd_combine.
  assert (Hln : l <> []) by (unfold l, grid, sol; cbn; discriminate).
  destruct (exists_last Hln) as (l0 & [tN xN] & El).
  assert (EN : last grid 0 = tN) by (rewrite <- M1, El, map_app; cbn; apply last_last).
  assert (EX : last sol [] = xN) by (rewrite <- M2, El, map_app; cbn; apply last_last).
  assert (ER : tl (rev grid) = map fst (rev l0)) by (rewrite <- M1, El, map_app, rev_app_distr, map_rev; reflexivity).
  change (vec ROps) with rvl in *. change (num ROps) with R in *. rewrite ER, EN, EX.
  assert (HG : good n m D C0 H' l (back_ops m f p D rows' b' (map fst (rev l0)) tN xN [])).
  { rewrite El. rewrite <- (rev_involutive l0) at 1.
    apply (back_good n m L f p D Hsm HL rows rows' b b' T K K' K2 Fm H' HT HK HK' HK2 HF HH' Heu1 Heu1') with (tN := tN).
    - intros t h y Hy Hh Hw u q E0 Hu Hq HE0 Wu Wq. eapply Htr; eauto.
    - rewrite rev_involutive, <- El. exact FL.
    - rewrite <- EX. rewrite Forall_forall in Hall. apply Hall. now apply last_In.
    - lra.
    - intros a Ha. rewrite <- in_rev in Ha. assert (Ha' : In (fst a) grid) by (rewrite <- M1, El, map_app; apply in_or_app; left; now apply in_map).
      pose proof (increasing_le _ _ Hinc _ Ha'). rewrite <- EN. lra.
    - unfold err. rewrite Rminus_diag_eq, gr_0 by reflexivity. apply near_refl. lra.
    - reflexivity. }
  destruct l as [|[t0' x0'] lr] eqn:El2; [contradiction|].
  assert (E0 : t0' = t0 /\ x0' = x) by (unfold grid, sol in El2; cbn in El2; injection El2; auto).
  destruct E0 as (-> & ->).
  rewrite <- M1 at 1. rewrite <- M2.
  assert (Ww : within n Er (minus_vec x' x)) by now apply within_minus.
  eapply Rle_trans; [apply (compare n m L f p D Hsm HL rows b T Fm K3 C0 H' t0 Er p' HT HK3 PC0 HH' HE Hp' Np)|]; auto.
  - intros t h y y' E0 Hy Hy' Hh Hw HE0 Ny Nq. eapply Hps; eauto.
  - lra.
  - intros a Ha. apply Hend. rewrite <- M1. now apply in_map.
  - now apply minus_len.
  - rewrite Rminus_diag_eq, gr_0 by reflexivity. exact Nx.
  - rewrite Rminus_diag_eq, gr_0 by reflexivity. exact Ww.
  - rewrite Rminus_diag_eq, gr_0 by reflexivity. apply near_refl. lra.
  - fold W U. pose proof (total_pos gx) as PT.
    assert (H'E : Er * (H' + Er) <= Er * (H + Er)) by (apply Rmult_le_compat_l; auto; apply Rplus_le_compat_r, Rmin_l).
    apply Rle_trans with (total gx * (exp (L * T) * ((K3 * W * (1 + W) + C0 * U) * (Er * (H + Er)) * T))).
    + apply Rmult_le_compat_l; auto. apply Rmult_le_compat_l; [left; apply exp_pos|]. apply Rmult_le_compat_r; auto. apply Rmult_le_compat_l; auto.
      assert (0 <= K3 * W * (1 + W)) by (apply Rmult_le_pos; [now apply Rmult_le_pos|lra]). assert (0 <= C0 * U) by (now apply Rmult_le_pos). lra.
    + right. ring.
Qed.

(** axpy e v x = x + e v *)
Lemma near_ray n e v x V : length v = n -> length x = n -> within n V v -> near n (Rabs e * V) (axpy e v x) x.
Proof.
  intros Hv Hx HV i Hi. rewrite (nth_axpy n) by auto. replace (nth i x 0 + e * nth i v 0 - nth i x 0) with (e * nth i v 0) by ring.
  rewrite Rabs_mult. apply Rmult_le_compat_l; [apply Rabs_pos|auto].
Qed.
Lemma dot_ray n e g v x : length g = n -> length v = n -> length x = n -> dot g (minus_vec (axpy e v x) x) = e * dot g v.
Proof.
  intros Hg Hv Hx. assert (La : length (axpy e v x) = n) by now apply L_Steps.axpy_len.
  rewrite dot_minus_r by (rewrite La; auto). rewrite dot_axpy_r by congruence. ring.
Qed.

(** C114: if the loss of the solve has a derivative d in the direction (v, w) of initial state and parameters, then the adjoint
    gradient predicts d up to C |gx| V H: its error is at most proportional to the step bound H. *)
Lemma C114_gradient_error_pf :
  forall L M T rows b rows' b', 0 <= L -> 0 <= M -> 0 <= T -> consistent rows b -> consistent rows' b' ->
  exists C, 0 <= C /\
  forall fuel fuel' s s' n m (f : rvl -> R -> rvl -> rvl) p D (F : adj_field (K := ROps)) x t0 t1 ts H gt gx atol rtol atol' rtol' interp,
  erk_solver s rows b -> erk_solver s' rows' b' -> smooth_family n m L f p D ->
  af_f F = f p -> transposes n m D (af_vjp_x F) (fun t x w => @cat_params ROps (af_vjp_p F t x w)) -> af_dg F = None ->
  separated (t0 :: t1 :: ts) -> increasing (t0 :: t1 :: ts) -> last (t0 :: t1 :: ts) 0 - t0 <= T -> 0 <= H -> steps_at_most H (t0 :: t1 :: ts) ->
  length x = n -> within n M (f p t0 x) ->
  length gx = length (t0 :: t1 :: ts) -> length gt = length (t0 :: t1 :: ts) -> Forall (fun g => length g = n) gx ->
  let solve p x := snd (@odeint ROps fuel (f p) x (@TTensor ROps (t0 :: t1 :: ts)) s atol rtol interp false [] None) in
  exists t_sol sol out, solve p x = Ok (t_sol, sol) /\ @adjoint_backward ROps fuel' F m s' atol' rtol' t_sol sol gt gx = Ok out /\
    forall v w V (loss : R -> R) d, length v = n -> length w = m -> 0 <= V -> within n V v -> within m V w ->
      (forall e t_sol' sol', solve (axpy e w p) (axpy e v x) = Ok (t_sol', sol') -> loss e = pairing gx sol') ->
      derivable_pt_lim loss 0 d ->
      Rabs (d - (dot (ao_x out) v + dot (ao_params out) w)) <= C * total gx * V * H.
Proof.
  intros L M T rows b rows' b' HL HM HT Hc Hc'.
  destruct (C114_adjoint_first_order_pf L M T rows b rows' b' HL HM HT Hc Hc') as (C & HC & HG). exists C. split; [exact HC|].
  intros fuel fuel' s s' n m f p D F x t0 t1 ts H gt gx atol rtol atol' rtol' interp Hs Hs2 Hsm EF Htp Hdg Hsep Hinc Hlast HH Hst Hx HMx Hgx Hgt Hg solve.
  destruct (HG fuel fuel' s s' n m f p D F x t0 t1 ts H gt gx atol rtol atol' rtol' interp Hs Hs2 Hsm EF Htp Hdg Hsep Hinc Hlast HH Hst Hx HMx Hgx Hgt Hg)
    as (t_sol & sol & out & E1 & E2 & L1 & L2 & HP). clear HG. cbv zeta in *. fold solve in E1, HP.
  exists t_sol, sol, out. split; [exact E1|]. split; [exact E2|].
  intros v w V loss d Hv Hw HV Wv Ww Hloss Hd. pose proof Hsm as (Hp & _).
  set (G := dot (ao_x out) v + dot (ao_params out) w). pose proof (total_pos gx) as PT.
  assert (HB : forall e, Rabs (loss e - pairing gx sol - e * G) <= C * total gx * (Rabs e * V) * (H + Rabs e * V)).
  { intros e. pose proof (Rabs_pos e) as Pe.
    destruct (HP (axpy e w p) (axpy e v x) (Rabs e * V)) as (sol' & E3 & HB).
    - now apply L_Steps.axpy_len.
    - now apply L_Steps.axpy_len.
    - now apply Rmult_le_pos.
    - now apply near_ray.
    - now apply near_ray.
    - rewrite (Hloss e _ _ E3). rewrite (dot_ray n), (dot_ray m) in HB by auto. unfold G. rewrite Rmult_plus_distr_l. exact HB. }
  assert (L0 : loss 0 = pairing gx sol).
  { pose proof (HB 0) as H0. rewrite Rabs_R0, !Rmult_0_l, Rmult_0_r, Rmult_0_l, Rminus_0_r in H0. pose proof (Rabs_pos (loss 0 - pairing gx sol)) as P0.
    assert (Z : Rabs (loss 0 - pairing gx sol) = 0) by lra. destruct (Req_dec (loss 0 - pairing gx sol) 0) as [Q|Q]; [lra|]. apply Rabs_no_R0 in Q. contradiction. }
  apply Rnot_lt_le. intros Hlt. set (B0 := C * total gx * V * H) in *. set (X := Rabs (d - G)) in *.
  set (eps := (X - B0) / 2). assert (Pe : 0 < eps) by (unfold eps; lra).
  destruct (Hd eps Pe) as (delta & Hdel).
  set (Q := C * total gx * V * V). assert (PQ : 0 <= Q) by (repeat apply Rmult_le_pos; auto).
  set (e := Rmin (delta / 2) (eps / (2 * (Q + 1)))).
  pose proof (cond_pos delta) as Pd.
  assert (Pq : 0 < eps / (2 * (Q + 1))) by (apply Rdiv_lt_0_compat; lra).
  assert (Pe2 : 0 < e) by (unfold e; apply Rmin_glb_lt; lra).
  assert (Be : e <= delta / 2) by apply Rmin_l. assert (Bq : e <= eps / (2 * (Q + 1))) by apply Rmin_r.
  specialize (Hdel e ltac:(lra) ltac:(rewrite Rabs_right; lra)). rewrite Rplus_0_l, L0 in Hdel.
  specialize (HB e). rewrite (Rabs_right e) in HB by lra.
  set (Df := loss e - pairing gx sol) in *.
  assert (A1 : Rabs (Df / e - G) <= B0 + Q * e).
  { replace (Df / e - G) with ((Df - e * G) / e) by (field; lra). unfold Rdiv. rewrite Rabs_mult, (Rabs_right (/ e)) by (left; now apply Rinv_0_lt_compat).
    apply Rmult_le_reg_r with e; auto. rewrite Rmult_assoc, Rinv_l, Rmult_1_r by lra. eapply Rle_trans; [exact HB|]. unfold B0, Q. right. ring. }
  assert (A2 : Q * e <= eps / 2).
  { assert (e * (2 * (Q + 1)) <= eps). { apply Rmult_le_compat_r with (r := 2 * (Q + 1)) in Bq; [|lra]. unfold Rdiv in Bq. rewrite Rmult_assoc, Rinv_l in Bq by lra. lra. } nra. }
  assert (A3 : X <= Rabs (Df / e - G) + Rabs (Df / e - d)).
  { unfold X. replace (d - G) with ((Df / e - G) + - (Df / e - d)) by ring. eapply Rle_trans; [apply Rabs_triang|]. rewrite Rabs_Ropp. lra. }
  unfold eps in *. lra.
Qed.

(** The built-in fixed-step solvers are explicit Runge-Kutta methods with weights that sum to one *)
Lemma C114_solvers_pf :
  (erk_solver (Euler ROps) (to_R_rows q_euler) (to_R qb_euler) /\ consistent (to_R_rows q_euler) (to_R qb_euler)) /\
  (erk_solver (Midpoint ROps) (to_R_rows q_midpoint) (to_R qb_midpoint) /\ consistent (to_R_rows q_midpoint) (to_R qb_midpoint)) /\
  (erk_solver (RungeKutta4 ROps) (to_R_rows q_rk4_code) (to_R qb_rk4) /\ consistent (to_R_rows q_rk4_code) (to_R qb_rk4)).
Proof.
  split; [|split]; split; first [exact C05_euler_pf|exact C05_midpoint_pf|exact C05_rk4_pf|split; [reflexivity|]];
    cbn; unfold Q2R; cbn; lra.
Qed.

Lemma sin_lip a c : Rabs (sin a - sin c) <= Rabs (a - c).
Proof.
  destruct (Rtotal_order a c) as [H|[->|H]].
  - destruct (MVT_cor2 sin cos a c H) as (z & E & _); [intros; apply derivable_pt_lim_sin|].
    rewrite (Rabs_minus_sym (sin a)), E, Rabs_mult, (Rabs_minus_sym a). pose proof (COS_bound z). assert (Rabs (cos z) <= 1) by (apply Rabs_le; lra).
    pose proof (Rabs_pos (c - a)). nra.
  - rewrite !Rminus_diag_eq by reflexivity. lra.
  - destruct (MVT_cor2 sin cos c a H) as (z & E & _); [intros; apply derivable_pt_lim_sin|].
    rewrite E, Rabs_mult. pose proof (COS_bound z). assert (Rabs (cos z) <= 1) by (apply Rabs_le; lra). pose proof (Rabs_pos (a - c)). nra.
Qed.
Lemma cos_lip a c : Rabs (cos a - cos c) <= Rabs (a - c).
Proof.
  rewrite !cos_sin. eapply Rle_trans; [apply sin_lip|]. right. f_equal. ring.
Qed.
Lemma sin_taylor a c : Rabs (sin a - sin c - cos c * (a - c)) <= (a - c) * (a - c).
Proof.
  destruct (Rtotal_order a c) as [H|[->|H]].
  - destruct (MVT_cor2 sin cos a c H) as (z & E & Hz); [intros; apply derivable_pt_lim_sin|].
    replace (sin a - sin c - cos c * (a - c)) with ((cos z - cos c) * (a - c)) by nra. rewrite Rabs_mult.
    pose proof (cos_lip z c) as B. rewrite (Rabs_left (a - c)) by lra. rewrite (Rabs_left (z - c)) in B by lra. nra.
  - replace (sin c - sin c - cos c * (c - c)) with 0 by ring. rewrite Rabs_R0. nra.
  - destruct (MVT_cor2 sin cos c a H) as (z & E & Hz); [intros; apply derivable_pt_lim_sin|].
    replace (sin a - sin c - cos c * (a - c)) with ((cos z - cos c) * (a - c)) by nra. rewrite Rabs_mult.
    pose proof (cos_lip z c) as B. rewrite (Rabs_right (a - c)) by lra. rewrite (Rabs_right (z - c)) in B by lra. nra.
Qed.

(** f(t, x, p) = sin (x + p) + t in dimension 1, with its derivative and vector-Jacobian products, meets the hypotheses *)
Lemma C114_ex_pf :
  let f := fun (p : rvl) (t : R) (x : rvl) => [sin (nth 0 x 0 + nth 0 p 0) + t] in
  let D := fun (t : R) (x u q : rvl) => [cos (nth 0 x 0 + 3) * (nth 0 u 0 + nth 0 q 0)] in
  let vjp := fun (t : R) (x w : rvl) => [cos (nth 0 x 0 + 3) * nth 0 w 0] in
  let F := @MkAF ROps (f [3]) vjp (fun _ _ w => None) (fun t x w => [Some (vjp t x w)]) None in
  smooth_family 1 1 4 f [3] D /\ transposes 1 1 D (af_vjp_x F) (fun t x w => @cat_params ROps (af_vjp_p F t x w)) /\
  separated [0; 1; 3] /\ increasing [0; 1; 3] /\ steps_at_most 2 [0; 1; 3] /\ within 1 1 (f [3] 0 [1]).
Proof.
  intros f D vjp F.
  assert (one : forall i, (i < 1)%nat -> i = 0%nat) by (intros; lia).
  split; [|split; [|split; [|split; [|split]]]].
  - split; [reflexivity|]. split; [intros q Hq t x Hx; reflexivity|]. split; [reflexivity|].
    split; [|split; [|split; [|split]]].
    + intros q s t y x E _ _ _ HE Ny Np i Hi. rewrite (one i Hi). cbn [f nth]. specialize (Ny 0%nat ltac:(lia)). specialize (Np 0%nat ltac:(lia)). cbn [nth] in Np.
      replace (sin (nth 0 y 0 + nth 0 q 0) + s - (sin (nth 0 x 0 + 3) + t)) with ((sin (nth 0 y 0 + nth 0 q 0) - sin (nth 0 x 0 + 3)) + (s - t)) by ring.
      eapply Rle_trans; [apply Rabs_triang|]. pose proof (sin_lip (nth 0 y 0 + nth 0 q 0) (nth 0 x 0 + 3)) as B.
      replace (nth 0 y 0 + nth 0 q 0 - (nth 0 x 0 + 3)) with ((nth 0 y 0 - nth 0 x 0) + (nth 0 q 0 - 3)) in B by ring.
      pose proof (Rabs_triang (nth 0 y 0 - nth 0 x 0) (nth 0 q 0 - 3)). pose proof (Rabs_pos (s - t)). lra.
    + intros q t y x E Hq Hy Hx HE Ny Np i Hi. rewrite (one i Hi). specialize (Ny 0%nat ltac:(lia)). specialize (Np 0%nat ltac:(lia)). cbn [nth] in Np.
      rewrite nth_minus by reflexivity. cbn [f D nth]. rewrite !nth_minus by (cbn; congruence). cbn [nth].
      set (a := nth 0 y 0) in *. set (c := nth 0 x 0) in *. set (r := nth 0 q 0) in *.
      replace (sin (a + r) + t - (sin (c + 3) + t) - cos (c + 3) * (a - c + (r - 3))) with (sin (a + r) - sin (c + 3) - cos (c + 3) * (a + r - (c + 3))) by ring.
      eapply Rle_trans; [apply sin_taylor|]. replace (a + r - (c + 3)) with ((a - c) + (r - 3)) by ring.
      apply Rabs_le_inv in Ny. apply Rabs_le_inv in Np. nra.
    + intros t x u u' q q' Hx Hu Hu' Hq Hq'. unfold D. rewrite !nth_minus by congruence. unfold minus_vec. cbn. f_equal. ring.
    + intros t x u q E Hx Hu Hq HE Wu Wq i Hi. rewrite (one i Hi). cbn [D nth]. specialize (Wu 0%nat ltac:(lia)). specialize (Wq 0%nat ltac:(lia)).
      rewrite Rabs_mult. pose proof (COS_bound (nth 0 x 0 + 3)). assert (B : Rabs (cos (nth 0 x 0 + 3)) <= 1) by (apply Rabs_le; lra).
      pose proof (Rabs_triang (nth 0 u 0) (nth 0 q 0)). pose proof (Rabs_pos (nth 0 u 0 + nth 0 q 0)). pose proof (Rabs_pos (cos (nth 0 x 0 + 3))). nra.
    + intros s t y x u q e E Hy Hx Hu Hq He HE Ny Wu Wq i Hi. rewrite (one i Hi). cbn [D nth]. specialize (Wu 0%nat ltac:(lia)). specialize (Wq 0%nat ltac:(lia)). specialize (Ny 0%nat ltac:(lia)).
      rewrite <- Rmult_minus_distr_r, Rabs_mult. pose proof (cos_lip (nth 0 y 0 + 3) (nth 0 x 0 + 3)) as B.
      replace (nth 0 y 0 + 3 - (nth 0 x 0 + 3)) with (nth 0 y 0 - nth 0 x 0) in B by ring.
      pose proof (Rabs_triang (nth 0 u 0) (nth 0 q 0)). pose proof (Rabs_pos (s - t)) as P.
      apply Rle_trans with (e * (2 * E)); [apply Rmult_le_compat; try apply Rabs_pos; lra|].
      assert (0 <= Rabs (s - t) * E) by now apply Rmult_le_pos. assert (0 <= e * E) by now apply Rmult_le_pos. nra.
  - intros t x w Hx Hw. split; [reflexivity|]. split; [reflexivity|]. intros [|u [|? ?]] [|q [|? ?]] Hu Hq; try discriminate.
    destruct w as [|w [|? ?]]; try discriminate. cbn. unfold dot. cbn. ring.
  - intros i j a c Hij Ha Hc2 Hcl. unfold close_to in Hcl.
    destruct i as [|[|[|i]]]; cbn in Ha; try (destruct i; discriminate); injection Ha as <-;
    destruct j as [|[|[|j]]]; cbn in Hc2; try (destruct j; discriminate); injection Hc2 as <-; try (now apply Hij);
      revert Hcl; unfold Rabs; repeat destruct Rcase_abs; lra.
  - intros i j a c Hij Ha Hc2.
    destruct i as [|[|[|i]]]; cbn in Ha; try (destruct i; discriminate); injection Ha as <-;
    destruct j as [|[|[|j]]]; cbn in Hc2; try (destruct j; discriminate); injection Hc2 as <-; try lia; lra.
  - intros i a c Ha Hc2.
    destruct i as [|[|[|i]]]; cbn in Ha; try (destruct i; discriminate); injection Ha as <-; cbn in Hc2; try discriminate; injection Hc2 as <-; lra.
  - intros i Hi. rewrite (one i Hi). cbn [f nth]. pose proof (SIN_bound (1 + 3)). apply Rabs_le. lra.
Qed.
