(** Proofs of the property about the continuity of solves in the initial state. *)
From Coq Require Import ZArith QArith Qreals Reals Lra Lia List Bool.
From Verif Require Import Num Py Tensor M_Constants M_SolversOde M_Utils M_Interp M_Odeint M_Autograd.
From Verif Require Import Spec_Ode Spec_RK Spec_Conv Spec_Order L_Base L_Fixed L_Vec L_Steps L_Utils L_Conv L_Reach L_Rel Pf_Fixed Pf_Values Pf_Autograd L_Order Pf_Order Pf_AdGrad Pf_Cross.
Import ListNotations.
Local Notation length := List.length.
Local Open Scope R_scope.

Section Gen.
Context {K : NumOps}.
Variables (G : K -> K) (dk : K -> K) (T atol rtol : K).
(** a rejected step *)
Lemma q_reject (x t dt k1 h : K) times sol : h = (if (T <? t + dt)%N then (T - t)%N else dt) -> (T <? t + h)%N = false ->
  (qratio G atol rtol x t h k1 <=? n1)%N = false ->
  snd (adaptive_iter_ad dk (qP G T atol rtol) (MkA t dt [x] [k1] 0 times sol)) =
  Ok (MkA t (dk (qadapt G atol rtol x t h k1)) [x] [k1] 0 times sol).
Proof.
  intros Hh H1 H2. unfold adaptive_iter_ad.
  assert (E : attempt_dt (qP G T atol rtol) (MkA t dt [x] [k1] 0 times sol) = (h, None)).
  { unfold attempt_dt. cbn [a_t a_dt a_ck p_T p_t_eval p_interp qP nth_error]. rewrite <- Hh, H1. reflexivity. }
  rewrite E. cbn [a_x a_t a_k1 p_solver p_f qP s_step DormandPrince45 mk_solver]. destruct (q_step G x t h k1) as (st & Es).
  rewrite snd_mbind. refine (eq_trans (f_equal (fun r => rbind r _) Es) _). cbn [rbind]. cbv zeta. cbn [p_atol p_rtol p_semi qP s_safety s_min_factor s_max_factor s_order].
  change (error_ratio atol rtol None [x] [qx G x t h k1] [qe G t h k1]) with (qratio G atol rtol x t h k1). rewrite H2. reflexivity.
Qed.
End Gen.

(** ** The witness: a spike of height 2 10^6 and half width T/100 at T = 5 10^-7; atol = rtol = 10^-3 *)
Definition TT : R := 1 / 2000000.
Definition spike (t : R) : R := Rmax 0 (2000000 - 400000000000000 * Rabs (t - TT)).
Notation tol := (1 / 1000).
Notation x_star := (365 / 36).

Lemma spike_off t : TT / 100 <= Rabs (t - TT) -> spike t = 0.
Proof. intros H. unfold spike. apply Rmax_left. unfold TT in *. lra. Qed.
Lemma spike_before t : t <= 99 / 100 * TT -> spike t = 0.
Proof. intros H. apply spike_off. rewrite Rabs_left1; unfold TT in *; lra. Qed.
Lemma spike_at : spike TT = 2000000.
Proof. unfold spike. replace (TT - TT) with 0 by ring. rewrite Rabs_R0. rewrite Rmax_right; lra. Qed.

Notation qxs := (@qx ROps spike).
Lemma j_x x t h : t = TT - h -> 0 <= t -> TT / 10 <= h <= TT -> spike t = 0 -> qxs x t h 0 = x + 11 / 84 * (h / TT).
Proof.
  intros Ht H0 Hh Hs. unfold qx, q2, q3, q4, q5, q6. rops. qlit.
  rewrite !(spike_before (t + _ * h)) by (unfold TT in *; lra).
  replace (t + 1 / 1 * h) with TT by lra. rewrite spike_at. unfold TT. field.
Qed.
Lemma j_e t h : t = TT - h -> 0 <= t -> TT / 10 <= h <= TT -> @qe ROps spike t h 0 = 71 / 6300 * (h / TT).
Proof.
  intros Ht H0 Hh. unfold qe, ei, tget, construct_dopri5, te, vsub, q2, q3, q4, q5, q6. cbn [map2 nth]. rops. qlit.
  rewrite !(spike_before (t + _ * h)) by (unfold TT in *; lra).
  replace (t + 1 / 1 * h) with TT by lra. rewrite spike_at. unfold TT. field.
Qed.
(** steps that end before the spike *)
Lemma z_x x h : 0 <= h <= 9 / 10 * TT -> qxs x 0 h 0 = x.
Proof.
  intros Hh. unfold qx, q2, q3, q4, q5, q6. rops. qlit. rewrite !spike_before by (unfold TT in *; lra). field.
Qed.
Lemma z_e h : 0 <= h <= 9 / 10 * TT -> @qe ROps spike 0 h 0 = 0.
Proof.
  intros Hh. unfold qe, ei, tget, construct_dopri5, te, vsub, q2, q3, q4, q5, q6. cbn [map2 nth]. rops. qlit. rewrite !spike_before by (unfold TT in *; lra). field.
Qed.
Lemma j_ratio x t h y e : 0 < x -> x <= y -> 0 <= e -> qxs x t h 0 = y -> @qe ROps spike t h 0 = e ->
  @qratio ROps spike tol tol x t h 0 = 1000 * e / (1 + y).
Proof.
  intros Hx Hy He Ex Ee. unfold qratio. rewrite Ex, Ee. unfold error_ratio, vdiv, vmax, vabs. cbn [map map2]. rewrite hairer1. rops.
  rewrite (Rabs_pos_eq x), (Rabs_pos_eq y) by lra. rewrite Rmax_right by lra. rewrite Rabs_pos_eq; [field; lra|].
  apply Rmult_le_pos; [lra|]. left. apply Rinv_0_lt_compat. lra.
Qed.
Lemma j_init x : 0 < x -> snd (@init_step ROps (@qF ROps spike) [spike 0] [x] 0 5 tol tol) = Ok (1 / 1000000).
Proof.
  intros Hx. unfold init_step. cbv zeta. unfold call. rewrite snd_mbind. cbn [snd rbind map]. unfold qF, vsub, vdiv. cbn [map2 map]. rewrite !hairer1. rops.
  assert (E0 : spike 0 = 0) by (apply spike_before; unfold TT; lra).
  assert (E1 : spike (0 + 1 / 1000000) = 0) by (apply spike_off; unfold TT; rewrite Rabs_pos_eq; lra).
  rewrite !E0. qlit.
  assert (EZ : Rabs (0 / (tol + Rabs x * tol)) = 0) by (unfold Rdiv at 1; rewrite Rmult_0_l; apply Rabs_R0).
  rewrite !EZ. rewrite !(Rltb_t 0) by lra. rewrite !orb_true_r. rewrite !E1. replace (0 - 0) with 0 by ring. rewrite !EZ.
  replace (0 / (1 / 1000000)) with 0 by field. rewrite !Rleb_t by lra. cbn [andb mret snd]. f_equal.
  rewrite Rmax_left by lra. apply Rmin_right. lra.
Qed.

Notation pj := (@qP ROps spike TT tol tol).
Notation idk := (fun a : R => a).
(** the solve is the loop from the first step size *)
Lemma j_start fuel x : 0 < x ->
  snd (@odeint ROps fuel (@qF ROps spike) [x] (@TTensor ROps [0; TT]) (DormandPrince45 ROps) tol tol false false [] None) =
  snd (@adaptive_loop_ad ROps idk fuel pj (@MkA ROps 0 (1 / 1000000) [x] [0] 0 [0] [[x]])).
Proof.
  intros Hx. rewrite <- odeint_ad_id. assert (E0 : spike 0 = 0) by (apply spike_before; unfold TT; lra).
  unfold odeint_ad. rewrite snd_mbind, snd_mlift. unfold prep_time. cbn [ts_list pyget nth_error rbind].
  assert (A : @nltb ROps TT 0 = false) by (apply Rltb_f; unfold TT; lra).
  rewrite A. cbn [rbind s_fixed DormandPrince45 mk_solver s_is_tsit5 pyget nth_error].
  rewrite snd_mbind, snd_mlift. cbn [rbind]. rewrite snd_mbind. unfold call at 1. cbn [snd rbind]. change (@qF ROps spike 0 [x]) with [spike 0]. rewrite snd_mbind. cbn [s_order].
  refine (eq_trans (f_equal (fun r => rbind r _) (j_init x Hx)) _). cbn [rbind]. unfold adaptive_odeint_ad. rewrite snd_mbind, snd_mlift. cbn [pyget nth_error rbind]. rewrite snd_mbind, snd_mlift. unfold pylast. cbn [rev app rbind skipn]. cbv zeta.
  rewrite E0. reflexivity.
Qed.

Lemma j_loop fuel (st st' : @astate ROps) : Rltb (a_t st) TT = true -> snd (@adaptive_iter_ad ROps idk pj st) = Ok st' ->
  snd (@adaptive_loop_ad ROps idk (S fuel) pj st) = snd (@adaptive_loop_ad ROps idk fuel pj st').
Proof.
  intros H E. cbn [adaptive_loop_ad]. change (p_T pj) with TT. change (@nltb ROps (a_t st) TT) with (Rltb (a_t st) TT). rewrite H. rewrite snd_mbind, E. reflexivity.
Qed.
Lemma j_done fuel (st : @astate ROps) : Rltb (a_t st) TT = false -> snd (@adaptive_loop_ad ROps idk fuel pj st) = Ok (a_times st, a_sol st).
Proof.
  intros H. destruct fuel; cbn [adaptive_loop_ad]; change (p_T pj) with TT; change (@nltb ROps (a_t st) TT) with (Rltb (a_t st) TT); rewrite H; reflexivity.
Qed.

Ltac eqR := match goal with |- @eq _ ?a ?b => change (@eq R a b) end.
Lemma zq u : 1000 * 0 / u = 0.
Proof. unfold Rdiv. ring. Qed.
Lemma one1 : (n1 : num ROps) = 1.
Proof. rops. apply Q2R_1'. Qed.

Lemma first_ratio x : 0 < x -> @qratio ROps spike tol tol x 0 TT 0 = (710 / 63) / (1 + x + 11 / 84).
Proof.
  intros Hx. rewrite (j_ratio x 0 TT (x + 11 / 84) (71 / 6300)); try lra.
  - eqR. field. lra.
  - rewrite j_x by (try (apply spike_before); unfold TT; lra). eqR. unfold TT. field.
  - rewrite j_e by (unfold TT; lra). eqR. unfold TT. field.
Qed.

Lemma run_above fuel x : (1 <= fuel)%nat -> x_star <= x ->
  snd (@odeint ROps fuel (@qF ROps spike) [x] (@TTensor ROps [0; TT]) (DormandPrince45 ROps) tol tol false false [] None) = Ok ([0; TT], [[x]; [x + 11 / 84]]).
Proof.
  intros Hf Hx. rewrite j_start by lra. destruct fuel as [|fuel]; [lia|].
  assert (TP : 0 < TT) by (unfold TT; lra).
  erewrite j_loop.
  2:{ cbn [a_t]. now apply Rltb_t. }
  2:{ apply (@q_iter ROps spike idk TT tol tol x 0 (1 / 1000000) 0 TT [0] [[x]] true).
      - rops. rewrite Rltb_t by (unfold TT; lra). ring.
      - apply Rltb_f. rops. lra.
      - rewrite one1. apply Rleb_t. rewrite first_ratio by lra. apply (Rmult_le_reg_r (1 + x + 11 / 84)); [lra|].
        unfold Rdiv at 1. rewrite Rmult_assoc, Rinv_l by lra. lra.
      - apply Reqb_t. rops. lra. }
  rewrite j_done by (cbn [a_t]; apply Rltb_f; rops; lra). cbn [a_times a_sol app].
  assert (EX : forall a b a' b' : R, a = a' -> b = b' -> @Ok (list ROps * list (vec ROps)) ([0; a], [[x]; [b]]) = Ok ([0; a'], [[x]; [b']])) by (intros; subst; reflexivity).
  apply EX; [rops; lra|]. rewrite j_x by (try (apply spike_before); unfold TT; lra). eqR. unfold TT. field.
Qed.

Definition y_of (x : R) : R := x + 11 / 84 * ((TT - @qadapt ROps spike tol tol x 0 TT 0) / TT).
Lemma run_below fuel x : (3 <= fuel)%nat -> x_star - 1 <= x < x_star ->
  snd (@odeint ROps fuel (@qF ROps spike) [x] (@TTensor ROps [0; TT]) (DormandPrince45 ROps) tol tol false false [] None) = Ok ([0; TT], [[x]; [y_of x]]) /\
  y_of x <= x + 4 / 5 * (11 / 84).
Proof.
  intros Hf Hx. rewrite j_start by lra. destruct fuel as [|[|[|fuel]]]; try lia.
  assert (TP : 0 < TT) by (unfold TT; lra).
  pose proof (first_ratio x ltac:(lra)) as FR.
  assert (R1 : 1 < @qratio ROps spike tol tol x 0 TT 0).
  { rewrite FR. apply (Rmult_lt_reg_r (1 + x + 11 / 84)); [lra|]. unfold Rdiv at 2. rewrite Rmult_assoc, Rinv_l by lra. lra. }
  set (h := @qadapt ROps spike tol tol x 0 TT 0).
  assert (Hh : TT / 5 <= h <= 9 / 10 * TT).
  { unfold h, qadapt. rewrite adapt_factor. rops. qlit. change (Q2R 10) with (Q2R (10 # 1)). qlit. set (r := qratio _ _ _ _ _ _ _) in *. clearbody r.
    unfold factor_of, Reqb. destruct (Req_EM_T r 0) as [|N]; [lra|]. rewrite Rltb_f by lra. rewrite Rpw_pos by lra.
    assert (P1 : 1 <= Rpower r (1 / INR 5)).
    { rewrite <- (Rpower_O r) at 1 by lra. apply Rle_Rpower; [lra|]. unfold Rdiv. rewrite Rmult_1_l. left. apply Rinv_0_lt_compat. cbn. lra. }
    assert (Q1 : 0 < 9 / 10 / Rpower r (1 / INR 5) <= 9 / 10).
    { split; [apply Rmult_lt_0_compat; [lra|apply Rinv_0_lt_compat; lra]|]. apply (Rmult_le_reg_r (Rpower r (1 / INR 5))); [lra|].
      unfold Rdiv at 1. rewrite Rmult_assoc, Rinv_l by lra. lra. }
    set (u := 9 / 10 / Rpower r (1 / INR 5)) in *. clearbody u.
    assert (B : 1 / 5 <= Rmin (10 / 1) (Rmax u (1 / 5)) <= 9 / 10).
    { split; [apply Rmin_glb; [lra|apply Rmax_r]|]. eapply Rle_trans; [apply Rmin_r|]. apply Rmax_lub; lra. }
    set (v := Rmin _ _) in *. clearbody v. unfold TT in *. lra. }
  erewrite j_loop; [|cbn [a_t]; now apply Rltb_t|apply (@q_reject ROps spike idk TT tol tol x 0 (1 / 1000000) 0 TT [0] [[x]]);
      [rops; rewrite Rltb_t by (unfold TT; lra); ring|apply Rltb_f; rops; lra|rewrite one1; apply Rleb_f; exact R1]].
  change (@qadapt ROps spike tol tol x 0 TT 0) with h. cbv beta.
  assert (Z1 : @qratio ROps spike tol tol x 0 h 0 = 0).
  { rewrite (j_ratio x 0 h x 0); try lra; [apply z_x; lra|apply z_e; lra]. }
  erewrite j_loop; [|cbn [a_t]; now apply Rltb_t|apply (@q_iter ROps spike idk TT tol tol x 0 h 0 h [0] [[x]] false);
      [rops; rewrite Rltb_f by lra; reflexivity|apply Rltb_f; rops; lra|rewrite one1; apply Rleb_t; rewrite Z1; lra|apply Reqb_f; rops; lra]].
  assert (E2 : @qadapt ROps spike tol tol x 0 h 0 = 10 * h).
  { unfold qadapt. rewrite Z1, adapt_factor. unfold factor_of. rewrite Reqb_t by reflexivity. rops. change (Q2R 10) with (Q2R (10 # 1)). qlit. eqR. field. }
  assert (E3 : @q6 ROps spike 0 h = 0) by (unfold q6; rops; qlit; apply spike_before; lra).
  rewrite E2, E3, z_x by lra. cbv beta iota.
  set (d := TT - h).
  assert (Ed : TT / 10 <= d <= 4 / 5 * TT) by (unfold d; lra).
  assert (Sh : spike h = 0) by (apply spike_before; lra).
  assert (X3 : @qx ROps spike x (@nadd ROps 0 h) d 0 = x + 11 / 84 * (d / TT)).
  { replace (@nadd ROps 0 h) with h by (rops; ring). apply j_x; auto; unfold d; lra. }
  assert (V3 : @qe ROps spike (@nadd ROps 0 h) d 0 = 71 / 6300 * (d / TT)).
  { replace (@nadd ROps 0 h) with h by (rops; ring). apply j_e; auto; unfold d; lra. }
  assert (Dr : 1 / 10 <= d / TT <= 4 / 5).
  { split; apply (Rmult_le_reg_r TT); auto; unfold Rdiv at 2; rewrite ?Rmult_assoc, ?Rinv_l by lra; unfold TT in *; lra. }
  assert (R3 : @qratio ROps spike tol tol x (@nadd ROps 0 h) d 0 <= 1).
  { rewrite (j_ratio x _ d (x + 11 / 84 * (d / TT)) (71 / 6300 * (d / TT))); try lra; auto.
    apply (Rmult_le_reg_r (1 + (x + 11 / 84 * (d / TT)))); [lra|]. unfold Rdiv at 1. rewrite Rmult_assoc, Rinv_l by lra. lra. }
  change (y_of x) with (x + 11 / 84 * (d / TT)). split; [|lra].
  erewrite j_loop; [|cbn [a_t]; apply Rltb_t; rops; lra|apply (@q_iter ROps spike idk TT tol tol x (@nadd ROps 0 h) (10 * h) 0 d [0] [[x]] true);
      [rops; rewrite Rltb_t by lra; unfold d; ring|apply Rltb_f; rops; unfold d; lra|rewrite one1; apply Rleb_t; exact R3|apply Reqb_t; rops; unfold d; lra]].
  rewrite j_done by (cbn [a_t]; apply Rltb_f; rops; unfold d; lra). cbn [a_times a_sol app]. rewrite X3.
  assert (EX : forall a b a' b' : R, a = a' -> b = b' -> @Ok (list ROps * list (vec ROps)) ([0; a], [[x]; [b]]) = Ok ([0; a'], [[x]; [b']])) by (intros; subst; reflexivity).
  apply EX; [rops; unfold d; lra|reflexivity].
Qed.

(** ** The property *)
Lemma near_self n (v : list R) : near n 0 v v.
Proof. intros i Hi. rewrite Rminus_diag_eq by reflexivity. rewrite Rabs_R0. lra. Qed.
Lemma abs_in (l : list R) a : In a l -> Rabs a <= fold_right (fun t s => Rabs t + s) 0 l.
Proof.
  assert (P : forall m, 0 <= fold_right (fun t s => Rabs t + s) 0 m) by (induction m as [|b m IH]; cbn; [lra|pose proof (Rabs_pos b); lra]).
  induction l as [|b l IH]; intros H; [destruct H|]. cbn. destruct H as [->|H]; [pose proof (P l); lra|]. pose proof (IH H). pose proof (Rabs_pos b). lra.
Qed.
Lemma max_in (g : R -> R) (l : list R) a : In a l -> g a <= fold_right (fun t s => Rmax (g t) s) 1 l.
Proof.
  induction l as [|b l IH]; intros H; [destruct H|]. cbn. destruct H as [->|H]; [apply Rmax_l|]. eapply Rle_trans; [apply IH; exact H|apply Rmax_r].
Qed.
Lemma max_one (g : R -> R) (l : list R) : 1 <= fold_right (fun t s => Rmax (g t) s) 1 l.
Proof. induction l as [|b l IH]; cbn; [lra|]. eapply Rle_trans; [exact IH|apply Rmax_r]. Qed.

(** Fixed-step solves are continuous in the initial state: for every tolerance [eps] there is a [delta] such that the states
    recorded from all initial states within [delta] of [x] stay within [eps] of those recorded from [x], at all times. *)
Lemma C180_fixed_partial_pf :
  forall s rows b n f L x t0 t1 ts eps fuel atol rtol interp all semi,
  builtin_fixed s rows b -> field_on n f -> 0 <= L -> lipschitz n L f -> length x = n ->
  increasing (t0 :: t1 :: ts) -> separated (t0 :: t1 :: ts) -> 0 < eps ->
  exists delta, 0 < delta /\ forall z, length z = n -> near n delta x z ->
  exists sol sol',
    snd (@odeint ROps fuel f x (@TTensor ROps (t0 :: t1 :: ts)) s atol rtol interp all [] semi) = Ok (t0 :: t1 :: ts, sol) /\
    snd (@odeint ROps fuel f z (@TTensor ROps (t0 :: t1 :: ts)) s atol rtol interp all [] semi) = Ok (t0 :: t1 :: ts, sol') /\
    forall k tk xk zk, nth_error (t0 :: t1 :: ts) k = Some tk -> nth_error sol k = Some xk -> nth_error sol' k = Some zk ->
      near n eps xk zk.
Proof.
  intros s rows b n f L x t0 t1 ts eps fuel atol rtol interp all semi HM Hf HL Hlip Hx Hinc Hsep He.
  set (H := 2 * fold_right (fun t s => Rabs t + s) 0 (t0 :: t1 :: ts)).
  set (M := fold_right (fun t s => Rmax (exp (growth L H rows b * (t - t0))) s) 1 (t0 :: t1 :: ts)).
  assert (M1 : 1 <= M) by (exact (max_one (fun t => exp (growth L H rows b * (t - t0))) (t0 :: t1 :: ts))).
  assert (Hst : steps_at_most H (t0 :: t1 :: ts)).
  { intros i a c Ha Hc. apply nth_error_In in Ha. apply nth_error_In in Hc. pose proof (abs_in _ _ Ha). pose proof (abs_in _ _ Hc).
    pose proof (Rle_abs c). pose proof (Rle_abs (- a)). rewrite Rabs_Ropp in *. unfold H. lra. }
  exists (eps / M). split; [apply Rdiv_lt_0_compat; lra|]. intros z Hz Hn.
  assert (Hd : 0 <= eps / M) by (apply Rlt_le, Rdiv_lt_0_compat; lra).
  destruct (C102_robust_pf s rows b n f f L 0 (eps / M) x z H t0 t1 ts fuel atol rtol interp all semi HM Hf Hf HL ltac:(lra) Hd Hlip) as (sol & sol' & E1 & E2 & B); auto.
  { intros t v Hv. apply near_self. }
  exists sol, sol'. split; [exact E1|]. split; [exact E2|]. intros k tk xk zk Hk Hxk Hzk.
  pose proof (B k tk xk zk Hk Hxk Hzk) as Bk. intros i Hi. eapply Rle_trans; [apply Bk; exact Hi|].
  rewrite Rmult_0_r, Rplus_0_r.
  pose proof (max_in (fun t => exp (growth L H rows b * (t - t0))) _ _ (nth_error_In _ _ Hk)) as Hm. fold M in Hm.
  apply Rle_trans with (M * (eps / M)); [apply Rmult_le_compat_r; auto|]. right. field. lra.
Qed.

(** Adaptive solves are not: for a continuous field that does not even depend on the state (so that the flow is a translation) and
    the solver dopri5 with both tolerances 10^-3 the final state has a jump at 365/36.  Every initial state just below it, however near,
    yields a final state that differs by more than 1/50 from the one obtained at 365/36. *)
Lemma C180_adaptive_refuted_pf :
  exists (F : R -> list R -> list R) T, 0 < T /\ field_on 1 F /\ lipschitz 1 0 F /\ (forall t x y, F t x = F t y) /\
  (exists g, continuity g /\ forall t x, F t x = [g t]) /\
  exists xs ys, (forall fuel, (3 <= fuel)%nat ->
    snd (@odeint ROps fuel F [xs] (@TTensor ROps [0; T]) (DormandPrince45 ROps) (1 / 1000) (1 / 1000) false false [] None) = Ok ([0; T], [[xs]; [ys]])) /\
  forall delta, 0 < delta -> exists x y, Rabs (x - xs) < delta /\ 1 / 50 < Rabs (y - ys) /\
    forall fuel, (3 <= fuel)%nat ->
    snd (@odeint ROps fuel F [x] (@TTensor ROps [0; T]) (DormandPrince45 ROps) (1 / 1000) (1 / 1000) false false [] None) = Ok ([0; T], [[x]; [y]]).
Proof.
  exists (@qF ROps spike), TT. split; [unfold TT; lra|]. split; [intros t x Hx; reflexivity|].
  split; [intros t x y D _ _ _ i Hi; rewrite Rmult_0_l; apply near_self with (n := 1%nat); auto|]. split; [reflexivity|].
  split; [exists spike; split; [|reflexivity]|].
  { intros t. apply (continuity_pt_locally_ext (fun t => (0 + (2000000 - 400000000000000 * Rabs (t - TT)) + Rabs (0 - (2000000 - 400000000000000 * Rabs (t - TT)))) / 2) spike 1 t Rlt_0_1).
    - intros u _. unfold spike. set (v := 2000000 - 400000000000000 * Rabs (u - TT)). clearbody v. unfold Rmax. destruct (Rle_dec _ _); [rewrite Rabs_left1 by lra|rewrite Rabs_pos_eq by lra]; field.
    - assert (C1 : continuity_pt (fun t => 400000000000000 * Rabs (t - TT)) t).
      { apply (continuity_pt_scal (fun t => Rabs (t - TT))). apply (continuity_pt_comp (fun t => t - TT) Rabs); [|apply Rcontinuity_abs].
        apply continuity_pt_minus; [apply derivable_continuous_pt, derivable_pt_id|apply continuity_pt_const; intros ? ?; reflexivity]. }
      assert (C2 : continuity_pt (fun t => 2000000 - 400000000000000 * Rabs (t - TT)) t).
      { apply (continuity_pt_minus (fun _ => 2000000) (fun t => 400000000000000 * Rabs (t - TT))); auto. apply continuity_pt_const; intros ? ?; reflexivity. }
      assert (C0 : forall c, continuity_pt (fun _ : R => c) t) by (intros c; apply continuity_pt_const; intros ? ?; reflexivity).
      unfold Rdiv. apply (continuity_pt_mult (fun t => _) (fun _ => / 2)); auto.
      apply (continuity_pt_plus (fun t => _) (fun t => _)).
      + apply (continuity_pt_plus (fun _ => 0) (fun t => _)); auto.
      + apply (continuity_pt_comp (fun t => 0 - (2000000 - 400000000000000 * Rabs (t - TT))) Rabs); [|apply Rcontinuity_abs].
        apply (continuity_pt_minus (fun _ => 0) (fun t => _)); auto. }
  exists x_star, (x_star + 11 / 84). split; [intros fuel Hf; apply run_above; [lia|lra]|].
  intros delta Hd. set (x := x_star - Rmin (delta / 2) (1 / 1000)).
  assert (Hm : 0 < Rmin (delta / 2) (1 / 1000) <= 1 / 1000) by (split; [apply Rmin_glb_lt; lra|apply Rmin_r]).
  assert (Hm2 : Rmin (delta / 2) (1 / 1000) <= delta / 2) by apply Rmin_l.
  assert (Hx : x_star - 1 <= x < x_star) by (unfold x; lra).
  destruct (run_below 3 x ltac:(lia) Hx) as (_ & Hy).
  exists x, (y_of x). split; [unfold x; rewrite Rabs_left1; lra|]. split.
  - set (y := y_of x) in *. clearbody y. rewrite Rabs_left1; unfold x in *; lra.
  - intros fuel Hf. apply run_below; auto.
Qed.

(** The hypotheses of C180_fixed_partial are met: y' = -y on [0, 1/2] by euler, from states within any distance of [1; 2]. *)
Lemma C180_ex_pf :
  builtin_fixed (Euler ROps) (to_R_rows q_euler) (to_R qb_euler) /\ field_on 2 decay /\ lipschitz 2 1 decay /\ increasing [0; 1/2] /\ separated [0; 1/2] /\
  (forall delta, 0 < delta -> [1; 2 + delta] <> [1; 2] /\ near 2 delta [1; 2] [1; 2 + delta]).
Proof.
  split; [left; auto|]. split; [apply decay_field|]. split; [apply decay_lip|]. split; [apply two_increasing; lra|]. split; [apply two_separated; lra|].
  intros delta Hd. split; [intros E; injection E; lra|]. intros [|[|i]] Hi; [| |lia]; cbn.
  - rewrite Rminus_diag_eq, Rabs_R0 by reflexivity. lra.
  - rewrite Rabs_left1; lra.
Qed.
