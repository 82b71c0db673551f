(** Proofs of the property about tightening the tolerances. *)
From Coq Require Import ZArith QArith Qreals Reals Lra Lia List Bool.
From Verif Require Import Num Py Tensor M_Constants M_SolversOde M_Utils M_Interp M_Odeint M_Autograd.
From Verif Require Import Spec_Ode Spec_RK Spec_Conv Spec_Order Spec_Norm Spec_Adaptive L_Base L_Fixed L_Vec L_Steps L_Utils L_Conv L_Reach L_Rel Pf_Fixed Pf_Values Pf_Autograd L_Order Pf_Order Pf_AdGrad Pf_Cross L_Adaptive2.
From Verif Require Pf_Jump.
Import ListNotations.
Local Notation length := List.length.
Local Open Scope R_scope.

Definition TT : R := 1 / 2000000.
Ltac eqR := match goal with |- @eq _ ?a ?b => change (@eq R a b) end.

(** ** Runs of dopri5 on [0, T] for fields that vanish where the stages look, except at T *)
Section Run.
Variable (g : R -> R) (tau x : R).
Hypothesis Z1 : forall t, 0 <= t <= 39 / 100 * TT -> g t = 0.
Hypothesis Z2 : forall t, 61 / 100 * TT <= t <= 99 / 100 * TT -> g t = 0.
Hypothesis Z3 : g (1 / 1000000) = 0.
Hypothesis GT : g TT = 2000000.
Hypothesis Ht : 0 < tau.
Hypothesis Hx : 0 < x.

Lemma g_x u t h : t = TT - h -> (t = 0 /\ h = TT) \/ (TT / 10 <= h <= 11 / 100 * TT) -> @qx ROps g u t h 0 = u + 11 / 84 * (h / TT).
Proof.
  intros E H. unfold qx, q2, q3, q4, q5, q6. rops. qlit. replace (t + 1 / 1 * h) with TT by lra. rewrite GT.
  destruct H as [(-> & ->)|H].
  - rewrite !(Z1 (0 + 3 / 10 * TT)), !(Z2 (0 + 4 / 5 * TT)), !(Z2 (0 + 8 / 9 * TT)) by (unfold TT; lra). unfold TT. field.
  - rewrite !(Z2 (t + _ * h)) by (unfold TT in *; lra). unfold TT. field.
Qed.
Lemma g_e t h : t = TT - h -> (t = 0 /\ h = TT) \/ (TT / 10 <= h <= 11 / 100 * TT) -> @qe ROps g t h 0 = 71 / 6300 * (h / TT).
Proof.
  intros E H. unfold qe, ei, tget, construct_dopri5, te, vsub, q2, q3, q4, q5, q6. cbn [map2 nth]. rops. qlit. replace (t + 1 / 1 * h) with TT by lra. rewrite GT.
  destruct H as [(-> & ->)|H].
  - rewrite ?(Z1 (0 + 1 / 5 * TT)), ?(Z1 (0 + 3 / 10 * TT)), ?(Z2 (0 + 4 / 5 * TT)), ?(Z2 (0 + 8 / 9 * TT)) by (unfold TT; lra). unfold TT. field.
  - rewrite !(Z2 (t + _ * h)) by (unfold TT in *; lra). unfold TT. field.
Qed.
(** the step before *)
Lemma z_x u h : 89 / 100 * TT <= h <= 9 / 10 * TT -> @qx ROps g u 0 h 0 = u.
Proof.
  intros H. unfold qx, q2, q3, q4, q5, q6. rops. qlit.
  rewrite ?(Z1 (0 + 1 / 5 * h)), ?(Z1 (0 + 3 / 10 * h)), ?(Z2 (0 + 4 / 5 * h)), ?(Z2 (0 + 8 / 9 * h)), ?(Z2 (0 + 1 / 1 * h)) by (unfold TT in *; lra). field.
Qed.
Lemma z_e h : 89 / 100 * TT <= h <= 9 / 10 * TT -> @qe ROps g 0 h 0 = 0.
Proof.
  intros H. unfold qe, ei, tget, construct_dopri5, te, vsub, q2, q3, q4, q5, q6. cbn [map2 nth]. rops. qlit.
  rewrite ?(Z1 (0 + 1 / 5 * h)), ?(Z1 (0 + 3 / 10 * h)), ?(Z2 (0 + 4 / 5 * h)), ?(Z2 (0 + 8 / 9 * h)), ?(Z2 (0 + 1 / 1 * h)) by (unfold TT in *; lra). field.
Qed.
Lemma g_ratio t h y e : x <= y -> 0 <= e -> @qx ROps g x t h 0 = y -> @qe ROps g t h 0 = e ->
  @qratio ROps g tau tau x t h 0 = e / (tau * (1 + y)).
Proof.
  intros Hy He Ex Ee. unfold qratio. rewrite Ex, Ee. unfold error_ratio, vdiv, vmax, vabs. cbn [map map2]. rewrite hairer1. rops.
  rewrite (Rabs_pos_eq x), (Rabs_pos_eq y) by lra. rewrite Rmax_right by lra.
  assert (P : 0 < tau * (1 + y)) by (apply Rmult_lt_0_compat; lra).
  replace (tau + tau * y) with (tau * (1 + y)) by ring. rewrite Rabs_pos_eq; [reflexivity|].
  apply Rmult_le_pos; [lra|]. left. now apply Rinv_0_lt_compat.
Qed.
Lemma g_init : snd (@init_step ROps (@qF ROps g) [g 0] [x] 0 5 tau tau) = Ok (1 / 1000000).
Proof.
  unfold init_step. cbv zeta. unfold call. rewrite snd_mbind. cbn [snd rbind map]. unfold qF, vsub, vdiv. cbn [map2 map]. rewrite !hairer1. rops.
  assert (E0 : g 0 = 0) by (apply Z1; unfold TT; lra).
  assert (E1 : g (0 + 1 / 1000000) = 0) by (replace (0 + 1 / 1000000) with (1 / 1000000) by ring; exact Z3).
  rewrite !E0. qlit.
  assert (EZ : Rabs (0 / (tau + Rabs x * tau)) = 0) by (unfold Rdiv at 1; rewrite Rmult_0_l; apply Rabs_R0).
  rewrite !EZ. rewrite !(Rltb_t 0) by lra. rewrite !orb_true_r. rewrite !E1. replace (0 - 0) with 0 by ring. rewrite !EZ.
  replace (0 / (1 / 1000000)) with 0 by field. rewrite !Rleb_t by lra. cbn [andb mret snd]. f_equal.
  rewrite Rmax_left by lra. apply Rmin_right. lra.
Qed.

Notation pj := (@qP ROps g TT tau tau).
Notation idk := (fun a : R => a).
Lemma g_start fuel :
  snd (@odeint ROps fuel (@qF ROps g) [x] (@TTensor ROps [0; TT]) (DormandPrince45 ROps) tau tau false false [] None) =
  snd (@adaptive_loop_ad ROps idk fuel pj (@MkA ROps 0 (1 / 1000000) [x] [0] 0 [0] [[x]])).
Proof.
  rewrite <- odeint_ad_id. assert (E0 : g 0 = 0) by (apply Z1; unfold TT; lra).
  unfold odeint_ad. rewrite snd_mbind, snd_mlift. unfold prep_time. cbn [ts_list pyget nth_error rbind].
  assert (A : @nltb ROps TT 0 = false) by (apply Rltb_f; unfold TT; lra).
  rewrite A. cbn [rbind s_fixed DormandPrince45 mk_solver s_is_tsit5 pyget nth_error].
  rewrite snd_mbind, snd_mlift. cbn [rbind]. rewrite snd_mbind. unfold call at 1. cbn [snd rbind]. change (@qF ROps g 0 [x]) with [g 0]. rewrite snd_mbind. cbn [s_order].
  refine (eq_trans (f_equal (fun r => rbind r _) g_init) _). cbn [rbind]. unfold adaptive_odeint_ad. rewrite snd_mbind, snd_mlift. cbn [pyget nth_error rbind]. rewrite snd_mbind, snd_mlift. unfold pylast. cbn [rev app rbind skipn]. cbv zeta.
  rewrite E0. reflexivity.
Qed.
Lemma g_loop fuel (st st' : @astate ROps) : Rltb (a_t st) TT = true -> snd (@adaptive_iter_ad ROps idk pj st) = Ok st' ->
  snd (@adaptive_loop_ad ROps idk (S fuel) pj st) = snd (@adaptive_loop_ad ROps idk fuel pj st').
Proof.
  intros H E. cbn [adaptive_loop_ad]. change (p_T pj) with TT. change (@nltb ROps (a_t st) TT) with (Rltb (a_t st) TT). rewrite H. rewrite snd_mbind, E. reflexivity.
Qed.
Lemma g_done fuel (st : @astate ROps) : Rltb (a_t st) TT = false -> snd (@adaptive_loop_ad ROps idk fuel pj st) = Ok (a_times st, a_sol st).
Proof.
  intros H. destruct fuel; cbn [adaptive_loop_ad]; change (p_T pj) with TT; change (@nltb ROps (a_t st) TT) with (Rltb (a_t st) TT); rewrite H; reflexivity.
Qed.
Lemma one1 : (n1 : num ROps) = 1.
Proof. rops. apply Q2R_1'. Qed.
Lemma TP : 0 < TT.
Proof. unfold TT. lra. Qed.

Lemma first_ratio : @qratio ROps g tau tau x 0 TT 0 = 71 / 6300 / (tau * (1 + x + 11 / 84)).
Proof.
  rewrite (g_ratio 0 TT (x + 11 / 84) (71 / 6300)); try lra.
  - rewrite Rplus_assoc. reflexivity.
  - rewrite g_x by (try (left; split); unfold TT; lra). eqR. unfold TT. field.
  - rewrite g_e by (try (left; split); unfold TT; lra). eqR. unfold TT. field.
Qed.

Lemma run_one fuel : (1 <= fuel)%nat -> 71 / 6300 / (tau * (1 + x + 11 / 84)) <= 1 ->
  snd (@odeint ROps fuel (@qF ROps g) [x] (@TTensor ROps [0; TT]) (DormandPrince45 ROps) tau tau false false [] None) = Ok ([0; TT], [[x]; [x + 11 / 84]]).
Proof.
  intros Hf HR. rewrite g_start. destruct fuel as [|fuel]; [lia|]. pose proof TP as TP.
  erewrite g_loop.
  2:{ cbn [a_t]. now apply Rltb_t. }
  2:{ apply (@q_iter ROps g idk TT tau tau x 0 (1 / 1000000) 0 TT [0] [[x]] true).
      - rops. rewrite Rltb_t by (unfold TT; lra). ring.
      - apply Rltb_f. rops. lra.
      - rewrite one1. apply Rleb_t. rewrite first_ratio. exact HR.
      - apply Reqb_t. rops. lra. }
  rewrite g_done by (cbn [a_t]; apply Rltb_f; rops; lra). cbn [a_times a_sol app].
  assert (EX : forall a b a' b' : R, a = a' -> b = b' -> @Ok (list ROps * list (vec ROps)) ([0; a], [[x]; [b]]) = Ok ([0; a'], [[x]; [b']])) by (intros; subst; reflexivity).
  apply EX; [rops; lra|]. rewrite g_x by (try (left; split); unfold TT; lra). eqR. unfold TT. field.
Qed.

Lemma div_mul (a b : R) : 0 < b -> a / b * b = a.
Proof. intros H. field. lra. Qed.
Lemma sub_sub (a b : R) : a = b - (b - a).
Proof. ring. Qed.
Definition y_of : R := x + 11 / 84 * ((TT - @qadapt ROps g tau tau x 0 TT 0) / TT).
Lemma run_three fuel : (3 <= fuel)%nat -> 1 < 71 / 6300 / (tau * (1 + x + 11 / 84)) <= 101 / 100 ->
  snd (@odeint ROps fuel (@qF ROps g) [x] (@TTensor ROps [0; TT]) (DormandPrince45 ROps) tau tau false false [] None) = Ok ([0; TT], [[x]; [y_of]]) /\
  x <= y_of <= x + 11 / 100 * (11 / 84).
Proof.
  intros Hf HR. rewrite g_start. destruct fuel as [|[|[|fuel]]]; try lia. pose proof TP as TP. pose proof first_ratio as FR.
  set (h := @qadapt ROps g tau tau x 0 TT 0).
  assert (Hh : 89 / 100 * TT <= h <= 9 / 10 * TT).
  { unfold h, qadapt. rewrite adapt_factor. rops. qlit. change (Q2R 10) with (Q2R (10 # 1)). qlit. rewrite <- FR in HR. set (r := qratio _ _ _ _ _ _ _) in *. clearbody r.
    unfold factor_of, Reqb. destruct (Req_EM_T r 0) as [|N]; [lra|]. rewrite Rltb_f by lra. rewrite Rpw_pos by lra.
    assert (P1 : 1 <= Rpower r (1 / INR 5)).
    { rewrite <- (Rpower_O r) at 1 by lra. apply Rle_Rpower; [lra|]. unfold Rdiv. rewrite Rmult_1_l. left. apply Rinv_0_lt_compat. cbn. lra. }
    assert (P2 : Rpower r (1 / INR 5) <= 101 / 100).
    { apply Rle_trans with (Rpower r 1); [apply Rle_Rpower; [lra|cbn; lra]|]. rewrite Rpower_1; lra. }
    set (w := Rpower r (1 / INR 5)) in *. clearbody w.
    assert (Q1 : 89 / 100 <= 9 / 10 / w <= 9 / 10).
    { split; apply (Rmult_le_reg_r w); try lra; replace (9 / 10 / w * w) with (9 / 10) by (field; lra); lra. }
    set (u := 9 / 10 / w) in *. clearbody u.
    rewrite (Rmax_left u) by lra. rewrite Rmin_right by lra. unfold TT in *. lra. }
  erewrite g_loop; [|cbn [a_t]; now apply Rltb_t|apply (@Pf_Jump.q_reject ROps g idk TT tau tau x 0 (1 / 1000000) 0 TT [0] [[x]]);
      [rops; rewrite Rltb_t by (unfold TT; lra); ring|apply Rltb_f; rops; lra|rewrite one1; apply Rleb_f; rewrite FR; apply HR]].
  change (@qadapt ROps g tau tau x 0 TT 0) with h. cbv beta.
  assert (R0 : @qratio ROps g tau tau x 0 h 0 = 0).
  { rewrite (g_ratio 0 h x 0); try lra; [apply z_x; lra|apply z_e; lra]. }
  erewrite g_loop; [|cbn [a_t]; now apply Rltb_t|apply (@q_iter ROps g idk TT tau tau x 0 h 0 h [0] [[x]] false);
      [rops; rewrite Rltb_f by lra; reflexivity|apply Rltb_f; rops; lra|rewrite one1; apply Rleb_t; rewrite R0; lra|apply Reqb_f; rops; lra]].
  assert (E2 : @qadapt ROps g tau tau x 0 h 0 = 10 * h).
  { unfold qadapt. rewrite R0, adapt_factor. unfold factor_of. rewrite Reqb_t by reflexivity. rops. change (Q2R 10) with (Q2R (10 # 1)). qlit. eqR. field. }
  assert (E3 : @q6 ROps g 0 h = 0) by (unfold q6; rops; qlit; apply Z2; lra).
  rewrite E2, E3, z_x by lra. cbv beta iota.
  set (d := TT - h).
  assert (Ed : TT / 10 <= d <= 11 / 100 * TT) by (unfold d; lra).
  assert (X3 : @qx ROps g x (@nadd ROps 0 h) d 0 = x + 11 / 84 * (d / TT)).
  { replace (@nadd ROps 0 h) with h by (rops; eqR; ring). apply g_x; [exact (sub_sub h TT)|right; exact Ed]. }
  assert (V3 : @qe ROps g (@nadd ROps 0 h) d 0 = 71 / 6300 * (d / TT)).
  { replace (@nadd ROps 0 h) with h by (rops; eqR; ring). apply g_e; [exact (sub_sub h TT)|right; exact Ed]. }
  assert (Dr : 1 / 10 <= d / TT <= 11 / 100).
  { split; apply (Rmult_le_reg_r TT); auto; replace (d / TT * TT) with d by (field; unfold TT; lra); unfold TT in *; lra. }
  assert (R3 : @qratio ROps g tau tau x (@nadd ROps 0 h) d 0 <= 1).
  { rewrite (g_ratio _ d (x + 11 / 84 * (d / TT)) (71 / 6300 * (d / TT))); try lra; auto.
    assert (W : 71 / 6300 <= 101 / 100 * (tau * (1 + x + 11 / 84))).
    { apply (Rmult_le_reg_r (/ (tau * (1 + x + 11 / 84)))); [apply Rinv_0_lt_compat, Rmult_lt_0_compat; lra|].
      rewrite (Rmult_assoc (101 / 100)), Rinv_r by (apply Rgt_not_eq, Rmult_lt_0_compat; lra). unfold Rdiv in HR at 1. unfold Rdiv in HR. unfold Rdiv. lra. }
    assert (P : 0 < tau * (1 + (x + 11 / 84 * (d / TT)))) by (apply Rmult_lt_0_compat; lra).
    apply (Rmult_le_reg_r (tau * (1 + (x + 11 / 84 * (d / TT))))); [exact P|].
    rewrite (div_mul _ _ P).
    assert (W1 : tau * (11 / 84) <= tau * (1 + x)) by (apply Rmult_le_compat_l; lra).
    assert (W2 : 0 <= tau * (11 / 84 * (d / TT))) by (apply Rmult_le_pos; lra).
    assert (W3 : 71 / 6300 * (d / TT) <= 71 / 6300 * (11 / 100)) by lra. lra. }
  change (y_of) with (x + 11 / 84 * (d / TT)). split; [|lra].
  erewrite g_loop; [|cbn [a_t]; apply Rltb_t; rops; lra|apply (@q_iter ROps g idk TT tau tau x (@nadd ROps 0 h) (10 * h) 0 d [0] [[x]] true);
      [rops; rewrite Rltb_t by lra; unfold d; ring|apply Rltb_f; rops; unfold d; lra|rewrite one1; apply Rleb_t; exact R3|apply Reqb_t; rops; unfold d; lra]].
  rewrite g_done by (cbn [a_t]; apply Rltb_f; rops; unfold d; lra). cbn [a_times a_sol app]. rewrite X3.
  assert (EX : forall a b a' b' : R, a = a' -> b = b' -> @Ok (list ROps * list (vec ROps)) ([0; a], [[x]; [b]]) = Ok ([0; a'], [[x]; [b']])) by (intros; subst; reflexivity).
  apply EX; [rops; unfold d; lra|reflexivity].
Qed.
End Run.

(** ** The field: two tents of total area 11/84 over [0, T], the second one with its top at T *)
Definition tent (c w t : R) : R := (Rabs (t - (c + w)) - 2 * Rabs (t - c) + Rabs (t - (c - w))) / 2.
Lemma tent_left c w t : 0 <= w -> t <= c - w -> tent c w t = 0.
Proof. intros Hw H. unfold tent. rewrite !Rabs_left1 by lra. lra. Qed.
Lemma tent_right c w t : 0 <= w -> c + w <= t -> tent c w t = 0.
Proof. intros Hw H. unfold tent. rewrite !Rabs_pos_eq by lra. lra. Qed.
Lemma tent_top c w : 0 <= w -> tent c w c = w.
Proof. intros Hw. unfold tent. rewrite Rabs_left1, (Rabs_pos_eq (c - c)), Rabs_pos_eq by lra. lra. Qed.
Definition half_sq (a t : R) : R := (t - a) * Rabs (t - a) / 2.
Lemma half_sq_deriv a t : derivable_pt_lim (half_sq a) t (Rabs (t - a)).
Proof.
  intros eps He. exists (mkposreal eps He). cbn [pos]. intros h Hh Hl. unfold half_sq.
  assert (B : Rabs ((t + h - a) * Rabs (t + h - a) / 2 - (t - a) * Rabs (t - a) / 2 - h * Rabs (t - a)) <= h * h / 2).
  { set (s := t - a). replace (t + h - a) with (s + h) by (unfold s; ring). clearbody s. apply Rabs_le.
    unfold Rabs. destruct (Rcase_abs s), (Rcase_abs (s + h)); split; nra. }
  assert (HP : 0 < Rabs h) by now apply Rabs_pos_lt.
  match goal with |- Rabs (?n / h - ?l) < _ => replace (n / h - l) with ((n - h * l) / h) by (field; auto) end.
  unfold Rdiv. rewrite Rabs_mult, Rabs_inv. apply (Rmult_lt_reg_r (Rabs h)); auto.
  rewrite Rmult_assoc, Rinv_l, Rmult_1_r by lra. apply Rle_lt_trans with (h * h / 2); [exact B|].
  replace (h * h) with (Rabs h * Rabs h) by (rewrite <- Rabs_mult; apply Rabs_pos_eq; nra). nra.
Qed.
Definition tent_int (c w t : R) : R := (half_sq (c + w) t - 2 * half_sq c t + half_sq (c - w) t) / 2.
Lemma tent_int_deriv c w t : derivable_pt_lim (tent_int c w) t (tent c w t).
Proof.
  unfold tent_int, tent, Rdiv.
  pose proof (derivable_pt_lim_plus _ _ t _ _ (derivable_pt_lim_minus _ _ t _ _ (half_sq_deriv (c + w) t) (derivable_pt_lim_scal _ 2 t _ (half_sq_deriv c t))) (half_sq_deriv (c - w) t)) as D.
  pose proof (derivable_pt_lim_scal _ (/ 2) t _ D) as D2. rewrite Rmult_comm in D2.
  intros eps He. destruct (D2 eps He) as (del & Hd). exists del. intros h Hh Hl. specialize (Hd h Hh Hl).
  unfold mult_real_fct, plus_fct, minus_fct in Hd. rewrite !(Rmult_comm _ (/ 2)) in *. exact Hd.
Qed.

Definition two_tents (t : R) : R := 400000000000000 * ((11 / 84 - 1 / 200) * tent (TT / 2) (TT / 10) t + tent TT (TT / 100) t).
Definition two_int (t : R) : R := 400000000000000 * ((11 / 84 - 1 / 200) * tent_int (TT / 2) (TT / 10) t + tent_int TT (TT / 100) t).
Lemma two_int_deriv t : derivable_pt_lim two_int t (two_tents t).
Proof.
  pose proof (derivable_pt_lim_scal _ 400000000000000 t _ (derivable_pt_lim_plus _ _ t _ _ (derivable_pt_lim_scal _ (11 / 84 - 1 / 200) t _ (tent_int_deriv (TT / 2) (TT / 10) t)) (tent_int_deriv TT (TT / 100) t))) as D.
  exact D.
Qed.
Lemma two_int_total : two_int TT - two_int 0 = 11 / 84.
Proof.
  unfold two_int, tent_int, half_sq. pose proof TP.
  rewrite (Rabs_pos_eq (TT - (TT / 2 + TT / 10))), (Rabs_pos_eq (TT - TT / 2)), (Rabs_pos_eq (TT - (TT / 2 - TT / 10))), (Rabs_left1 (TT - (TT + TT / 100))), (Rabs_pos_eq (TT - TT)), (Rabs_pos_eq (TT - (TT - TT / 100))) by lra.
  rewrite (Rabs_left1 (0 - (TT / 2 + TT / 10))), (Rabs_left1 (0 - TT / 2)), (Rabs_left1 (0 - (TT / 2 - TT / 10))), (Rabs_left1 (0 - (TT + TT / 100))), (Rabs_left1 (0 - TT)), (Rabs_left1 (0 - (TT - TT / 100))) by lra.
  unfold TT. field.
Qed.
Lemma two_cont : continuity two_tents.
Proof.
  assert (A : forall a, continuity (fun t => Rabs (t - a))).
  { intros a. apply (continuity_comp (fun t => t - a) Rabs); [|exact Rcontinuity_abs]. apply continuity_minus; [intros t; apply derivable_continuous_pt, derivable_pt_id|apply continuity_const; intros ? ?; reflexivity]. }
  assert (Tc : forall c w, continuity (tent c w)).
  { intros c w. pose proof (continuity_scal _ (/ 2) (continuity_plus _ _ (continuity_minus _ _ (A (c + w)) (continuity_scal _ 2 (A c))) (A (c - w)))) as D.
    intros t. apply (continuity_pt_locally_ext (mult_real_fct (/ 2) ((fun t => Rabs (t - (c + w))) - mult_real_fct 2 (fun t => Rabs (t - c)) + (fun t => Rabs (t - (c - w)))))%F (tent c w) 1 t Rlt_0_1); [|apply D].
    intros u _. unfold mult_real_fct, plus_fct, minus_fct, tent. field. }
  exact (continuity_scal _ 400000000000000 (continuity_plus _ _ (continuity_scal _ (11 / 84 - 1 / 200) (Tc (TT / 2) (TT / 10))) (Tc TT (TT / 100)))).
Qed.
Lemma tZ1 t : 0 <= t <= 39 / 100 * TT -> two_tents t = 0.
Proof. intros H. pose proof TP. unfold two_tents. rewrite !tent_left by lra. ring. Qed.
Lemma tZ2 t : 61 / 100 * TT <= t <= 99 / 100 * TT -> two_tents t = 0.
Proof. intros H. pose proof TP. unfold two_tents. rewrite tent_right, tent_left by lra. ring. Qed.
Lemma tZ3 : two_tents (1 / 1000000) = 0.
Proof. unfold two_tents. rewrite !tent_right by (unfold TT; lra). ring. Qed.
Lemma tGT : two_tents TT = 2000000.
Proof. pose proof TP. unfold two_tents. rewrite tent_right, tent_top by lra. unfold TT. field. Qed.

(** Fixed-step solves do not depend on the tolerances at all (every arithmetic, field, state and grid). *)
Lemma C185_fixed_partial_pf :
  forall (K : NumOps) fuel f x ts (s : solver K (vec K)) atol rtol atol' rtol' interp all save_at semi,
  s_fixed s = true ->
  odeint fuel f x ts s atol rtol interp all save_at semi = odeint fuel f x ts s atol' rtol' interp all save_at semi.
Proof.
  intros K fuel f x ts s atol rtol atol' rtol' interp all save_at semi E. unfold odeint. rewrite E. reflexivity.
Qed.

Lemma sum_sq_le (l l' : list R) : Forall2 (fun a b => Rabs a <= Rabs b) l l' -> sum_sq l <= sum_sq l'.
Proof.
  induction 1 as [|a b l l' H F IH]; [lra|]. cbn. apply Rplus_le_compat; auto.
  rewrite <- (Rabs_pos_eq (a * a)), <- (Rabs_pos_eq (b * b)) by nra. rewrite !Rabs_mult. apply Rmult_le_compat; auto using Rabs_pos.
Qed.
Lemma rms_le (l l' : list R) : Forall2 (fun a b => Rabs a <= Rabs b) l l' -> rms l <= rms l'.
Proof.
  intros H. unfold rms. assert (E : length l = length l') by (clear -H; induction H; cbn; congruence). rewrite E. destruct l' as [|b l'].
  - inversion H. lra.
  - apply sqrt_le_1_alt. apply Rmult_le_compat_r; [left; apply Rinv_0_lt_compat, lt_0_INR; cbn; lia|]. now apply sum_sq_le.
Qed.
(** The number against which a step is accepted can only grow when the tolerances are tightened: the trial step is the same and every
    step accepted under the tight tolerances is accepted under the loose ones. *)
Lemma C185_acceptance_partial_pf :
  forall atol rtol atol' rtol' semi x x' e, 0 < atol <= atol' -> 0 <= rtol <= rtol' ->
  @error_ratio ROps atol' rtol' semi x x' e <= @error_ratio ROps atol rtol semi x x' e.
Proof.
  intros atol rtol atol' rtol' semi x x' e Ha Hr. rewrite !error_ratio_spec. unfold scaled_error. apply rms_le.
  set (l := combine _ _). clearbody l. induction l as [|(a & b & c) l IH]; cbn; constructor; auto.
  set (m := Rmax (Rabs b) (Rabs c)). assert (Hm : 0 <= m) by (eapply Rle_trans; [apply Rabs_pos|apply Rmax_l]). clearbody m.
  assert (P : 0 <= rtol * m <= rtol' * m) by (split; [apply Rmult_le_pos; lra|apply Rmult_le_compat_r; lra]).
  unfold Rdiv. rewrite !Rabs_mult. apply Rmult_le_compat_l; [apply Rabs_pos|]. rewrite !Rabs_inv, !Rabs_pos_eq by lra. apply Rinv_le_contravar; lra.
Qed.

(** Dividing both tolerances by a factor multiplies that number by the factor. *)
Lemma C185_scaling_partial_pf :
  forall c atol rtol semi x x' e, 0 < c -> 0 < atol -> 0 <= rtol ->
  @error_ratio ROps (atol / c) (rtol / c) semi x x' e = c * @error_ratio ROps atol rtol semi x x' e.
Proof.
  intros c atol rtol semi x x' e Hc Ha Hr. rewrite !error_ratio_spec. unfold scaled_error.
  match goal with |- _ = c * rms ?l => replace (c * rms l) with (Rabs c * rms l) by (rewrite Rabs_pos_eq; lra) end. rewrite <- rms_scale. f_equal. rewrite map_map. apply map_ext. intros (a & b & d). cbn [fst snd].
  set (m := Rmax (Rabs b) (Rabs d)). assert (Hm : 0 <= m) by (eapply Rle_trans; [apply Rabs_pos|apply Rmax_l]). clearbody m.
  assert (P : 0 <= rtol * m) by (apply Rmult_le_pos; lra). field. repeat split; lra.
Qed.

(** The result can get worse all the same.  There is a continuous field that does not depend on the state for which dopri5 with both tolerances
    10^-3 returns the exact value at T, and with both tolerances 999/1000 * 10^-3 a state that is off by more than 1/10, a hundred times the
    tolerances (relative error above 1/110): the tighter solve rejects the step of the looser one and takes two steps that miss part of the field. *)
Lemma C185_adaptive_refuted_pf :
  exists (F : R -> list R -> list R) T x (y : R -> R) u, 0 < T /\ field_on 1 F /\ lipschitz 1 0 F /\ (exists g, continuity g /\ forall t z, F t z = [g t]) /\
  solves 1 0 T F (fun t => [y t]) /\ y 0 = x /\ 1 / 10 < Rabs (u - y T) /\ Rabs (y T) / 110 < Rabs (u - y T) /\
  forall fuel, (3 <= fuel)%nat ->
    snd (@odeint ROps fuel F [x] (@TTensor ROps [0; T]) (DormandPrince45 ROps) (1 / 1000) (1 / 1000) false false [] None) = Ok ([0; T], [[x]; [y T]]) /\
    snd (@odeint ROps fuel F [x] (@TTensor ROps [0; T]) (DormandPrince45 ROps) (999 / 1000000) (999 / 1000000) false false [] None) = Ok ([0; T], [[x]; [u]]).
Proof.
  set (x := 365 / 36). set (y := fun t => x + (two_int t - two_int 0)).
  assert (Ey : y TT = x + 11 / 84) by (unfold y; rewrite two_int_total; reflexivity).
  assert (Hx : 0 < x) by (unfold x; lra).
  assert (H3 : 1 < 71 / 6300 / (999 / 1000000 * (1 + x + 11 / 84)) <= 101 / 100).
  { replace (71 / 6300 / (999 / 1000000 * (1 + x + 11 / 84))) with (1000 / 999) by (unfold x; field). lra. }
  assert (H1 : 71 / 6300 / (1 / 1000 * (1 + x + 11 / 84)) <= 1).
  { replace (71 / 6300 / (1 / 1000 * (1 + x + 11 / 84))) with 1 by (unfold x; field). lra. }
  pose proof (run_three two_tents (999 / 1000000) x tZ1 tZ2 tZ3 tGT ltac:(lra) Hx) as R3.
  set (u := y_of two_tents (999 / 1000000) x) in *.
  exists (@qF ROps two_tents), TT, x, y, u.
  destruct (R3 3%nat ltac:(lia) H3) as (_ & Bu).
  assert (Au : Rabs (u - y TT) = x + 11 / 84 - u) by (rewrite Ey, Rabs_left1; lra).
  split; [exact TP|]. split; [intros t z Hz; reflexivity|].
  split; [intros t z w D _ _ _ i Hi; rewrite Rmult_0_l; apply Pf_Jump.near_self with (n := 1%nat); auto|].
  split; [exists two_tents; split; [exact two_cont|reflexivity]|].
  split.
  { split; [reflexivity|]. intros [|i] t Hi Ht; [|lia]. cbn [nth qF].
    intros eps He. destruct (two_int_deriv t eps He) as (del & Hd). exists del. intros h Hh Hl. specialize (Hd h Hh Hl). unfold y.
    replace (x + (two_int (t + h) - two_int 0) - (x + (two_int t - two_int 0))) with (two_int (t + h) - two_int t) by ring. exact Hd. }
  split; [unfold y; ring|]. split; [rewrite Au; clearbody u; lra|].
  split; [rewrite Au, Ey, (Rabs_pos_eq (x + 11 / 84)) by lra; clearbody u; unfold x in *; lra|].
  intros fuel Hf. split; [rewrite Ey; exact (run_one two_tents (1 / 1000) x tZ1 tZ2 tZ3 tGT ltac:(lra) Hx fuel ltac:(lia) H1)|exact (proj1 (R3 fuel Hf H3))].
Qed.

(** The hypotheses are met: euler is a fixed-step solver; an error of 2 at the states 1 and 3 counts 1/2 under the tolerances (1, 1) and 2/5 under (2, 1). *)
Lemma C185_ex_pf :
  s_fixed (Euler ROps) = true /\ @error_ratio ROps 1 1 None [1] [3] [2] = 1 / 2 /\ @error_ratio ROps 2 1 None [1] [3] [2] = 2 / 5.
Proof.
  split; [reflexivity|]. unfold error_ratio, vdiv, vmax, vabs. cbn [map map2]. rewrite !hairer1. rops.
  rewrite (Rabs_pos_eq 1), (Rabs_pos_eq 3) by lra. rewrite Rmax_right by lra. split; rewrite Rabs_pos_eq by lra; eqR; field.
Qed.
