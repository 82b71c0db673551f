(** Proofs of the property about the order of states. *)
From Coq Require Import ZArith QArith Qreals Reals Lra Lia List Bool.
From Verif Require Import Num Py Tensor M_Constants M_SolversOde M_Utils M_Interp M_Odeint M_Autograd.
From Verif Require Import Spec_Ode Spec_RK Spec_Conv Spec_Order L_Base L_Fixed L_Vec L_Steps L_Utils L_Conv L_Reach L_Rel Pf_Fixed Pf_Values Pf_Autograd L_Order Pf_Order Pf_AdGrad Pf_Cross.
From Verif Require Import Spec_Trees Spec_Inv L_Tables L_Steps2 L_Fixed2 L_Adaptive L_Run L_Inv Pf_Conv.
From Verif Require Pf_Jump Pf_Calls.
Import ListNotations.
Local Notation length := List.length.
Local Open Scope R_scope.

(** ** The witness: a dip of depth 2 10^6 and half width T/100 at T = 5 10^-7; atol = rtol = 10^-3 *)
Definition TT : R := 1 / 2000000.
Definition dip (t : R) : R := - Rmax 0 (2000000 - 400000000000000 * Rabs (t - TT)).
Notation tol := (1 / 1000).
Notation x_star := (647 / 63).

Lemma dip_off t : TT / 100 <= Rabs (t - TT) -> dip t = 0.
Proof. intros H. unfold dip. rewrite Rmax_left by (unfold TT in *; lra). ring. Qed.
Lemma dip_before t : t <= 99 / 100 * TT -> dip t = 0.
Proof. intros H. apply dip_off. rewrite Rabs_left1; unfold TT in *; lra. Qed.
Lemma dip_at : dip TT = - 2000000.
Proof. unfold dip. replace (TT - TT) with 0 by ring. rewrite Rabs_R0. rewrite Rmax_right; lra. Qed.

Notation qxs := (@qx ROps dip).
Lemma j_x x t h : t = TT - h -> 0 <= t -> TT / 10 <= h <= TT -> dip t = 0 -> qxs x t h 0 = x - 11 / 84 * (h / TT).
Proof.
  intros Ht H0 Hh Hs. unfold qx, q2, q3, q4, q5, q6. rops. qlit.
  rewrite !(dip_before (t + _ * h)) by (unfold TT in *; lra).
  replace (t + 1 / 1 * h) with TT by lra. rewrite dip_at. unfold TT. field.
Qed.
Lemma j_e t h : t = TT - h -> 0 <= t -> TT / 10 <= h <= TT -> @qe ROps dip t h 0 = - (71 / 6300 * (h / TT)).
Proof.
  intros Ht H0 Hh. unfold qe, ei, tget, construct_dopri5, te, vsub, q2, q3, q4, q5, q6. cbn [map2 nth]. rops. qlit.
  rewrite !(dip_before (t + _ * h)) by (unfold TT in *; lra).
  replace (t + 1 / 1 * h) with TT by lra. rewrite dip_at. unfold TT. field.
Qed.
(** steps that end before the dip *)
Lemma z_x x h : 0 <= h <= 9 / 10 * TT -> qxs x 0 h 0 = x.
Proof.
  intros Hh. unfold qx, q2, q3, q4, q5, q6. rops. qlit. rewrite !dip_before by (unfold TT in *; lra). field.
Qed.
Lemma z_e h : 0 <= h <= 9 / 10 * TT -> @qe ROps dip 0 h 0 = 0.
Proof.
  intros Hh. unfold qe, ei, tget, construct_dopri5, te, vsub, q2, q3, q4, q5, q6. cbn [map2 nth]. rops. qlit. rewrite !dip_before by (unfold TT in *; lra). field.
Qed.
Lemma j_ratio x t h y e : 0 < y -> y <= x -> 0 <= e -> qxs x t h 0 = y -> @qe ROps dip t h 0 = - e ->
  @qratio ROps dip tol tol x t h 0 = 1000 * e / (1 + x).
Proof.
  intros Hx Hy He Ex Ee. unfold qratio. rewrite Ex, Ee. unfold error_ratio, vdiv, vmax, vabs. cbn [map map2]. rewrite hairer1. rops.
  rewrite (Rabs_pos_eq x), (Rabs_pos_eq y) by lra. rewrite Rmax_left by lra. replace (- e / (tol + tol * x)) with (- (e / (tol + tol * x))) by (field; lra). rewrite Rabs_Ropp, Rabs_pos_eq; [field; lra|].
  apply Rmult_le_pos; [lra|]. left. apply Rinv_0_lt_compat. lra.
Qed.
Lemma j_init x : 0 < x -> snd (@init_step ROps (@qF ROps dip) [dip 0] [x] 0 5 tol tol) = Ok (1 / 1000000).
Proof.
  intros Hx. unfold init_step. cbv zeta. unfold call. rewrite snd_mbind. cbn [snd rbind map]. unfold qF, vsub, vdiv. cbn [map2 map]. rewrite !hairer1. rops.
  assert (E0 : dip 0 = 0) by (apply dip_before; unfold TT; lra).
  assert (E1 : dip (0 + 1 / 1000000) = 0) by (apply dip_off; unfold TT; rewrite Rabs_pos_eq; lra).
  rewrite !E0. qlit.
  assert (EZ : Rabs (0 / (tol + Rabs x * tol)) = 0) by (unfold Rdiv at 1; rewrite Rmult_0_l; apply Rabs_R0).
  rewrite !EZ. rewrite !(Rltb_t 0) by lra. rewrite !orb_true_r. rewrite !E1. replace (0 - 0) with 0 by ring. rewrite !EZ.
  replace (0 / (1 / 1000000)) with 0 by field. rewrite !Rleb_t by lra. cbn [andb mret snd]. f_equal.
  rewrite Rmax_left by lra. apply Rmin_right. lra.
Qed.

Notation pj := (@qP ROps dip TT tol tol).
Notation idk := (fun a : R => a).
(** the solve is the loop from the first step size *)
Lemma j_start fuel x : 0 < x ->
  snd (@odeint ROps fuel (@qF ROps dip) [x] (@TTensor ROps [0; TT]) (DormandPrince45 ROps) tol tol false false [] None) =
  snd (@adaptive_loop_ad ROps idk fuel pj (@MkA ROps 0 (1 / 1000000) [x] [0] 0 [0] [[x]])).
Proof.
  intros Hx. rewrite <- odeint_ad_id. assert (E0 : dip 0 = 0) by (apply dip_before; unfold TT; lra).
  unfold odeint_ad. rewrite snd_mbind, snd_mlift. unfold prep_time. cbn [ts_list pyget nth_error rbind].
  assert (A : @nltb ROps TT 0 = false) by (apply Rltb_f; unfold TT; lra).
  rewrite A. cbn [rbind s_fixed DormandPrince45 mk_solver s_is_tsit5 pyget nth_error].
  rewrite snd_mbind, snd_mlift. cbn [rbind]. rewrite snd_mbind. unfold call at 1. cbn [snd rbind]. change (@qF ROps dip 0 [x]) with [dip 0]. rewrite snd_mbind. cbn [s_order].
  refine (eq_trans (f_equal (fun r => rbind r _) (j_init x Hx)) _). cbn [rbind]. unfold adaptive_odeint_ad. rewrite snd_mbind, snd_mlift. cbn [pyget nth_error rbind]. rewrite snd_mbind, snd_mlift. unfold pylast. cbn [rev app rbind skipn]. cbv zeta.
  rewrite E0. reflexivity.
Qed.

Lemma j_loop fuel (st st' : @astate ROps) : Rltb (a_t st) TT = true -> snd (@adaptive_iter_ad ROps idk pj st) = Ok st' ->
  snd (@adaptive_loop_ad ROps idk (S fuel) pj st) = snd (@adaptive_loop_ad ROps idk fuel pj st').
Proof.
  intros H E. cbn [adaptive_loop_ad]. change (p_T pj) with TT. change (@nltb ROps (a_t st) TT) with (Rltb (a_t st) TT). rewrite H. rewrite snd_mbind, E. reflexivity.
Qed.
Lemma j_done fuel (st : @astate ROps) : Rltb (a_t st) TT = false -> snd (@adaptive_loop_ad ROps idk fuel pj st) = Ok (a_times st, a_sol st).
Proof.
  intros H. destruct fuel; cbn [adaptive_loop_ad]; change (p_T pj) with TT; change (@nltb ROps (a_t st) TT) with (Rltb (a_t st) TT); rewrite H; reflexivity.
Qed.

Ltac eqR := match goal with |- @eq _ ?a ?b => change (@eq R a b) end.
Lemma zq u : 1000 * 0 / u = 0.
Proof. unfold Rdiv. ring. Qed.
Lemma one1 : (n1 : num ROps) = 1.
Proof. rops. apply Q2R_1'. Qed.

Lemma first_ratio x : 1 < x -> @qratio ROps dip tol tol x 0 TT 0 = (710 / 63) / (1 + x).
Proof.
  intros Hx. rewrite (j_ratio x 0 TT (x - 11 / 84) (71 / 6300)); try lra.
  - rewrite j_x by (try (apply dip_before); unfold TT; lra). eqR. unfold TT. field.
  - rewrite j_e by (unfold TT; lra). eqR. unfold TT. field.
Qed.

Lemma run_above fuel x : (1 <= fuel)%nat -> x_star <= x ->
  snd (@odeint ROps fuel (@qF ROps dip) [x] (@TTensor ROps [0; TT]) (DormandPrince45 ROps) tol tol false false [] None) = Ok ([0; TT], [[x]; [x - 11 / 84]]).
Proof.
  intros Hf Hx. rewrite j_start by lra. destruct fuel as [|fuel]; [lia|].
  assert (TP : 0 < TT) by (unfold TT; lra).
  erewrite j_loop.
  2:{ cbn [a_t]. now apply Rltb_t. }
  2:{ apply (@q_iter ROps dip idk TT tol tol x 0 (1 / 1000000) 0 TT [0] [[x]] true).
      - rops. rewrite Rltb_t by (unfold TT; lra). ring.
      - apply Rltb_f. rops. lra.
      - rewrite one1. apply Rleb_t. rewrite first_ratio by lra. apply (Rmult_le_reg_r (1 + x)); [lra|].
        unfold Rdiv at 1. rewrite Rmult_assoc, Rinv_l by lra. lra.
      - apply Reqb_t. rops. lra. }
  rewrite j_done by (cbn [a_t]; apply Rltb_f; rops; lra). cbn [a_times a_sol app].
  assert (EX : forall a b a' b' : R, a = a' -> b = b' -> @Ok (list ROps * list (vec ROps)) ([0; a], [[x]; [b]]) = Ok ([0; a'], [[x]; [b']])) by (intros; subst; reflexivity).
  apply EX; [rops; lra|]. rewrite j_x by (try (apply dip_before); unfold TT; lra). eqR. unfold TT. field.
Qed.

Definition y_of (x : R) : R := x - 11 / 84 * ((TT - @qadapt ROps dip tol tol x 0 TT 0) / TT).
Lemma run_below fuel x : (3 <= fuel)%nat -> x_star - 1 <= x < x_star ->
  snd (@odeint ROps fuel (@qF ROps dip) [x] (@TTensor ROps [0; TT]) (DormandPrince45 ROps) tol tol false false [] None) = Ok ([0; TT], [[x]; [y_of x]]) /\
  x - 4 / 5 * (11 / 84) <= y_of x.
Proof.
  intros Hf Hx. rewrite j_start by lra. destruct fuel as [|[|[|fuel]]]; try lia.
  assert (TP : 0 < TT) by (unfold TT; lra).
  pose proof (first_ratio x ltac:(lra)) as FR.
  assert (R1 : 1 < @qratio ROps dip tol tol x 0 TT 0).
  { rewrite FR. apply (Rmult_lt_reg_r (1 + x)); [lra|]. replace (710 / 63 / (1 + x) * (1 + x)) with (710 / 63) by (field; lra). lra. }
  set (h := @qadapt ROps dip tol tol x 0 TT 0).
  assert (Hh : TT / 5 <= h <= 9 / 10 * TT).
  { unfold h, qadapt. rewrite adapt_factor. rops. qlit. change (Q2R 10) with (Q2R (10 # 1)). qlit. set (r := qratio _ _ _ _ _ _ _) in *. clearbody r.
    unfold factor_of, Reqb. destruct (Req_EM_T r 0) as [|N]; [lra|]. rewrite Rltb_f by lra. rewrite Rpw_pos by lra.
    assert (P1 : 1 <= Rpower r (1 / INR 5)).
    { rewrite <- (Rpower_O r) at 1 by lra. apply Rle_Rpower; [lra|]. unfold Rdiv. rewrite Rmult_1_l. left. apply Rinv_0_lt_compat. cbn. lra. }
    assert (Q1 : 0 < 9 / 10 / Rpower r (1 / INR 5) <= 9 / 10).
    { split; [apply Rmult_lt_0_compat; [lra|apply Rinv_0_lt_compat; lra]|]. apply (Rmult_le_reg_r (Rpower r (1 / INR 5))); [lra|].
      unfold Rdiv at 1. rewrite Rmult_assoc, Rinv_l by lra. lra. }
    set (u := 9 / 10 / Rpower r (1 / INR 5)) in *. clearbody u.
    assert (B : 1 / 5 <= Rmin (10 / 1) (Rmax u (1 / 5)) <= 9 / 10).
    { split; [apply Rmin_glb; [lra|apply Rmax_r]|]. eapply Rle_trans; [apply Rmin_r|]. apply Rmax_lub; lra. }
    set (v := Rmin _ _) in *. clearbody v. unfold TT in *. lra. }
  erewrite j_loop; [|cbn [a_t]; now apply Rltb_t|apply (@Pf_Jump.q_reject ROps dip idk TT tol tol x 0 (1 / 1000000) 0 TT [0] [[x]]);
      [rops; rewrite Rltb_t by (unfold TT; lra); ring|apply Rltb_f; rops; lra|rewrite one1; apply Rleb_f; exact R1]].
  change (@qadapt ROps dip tol tol x 0 TT 0) with h. cbv beta.
  assert (Z1 : @qratio ROps dip tol tol x 0 h 0 = 0).
  { rewrite (j_ratio x 0 h x 0); try lra; [apply z_x; lra|rewrite Ropp_0; apply z_e; lra]. }
  erewrite j_loop; [|cbn [a_t]; now apply Rltb_t|apply (@q_iter ROps dip idk TT tol tol x 0 h 0 h [0] [[x]] false);
      [rops; rewrite Rltb_f by lra; reflexivity|apply Rltb_f; rops; lra|rewrite one1; apply Rleb_t; rewrite Z1; lra|apply Reqb_f; rops; lra]].
  assert (E2 : @qadapt ROps dip tol tol x 0 h 0 = 10 * h).
  { unfold qadapt. rewrite Z1, adapt_factor. unfold factor_of. rewrite Reqb_t by reflexivity. rops. change (Q2R 10) with (Q2R (10 # 1)). qlit. eqR. field. }
  assert (E3 : @q6 ROps dip 0 h = 0) by (unfold q6; rops; qlit; apply dip_before; lra).
  rewrite E2, E3, z_x by lra. cbv beta iota.
  set (d := TT - h).
  assert (Ed : TT / 10 <= d <= 4 / 5 * TT) by (unfold d; lra).
  assert (Sh : dip h = 0) by (apply dip_before; lra).
  assert (X3 : @qx ROps dip x (@nadd ROps 0 h) d 0 = x - 11 / 84 * (d / TT)).
  { replace (@nadd ROps 0 h) with h by (rops; ring). apply j_x; auto; unfold d; lra. }
  assert (V3 : @qe ROps dip (@nadd ROps 0 h) d 0 = - (71 / 6300 * (d / TT))).
  { replace (@nadd ROps 0 h) with h by (rops; ring). apply j_e; auto; unfold d; lra. }
  assert (Dr : 1 / 10 <= d / TT <= 4 / 5).
  { split; apply (Rmult_le_reg_r TT); auto; unfold Rdiv at 2; rewrite ?Rmult_assoc, ?Rinv_l by lra; unfold TT in *; lra. }
  assert (R3 : @qratio ROps dip tol tol x (@nadd ROps 0 h) d 0 <= 1).
  { rewrite (j_ratio x _ d (x - 11 / 84 * (d / TT)) (71 / 6300 * (d / TT))); try lra; auto.
    apply (Rmult_le_reg_r (1 + x)); [lra|]. unfold Rdiv at 1. rewrite Rmult_assoc, Rinv_l by lra. lra. }
  change (y_of x) with (x - 11 / 84 * (d / TT)). split; [|lra].
  erewrite j_loop; [|cbn [a_t]; apply Rltb_t; rops; lra|apply (@q_iter ROps dip idk TT tol tol x (@nadd ROps 0 h) (10 * h) 0 d [0] [[x]] true);
      [rops; rewrite Rltb_t by lra; unfold d; ring|apply Rltb_f; rops; unfold d; lra|rewrite one1; apply Rleb_t; exact R3|apply Reqb_t; rops; unfold d; lra]].
  rewrite j_done by (cbn [a_t]; apply Rltb_f; rops; unfold d; lra). cbn [a_times a_sol app]. rewrite X3.
  assert (EX : forall a b a' b' : R, a = a' -> b = b' -> @Ok (list ROps * list (vec ROps)) ([0; a], [[x]; [b]]) = Ok ([0; a'], [[x]; [b']])) by (intros; subst; reflexivity).
  apply EX; [rops; unfold d; lra|reflexivity].
Qed.

(** ** Orders *)
(** [x] is at most [z] in every component *)
Definition below (n : nat) (x z : list R) : Prop := forall i, (i < n)%nat -> nth i x 0 <= nth i z 0.
(** every component of the field grows with the other components of the state (cooperative or quasimonotone fields; every
    scalar field is) *)
Definition cooperative (n : nat) (f : R -> list R -> list R) : Prop :=
  forall t x z i, length x = n -> length z = n -> below n x z -> (i < n)%nat -> nth i x 0 = nth i z 0 -> nth i (f t x) 0 <= nth i (f t z) 0.
Definition field_below (n : nat) (f g : R -> list R -> list R) : Prop := forall t x, length x = n -> below n (f t x) (g t x).

Lemma nth_tab (g : nat -> R) n i : (i < n)%nat -> nth i (map g (seq 0 n)) 0 = g i.
Proof. intros H. rewrite (nth_indep _ 0 (g 0%nat)) by (rewrite map_length, seq_length; exact H). rewrite map_nth, seq_nth by exact H. reflexivity. Qed.

(** a cooperative field loses at most L times the gap of the component *)
Lemma coop_gap n f L t x z i : cooperative n f -> 0 <= L -> lipschitz n L f -> length x = n -> length z = n -> below n x z -> (i < n)%nat ->
  nth i (f t x) 0 - L * (nth i z 0 - nth i x 0) <= nth i (f t z) 0.
Proof.
  intros Hc HL Hl Hx Hz Hb Hi.
  set (w := map (fun j => if Nat.eqb j i then nth i x 0 else nth j z 0) (seq 0 n)).
  assert (Lw : length w = n) by (unfold w; rewrite map_length, seq_length; reflexivity).
  assert (Nw : forall j, (j < n)%nat -> nth j w 0 = if Nat.eqb j i then nth i x 0 else nth j z 0) by (intros j Hj; unfold w; exact (nth_tab _ n j Hj)).
  assert (C : nth i (f t x) 0 <= nth i (f t w) 0).
  { apply Hc; auto.
    - intros j Hj. rewrite Nw by exact Hj. destruct (Nat.eqb_spec j i) as [->|]; [lra|apply Hb; exact Hj].
    - rewrite Nw by exact Hi. now rewrite Nat.eqb_refl. }
  assert (D : near n (nth i z 0 - nth i x 0) w z).
  { pose proof (Hb i Hi). intros j Hj. rewrite Nw by exact Hj. destruct (Nat.eqb_spec j i) as [->|].
    - rewrite Rabs_left1; lra.
    - rewrite Rminus_diag_eq, Rabs_R0 by reflexivity. lra. }
  pose proof (Hl t w z _ Lw Hz D i Hi) as E. pose proof (Rle_abs (nth i (f t w) 0 - nth i (f t z) 0)). lra.
Qed.

Lemma euler_nth n f t h x i : field_on n f -> length x = n -> (i < n)%nat ->
  nth i (erk_step (to_R_rows q_euler) (to_R qb_euler) f t h x) 0 = nth i x 0 + h * nth i (f t x) 0.
Proof.
  intros Hf Hx Hi. unfold erk_step. rewrite (nth_comb n); auto; [|now apply erk_stages_len].
  unfold to_R_rows, to_R, q_euler, qb_euler. cbn.
  replace (Q2R 1) with 1 by (unfold Q2R; simpl; lra). replace (Q2R 0) with 0 by (unfold Q2R; simpl; lra). replace (t + 0 * h) with t by ring. ring.
Qed.

Lemma traj_mono n f g L H : field_on n f -> field_on n g -> cooperative n f \/ cooperative n g -> 0 <= L -> lipschitz n L f -> lipschitz n L g -> field_below n f g -> H * L <= 1 ->
  forall ts t x z, length x = n -> length z = n -> below n x z -> increasing (t :: ts) -> steps_at_most H (t :: ts) ->
  forall k xk zk, nth_error (one_step_traj (erk_step (to_R_rows q_euler) (to_R qb_euler) f) x (t :: ts)) k = Some xk ->
    nth_error (one_step_traj (erk_step (to_R_rows q_euler) (to_R qb_euler) g) z (t :: ts)) k = Some zk -> below n xk zk.
Proof.
  intros Hf Hg Hc HL Hlf Hlg Hfg HH. induction ts as [|t1 ts IH]; intros t x z Hx Hz Hb Hinc Hst k xk zk Hk Hl.
  - destruct k as [|[|]]; try discriminate. injection Hk as <-. injection Hl as <-. exact Hb.
  - rewrite L_Jagged.traj_cons in Hk, Hl. destruct k as [|k].
    + injection Hk as <-. injection Hl as <-. exact Hb.
    + cbn [nth_error] in Hk, Hl.
      assert (Hlt : t < t1) by (apply (Hinc 0%nat 1%nat t t1); auto).
      assert (HhH : t1 - t <= H) by (apply (Hst 0%nat); reflexivity).
      eapply (IH t1 (erk_step (to_R_rows q_euler) (to_R qb_euler) f t (t1 - t) x) (erk_step (to_R_rows q_euler) (to_R qb_euler) g t (t1 - t) z)); [| | | | |exact Hk|exact Hl].
      * now apply erk_step_len.
      * now apply erk_step_len.
      * intros i Hi. rewrite !(euler_nth n) by auto. set (h := t1 - t) in *.
        assert (G : nth i (f t x) 0 - L * (nth i z 0 - nth i x 0) <= nth i (g t z) 0).
        { destruct Hc as [Hc|Hc].
          - pose proof (coop_gap n f L t x z i Hc HL Hlf Hx Hz Hb Hi). pose proof (Hfg t z Hz i Hi). lra.
          - pose proof (coop_gap n g L t x z i Hc HL Hlg Hx Hz Hb Hi). pose proof (Hfg t x Hx i Hi). lra. }
        assert (P : h * (nth i (f t x) 0 - L * (nth i z 0 - nth i x 0)) <= h * nth i (g t z) 0) by (apply Rmult_le_compat_l; [unfold h; lra|exact G]).
        assert (Q : h * L <= 1) by (apply Rle_trans with (H * L); [apply Rmult_le_compat_r; [exact HL|exact HhH]|exact HH]).
        assert (W : h * L * (nth i z 0 - nth i x 0) <= 1 * (nth i z 0 - nth i x 0)) by (apply Rmult_le_compat_r; [pose proof (Hb i Hi); lra|exact Q]). lra.
      * intros i j a' b' Hij H1 H2. apply (Hinc (S i) (S j)); auto. lia.
      * intros i a' b' H1 H2. apply (Hst (S i)); auto.
Qed.

(** Euler, any dimension: if the field f is at most g, one of the two is cooperative, the Lipschitz constants are at most L and the
    steps at most 1/L, then from x <= z the states for f and x are at most those for g and z, in every component at every time. *)
Lemma C183_euler_partial_pf :
  forall n f g L x z H t0 t1 ts fuel atol rtol interp all semi,
  field_on n f -> field_on n g -> cooperative n f \/ cooperative n g -> 0 <= L -> lipschitz n L f -> lipschitz n L g -> field_below n f g ->
  length x = n -> length z = n -> below n x z ->
  increasing (t0 :: t1 :: ts) -> separated (t0 :: t1 :: ts) -> steps_at_most H (t0 :: t1 :: ts) -> H * L <= 1 ->
  exists sol sol',
    snd (@odeint ROps fuel f x (@TTensor ROps (t0 :: t1 :: ts)) (Euler ROps) atol rtol interp all [] semi) = Ok (t0 :: t1 :: ts, sol) /\
    snd (@odeint ROps fuel g z (@TTensor ROps (t0 :: t1 :: ts)) (Euler ROps) atol rtol interp all [] semi) = Ok (t0 :: t1 :: ts, sol') /\
    forall k xk zk, nth_error sol k = Some xk -> nth_error sol' k = Some zk -> below n xk zk.
Proof.
  intros n f g L x z H t0 t1 ts fuel atol rtol interp all semi Hf Hg Hc HL Hlf Hlg Hfg Hx Hz Hb Hinc Hsep Hst HH.
  assert (Hlt : t0 < t1) by (apply (Hinc 0%nat 1%nat); auto).
  do 2 eexists. split; [apply (fixed_grid fuel (Euler ROps) _ _ n f x t0 t1 ts atol rtol interp all semi C05_euler_pf); auto; lra|].
  split; [apply (fixed_grid fuel (Euler ROps) _ _ n g z t0 t1 ts atol rtol interp all semi C05_euler_pf); auto; lra|].
  intros k xk zk Hk Hl. exact (traj_mono n f g L H Hf Hg Hc HL Hlf Hlg Hfg HH (t1 :: ts) t0 x z Hx Hz Hb Hinc Hst k xk zk Hk Hl).
Qed.

(** *** rk4 in one dimension *)
Definition val1 (f : R -> list R -> list R) (t u : R) : R := nth 0 (f t [u]) 0.
Lemma val1_eq f t u : field_on 1 f -> f t [u] = [val1 f t u].
Proof. intros Hf. unfold val1. pose proof (Hf t [u] eq_refl) as E. destruct (f t [u]) as [|a [|]]; try discriminate. reflexivity. Qed.
Lemma rk4_scalar f t h u : field_on 1 f ->
  let k1 := val1 f t u in let k2 := val1 f t (u + h / 2 * k1) in let k3 := val1 f (t + h / 2) (u + h / 2 * k2) in let k4 := val1 f (t + h / 2) (u + h * k3) in
  erk_step (to_R_rows q_rk4_code) (to_R qb_rk4) f t h [u] = [u + h * (k1 + 2 * k2 + 2 * k3 + k4) / 6].
Proof.
  intros Hf k1 k2 k3 k4.
  assert (Q : Q2R (1 # 2) = 1 / 2 /\ Q2R 0 = 0 /\ Q2R 1 = 1 /\ Q2R (1 # 6) = 1 / 6 /\ Q2R (1 # 3) = 1 / 3) by (unfold Q2R; cbn; lra). destruct Q as (Q2 & Q0 & Q1 & Q6 & Q3).
  unfold erk_step, erk_stages, q_rk4_code, qb_rk4, comb, to_R_rows, to_R. cbn [map fold_left combine app fst snd]. rewrite Q2, Q0, Q1, Q6, Q3.
  replace (t + 0 * h) with t by ring. replace (t + 1 / 2 * h) with (t + h / 2) by field.
  rewrite (val1_eq f t u Hf). fold k1. unfold axpy. cbn [map combine fst snd].
  replace (u + h * (1 / 2) * k1) with (u + h / 2 * k1) by field. rewrite (val1_eq f t (u + h / 2 * k1) Hf). fold k2. cbn [map combine fst snd].
  replace (u + h * 0 * k1 + h * (1 / 2) * k2) with (u + h / 2 * k2) by field. rewrite (val1_eq f _ (u + h / 2 * k2) Hf). fold k3. cbn [map combine fst snd].
  replace (u + h * 0 * k1 + h * 0 * k2 + h * 1 * k3) with (u + h * k3) by field. rewrite (val1_eq f _ (u + h * k3) Hf). fold k4. cbn [map combine fst snd].
  f_equal. field.
Qed.
Lemma val1_gap f g L t u v : field_on 1 f -> lipschitz 1 L f -> field_below 1 f g -> val1 f t u - L * Rabs (v - u) <= val1 g t v.
Proof.
  intros Hf Hl Hfg. pose proof (Hfg t [v] eq_refl 0%nat ltac:(lia)) as B. fold (val1 f t v) (val1 g t v) in B.
  assert (N : near 1 (Rabs (v - u)) [u] [v]) by (intros i Hi; replace i with 0%nat by lia; cbn; rewrite Rabs_minus_sym; lra).
  pose proof (Hl t [u] [v] _ eq_refl eq_refl N 0%nat ltac:(lia)) as C. fold (val1 f t u) (val1 f t v) in C. apply Rabs_le_inv in C. lra.
Qed.
Lemma rk4_mono f g L h t u v : field_on 1 f -> field_on 1 g -> 0 <= L -> lipschitz 1 L f -> field_below 1 f g -> 0 <= h -> h * L <= 1 / 2 -> u <= v ->
  below 1 (erk_step (to_R_rows q_rk4_code) (to_R qb_rk4) f t h [u]) (erk_step (to_R_rows q_rk4_code) (to_R qb_rk4) g t h [v]).
Proof.
  intros Hf Hg HL Hl Hfg Hh HhL Huv i Hi. replace i with 0%nat by lia. rewrite !rk4_scalar by auto. cbn [nth].
  assert (G : forall s a b, - (1 / 2) * Rabs (b - a) <= h * val1 g s b - h * val1 f s a).
  { intros s a b. pose proof (val1_gap f g L s a b Hf Hl Hfg) as B. pose proof (Rabs_pos (b - a)).
    assert (h * (val1 f s a - L * Rabs (b - a)) <= h * val1 g s b) by (apply Rmult_le_compat_l; auto).
    assert (h * L * Rabs (b - a) <= 1 / 2 * Rabs (b - a)) by (apply Rmult_le_compat_r; auto). lra. }
  set (f1 := val1 f t u). set (g1 := val1 g t v). pose proof (G t u v) as G1. fold f1 g1 in G1. clearbody f1 g1.
  set (f2 := val1 f t (u + h / 2 * f1)). set (g2 := val1 g t (v + h / 2 * g1)). pose proof (G t (u + h / 2 * f1) (v + h / 2 * g1)) as G2. fold f2 g2 in G2. clearbody f2 g2.
  set (f3 := val1 f (t + h / 2) (u + h / 2 * f2)). set (g3 := val1 g (t + h / 2) (v + h / 2 * g2)). pose proof (G (t + h / 2) (u + h / 2 * f2) (v + h / 2 * g2)) as G3. fold f3 g3 in G3. clearbody f3 g3.
  set (f4 := val1 f (t + h / 2) (u + h * f3)). set (g4 := val1 g (t + h / 2) (v + h * g3)). pose proof (G (t + h / 2) (u + h * f3) (v + h * g3)) as G4. fold f4 g4 in G4. clearbody f4 g4.
  clear G. rewrite (Rabs_pos_eq (v - u)) in G1 by lra.
  replace (v + h / 2 * g1 - (u + h / 2 * f1)) with (v - u + (h * g1 - h * f1) / 2) in G2 by field. rewrite Rabs_pos_eq in G2 by lra.
  replace (v + h / 2 * g2 - (u + h / 2 * f2)) with (v - u + (h * g2 - h * f2) / 2) in G3 by field.
  replace (v + h * g3 - (u + h * f3)) with (v - u + (h * g3 - h * f3)) in G4 by field.
  replace (u + h * (f1 + 2 * f2 + 2 * f3 + f4) / 6) with (u + (h * f1 + 2 * (h * f2) + 2 * (h * f3) + h * f4) / 6) by field.
  replace (v + h * (g1 + 2 * g2 + 2 * g3 + g4) / 6) with (v + (h * g1 + 2 * (h * g2) + 2 * (h * g3) + h * g4) / 6) by field.
  unfold Rabs in G3, G4. destruct (Rcase_abs _) in G3; destruct (Rcase_abs _) in G4; lra.
Qed.
Lemma traj_mono_rk4 f g L H : field_on 1 f -> field_on 1 g -> 0 <= L -> lipschitz 1 L f -> field_below 1 f g -> H * L <= 1 / 2 ->
  forall ts t x z, length x = 1%nat -> length z = 1%nat -> below 1 x z -> increasing (t :: ts) -> steps_at_most H (t :: ts) ->
  forall k xk zk, nth_error (one_step_traj (erk_step (to_R_rows q_rk4_code) (to_R qb_rk4) f) x (t :: ts)) k = Some xk ->
    nth_error (one_step_traj (erk_step (to_R_rows q_rk4_code) (to_R qb_rk4) g) z (t :: ts)) k = Some zk -> below 1 xk zk.
Proof.
  intros Hf Hg HL Hlf Hfg HH. induction ts as [|t1 ts IH]; intros t x z Hx Hz Hb Hinc Hst k xk zk Hk Hl.
  - destruct k as [|[|]]; try discriminate. injection Hk as <-. injection Hl as <-. exact Hb.
  - rewrite L_Jagged.traj_cons in Hk, Hl. destruct k as [|k].
    + injection Hk as <-. injection Hl as <-. exact Hb.
    + cbn [nth_error] in Hk, Hl.
      assert (Hlt : t < t1) by (apply (Hinc 0%nat 1%nat t t1); auto).
      assert (HhH : t1 - t <= H) by (apply (Hst 0%nat); reflexivity).
      eapply (IH t1); [| | | | |exact Hk|exact Hl].
      * now apply erk_step_len.
      * now apply erk_step_len.
      * destruct x as [|u [|]]; try discriminate. destruct z as [|v [|]]; try discriminate.
        apply (rk4_mono f g L); auto; [lra| |exact (Hb 0%nat ltac:(lia))].
        apply Rle_trans with (H * L); [apply Rmult_le_compat_r; auto|exact HH].
      * intros i j a' b' Hij H1 H2. apply (Hinc (S i) (S j)); auto. lia.
      * intros i a' b' H1 H2. apply (Hst (S i)); auto.
Qed.

(** rk4, one dimension: if the field f is at most g, f is Lipschitz with constant L and the steps are at most 1/(2L), then from x <= z the
    states for f and x are at most those for g and z at every time. *)
Lemma C183_rk4_partial_pf :
  forall f g L x z H t0 t1 ts fuel atol rtol interp all semi,
  field_on 1 f -> field_on 1 g -> 0 <= L -> lipschitz 1 L f -> field_below 1 f g -> x <= z ->
  increasing (t0 :: t1 :: ts) -> separated (t0 :: t1 :: ts) -> steps_at_most H (t0 :: t1 :: ts) -> H * L <= 1 / 2 ->
  exists sol sol',
    snd (@odeint ROps fuel f [x] (@TTensor ROps (t0 :: t1 :: ts)) (RungeKutta4 ROps) atol rtol interp all [] semi) = Ok (t0 :: t1 :: ts, sol) /\
    snd (@odeint ROps fuel g [z] (@TTensor ROps (t0 :: t1 :: ts)) (RungeKutta4 ROps) atol rtol interp all [] semi) = Ok (t0 :: t1 :: ts, sol') /\
    forall k xk zk, nth_error sol k = Some xk -> nth_error sol' k = Some zk -> below 1 xk zk.
Proof.
  intros f g L x z H t0 t1 ts fuel atol rtol interp all semi Hf Hg HL Hlf Hfg Hxz Hinc Hsep Hst HH.
  assert (Hlt : t0 < t1) by (apply (Hinc 0%nat 1%nat); auto).
  do 2 eexists. split; [apply (fixed_grid fuel (RungeKutta4 ROps) _ _ 1 f [x] t0 t1 ts atol rtol interp all semi C05_rk4_pf); auto; lra|].
  split; [apply (fixed_grid fuel (RungeKutta4 ROps) _ _ 1 g [z] t0 t1 ts atol rtol interp all semi C05_rk4_pf); auto; lra|].
  intros k xk zk Hk Hl. apply (traj_mono_rk4 f g L H Hf Hg HL Hlf Hfg HH (t1 :: ts) t0 [x] [z] eq_refl eq_refl) with (k := k); auto.
  intros i Hi. replace i with 0%nat by lia. exact Hxz.
Qed.

Lemma scalar_coop f : (forall t x z, length x = 1%nat -> length z = 1%nat -> nth 0 x 0 = nth 0 z 0 -> f t x = f t z) -> cooperative 1 f.
Proof. intros H t x z i Hx Hz _ Hi E. replace i with 0%nat in * by lia. rewrite (H t x z Hx Hz E). apply Rle_refl. Qed.

(** The midpoint rule reverses the order for every step size: for every h there are scalar fields f <= g with Lipschitz constant 1 such
    that one step of size h from the same state ends strictly lower for the larger field. *)
Lemma C183_midpoint_refuted_pf :
  forall h, 1 / 1000000 <= h -> exists f g, field_on 1 f /\ field_on 1 g /\ cooperative 1 f /\ cooperative 1 g /\ lipschitz 1 1 f /\ lipschitz 1 1 g /\
  field_below 1 f g /\ forall x fuel atol rtol interp all semi, exists u v,
    snd (@odeint ROps fuel f [x] (@TTensor ROps [0; h]) (Midpoint ROps) atol rtol interp all [] semi) = Ok ([0; h], [[x]; [u]]) /\
    snd (@odeint ROps fuel g [x] (@TTensor ROps [0; h]) (Midpoint ROps) atol rtol interp all [] semi) = Ok ([0; h], [[x]; [v]]) /\
    v < u.
Proof.
  intros h Hh. set (bump := fun t => Rmax 0 (1 - 4 * t / h)).
  set (f := fun (t : R) (x : list R) => [- nth 0 x 0]). set (g := fun (t : R) (x : list R) => [- nth 0 x 0 + bump t]).
  assert (Hf : field_on 1 f) by (intros t x Hx; reflexivity). assert (Hg : field_on 1 g) by (intros t x Hx; reflexivity).
  exists f, g. split; [exact Hf|]. split; [exact Hg|].
  split; [apply scalar_coop; intros t x z _ _ E; unfold f; now rewrite E|].
  split; [apply scalar_coop; intros t x z _ _ E; unfold g; now rewrite E|].
  split; [intros t x y D Hx Hy Hn i Hi; replace i with 0%nat by lia; unfold f; cbn; replace (- nth 0 x 0 - - nth 0 y 0) with (- (nth 0 x 0 - nth 0 y 0)) by ring; rewrite Rabs_Ropp, Rmult_1_l; apply Hn; lia|].
  split; [intros t x y D Hx Hy Hn i Hi; replace i with 0%nat by lia; unfold g; cbn; replace (- nth 0 x 0 + bump t - (- nth 0 y 0 + bump t)) with (- (nth 0 x 0 - nth 0 y 0)) by ring; rewrite Rabs_Ropp, Rmult_1_l; apply Hn; lia|].
  split; [intros t x Hx i Hi; replace i with 0%nat by lia; unfold f, g; cbn; pose proof (Rmax_l 0 (1 - 4 * t / h)); unfold bump; lra|].
  assert (Sep : separated [0; h]).
  { intros i j a d Hij Ha Hd. destruct i as [|[|i]], j as [|[|j]]; try lia; simpl in Ha, Hd;
    try (destruct i; discriminate); try (destruct j; discriminate); injection Ha as <-; injection Hd as <-; unfold close_to.
    - rewrite (Rabs_left (0 - h)), (Rabs_right h) by lra. lra.
    - rewrite (Rabs_right (h - 0)), Rabs_R0 by lra. lra. }
  assert (B0 : bump 0 = 1) by (unfold bump; replace (1 - 4 * 0 / h) with 1 by (field; lra); apply Rmax_right; lra).
  assert (B1 : bump (h / 2) = 0) by (unfold bump; replace (1 - 4 * (h / 2) / h) with (-1) by (field; lra); apply Rmax_left; lra).
  intros x fuel atol rtol interp all semi.
  pose proof (builtin_fixed_erk (Midpoint ROps) (to_R_rows q_midpoint) (to_R qb_midpoint) ltac:(right; left; auto)) as HE.
  exists (x - h * (x - h / 2 * x)), (x - h * (x + h / 2 * (1 - x))).
  assert (EX : forall a b : list R, a = b -> @Ok (list R * list (list R)) ([0; h], [[x]; a]) = Ok ([0; h], [[x]; b])) by (intros; subst; reflexivity).
  assert (Q : Q2R (1 # 2) = 1 / 2 /\ Q2R 0 = 0 /\ Q2R 1 = 1) by (unfold Q2R; cbn; lra). destruct Q as (Q2 & Q0 & Q1).
  split; [|split].
  - refine (eq_trans (fixed_grid fuel (Midpoint ROps) _ _ 1 f [x] 0 h [] atol rtol interp all semi HE Hf eq_refl ltac:(lra) Sep) (EX _ _ _)).
    unfold erk_step. cbn. rewrite ?Q2, ?Q0, ?Q1. f_equal. field.
  - refine (eq_trans (fixed_grid fuel (Midpoint ROps) _ _ 1 g [x] 0 h [] atol rtol interp all semi HE Hg eq_refl ltac:(lra) Sep) (EX _ _ _)).
    unfold erk_step. cbn. rewrite ?Q2, ?Q0, ?Q1. replace (0 + 0 * (h - 0)) with 0 by ring. replace (0 + 1 / 2 * (h - 0)) with (h / 2) by field. rewrite B0, B1. f_equal. field.
  - assert (0 < h * h) by (apply Rmult_lt_0_compat; lra). lra.
Qed.

(** rk4 violates it in two dimensions, for every step size up to one: x' = min(y, 0), y' = -y from the origin stays there; with a source for y
    during the first quarter of the step, x ends below zero, because the fourth stage sees a negative y. *)
Lemma C183_rk4_refuted_pf :
  forall h, 1 / 1000000 <= h <= 1 -> exists f g, field_on 2 f /\ field_on 2 g /\ cooperative 2 f /\ cooperative 2 g /\ lipschitz 2 1 f /\ lipschitz 2 1 g /\
  field_below 2 f g /\ forall fuel atol rtol interp all semi, exists u v,
    snd (@odeint ROps fuel f [0; 0] (@TTensor ROps [0; h]) (RungeKutta4 ROps) atol rtol interp all [] semi) = Ok ([0; h], [[0; 0]; u]) /\
    snd (@odeint ROps fuel g [0; 0] (@TTensor ROps [0; h]) (RungeKutta4 ROps) atol rtol interp all [] semi) = Ok ([0; h], [[0; 0]; v]) /\
    nth 0 v 0 < nth 0 u 0.
Proof.
  intros h Hh. set (bump := fun t => Rmax 0 (1 - 4 * t / h)).
  set (f := fun (t : R) (x : list R) => [Rmin (nth 1 x 0) 0; - nth 1 x 0]). set (g := fun (t : R) (x : list R) => [Rmin (nth 1 x 0) 0; - nth 1 x 0 + bump t]).
  assert (Hf : field_on 2 f) by (intros t x Hx; reflexivity). assert (Hg : field_on 2 g) by (intros t x Hx; reflexivity).
  assert (M : forall a b D, Rabs (a - b) <= D -> Rabs (Rmin a 0 - Rmin b 0) <= D).
  { intros a b D HD. apply Rabs_le_inv in HD. apply Rabs_le. unfold Rmin. destruct (Rle_dec a 0), (Rle_dec b 0); lra. }
  exists f, g. split; [exact Hf|]. split; [exact Hg|].
  split; [|split; [|split; [|split; [|split]]]].
  - intros t x z i Hx Hz Hb Hi E. pose proof (Hb 1%nat ltac:(lia)) as B. destruct i as [|[|i]]; [| |lia]; cbn; [apply Rle_min_compat_r; exact B|rewrite E; lra].
  - intros t x z i Hx Hz Hb Hi E. pose proof (Hb 1%nat ltac:(lia)) as B. destruct i as [|[|i]]; [| |lia]; cbn; [apply Rle_min_compat_r; exact B|rewrite E; lra].
  - intros t x y D _ _ Hn. pose proof (Hn 1%nat ltac:(lia)) as N. intros [|[|i]] Hi; [| |lia]; cbn; rewrite Rmult_1_l; [now apply M|].
    replace (- nth 1 x 0 - - nth 1 y 0) with (- (nth 1 x 0 - nth 1 y 0)) by ring. now rewrite Rabs_Ropp.
  - intros t x y D _ _ Hn. pose proof (Hn 1%nat ltac:(lia)) as N. intros [|[|i]] Hi; [| |lia]; cbn; rewrite Rmult_1_l; [now apply M|].
    replace (- nth 1 x 0 + bump t - (- nth 1 y 0 + bump t)) with (- (nth 1 x 0 - nth 1 y 0)) by ring. now rewrite Rabs_Ropp.
  - intros t x Hx [|[|i]] Hi; [| |lia]; cbn; [lra|]. pose proof (Rmax_l 0 (1 - 4 * t / h)). unfold bump. lra.
  - assert (Sep : separated [0; h]).
    { intros i j a d Hij Ha Hd. destruct i as [|[|i]], j as [|[|j]]; try lia; simpl in Ha, Hd;
      try (destruct i; discriminate); try (destruct j; discriminate); injection Ha as <-; injection Hd as <-; unfold close_to.
      - rewrite (Rabs_left (0 - h)), (Rabs_right h) by lra. lra.
      - rewrite (Rabs_right (h - 0)), Rabs_R0 by lra. lra. }
    assert (B0 : bump 0 = 1) by (unfold bump; replace (1 - 4 * 0 / h) with 1 by (field; lra); apply Rmax_right; lra).
    assert (B1 : bump (h / 2) = 0) by (unfold bump; replace (1 - 4 * (h / 2) / h) with (-1) by (field; lra); apply Rmax_left; lra).
    intros fuel atol rtol interp all semi.
    exists (erk_step (to_R_rows q_rk4_code) (to_R qb_rk4) f 0 (h - 0) [0; 0]), (erk_step (to_R_rows q_rk4_code) (to_R qb_rk4) g 0 (h - 0) [0; 0]).
    split; [exact (fixed_grid fuel (RungeKutta4 ROps) _ _ 2 f [0; 0] 0 h [] atol rtol interp all semi C05_rk4_pf Hf eq_refl ltac:(lra) Sep)|].
    split; [exact (fixed_grid fuel (RungeKutta4 ROps) _ _ 2 g [0; 0] 0 h [] atol rtol interp all semi C05_rk4_pf Hg eq_refl ltac:(lra) Sep)|].
    assert (Q : Q2R (1 # 2) = 1 / 2 /\ Q2R 0 = 0 /\ Q2R 1 = 1 /\ Q2R (1 # 6) = 1 / 6 /\ Q2R (1 # 3) = 1 / 3) by (unfold Q2R; cbn; lra). destruct Q as (Q2 & Q0 & Q1 & Q6 & Q3).
    assert (Eu : erk_step (to_R_rows q_rk4_code) (to_R qb_rk4) f 0 (h - 0) [0; 0] = [0; 0]).
    { unfold erk_step. cbn. rewrite ?Q2, ?Q0, ?Q1, ?Q6, ?Q3. unfold axpy. cbn [map combine fst snd]. rewrite ?Rminus_0_r, ?Ropp_0, ?Rmult_0_r, ?Rplus_0_r, ?Rmin_left by lra.
      repeat (rewrite ?Rmult_0_r, ?Rplus_0_r, ?Ropp_0; rewrite ?(Rmin_left 0 0) by lra). reflexivity. }
    assert (Ev : nth 0 (erk_step (to_R_rows q_rk4_code) (to_R qb_rk4) g 0 (h - 0) [0; 0]) 0 = - (h * h * h * (1 - h / 2) / 12)).
    { unfold erk_step. cbn. rewrite ?Q2, ?Q0, ?Q1, ?Q6, ?Q3. unfold axpy. cbn [map combine fst snd]. rewrite ?Rminus_0_r. replace (0 + 0 * h) with 0 by ring. replace (0 + 1 / 2 * h) with (h / 2) by field. rewrite B0, B1.
      assert (P1 : 0 <= h * (1 / 2)) by lra. assert (P2 : 0 <= h * (1 / 2) * (1 - h / 2)) by (apply Rmult_le_pos; lra). assert (P3 : 0 <= h * (h * (1 / 2) * (1 - h / 2))) by (apply Rmult_le_pos; lra).
      match goal with |- _ + _ * Rmin ?a _ + _ * Rmin ?b _ + _ * Rmin ?c _ + _ * Rmin ?d _ = _ =>
        replace (Rmin a 0) with 0 by (rewrite Rmin_right; lra); replace (Rmin b 0) with 0 by (rewrite Rmin_right; lra);
        replace (Rmin c 0) with 0 by (rewrite Rmin_right; lra); replace (Rmin d 0) with (- (h * (h * (1 / 2) * (1 - h / 2)))) by (rewrite Rmin_left; lra) end.
      field. }
    rewrite Eu, Ev. cbn [nth]. assert (0 < h * h * h) by (repeat apply Rmult_lt_0_compat; lra). assert (0 < h * h * h * (1 - h / 2)) by (apply Rmult_lt_0_compat; lra). lra.
Qed.

(** dopri5 with both tolerances 10^-3 reverses the order of two initial states by more than 1/50, for a continuous scalar field that
    does not depend on the state (the exact solutions keep their distance). *)
Lemma C183_adaptive_refuted_pf :
  exists (F : R -> list R -> list R) T a c u v, 0 < T /\ field_on 1 F /\ lipschitz 1 0 F /\ cooperative 1 F /\ (forall t x y, F t x = F t y) /\
  a < c /\ v + 1 / 50 < u /\ forall fuel, (3 <= fuel)%nat ->
    snd (@odeint ROps fuel F [a] (@TTensor ROps [0; T]) (DormandPrince45 ROps) (1 / 1000) (1 / 1000) false false [] None) = Ok ([0; T], [[a]; [u]]) /\
    snd (@odeint ROps fuel F [c] (@TTensor ROps [0; T]) (DormandPrince45 ROps) (1 / 1000) (1 / 1000) false false [] None) = Ok ([0; T], [[c]; [v]]).
Proof.
  set (a := x_star - 1 / 1000). assert (Ha : x_star - 1 <= a < x_star) by (unfold a; lra).
  exists (@qF ROps dip), TT, a, x_star, (y_of a), (x_star - 11 / 84). split; [unfold TT; lra|]. split; [intros t x Hx; reflexivity|].
  split; [intros t x y D _ _ _ i Hi; rewrite Rmult_0_l; apply Pf_Jump.near_self with (n := 1%nat); auto|].
  split; [apply scalar_coop; reflexivity|]. split; [reflexivity|]. split; [lra|].
  destruct (run_below 3 a ltac:(lia) Ha) as (_ & Hy). split; [set (y := y_of a) in *; clearbody y; unfold a in *; lra|].
  intros fuel Hf. split; [apply run_below; auto|apply run_above; [lia|lra]].
Qed.

(** The hypotheses of C183_euler_partial are met: two species that help each other, and the same with an additional source. *)
Lemma C183_ex_pf :
  let f := fun (_ : R) (x : list R) => [- nth 0 x 0 + nth 1 x 0; nth 0 x 0 - nth 1 x 0] in
  let g := fun (t : R) (x : list R) => [- nth 0 x 0 + nth 1 x 0 + t * t; nth 0 x 0 - nth 1 x 0] in
  field_on 2 f /\ field_on 2 g /\ cooperative 2 f /\ lipschitz 2 2 f /\ lipschitz 2 2 g /\ field_below 2 f g /\ below 2 [1; 2] [1; 3] /\
  increasing [0; 1/2] /\ separated [0; 1/2] /\ steps_at_most (1/2) [0; 1/2] /\ 1/2 * 2 <= 1.
Proof.
  intros f g. split; [intros t x Hx; reflexivity|]. split; [intros t x Hx; reflexivity|].
  assert (LF : forall x y D, near 2 D x y -> near 2 (2 * D) (f 0 x) (f 0 y)).
  { intros x y D Hn. pose proof (Hn 0%nat ltac:(lia)) as N0. pose proof (Hn 1%nat ltac:(lia)) as N1. apply Rabs_le_inv in N0. apply Rabs_le_inv in N1.
    intros [|[|i]] Hi; [| |lia]; cbn; apply Rabs_le; lra. }
  split; [|split; [|split; [|split; [|split]]]].
  - intros t x z i Hx Hz Hb Hi E. pose proof (Hb 0%nat ltac:(lia)). pose proof (Hb 1%nat ltac:(lia)). destruct i as [|[|i]]; [| |lia]; cbn; lra.
  - intros t x y D _ _ Hn. exact (LF x y D Hn).
  - intros t x y D _ _ Hn i Hi. pose proof (LF x y D Hn i Hi) as B. destruct i as [|[|i]]; [| |lia]; cbn in *; [|exact B].
    replace (- nth 0 x 0 + nth 1 x 0 + t * t - (- nth 0 y 0 + nth 1 y 0 + t * t)) with (- nth 0 x 0 + nth 1 x 0 - (- nth 0 y 0 + nth 1 y 0)) by ring. exact B.
  - intros t x Hx i Hi. pose proof (Rle_0_sqr t). unfold Rsqr in *. destruct i as [|[|i]]; [| |lia]; cbn; lra.
  - intros [|[|i]] Hi; [| |lia]; cbn; lra.
  - split; [apply two_increasing; lra|]. split; [apply two_separated; lra|]. split; [apply two_steps|lra].
Qed.
