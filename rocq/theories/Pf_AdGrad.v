(** Gradients through adaptive solves. *)
From Coq Require Import ZArith QArith Qreals Reals Lra Lia List Bool.
From Verif Require Import Num Py Tensor M_Constants M_SolversOde M_Utils M_Interp M_Odeint M_Autograd.
From Verif Require Import Spec_Ode Spec_Autograd L_Base L_Fixed L_Vec L_Steps L_Utils L_Rel Pf_Fixed Pf_Values Pf_Autograd.
Import ListNotations.
Local Notation length := List.length.
Local Open Scope R_scope.

(** ** One step of dopri5 for a field that depends on time only, one unknown *)
Section Gen.
Context {K : NumOps}.
Variable G : K -> K.
Definition qF (t : K) (_ : vec K) : vec K := [G t].
Definition q2 (t h : K) : K := G (t + nQ (1 # 5) * h)%N.
Definition q3 (t h : K) : K := G (t + nQ (3 # 10) * h)%N.
Definition q4 (t h : K) : K := G (t + nQ (4 # 5) * h)%N.
Definition q5 (t h : K) : K := G (t + nQ (8 # 9) * h)%N.
Definition q6 (t h : K) : K := G (t + nQ (1 # 1) * h)%N.
Definition qx (x t h k1 : K) : K :=
  (x + h * (nQ (35 # 384) * k1 + nQ (0 # 1) * q2 t h + nQ (500 # 1113) * q3 t h + nQ (125 # 192) * q4 t h + nQ (-2187 # 6784) * q5 t h + nQ (11 # 84) * q6 t h))%N.
Definition ei (i : nat) : K := tget (te (construct_dopri5 K)) i.
Definition qe (t h k1 : K) : K :=
  (h * (ei 0 * k1 + ei 1 * q2 t h + ei 2 * q3 t h + ei 3 * q4 t h + ei 4 * q5 t h + ei 5 * q6 t h + ei 6 * q6 t h))%N.
Lemma q_step x t h k1 : exists st, snd (dopri5_step qF [x] t h (Some [k1])) = Ok (Ret4 [q6 t h] [qx x t h k1] [qe t h k1] st).
Proof. eexists. reflexivity. Qed.

Definition qratio (atol rtol x t h k1 : K) : K := error_ratio atol rtol None [x] [qx x t h k1] [qe t h k1].
Definition qadapt (atol rtol x t h k1 : K) : K := adapt_step h (qratio atol rtol x t h k1) (nQ (9 # 10)) (nQ (1 # 5)) (nQ 10) 5.
Variables (dk : K -> K) (T atol rtol : K).
Definition qP : @aparams K := MkP qF (DormandPrince45 K) T [T] atol rtol None false None.
Lemma q_iter (x t dt k1 h : K) times sol b : h = (if (T <? t + dt)%N then (T - t)%N else dt) -> (T <? t + h)%N = false ->
  (qratio atol rtol x t h k1 <=? n1)%N = true -> (t + h =? T)%N = b ->
  snd (adaptive_iter_ad dk qP (MkA t dt [x] [k1] 0 times sol)) =
  Ok (MkA (t + h)%N (dk (qadapt atol rtol x t h k1)) [qx x t h k1] [q6 t h] (if b then 1 else 0)%nat
        (if b then times ++ [(t + h)%N] else times) (if b then sol ++ [[qx x t h k1]] else sol)).
Proof.
  intros Hh H1 H2 H3. unfold adaptive_iter_ad.
  assert (E : attempt_dt qP (MkA t dt [x] [k1] 0 times sol) = (h, None)).
  { unfold attempt_dt. cbn [a_t a_dt a_ck p_T p_t_eval p_interp qP nth_error]. rewrite <- Hh, H1. reflexivity. }
  rewrite E. cbn [a_x a_t a_k1 p_solver p_f qP s_step DormandPrince45 mk_solver]. destruct (q_step x t h k1) as (st & Es).
  rewrite snd_mbind. refine (eq_trans (f_equal (fun r => rbind r _) Es) _). cbn [rbind]. cbv zeta. cbn [p_atol p_rtol p_semi qP s_safety s_min_factor s_max_factor s_order].
  change (error_ratio atol rtol None [x] [qx x t h k1] [qe t h k1]) with (qratio atol rtol x t h k1). rewrite H2.
  rewrite snd_mbind, snd_mlift. unfold accept_out. cbn [a_t a_x p_interp p_t_eval a_ck a_times a_sol p_all rbind pyget nth_error]. cbv zeta.
  change (p_interp qP) with (@None (list K)). change (p_t_eval qP) with [T]. change (p_all qP) with false. cbn [pyget nth_error rbind]. unfold pyget. cbn [nth_error rbind]. rewrite H3. destruct b; reflexivity.
Qed.
Lemma q_run fuel x t0 h1 h2 h3 : (3 <= fuel)%nat ->
  (t0 <? T)%N = true -> (T <? t0)%N = false ->
  snd (init_step qF [G t0] [x] t0 5 atol rtol) = Ok h1 ->
  (T <? t0 + h1)%N = false -> (qratio atol rtol x t0 h1 (G t0) <=? n1)%N = true -> (t0 + h1 =? T)%N = false ->
  let t1 := (t0 + h1)%N in let x1 := qx x t0 h1 (G t0) in let k1 := q6 t0 h1 in
  h2 = dk (qadapt atol rtol x t0 h1 (G t0)) ->
  (t1 <? T)%N = true -> (T <? t1 + h2)%N = false -> (qratio atol rtol x1 t1 h2 k1 <=? n1)%N = true -> (t1 + h2 =? T)%N = false ->
  let t2 := (t1 + h2)%N in let x2 := qx x1 t1 h2 k1 in let k2 := q6 t1 h2 in
  h3 = (T - t2)%N -> (t2 <? T)%N = true ->
  (T <? t2 + dk (qadapt atol rtol x1 t1 h2 k1))%N = true -> (T <? t2 + h3)%N = false -> (qratio atol rtol x2 t2 h3 k2 <=? n1)%N = true -> (t2 + h3 =? T)%N = true ->
  (t2 + h3 <? T)%N = false ->
  snd (odeint_ad dk fuel qF [x] (TTensor [t0; T]) (DormandPrince45 K) atol rtol false false [] None) = Ok ([t0; (t2 + h3)%N], [[x]; [qx x2 t2 h3 k2]]).
Proof.
  intros Hf A0 A0' Hi A1 A2 A3 t1 x1 k1 Eh2 B0 B1 B2 B3 t2 x2 k2 Eh3 C0 C1 C2 C3 C4 C5.
  destruct fuel as [|[|[|fuel]]]; try lia. clear Hf.
  unfold odeint_ad. rewrite snd_mbind, snd_mlift. unfold prep_time. cbn [ts_list pyget nth_error rbind]. rewrite A0'. cbn [rbind s_fixed DormandPrince45 mk_solver s_is_tsit5 pyget nth_error].
  rewrite snd_mbind, snd_mlift. cbn [rbind]. rewrite snd_mbind. unfold call at 1. cbn [snd rbind]. change (qF t0 [x]) with [G t0]. rewrite snd_mbind. cbn [s_order].
  refine (eq_trans (f_equal (fun r => rbind r _) Hi) _). cbn [rbind]. unfold adaptive_odeint_ad. rewrite snd_mbind, snd_mlift. cbn [pyget nth_error rbind]. rewrite snd_mbind, snd_mlift. unfold pylast. cbn [rev app rbind skipn]. cbv zeta.
  change (MkP qF _ T [T] atol rtol None false None) with qP.
  cbn [adaptive_loop_ad a_t]. change (p_T qP) with T. rewrite A0. rewrite snd_mbind.
  refine (eq_trans (f_equal (fun r => rbind r _) (q_iter x t0 h1 (G t0) h1 _ _ false (eq_sym (f_equal (fun b : bool => if b then _ else _) A1)) A1 A2 A3)) _). cbn [rbind]. rewrite <- Eh2. change (t0 + h1)%N with t1. change (qx x t0 h1 (G t0)) with x1. change (q6 t0 h1) with k1.
  cbn [adaptive_loop_ad a_t]. change (p_T qP) with T. rewrite B0. rewrite snd_mbind.
  refine (eq_trans (f_equal (fun r => rbind r _) (q_iter x1 t1 h2 k1 h2 _ _ false (eq_sym (f_equal (fun b : bool => if b then _ else _) B1)) B1 B2 B3)) _). cbn [rbind]. change (t1 + h2)%N with t2. change (qx x1 t1 h2 k1) with x2. change (q6 t1 h2) with k2.
  cbn [adaptive_loop_ad a_t]. change (p_T qP) with T. rewrite C0. rewrite snd_mbind.
  refine (eq_trans (f_equal (fun r => rbind r _) (q_iter x2 t2 _ k2 h3 _ _ true (eq_trans Eh3 (eq_sym (f_equal (fun b : bool => if b then _ else _) C1))) C2 C3 C4)) _). cbn [rbind].
  destruct fuel; cbn [adaptive_loop_ad a_t]; change (p_T qP) with T; rewrite C5; reflexivity.
Qed.
End Gen.

(** ** The witness: x' = 1 + t^5 / 10^5 over [0, 12], atol = 50000, rtol = 0 *)
Definition G5 {K : NumOps} (t : K) : K := (n1 + nQ (1 # 100000) * (t * t * t * t * t))%N.
Notation cc := (1 / 100000).
Lemma G5_R t : @G5 ROps t = 1 + cc * (t * t * t * t * t).
Proof. unfold G5. rops. qlit. unfold Q2R. cbn. field. Qed.
Lemma r_x x t h k : k = @G5 ROps t -> @qx ROps G5 x t h k = x + h + cc * (((t + h) ^ 6 - t ^ 6) / 6 - h ^ 6 / 5400).
Proof. intros ->. unfold qx, q2, q3, q4, q5, q6. rewrite !G5_R. rops. qlit. field. Qed.
Lemma r_q6 t h : @q6 ROps G5 t h = @G5 ROps (t + h).
Proof. unfold q6. rewrite !G5_R. rops. qlit. field. Qed.
Lemma r_e t h k : k = @G5 ROps t -> @qe ROps G5 t h k = cc * h * (71 / 81000 * t * h ^ 4 + 19099 / 36450000 * h ^ 5).
Proof.
  intros ->. unfold qe, ei, tget, construct_dopri5, te, vsub, q2, q3, q4, q5, q6. cbn [map2 nth]. rewrite !G5_R. rops. qlit. field.
Qed.
Lemma hairer1 (a : R) : @hairer_norm ROps [a] = Rabs a.
Proof.
  unfold hairer_norm, vmean, vsum, nnat. cbn [map fold_left length]. rops. cbn [Z.of_nat Pos.of_succ_nat]. rewrite Q2R_0', Q2R_int.
  replace ((0 + Rabs a * Rabs a) / 1) with (Rsqr (Rabs a)) by (unfold Rsqr; field). apply R_sqrt.sqrt_Rsqr, Rabs_pos.
Qed.
Lemma r_ratio x t h k : k = @G5 ROps t -> @qratio ROps G5 50000 0 x t h k = Rabs (@qe ROps G5 t h k) / 50000.
Proof.
  intros Hk. unfold qratio, error_ratio, vdiv, vmax, vabs. cbn [map map2]. rewrite hairer1. rops. rewrite Rmult_0_l, Rplus_0_r.
  unfold Rdiv. rewrite Rabs_mult. f_equal. apply Rabs_pos_eq. lra.
Qed.
Lemma r_small x t h k : k = @G5 ROps t -> 0 <= t <= 13 -> 0 <= h <= 13 -> 0 <= @qratio ROps G5 50000 0 x t h k <= (9 / 100) ^ 5.
Proof.
  intros Hk Ht Hh. rewrite r_ratio, r_e by exact Hk.
  assert (P : forall n, 0 <= h ^ n <= 13 ^ n) by (intros n; split; [apply pow_le; lra|apply pow_incr; lra]).
  pose proof (P 4%nat) as P4. pose proof (P 5%nat) as P5.
  assert (A : 0 <= t * h ^ 4 <= 13 * 13 ^ 4) by (split; [apply Rmult_le_pos; lra|apply Rmult_le_compat; lra]).
  set (u := 71 / 81000 * t * h ^ 4 + 19099 / 36450000 * h ^ 5).
  assert (U : 0 <= u <= 600) by (unfold u; split; [nra|]; replace (71 / 81000 * t * h ^ 4) with (71 / 81000 * (t * h ^ 4)) by ring; lra).
  assert (V : 0 <= h * u <= 13 * 600) by (split; [apply Rmult_le_pos; lra|apply Rmult_le_compat; lra]).
  replace (cc * h * u) with (cc * (h * u)) by ring. rewrite Rabs_pos_eq by lra. lra.
Qed.
Lemma r_adapt x t h k : k = @G5 ROps t -> 0 <= t <= 13 -> 0 <= h <= 13 -> @qadapt ROps G5 50000 0 x t h k = 10 * h.
Proof.
  intros Hk Ht Hh. unfold qadapt. rewrite adapt_factor. rops. qlit. change (Q2R 10) with (Q2R (10 # 1)). qlit.
  destruct (r_small x t h k Hk Ht Hh) as [L U]. set (r := qratio _ _ _ _ _ _ _) in *. clearbody r. unfold factor_of, Reqb.
  destruct (Req_EM_T r 0) as [|N]; [lra|]. assert (Hr : 0 < r) by lra. rewrite Rpw_pos by exact Hr.
  assert (E : Rpower r (1 / INR 5) <= 9 / 100).
  { replace (9 / 100) with (Rpower ((9 / 100) ^ 5) (1 / INR 5)).
    - apply Rle_Rpower_l; [unfold Rdiv; rewrite Rmult_1_l; left; apply Rinv_0_lt_compat; cbn; lra|lra].
    - rewrite <- Rpower_pow by lra. rewrite Rpower_mult. replace (INR 5 * (1 / INR 5)) with 1 by (cbn; field). apply Rpower_1. lra. }
  assert (G : 10 <= 9 / 10 / Rpower r (1 / INR 5)).
  { assert (P : 0 < Rpower r (1 / INR 5)) by apply Rpower_gt0. apply (Rmult_le_reg_r (Rpower r (1 / INR 5))); [exact P|]. unfold Rdiv at 2. rewrite Rmult_assoc, Rinv_l by lra. lra. }
  rewrite Rmin_left; [lra|]. eapply Rle_trans; [|apply Rmax_l]. lra.
Qed.
Lemma Rltb_t a b : a < b -> Rltb a b = true. Proof. intros H. unfold Rltb. destruct (Rlt_dec a b); [reflexivity|lra]. Qed.
Lemma Rltb_f a b : b <= a -> Rltb a b = false. Proof. intros H. unfold Rltb. destruct (Rlt_dec a b); [lra|reflexivity]. Qed.
Lemma Rleb_t a b : a <= b -> Rleb a b = true. Proof. intros H. unfold Rleb. destruct (Rle_dec a b); [reflexivity|lra]. Qed.
Lemma Rleb_f a b : b < a -> Rleb a b = false. Proof. intros H. unfold Rleb. destruct (Rle_dec a b); [lra|reflexivity]. Qed.
Lemma Reqb_t a b : a = b -> Reqb a b = true. Proof. intros H. unfold Reqb. destruct (Req_EM_T a b); [reflexivity|lra]. Qed.
Lemma Reqb_f a b : a <> b -> Reqb a b = false. Proof. intros H. unfold Reqb. destruct (Req_EM_T a b); [lra|reflexivity]. Qed.
Lemma pow6 : 3 / 2 < Rpw (1 / 100 / (1 / 50000)) (1 / 6).
Proof.
  rewrite Rpw_pos by lra. replace (3 / 2) with (Rpower ((3 / 2) ^ 6) (1 / 6)).
  - apply Rlt_Rpower_l; [lra|]. lra.
  - rewrite <- Rpower_pow by lra. rewrite Rpower_mult. replace (INR 6 * (1 / 6)) with 1 by (cbn; field). apply Rpower_1. lra.
Qed.
Lemma r_init x : 99 / 100 <= x <= 101 / 100 -> snd (@init_step ROps (@qF ROps G5) [@G5 ROps 0] [x] 0 5 50000 0) = Ok x.
Proof.
  intros Hx. unfold init_step. cbv zeta. unfold call. rewrite snd_mbind. cbn [snd rbind map]. unfold qF, vsub, vdiv. cbn [map2 map]. rewrite !hairer1. rops. rewrite !G5_R.
  replace (50000 + Rabs x * 0) with 50000 by ring. replace (1 + cc * (0 * 0 * 0 * 0 * 0)) with 1 by ring. rewrite ?hairer1.
  rewrite !(Rabs_pos_eq (x / 50000)), !(Rabs_pos_eq (1 / 50000)) by lra.
  qlit. rewrite !Rltb_f by lra. cbn [orb]. replace (1 / 100 * (x / 50000) / (1 / 50000)) with (x / 100) by field.
  replace (1 + cc * ((0 + x / 100) * (0 + x / 100) * (0 + x / 100) * (0 + x / 100) * (0 + x / 100)) - 1) with (cc * (x / 100) ^ 5) by ring.
  match goal with |- context [Rabs ?a / ?b] => set (d2 := Rabs a / b) end.
  assert (Hd : d2 <= 1 / 50000).
  { unfold d2. assert (P : 0 <= (x / 100) ^ 4 <= 1) by (split; [apply pow_le; lra|rewrite <- (pow1 4); apply pow_incr; lra]).
    rewrite Rabs_pos_eq by (apply Rmult_le_pos; [apply Rmult_le_pos; [lra|apply pow_le; lra]|lra]).
    replace (cc * (x / 100) ^ 5 / 50000 / (x / 100)) with (cc * (x / 100) ^ 4 / 50000) by (field; lra). lra. }
  rewrite Rleb_f by lra. cbn [andb]. unfold pymax. rops. rewrite Rltb_f by exact Hd.
  cbn [mret snd]. f_equal. unfold nnat. rops. cbn [Z.of_nat Nat.add Pos.of_succ_nat Pos.succ]. rewrite Q2R_int.
  replace (1 / 1 / 6) with (1 / 6) by field. pose proof pow6. replace (100 / 1 * (x / 100)) with x by field. apply Rmin_left. lra.
Qed.
Definition P5 (x : R) : R := x + 12 + cc * (12 ^ 6 / 6 - (x ^ 6 + (10 * x) ^ 6 + (12 - 11 * x) ^ 6) / 5400).
Lemma r_run fuel x : (3 <= fuel)%nat -> 99 / 100 <= x <= 101 / 100 ->
  snd (@odeint ROps fuel (@qF ROps G5) [x] (@TTensor ROps [0; 12]) (DormandPrince45 ROps) 50000 0 false false [] None) = Ok ([0; 12], [[x]; [P5 x]]).
Proof.
  intros Hf Hx. rewrite <- odeint_ad_id.
  assert (E1 : @q6 ROps G5 0 x = @G5 ROps (0 + x)) by apply r_q6.
  assert (E2 : @q6 ROps G5 (0 + x) (10 * x) = @G5 ROps (0 + x + 10 * x)) by apply r_q6.
  assert (S1 : 0 <= 0 <= 13) by lra.
  assert (B1 : forall y, 0 <= @qratio ROps G5 50000 0 y 0 x (@G5 ROps 0) <= (9 / 100) ^ 5) by (intros; apply r_small; [reflexivity|lra|lra]).
  assert (B2 : forall y, 0 <= @qratio ROps G5 50000 0 y (0 + x) (10 * x) (@q6 ROps G5 0 x) <= (9 / 100) ^ 5) by (intros; apply r_small; [exact E1|lra|lra]).
  assert (B3 : forall y, 0 <= @qratio ROps G5 50000 0 y (0 + x + 10 * x) (12 - (0 + x + 10 * x)) (@q6 ROps G5 (0 + x) (10 * x)) <= (9 / 100) ^ 5) by (intros; apply r_small; [exact E2|lra|lra]).
  assert (L : (9 / 100) ^ 5 <= 1) by (rewrite <- (pow1 5); apply pow_incr; lra).
  pose proof (@q_run ROps G5 (fun a => a) 12 50000 0 fuel x 0 x (10 * x) (12 - (0 + x + 10 * x)) Hf) as Q. rops.
  rewrite Q; clear Q; rewrite ?Q2R_1'.
  - assert (EX : forall a b a' b' : R, a = a' -> b = b' -> @Ok (list ROps * list (vec ROps)) ([0; a], [[x]; [b]]) = Ok ([0; a'], [[x]; [b']])) by (intros; subst; reflexivity).
    apply EX; [lra|]. rewrite (r_x _ _ _ _ E2), (r_x _ _ _ _ E1), (r_x _ _ _ _ eq_refl). unfold P5. field.
  - apply Rltb_t; lra.
  - apply Rltb_f; lra.
  - now apply r_init.
  - apply Rltb_f; lra.
  - apply Rleb_t. refine (Rle_trans _ _ _ (proj2 (B1 _)) (Rle_trans _ _ _ L _)). unfold Q2R. cbn. lra.
  - apply Reqb_f; lra.
  - symmetry. apply r_adapt; [reflexivity|lra|lra].
  - apply Rltb_t; lra.
  - apply Rltb_f; lra.
  - apply Rleb_t. refine (Rle_trans _ _ _ (proj2 (B2 _)) (Rle_trans _ _ _ L _)). unfold Q2R. cbn. lra.
  - apply Reqb_f; lra.
  - reflexivity.
  - apply Rltb_t; lra.
  - rewrite (r_adapt _ _ _ _ E1) by lra. apply Rltb_t. lra.
  - apply Rltb_f; lra.
  - apply Rleb_t. refine (Rle_trans _ _ _ (proj2 (B3 _)) (Rle_trans _ _ _ L _)). unfold Q2R. cbn. lra.
  - apply Reqb_t. lra.
  - apply Rltb_f. lra.
Qed.
(** with derivatives *)
Lemma d_pair (a : DR) u v : fst a = u -> snd a = v -> a = (u, v).
Proof. destruct a. cbn. now intros -> ->. Qed.
Lemma d_lit q : @nQ DR q = (Q2R q, 0).
Proof. apply t_lit. Qed.
Lemma d_G5 t t' : @G5 DR (t, t') = (1 + cc * (t * t * t * t * t), cc * (5 * (t * t * t * t) * t')).
Proof.
  unfold G5. rewrite !d_lit. unfold nadd, nmul, DualOps. cbn [fst snd]. rops. qlit. f_equal; [unfold Q2R; cbn; field|]. field.
Qed.
Lemma d_x x x' t t' h h' : @qx DR G5 (x, x') (t, t') (h, h') (@G5 DR (t, t')) =
  (x + h + cc * (((t + h) ^ 6 - t ^ 6) / 6 - h ^ 6 / 5400), x' + h' + cc * (((t + h) ^ 5 * (t' + h') - t ^ 5 * t') - h ^ 5 * h' / 900)).
Proof.
  unfold qx, q2, q3, q4, q5, q6. rewrite !d_lit. qlit.
  repeat match goal with |- context [@G5 DR (@nadd DR ?a (@nmul DR ?b ?c))] =>
    let v := eval cbv [nadd nmul DualOps fst snd ROps] in (@nadd DR a (@nmul DR b c)) in change (@nadd DR a (@nmul DR b c)) with v end.
  rewrite !d_G5. unfold nadd, nmul, DualOps. cbn [fst snd]. rops. f_equal; field.
Qed.
Lemma d_q6 t t' h h' : @q6 DR G5 (t, t') (h, h') = @G5 DR (t + h, t' + h').
Proof.
  unfold q6. f_equal. rewrite d_lit. qlit. unfold nadd, nmul, DualOps. cbn [fst snd]. rops. f_equal; field.
Qed.
Lemma d_ratio x t h k : fst (@qratio DR G5 (50000, 0) (0, 0) x t h k) = @qratio ROps G5 50000 0 (fst x) (fst t) (fst h) (fst k).
Proof. reflexivity. Qed.
Lemma d_adapt x t h k : fst (@qadapt DR G5 (50000, 0) (0, 0) x t h k) = @qadapt ROps G5 50000 0 (fst x) (fst t) (fst h) (fst k).
Proof.
  unfold qadapt. pose proof (@rp_related ROps) as HR. apply (adapt_rel rp HR); try reflexivity.
Qed.
Lemma d_hairer1 u u' : 0 < u -> @hairer_norm DR [(u, u')] = (u, u').
Proof.
  intros H. pose proof (hairer1 u) as E. rewrite Rabs_pos_eq in E by lra.
  apply d_pair; [exact E|]. unfold hairer_norm in *. cbn [map] in *. unfold vmean, vsum in *. cbn [fold_left length] in *. unfold nnat in *.
  set (s := @nadd DR _ _). assert (Es : s = (u * u, 2 * (u * u'))).
  { unfold s. rewrite d_lit. unfold nadd, nmul, nabs, DualOps. cbn [fst snd]. unfold dsign. rops. rewrite Q2R_0'. rewrite Rltb_t by exact H. rewrite Rabs_pos_eq by lra. f_equal; [ring|]. unfold Q2R. cbn. field. }
  rewrite Es. clear s Es. rewrite d_lit. cbn [Z.of_nat Pos.of_succ_nat]. unfold nsqrt, ndiv, DualOps. cbn [fst snd]. rops. rewrite !Q2R_int.
  replace (u * u / 1) with (Rsqr u) by (unfold Rsqr; field). rewrite R_sqrt.sqrt_Rsqr by lra. change (Q2R 2) with (Q2R (inject_Z 2)). rewrite Q2R_int. field. lra.
Qed.
Lemma d_div a a' b : b <> 0 -> @ndiv DR (a, a') (b, 0) = (a / b, a' / b).
Proof. intros H. unfold ndiv, DualOps. cbn [fst snd]. rops. f_equal. field. exact H. Qed.
Lemma d_init : snd (@init_step DR (@qF DR G5) [@G5 DR (0, 0)] [(1, 1)] (0, 0) 5 (50000, 0) (0, 0)) = Ok (1, 1).
Proof.
  unfold init_step. cbv zeta. unfold call. rewrite snd_mbind. cbn [snd rbind map].
  assert (S : @nadd DR (50000, 0) (@nmul DR (@nabs DR (1, 1)) (0, 0)) = (50000, 0)).
  { unfold nadd, nmul, nabs, DualOps. cbn [fst snd]. rops. f_equal; ring. }
  rewrite S.
  assert (D0 : @hairer_norm DR (@vdiv DR [(1, 1)] (@cons (num DR) (50000, 0) (@nil (num DR)))) = (1 / 50000, 1 / 50000)).
  { unfold vdiv. cbn [map2]. rewrite d_div by lra. apply d_hairer1. lra. }
  assert (EG : @G5 DR (0, 0) = (1, 0)) by (rewrite d_G5; f_equal; field).
  assert (D1 : @hairer_norm DR (@vdiv DR [@G5 DR (0, 0)] (@cons (num DR) (50000, 0) (@nil (num DR)))) = (1 / 50000, 0)).
  { unfold vdiv. cbn [map2]. rewrite EG, d_div by lra. rewrite (d_hairer1 (1 / 50000)) by lra. f_equal. field. }
  rewrite !D0, !D1.
  assert (H0 : @ndiv DR (@nmul DR (nQ (1 # 100)) (1 / 50000, 1 / 50000)) (1 / 50000, 0) = (1 / 100, 1 / 100)).
  { assert (M : @nmul DR (nQ (1 # 100)) (1 / 50000, 1 / 50000) = (1 / 5000000, 1 / 5000000)).
    { rewrite d_lit. unfold nmul, DualOps. cbn [fst snd]. rops. qlit. f_equal; field. }
    rewrite M. rewrite d_div by lra. f_equal; field. }
  rewrite !H0.
  assert (C : forall q b, @nltb DR (1 / 50000, b) (nQ q) = Rltb (1 / 50000) (Q2R q)) by reflexivity.
  rewrite !C. qlit. rewrite Rltb_f by lra. cbn [orb].
  match goal with |- context [@nleb DR (1 / 50000, 0) ?b] => change (@nleb DR (1 / 50000, 0) b) with (Rleb (1 / 50000) (Q2R (1 # 1000000000000000))) end.
  qlit. rewrite Rleb_f by lra. cbn [andb]. cbn [mret snd].
  unfold pymax. match goal with |- context [@nltb DR ?a ?b] => set (d2 := b) end.
  assert (Hd : fst d2 = Rabs (cc * (1 / 100) ^ 5 / 50000) / (1 / 100)).
  { unfold d2. transitivity (@ndiv ROps (@hairer_norm ROps [@ndiv ROps (@nsub ROps (@G5 ROps (0 + 1 / 100)) (@G5 ROps 0)) 50000]) (1 / 100)); [reflexivity|].
    rewrite hairer1, !G5_R. rops. do 2 f_equal. field. }
  change (@nltb DR (1 / 50000, 0) d2) with (Rltb (1 / 50000) (fst d2)). rewrite Hd, Rabs_pos_eq by lra. rewrite Rltb_f by lra.
  f_equal. match goal with |- @nmin DR ?a ?b = _ => set (A := a); set (B := b) end.
  assert (EA : A = (1, 1)).
  { unfold A. rewrite d_lit. change (Q2R 100) with (Q2R (100 # 1)). qlit. unfold nmul, DualOps. cbn [fst snd]. rops. f_equal; field. }
  assert (EB : 3 / 2 < fst B).
  { unfold B. match goal with |- _ < fst ?u => change (fst u) with (Rpw (Q2R (1 # 100) / (1 / 50000)) (Q2R 1 / Q2R (Z.of_nat 6 # 1))) end.
    change (Q2R 1) with (Q2R (1 # 1)). qlit. cbn [Z.of_nat Pos.of_succ_nat Pos.succ]. replace (1 / 1 / (6 / 1)) with (1 / 6) by field. apply pow6. }
  rewrite EA. clearbody A B. unfold nmin, DualOps. cbn [fst snd]. unfold dpick. rops. cbn [fst snd]. rewrite Rmin_left by lra. now rewrite Rltb_t by lra.
Qed.
Lemma d_add a a' b b' : @nadd DR (a, a') (b, b') = (a + b, a' + b').
Proof. reflexivity. Qed.
Lemma d_sub a a' b b' : @nsub DR (a, a') (b, b') = (a - b, a' - b').
Proof. reflexivity. Qed.
Lemma d_run fuel : (3 <= fuel)%nat ->
  snd (@odeint_autograd ROps fuel (@qF DR G5) [(1, 1)] (@TTensor DR [(0, 0); (12, 0)]) (DormandPrince45 DR) (50000, 0) (0, 0) false false [] None) = Ok ([(0, 0); (12, 0)], [[(1, 1)]; [(P5 1, 1)]]).
Proof.
  intros Hf.
  assert (E1 : @q6 ROps G5 0 1 = @G5 ROps (0 + 1)) by apply r_q6.
  assert (E2 : @q6 ROps G5 (0 + 1) (10 * 1) = @G5 ROps (0 + 1 + 10 * 1)) by apply r_q6.
  assert (B1 : forall y, 0 <= @qratio ROps G5 50000 0 y 0 1 (@G5 ROps 0) <= (9 / 100) ^ 5) by (intros; apply r_small; [reflexivity|lra|lra]).
  assert (B2 : forall y, 0 <= @qratio ROps G5 50000 0 y (0 + 1) (10 * 1) (@q6 ROps G5 0 1) <= (9 / 100) ^ 5) by (intros; apply r_small; [exact E1|lra|lra]).
  assert (B3 : forall y, 0 <= @qratio ROps G5 50000 0 y (0 + 1 + 10 * 1) (12 - (0 + 1 + 10 * 1)) (@q6 ROps G5 (0 + 1) (10 * 1)) <= (9 / 100) ^ 5) by (intros; apply r_small; [exact E2|lra|lra]).
  assert (L : (9 / 100) ^ 5 <= Q2R 1) by (apply Rle_trans with 1; [rewrite <- (pow1 5); apply pow_incr; lra|unfold Q2R; cbn; lra]).
  pose proof (@q_run DR G5 det (12, 0) (50000, 0) (0, 0) fuel (1, 1) (0, 0) (1, 1) (10 * 1, 0) (@nsub DR (12, 0) (@nadd DR (@nadd DR (0, 0) (1, 1)) (10 * 1, 0))) Hf) as Q.
  unfold odeint_autograd. refine (eq_trans (Q _ _ _ _ _ _ _ _ _ _ _ _ _ _ _ _ _ _) _); clear Q.
  - apply Rltb_t. cbn. lra.
  - apply Rltb_f. cbn. lra.
  - exact d_init.
  - apply Rltb_f. cbn. lra.
  - apply Rleb_t. exact (Rle_trans _ _ _ (proj2 (B1 1)) L).
  - apply Reqb_f. cbn. lra.
  - symmetry. apply d_pair; [|cbn; unfold Q2R; cbn; lra]. cbn [det cst fst]. rewrite d_adapt. apply r_adapt; [reflexivity|cbn; lra|cbn; lra].
  - apply Rltb_t. cbn. lra.
  - apply Rltb_f. cbn. lra.
  - apply Rleb_t. rewrite d_ratio. exact (Rle_trans _ _ _ (proj2 (B2 _)) L).
  - apply Reqb_f. cbn. lra.
  - reflexivity.
  - apply Rltb_t. cbn. lra.
  - apply Rltb_t. refine (Rlt_le_trans 12 (0 + 1 + 10 * 1 + 10 * (10 * 1)) _ _ _); [lra|]. right.
    refine (f_equal (Rplus (0 + 1 + 10 * 1)) _). symmetry.
    match goal with |- ?l = _ => match l with context [@qadapt DR G5 ?aa ?rr ?x ?t ?h ?k] => change (fst (@qadapt DR G5 aa rr x t h k) = 10 * (10 * 1)); rewrite d_adapt end end.
    apply r_adapt; [exact E1|cbn; lra|cbn; lra].
  - apply Rltb_f. cbn. lra.
  - apply Rleb_t. rewrite d_ratio. exact (Rle_trans _ _ _ (proj2 (B3 _)) L).
  - apply Reqb_t. cbn. lra.
  - apply Rltb_f. cbn. lra.
  - assert (EX : forall a b a' b' : DR, a = a' -> b = b' -> @Ok (list DR * list (vec DR)) ([(0, 0); a], [[(1, 1)]; [b]]) = Ok ([(0, 0); a'], [[(1, 1)]; [b']])) by (intros; subst; reflexivity).
    apply EX; [rewrite !d_add, d_sub, d_add; f_equal; ring|].
    rewrite !d_add, d_sub, !d_q6, !d_x. apply (f_equal2 (@pair R R)); [unfold P5|]; field.
Qed.
Lemma lin6 a b : tracks (a ^ 6, 6 * a ^ 5 * b) (fun e => (a + b * e) ^ 6).
Proof.
  split; cbn [fst snd]; [f_equal; ring|].
  apply (derivable_pt_lim_comp (fun e => a + b * e) (fun u => u ^ 6)).
  - pose proof (derivable_pt_lim_plus (fun _ => a) (mult_real_fct b (fun e => e)) 0 _ _ (derivable_pt_lim_const a 0) (derivable_pt_lim_scal (fun e => e) b 0 1 (derivable_pt_lim_id 0))) as Q.
    replace (0 + b * 1) with b in Q by ring. exact Q.
  - replace (a + b * 0) with a by ring. replace 6 with (INR 6) by (cbn; ring). exact (derivable_pt_lim_pow a 6).
Qed.
Lemma P5_derivative : derivable_pt_lim (fun e => P5 (1 + e)) 0 (1 - 11111 / 1000000).
Proof.
  assert (T : forall a a' c l, a = a' -> tracks (a', l) c -> tracks (a, l) c) by (intros; now subst).
  pose proof (lin6 1 1) as A. pose proof (lin6 10 10) as B. pose proof (lin6 1 (-11)) as C.
  pose proof (tr_add _ _ _ _ (tr_add _ _ _ _ A B) C) as S.
  pose proof (tr_mul _ _ _ _ (tr_cst (- cc / 5400)) S) as M.
  assert (L : tracks (13 + cc * (12 ^ 6 / 6), 1) (fun e => 13 + cc * (12 ^ 6 / 6) + e)).
  { split; cbn [fst snd]; [ring|].
    pose proof (derivable_pt_lim_plus (fun _ => 13 + cc * (12 ^ 6 / 6)) (fun e => e) 0 _ _ (derivable_pt_lim_const _ 0) (derivable_pt_lim_id 0)) as Q.
    replace (0 + 1) with 1 in Q by ring. exact Q. }
  pose proof (tr_add _ _ _ _ L M) as [_ D]. cbn [snd fst cst nadd nmul DualOps] in D. rops. rewrite Q2R_0' in D.
  match type of D with derivable_pt_lim _ _ ?l => replace (1 - 11111 / 1000000) with l by field end.
  refine (lim_local _ _ _ (mkposreal 1 Rlt_0_1) _ D). intros e _. unfold P5. field.
Qed.

(** ** What holds: single steps *)
(** A vector field with derivatives describes the family [f e]: it differentiates correctly in time, state and parameter. *)
Definition smooth_field (n : nat) (F : R * R -> list (R * R) -> list (R * R)) (f : R -> R -> list R -> list R) : Prop :=
  forall T t Y y, tracks T t -> tracks_vec n Y y -> tracks_vec n (F T Y) (fun e => f e (t e) (y e)).

Lemma tv_scale_t n (k : DR) (k' : R -> R) A a : tracks k k' -> tracks_vec n A a -> tracks_vec n (@vscale DR k A) (fun e => @vscale ROps (k' e) (a e)).
Proof.
  intros Hk (L1 & L2 & H). unfold vscale. split; [|split].
  - rewrite map_length. exact L1.
  - intros e. rewrite map_length. apply L2.
  - intros i Hi. refine (eq_ind_r (fun d => tracks d _) _ (eq_trans (nth_indep (map (@nmul DR k) A) (0, 0) (@nmul DR k (0, 0)) _) (map_nth (@nmul DR k) A (0, 0) i)));
      [|rewrite map_length; change (num DR) with (R * R)%type; lia]. apply (tr_ext _ (fun e => k' e * nth i (a e) 0)).
    + intros e. symmetry. change (@nmul ROps (k' e)) with (Rmult (k' e)). rewrite (nth_indep _ 0 (k' e * 0)) by (rewrite map_length, L2; exact Hi). apply map_nth.
    + apply tr_mul; [exact Hk|now apply H].
Qed.
Definition rc (a : DR) (b : R) : Prop := a = (b, 0).
Lemma rc_tr a b : rc a b -> tracks a (fun _ => b).
Proof. intros ->. rewrite <- cst_eq. apply tr_cst. Qed.
Lemma rc_lits l l' i : Forall2 rc l l' -> tracks (@tget DR l i) (fun _ => @tget ROps l' i).
Proof.
  intros H. apply rc_tr. unfold tget. assert (Z : rc (@nQ DR 0) (@nQ ROps 0)) by apply t_lit. revert i.
  induction H as [|a b l l' Hab _ IH]; intros [|i]; cbn [nth]; auto.
Qed.
Lemma rc_rows l l' i j : Forall2 (Forall2 rc) l l' -> tracks (@aget DR l i j) (fun _ => @aget ROps l' i j).
Proof.
  intros H. unfold aget. apply rc_lits. revert i. induction H as [|a b l l' Hab _ IH]; intros [|i]; cbn [nth]; auto.
Qed.
Definition rc_tab (a : tableau DR) (b : tableau ROps) : Prop :=
  Forall2 rc (tc a) (tc b) /\ Forall2 (Forall2 rc) (ta a) (ta b) /\ Forall2 rc (tb a) (tb b) /\ Forall2 rc (te a) (te b).
Lemma rc_sub l l' : Forall2 rc l l' -> forall m m', Forall2 rc m m' -> Forall2 rc (@vsub DR l m) (@vsub ROps l' m').
Proof.
  unfold vsub. induction 1 as [|a b l l' Hab _ IH]; intros m m' Hm; [constructor|]. destruct Hm as [|c d m m' Hcd Hm]; cbn [map2]; constructor; auto.
  unfold rc in *. subst. apply t_sub.
Qed.
Ltac rclits := repeat first [apply Forall2_nil | apply Forall2_cons | apply t_lit].
Lemma rc_dopri5 : rc_tab (construct_dopri5 DR) (construct_dopri5 ROps).
Proof. repeat split; unfold construct_dopri5; cbn [tc ta tb te]; try apply rc_sub; rclits. Qed.
Lemma rc_tsit5 : rc_tab (construct_tsit5 DR) (construct_tsit5 ROps).
Proof. repeat split; unfold construct_tsit5; cbn [tc ta tb te]; try apply rc_sub; rclits. Qed.

Lemma sf_call n F f T t Y y : smooth_field n F f -> tracks T t -> tracks_vec n Y y -> tracks_vec n (F T Y) (fun e => f e (t e) (y e)).
Proof. intros H. apply H. Qed.
Ltac sfv C A B E := repeat first [eassumption | apply tv_add | apply tv_scale_t | (eapply sf_call; [eassumption| |]) | apply tr_add | apply tr_mul
  | apply (rc_lits _ _ _ C) | apply (rc_rows _ _ _ _ A) | apply (rc_lits _ _ _ B) | apply (rc_lits _ _ _ E)].
(** A step of an embedded Runge-Kutta method, as the adaptive loop makes it *)
Definition tracks_step7 (n : nat) (sd : @step_fun DR (vec DR)) (sr : @step_fun ROps (vec ROps)) : Prop :=
  forall F f X x T t H h K1 k1, smooth_field n F f -> tracks_vec n X x -> tracks T t -> tracks H h -> tracks_vec n K1 k1 ->
  exists K' k' X' x' E err SD S, snd (sd F X T H (Some K1)) = Ok (Ret4 K' X' E SD) /\
    (forall e, snd (sr (f e) (x e) (t e) (h e) (Some (k1 e))) = Ok (Ret4 (k' e) (x' e) (err e) (S e))) /\
    tracks_vec n K' k' /\ tracks_vec n X' x' /\ tracks_vec n E err.
Lemma erk7_tracks n tabd tab : rc_tab tabd tab -> tracks_step7 n (@erk7_step DR tabd) (@erk7_step ROps tab).
Proof.
  intros (C & A & B & E) F f X x T t H h K1 k1 HF HX HT HH HK. unfold erk7_step. cbv beta zeta.
  do 8 eexists. split; [reflexivity|]. split; [intros e; reflexivity|].
  split; [|split]; sfv C A B E.
Qed.

(** A solve that reaches the end in one step *)
Section One.
Context {K : NumOps}.
Lemma one_step (dk : K -> K) fuel f (x : vec K) t0 t1 (s : solver K (vec K)) atol rtol interp all sv h1 fn xn er st :
  s_fixed s = false -> (t1 <? t0)%N = false -> (t0 <? t1)%N = true ->
  snd (init_step f (f t0 x) x t0 (s_order s) atol rtol) = Ok h1 -> (t1 <? t0 + h1)%N = true ->
  (t1 <? t0 + (t1 - t0))%N = false -> snd (s_step s f x t0 (t1 - t0)%N (Some (f t0 x))) = Ok (Ret4 fn xn er st) ->
  (error_ratio atol rtol None x xn er <=? n1)%N = true -> (t0 + (t1 - t0) =? t1)%N = true -> (t0 + (t1 - t0) <? t1)%N = false ->
  snd (odeint_ad dk (S fuel) f x (TTensor [t0; t1]) s atol rtol interp all sv None) = Ok ([t0; (t0 + (t1 - t0))%N], [x; xn]).
Proof.
  intros Hs H0 H1 Hi H2 H3 He H4 H5 H6. unfold odeint_ad. rewrite Hs.
  set (ip := if s_is_tsit5 s then None else _). rewrite snd_mbind, snd_mlift. unfold prep_time. cbn [ts_list pyget nth_error rbind]. rewrite H0. cbn [rbind].
  rewrite snd_mbind, snd_mlift. unfold pyget. cbn [nth_error rbind]. rewrite snd_mbind. unfold call at 1. cbn [snd rbind]. rewrite snd_mbind.
  refine (eq_trans (f_equal (fun r => rbind r _) Hi) _). cbn [rbind]. unfold adaptive_odeint_ad. rewrite snd_mbind, snd_mlift. unfold pyget. cbn [nth_error rbind].
  rewrite snd_mbind, snd_mlift. unfold pylast. cbn [rev app rbind skipn]. cbv zeta.
  set (p := MkP f s t1 [t1] atol rtol ip all None). cbn [adaptive_loop_ad a_t]. change (p_T p) with t1. rewrite H1. rewrite snd_mbind.
  assert (Ea : attempt_dt p (MkA t0 h1 x (f t0 x) 0 [t0] [x]) = ((t1 - t0)%N, None)).
  { unfold attempt_dt. cbn [a_t a_dt a_ck p_T p_t_eval p_interp p nth_error]. rewrite H2, H3. reflexivity. }
  assert (Ei : exists d, snd (adaptive_iter_ad dk p (MkA t0 h1 x (f t0 x) 0 [t0] [x])) = Ok (MkA (t0 + (t1 - t0))%N d xn fn 1 [t0; (t0 + (t1 - t0))%N] [x; xn])).
  { eexists. unfold adaptive_iter_ad. rewrite Ea. cbn [a_x a_t a_k1 p_solver p_f p]. rewrite snd_mbind. refine (eq_trans (f_equal (fun r => rbind r _) He) _).
    cbn [rbind]. cbv zeta. cbn [p_atol p_rtol p_semi p]. rewrite H4. rewrite snd_mbind, snd_mlift.
    assert (Eo : accept_out p (MkA t0 h1 x (f t0 x) 0 [t0] [x]) (t1 - t0)%N fn xn st = Ok (1%nat, [t0; (t0 + (t1 - t0))%N], [x; xn])).
    { unfold accept_out. cbn [p_interp p_t_eval p a_t a_x a_ck a_k1 a_times a_sol length Nat.sub].
      assert (El : match ip with None => Ok (0%nat, [t0], [x]) | Some bmid => interp_loop 1 bmid [t1] t0 (t1 - t0)%N x (f t0 x) fn xn st 0 [t0] [x] end = Ok (0%nat, [t0], [x])).
      { destruct ip; [|reflexivity]. cbn [interp_loop nth_error]. rewrite H3. reflexivity. }
      refine (eq_trans (f_equal (fun r => rbind r _) El) _). cbn [rbind]. unfold pyget. cbn [nth_error rbind]. rewrite H5. reflexivity. }
    refine (eq_trans (f_equal (fun r => rbind r _) Eo) _). reflexivity. }
  destruct Ei as (d & Ei). refine (eq_trans (f_equal (fun r => rbind r _) Ei) _). cbn [rbind].
  destruct fuel; cbn [adaptive_loop_ad a_t]; change (p_T p) with t1; rewrite H6; reflexivity.
Qed.
End One.

Inductive adaptive_pair : solver DR (vec DR) -> solver ROps (vec ROps) -> Prop :=
| ap_dopri5 : adaptive_pair (DormandPrince45 DR) (DormandPrince45 ROps)
| ap_tsit5 : adaptive_pair (Tsitouras45 DR) (Tsitouras45 ROps).
Lemma pair_steps n sd s : adaptive_pair sd s -> tracks_step7 n (s_step sd) (s_step s) /\ same_solver sd s /\ s_fixed sd = false /\ s_fixed s = false.
Proof.
  intros H. destruct H; (split; [|split; [constructor|split; reflexivity]]); cbn [s_step DormandPrince45 Tsitouras45 mk_solver]; apply erk7_tracks.
  - exact rc_dopri5. - exact rc_tsit5.
Qed.

Lemma rel_ok {A B} (P : A -> B -> Prop) a b y : rel_res P a b -> b = Ok y -> exists x, a = Ok x /\ P x y.
Proof. intros H ->. destruct a; cbn in H; try contradiction. eauto. Qed.

(** C155.  One step of dopri5 or tsit5 differentiates correctly, also in time, step size and first stage: the new state, the last stage and the
    error estimate.  (partial: true of a step; C155_adaptive_refuted shows that it is false for a solve.) *)
Lemma C155_step_partial_pf : forall n sd s F f X x T t H h K1 k1,
  adaptive_pair sd s -> smooth_field n F f -> tracks_vec n X x -> tracks T t -> tracks H h -> tracks_vec n K1 k1 ->
  exists K' k' X' x' E err SD S, snd (s_step sd F X T H (Some K1)) = Ok (Ret4 K' X' E SD) /\
    (forall e, snd (s_step s (f e) (x e) (t e) (h e) (Some (k1 e))) = Ok (Ret4 (k' e) (x' e) (err e) (S e))) /\
    tracks_vec n K' k' /\ tracks_vec n X' x' /\ tracks_vec n E err.
Proof. intros n sd s F f X x T t H h K1 k1 Hp. destruct (pair_steps n sd s Hp) as (Hs & _). exact (Hs F f X x T t H h K1 k1). Qed.

(** C155 for solves of one step: if, for all small e, the initial step size passes the end of the interval and the step over the interval is accepted, then the
    gradient of the final state is exact. (partial: more steps are C155_adaptive_refuted.) *)
Lemma C155_single_partial_pf : forall fuel fuel' n sd s F f X x t0 t1 atol rtol interp all (del : posreal),
  adaptive_pair sd s -> smooth_field n F f -> @values_of ROps F (f 0) -> tracks_vec n X x -> t0 < t1 ->
  (forall e, Rabs e < del -> exists h xn er fn st,
     snd (@init_step ROps (f e) (f e t0 (x e)) (x e) t0 5 atol rtol) = Ok h /\ t1 < t0 + h /\
     snd (s_step s (f e) (x e) t0 (t1 - t0) (Some (f e t0 (x e)))) = Ok (Ret4 fn xn er st) /\ @error_ratio ROps atol rtol None (x e) xn er <= 1) ->
  exists X' x', tracks_vec n X' x' /\
    snd (@odeint_autograd ROps (S fuel) F X (@TTensor DR [(t0, 0); (t1, 0)]) sd (atol, 0) (rtol, 0) interp all [] None) = Ok ([(t0, 0); (t1, 0)], [X; X']) /\
    forall e, Rabs e < del -> snd (@odeint ROps (S fuel') (f e) (x e) (@TTensor ROps [t0; t1]) s atol rtol interp all [] None) = Ok ([t0; t1], [x e; x' e]).
Proof.
  intros fuel fuel' n sd s F f X x t0 t1 atol rtol interp all del Hp HF Hv HX Ht Hh.
  destruct (pair_steps n sd s Hp) as (Hs & Hsame & Fd & Fr).
  assert (Or : s_order sd = 5%nat /\ s_order s = 5%nat) by (destruct Hp; split; reflexivity). destruct Or as [Od Or].
  assert (C : forall a, tracks (a, 0) (fun _ => a)) by (intros; rewrite <- cst_eq; apply tr_cst).
  assert (HK : tracks_vec n (F (t0, 0) X) (fun e => f e t0 (x e))) by (apply (HF (t0, 0) (fun _ => t0)); auto).
  destruct (Hs F f X x (t0, 0) (fun _ => t0) (t1 - t0, 0) (fun _ => t1 - t0) _ _ HF HX (C _) (C _) HK) as (K' & k' & X' & x' & E & err & SD & S0 & G1 & G2 & _ & T1 & T2).
  exists X', x'. split; [exact T1|].
  assert (V : forall Y y, tracks_vec n Y y -> @plain_vec ROps Y = y 0).
  { intros Y y (L1 & L2 & H). apply (nth_ext _ _ 0 0); [unfold plain_vec; rewrite map_length, L2; exact L1|]. intros i Hi. unfold plain_vec in *. rewrite map_length in Hi.
    assert (Hi' : (i < n)%nat) by (rewrite <- L1; exact Hi). destruct (H i Hi') as [Hx _]. rewrite <- Hx. exact (map_nth (@plain ROps) Y (0, 0) i). }
  assert (H0 : Rabs 0 < del) by (rewrite Rabs_R0; apply cond_pos).
  split.
  - destruct (Hh 0 H0) as (h & xn & er & fn & st & A1 & A2 & A3 & A4). rewrite G2 in A3.
    assert (W : x' 0 = xn /\ err 0 = er) by (injection A3; auto). destruct W as [<- <-]. clear A3.
    pose proof (@rp_related ROps) as HR.
    assert (RF : rel_field (@rp ROps) (Forall2 (@rp ROps)) F (f 0)) by now apply rp_field.
    assert (RX : Forall2 (@rp ROps) X (x 0)) by (apply rp_vec; now apply V).
    pose proof (init_rel (@rp ROps) HR F (f 0) (F (t0, 0) X) (f 0 t0 (x 0)) X (x 0) (t0, 0) t0 5 (atol, 0) atol (rtol, 0) rtol RF (RF _ _ _ _ eq_refl RX) RX eq_refl eq_refl eq_refl) as [_ I].
    destruct (rel_ok _ _ _ _ I A1) as (h' & Ei & I'). clear I. rename I' into I.
    assert (ET : @nsub DR (t1, 0) (t0, 0) = (t1 - t0, 0)) by apply t_sub.
    assert (EA : @nadd DR (t0, 0) (t1 - t0, 0) = (t1, 0)) by (rewrite t_add; f_equal; ring).
    unfold odeint_autograd. refine (eq_trans (@one_step DR (@det ROps) fuel F X (t0, 0) (t1, 0) sd (atol, 0) (rtol, 0) interp all [] h' K' X' E SD Fd _ _ _ _ _ _ _ _ _) _).
    + apply Rltb_f. cbn. lra.
    + apply Rltb_t. cbn. lra.
    + rewrite Od. exact Ei.
    + apply Rltb_t. change (t1 < t0 + fst h'). unfold rp, plain in I. rewrite I. exact A2.
    + rewrite ET, EA. apply Rltb_f. cbn. lra.
    + rewrite ET. exact G1.
    + assert (Q : @rp ROps (@error_ratio DR (atol, 0) (rtol, 0) None X X' E) (@error_ratio ROps atol rtol None (x 0) (x' 0) (err 0))).
      { apply (ratio_rel (@rp ROps) HR); try reflexivity; auto; apply rp_vec; now apply V. }
      apply Rleb_t. unfold rp, plain in Q. rewrite Q. refine (Rle_trans _ _ _ A4 _). cbn. unfold Q2R. cbn. lra.
    + rewrite ET, EA. apply Reqb_t. reflexivity.
    + rewrite ET, EA. apply Rltb_f. cbn. lra.
    + rewrite ET, EA. reflexivity.
  - intros e He. destruct (Hh e He) as (h & xn & er & fn & st & A1 & A2 & A3 & A4). rewrite G2 in A3.
    assert (W : x' e = xn /\ err e = er) by (injection A3; auto). destruct W as [<- <-]. clear A3.
    rewrite <- odeint_ad_id.
    refine (eq_trans (@one_step ROps (fun a => a) fuel' (f e) (x e) t0 t1 s atol rtol interp all [] h (k' e) (x' e) (err e) (S0 e) Fr _ _ _ _ _ _ _ _ _) _).
    + apply Rltb_f. lra.
    + apply Rltb_t. lra.
    + rewrite Or. exact A1.
    + apply Rltb_t. exact A2.
    + apply Rltb_f. rops. lra.
    + exact (G2 e).
    + apply Rleb_t. refine (Rle_trans _ _ _ A4 _). rops. unfold Q2R. cbn. lra.
    + apply Reqb_t. rops. ring.
    + apply Rltb_f. rops. lra.
    + rops. assert (EX : forall a b, a = b -> @Ok (list R * list (list R)) ([t0; a], [x e; x' e]) = Ok ([t0; b], [x e; x' e])) by (intros; now subst). apply EX. ring.
Qed.

(** C155 is violated: x' = 1 + t^5 / 10^5 over [0, 12] with dopri5, atol = 50000, rtol = 0.  For initial states x near 1 the initial step size is x, the next ones are
    ten times as large and the rest.  The solve returns [P5 x]; its derivative at 1 is 1 - 0.011111, autograd returns 1: adapt_step is
    decorated with no_grad, the step size from [init_step] is not. *)
Lemma C155_adaptive_refuted_pf : forall fuel, (3 <= fuel)%nat ->
  let G := fun (t : R) (_ : list R) => [@G5 ROps t] in let GD := fun (t : R * R) (_ : list (R * R)) => [@G5 DR t] in
  let result := fun x => x + 12 + 1 / 100000 * (12 ^ 6 / 6 - (x ^ 6 + (10 * x) ^ 6 + (12 - 11 * x) ^ 6) / 5400) in
  (forall t x, G t x = [1 + 1 / 100000 * t ^ 5]) /\ smooth_field 1 GD (fun _ => G) /\
  (forall e, Rabs e < 1 / 100 ->
    snd (@odeint ROps fuel G [1 + e] (@TTensor ROps [0; 12]) (DormandPrince45 ROps) 50000 0 false false [] None) = Ok ([0; 12], [[1 + e]; [result (1 + e)]])) /\
  snd (@odeint_autograd ROps fuel GD [(1, 1)] (@TTensor DR [(0, 0); (12, 0)]) (DormandPrince45 DR) (50000, 0) (0, 0) false false [] None)
    = Ok ([(0, 0); (12, 0)], [[(1, 1)]; [(result 1, 1)]]) /\
  derivable_pt_lim (fun e => result (1 + e)) 0 (1 - 11111 / 1000000).
Proof.
  intros fuel Hf G GD result. split; [|split; [|split; [|split]]].
  - intros t x. unfold G. rewrite G5_R. f_equal. ring.
  - intros T t Y y HT HY. unfold GD, G. split; [reflexivity|]. split; [reflexivity|]. intros i Hi. assert (i = 0)%nat as -> by lia. cbn [nth].
    assert (C : forall q, tracks (@nQ DR q) (fun _ => @nQ ROps q)) by (intros q; rewrite t_lit, <- cst_eq; apply tr_cst).
    unfold G5. apply tr_add; [apply C|]. apply tr_mul; [apply C|]. repeat apply tr_mul; exact HT.
  - intros e He. apply Rabs_def2 in He. exact (r_run fuel (1 + e) Hf ltac:(lra)).
  - exact (d_run fuel Hf).
  - exact P5_derivative.
Qed.

(** The hypotheses of C155 are met: x' = 1 + e over [0, 1/10] from 2 + e, by dopri5 with atol = 1 and rtol = 0. *)
Lemma C155_ex_pf :
  let F := fun (_ : R * R) (_ : list (R * R)) => [(1, 1)] in let f := fun (e _ : R) (_ : list R) => [1 + e] in
  adaptive_pair (DormandPrince45 DR) (DormandPrince45 ROps) /\ smooth_field 1 F f /\ @values_of ROps F (f 0) /\
  tracks_vec 1 [(2, 1)] (fun e => [2 + e]) /\
  (forall e, Rabs e < 1 / 2 -> exists h xn er fn st,
     snd (@init_step ROps (f e) (f e 0 [2 + e]) [2 + e] 0 5 1 0) = Ok h /\ 1 / 10 < 0 + h /\
     snd (s_step (DormandPrince45 ROps) (f e) [2 + e] 0 (1 / 10 - 0) (Some (f e 0 [2 + e]))) = Ok (Ret4 fn xn er st) /\ @error_ratio ROps 1 0 None [2 + e] xn er <= 1).
Proof.
  intros F f. split; [constructor|].
  assert (A : forall a, tracks (a, 1) (fun e => a + e)).
  { intros a. split; cbn [fst snd]; [ring|].
    pose proof (derivable_pt_lim_plus (fun _ => a) (fun e => e) 0 _ _ (derivable_pt_lim_const _ 0) (derivable_pt_lim_id 0)) as Q.
    replace (0 + 1) with 1 in Q by ring. exact Q. }
  split; [|split; [|split]].
  - intros T t Y y _ _. split; [reflexivity|]. split; [reflexivity|]. intros i Hi. assert (i = 0)%nat as -> by lia. apply A.
  - intros t X. unfold F, f, plain_vec, plain. cbn [map fst]. f_equal. ring.
  - split; [reflexivity|]. split; [reflexivity|]. intros i Hi. assert (i = 0)%nat as -> by lia. apply A.
  - intros e He. apply Rabs_def2 in He. destruct (@q_step ROps (fun _ => 1 + e) (2 + e) 0 (1 / 10 - 0) (1 + e)) as (st & Es).
    eexists. do 3 eexists. exists st. split; [|split; [|split; [exact Es|]]].
    + unfold init_step. cbv zeta. unfold call. rewrite snd_mbind. cbn [snd rbind map]. unfold f, vsub, vdiv. cbn [map2 map]. rewrite !hairer1. rops.
      replace (1 + Rabs (2 + e) * 0) with 1 by ring. replace (1 + e - (1 + e)) with 0 by ring.
      rewrite !(Rabs_pos_eq ((2 + e) / 1)), !(Rabs_pos_eq ((1 + e) / 1)) by lra.
      qlit. rewrite !Rltb_f by lra. cbn [orb]. rewrite Rleb_f by lra. cbn [andb]. unfold pymax. rops.
      replace (Rabs (0 / 1)) with 0 by (rewrite Rabs_pos_eq; lra). match goal with |- context [0 / (?u / ?v)] => replace (0 / (u / v)) with 0 by (unfold Rdiv; ring) end. rewrite Rltb_f by lra. cbn [mret snd]. reflexivity.
    + rewrite Rplus_0_l. apply Rmin_glb_lt.
      * apply Rlt_le_trans with (100 / 1 * (1 / 100)); [lra|]. apply Rmult_le_compat_l; [lra|]. apply (Rmult_le_reg_r ((1 + e) / 1)); [lra|]. field_simplify; lra.
      * unfold nnat. rops. cbn [Z.of_nat Nat.add Pos.of_succ_nat Pos.succ]. rewrite Q2R_int. replace (1 / 1 / 6) with (1 / 6) by field.
        assert (P : (1 / 10) ^ 6 < 1 / 100 / ((1 + e) / 1)).
        { apply (Rmult_lt_reg_r ((1 + e) / 1)); [lra|]. replace (1 / 100 / ((1 + e) / 1) * ((1 + e) / 1)) with (1 / 100) by (field; lra). lra. }
        rewrite Rpw_pos by lra. replace (1 / 10) with (Rpower ((1 / 10) ^ 6) (1 / 6)) at 1.
        -- apply Rlt_Rpower_l; lra.
        -- rewrite <- Rpower_pow by lra. rewrite Rpower_mult. replace (INR 6 * (1 / 6)) with 1 by (cbn; field). apply Rpower_1. lra.
    + unfold error_ratio, vdiv, vmax, vabs. cbn [map map2]. rewrite hairer1. rops. rewrite Rmult_0_l, Rplus_0_r.
      match goal with |- Rabs (?q / 1) <= 1 => assert (Z : q = 0) end.
      * unfold qe, ei, tget, construct_dopri5, te, vsub, q2, q3, q4, q5, q6. cbn [map2 nth]. rops. qlit. field.
      * rewrite Z. replace (0 / 1) with 0 by field. rewrite Rabs_R0. lra.
Qed.
