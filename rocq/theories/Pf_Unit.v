(** Changing the unit of time. *)
From Coq Require Import ZArith QArith Qreals Reals Lra Lia List Bool.
From Verif Require Import Num Py Tensor M_Constants M_SolversOde M_Utils M_Interp M_Odeint M_Autograd.
From Verif Require Import Spec_Ode Spec_Trees Spec_RK Spec_Norm Spec_Adaptive Spec_Inv.
From Verif Require Import L_Base L_Fixed L_Vec L_Steps L_Tables L_Steps2 L_Utils L_Fixed2 L_Adaptive L_Adaptive2 L_Reach L_Inv Pf_Fixed Pf_AdGrad.
Import ListNotations.
Local Notation length := List.length.
Local Open Scope R_scope.

(** The field of the same system when time is measured in units c times smaller: u = c t *)
Definition rescaled_field (c : R) (f : R -> list R -> list R) : R -> list R -> list R := fun u y => map (Rmult (/ c)) (f (u / c) y).

Section Scale.
Variables (c : R) (f : R -> list R -> list R).
Hypothesis Hc : 0 < c.
Let g := rescaled_field c f.
Lemma axpy_scale a k x : axpy (c * a) (map (Rmult (/ c)) k) x = axpy a k x.
Proof.
  unfold axpy. revert k. induction x as [|u x IH]; intros [|v k]; cbn; try reflexivity. f_equal; [|apply IH]. field. lra.
Qed.
Lemma comb_scale h : forall w ks x, comb x (c * h) w (map (map (Rmult (/ c))) ks) = comb x h w ks.
Proof.
  unfold comb. induction w as [|a w IH]; intros [|k ks] x; cbn; try reflexivity.
  replace (c * h * a) with (c * (h * a)) by ring. rewrite axpy_scale. apply IH.
Qed.
Lemma stages_scale t h x rows : erk_stages rows g (c * t) (c * h) x = map (map (Rmult (/ c))) (erk_stages rows f t h x).
Proof.
  unfold erk_stages. set (s := map (map (Rmult (/ c)))).
  assert (G : forall rows ks, fold_left (fun ks r => ks ++ [g (c * t + fst r * (c * h)) (comb x (c * h) (snd r) ks)]) rows (s ks)
    = s (fold_left (fun ks r => ks ++ [f (t + fst r * h) (comb x h (snd r) ks)]) rows ks)); [|exact (G rows [])].
  clear rows. induction rows as [|r rows IH]; intros ks; cbn [fold_left]; [reflexivity|]. rewrite <- IH. f_equal. unfold s. rewrite map_app. f_equal. cbn [map]. f_equal.
  unfold g, rescaled_field. rewrite comb_scale. f_equal. f_equal. field. lra.
Qed.
Lemma step_scale rows b t h x : erk_step rows b g (c * t) (c * h) x = erk_step rows b f t h x.
Proof. unfold erk_step. rewrite stages_scale. apply comb_scale. Qed.
End Scale.

(** C156 (fixed-step solvers).  The same states in every unit of time, for increasing grids without times that are close in the sense of torch.isclose, in both
    units. *)
Lemma C156_fixed_pf : forall fuel s rows b n f x c t0 t1 ts atol rtol interp all semi,
  builtin_fixed s rows b -> field_on n f -> List.length x = n -> 0 < c -> increasing (t0 :: t1 :: ts) ->
  separated (t0 :: t1 :: ts) -> separated (map (Rmult c) (t0 :: t1 :: ts)) ->
  exists states,
  snd (@odeint ROps fuel f x (@TTensor ROps (t0 :: t1 :: ts)) s atol rtol interp all [] semi) = Ok (t0 :: t1 :: ts, states) /\
  snd (@odeint ROps fuel (rescaled_field c f) x (@TTensor ROps (map (Rmult c) (t0 :: t1 :: ts))) s atol rtol interp all [] semi) =
  Ok (map (Rmult c) (t0 :: t1 :: ts), states).
Proof.
  intros fuel s rows b n f x c t0 t1 ts atol rtol interp all semi HM Hf Hx Hc Hinc Hs Hs'.
  apply builtin_fixed_erk in HM.
  assert (Hlt : t0 < t1) by (apply (Hinc 0%nat 1%nat); auto).
  assert (Hg : field_on n (rescaled_field c f)) by (intros t y Hy; unfold rescaled_field; rewrite map_length; now apply Hf).
  destruct (odeint_fixed_result fuel s rows b n f x t0 t1 ts atol rtol interp all [] semi HM Hf Hx) as [_ B1].
  destruct (odeint_fixed_result fuel s rows b n (rescaled_field c f) x (c * t0) (c * t1) (map (Rmult c) ts) atol rtol interp all [] semi HM Hg Hx) as [_ B2].
  cbv zeta in B1, B2. destruct (Rlt_dec t1 t0) as [?|_]; [lra|]. destruct (Rlt_dec (c * t1) (c * t0)) as [?|_]; [nra|].
  specialize (B1 Hs). specialize (B2 Hs').
  exists (one_step_traj (erk_step rows b f) x (t0 :: t1 :: ts)).
  assert (FR : forall l xs, xs <> [] -> length l = length xs -> fixed_result l l xs = Ok (l, xs : list rvec)).
  { intros l xs Hne HL. unfold fixed_result. rewrite (select_all l l xs) by auto. destruct xs; congruence. }
  split.
  - refine (eq_trans B1 _). apply FR; [rewrite traj_hd; discriminate|]. symmetry. apply traj_length.
  - refine (eq_trans B2 _).
    assert (Et : one_step_traj (erk_step rows b (rescaled_field c f)) x (c * t0 :: c * t1 :: map (Rmult c) ts) =
       one_step_traj (erk_step rows b f) x (t0 :: t1 :: ts)).
    { change (c * t0 :: c * t1 :: map (Rmult c) ts) with (map (Rmult c) (t0 :: t1 :: ts)).
      clear - Hc. generalize (t0 :: t1 :: ts). intros l. revert x.
      induction l as [|t [|t' l] IH]; intros x; auto.
      cbn [map] in *. rewrite !traj_hd. f_equal. replace (c * t' - c * t) with (c * (t' - t)) by ring.
      rewrite step_scale by exact Hc. apply IH. }
    rewrite Et. apply FR; [rewrite traj_hd; discriminate|]. rewrite traj_length. cbn [length]. now rewrite map_length.
Qed.

(** ** The adaptive loop *)
Section Loop.
Variables (c : R) (f : R -> list R -> list R).
Hypothesis Hc : 0 < c.
Notation sc := (map (Rmult (/ c))).
Notation g := (rescaled_field c f).
Notation vadd := (@vadd ROps).
Notation vscale := (@vscale ROps).
Lemma v1 a k : vscale a (sc k) = sc (vscale a k).
Proof. unfold Tensor.vscale. rewrite !map_map. apply map_ext. intros u. rops. ring. Qed.
Lemma v2 u v : vadd (sc u) (sc v) = sc (vadd u v).
Proof.
  unfold Tensor.vadd. revert v. induction u as [|a u IH]; intros [|b v]; cbn; try reflexivity. f_equal; [ring|apply IH].
Qed.
Lemma v4 h k : sc (vscale (c * h) k) = vscale h k.
Proof. unfold Tensor.vscale. rewrite map_map. apply map_ext. intros u. rops. field. lra. Qed.
Lemma v4' h a k : sc (vscale (c * h * a) k) = vscale (h * a) k.
Proof. unfold Tensor.vscale. rewrite map_map. apply map_ext. intros u. rops. field. lra. Qed.
Lemma tm t a h : (c * t + a * (c * h)) / c = t + a * h.
Proof. field. lra. Qed.
Definition scaled_ret (r : res (step_ret (list R))) : res (step_ret (list R)) :=
  match r with Ok (Ret4 k x e st) => Ok (Ret4 (sc k) x e (map sc st)) | r => r end.
Lemma erk7_scale tab x t h k1 : snd (@erk7_step ROps tab g x (c * t) (c * h) (Some (sc k1))) = scaled_ret (snd (@erk7_step ROps tab f x t h (Some k1))).
Proof.
  unfold erk7_step. cbv beta zeta. unfold first_stage, call, mbind, mret. cbn [snd fst app]. rops.
  unfold rescaled_field. rewrite !tm. repeat (rewrite ?v1, ?v2; rewrite ?v4', ?v4). reflexivity.
Qed.
Notation vsub := (@vsub ROps).
Lemma v2s u v : vsub (sc u) (sc v) = sc (vsub u v).
Proof.
  unfold Tensor.vsub. revert v. induction u as [|a u IH]; intros [|b v]; cbn; try reflexivity. f_equal; [ring|apply IH].
Qed.
Lemma v4q h a k : sc (vscale (a * (c * h)) k) = vscale (a * h) k.
Proof. unfold Tensor.vscale. rewrite map_map. apply map_ext. intros u. rops. field. lra. Qed.
Lemma fit_scale dt k kn x xn xm : @fourth_fit ROps (c * dt) (sc k) (sc kn) x xn xm = @fourth_fit ROps dt k kn x xn xm.
Proof.
  unfold fourth_fit. rops. rewrite ?v1, ?v2s, ?v1. rewrite ?v4q, ?v4. reflexivity.
Qed.
Lemma terms_scale bm : forall st, @bmid_terms ROps bm (map sc st) = rmap (map sc) (@bmid_terms ROps bm st).
Proof.
  induction bm as [|b bm IH]; intros [|s st]; try reflexivity. cbn [map bmid_terms]. refine (eq_trans (f_equal (rmap _) (IH st)) _). rewrite v1.
  destruct (@bmid_terms ROps bm st); reflexivity.
Qed.
Lemma sum_scale bm st : @bmid_sum ROps bm (map sc st) = rmap sc (@bmid_sum ROps bm st).
Proof.
  unfold bmid_sum. rewrite terms_scale. destruct (@bmid_terms ROps bm st) as [[|t0 ts]| |]; try reflexivity. cbn [rmap rbind map]. unfold rmap. cbn [rbind]. f_equal.
  assert (E : @vadds ROps (nQ 0) (sc t0) = sc (@vadds ROps (nQ 0) t0)).
  { unfold vadds. rewrite !map_map. apply map_ext. intros u. rops. rewrite Q2R_0'. ring. }
  rewrite E. generalize (@vadds ROps (nQ 0) t0). induction ts as [|u ts IH]; intros a; [reflexivity|]. cbn [map fold_left]. rewrite v2. apply IH.
Qed.
Lemma eval_scale cf t dt tc : @interp_evaluate ROps cf (c * t) (c * t + c * dt) (c * tc) = @interp_evaluate ROps cf t (t + dt) tc.
Proof.
  unfold interp_evaluate. rops. replace ((c * tc - c * t) / (c * t + c * dt - c * t)) with ((tc - t) / (t + dt - t)); [reflexivity|].
  replace (c * tc - c * t) with (c * (tc - t)) by ring. replace (c * t + c * dt - c * t) with (c * (t + dt - t)) by ring.
  unfold Rdiv. rewrite Rinv_mult. rewrite (Rmult_comm c (tc - t)), Rmult_assoc, <- (Rmult_assoc c (/ c)), Rinv_r by lra. ring.
Qed.
Lemma lt_scale a b d : Rltb (c * a) (c * b + c * d) = Rltb a (b + d).
Proof. unfold Rltb. destruct (Rlt_dec a (b + d)); destruct (Rlt_dec (c * a) (c * b + c * d)); try reflexivity; exfalso; nra. Qed.
Lemma lt_scale2 a b : Rltb (c * a) (c * b) = Rltb a b.
Proof. unfold Rltb. destruct (Rlt_dec a b); destruct (Rlt_dec (c * a) (c * b)); try reflexivity; exfalso; nra. Qed.
Lemma eq_scale a b d : Reqb (c * b + c * d) (c * a) = Reqb (b + d) a.
Proof.
  unfold Reqb. destruct (Req_EM_T (b + d) a); destruct (Req_EM_T (c * b + c * d) (c * a)) as [E|E]; try reflexivity; exfalso; [apply E; rewrite <- e; ring|].
  apply n. apply (Rmult_eq_reg_l c); lra.
Qed.
Notation out := (nat * list R * list (list R))%type.
Definition sout (o : out) : out := let '(ck, times, sol) := o in (ck, map (Rmult c) times, sol).
Lemma interp_scale bm te t dt x k kn xn st : forall n ck times sol,
  @interp_loop ROps n bm (map (Rmult c) te) (c * t) (c * dt) x (sc k) (sc kn) xn (map sc st) ck (map (Rmult c) times) sol =
  rmap sout (@interp_loop ROps n bm te t dt x k kn xn st ck times sol).
Proof.
  induction n as [|n IH]; intros ck times sol; [reflexivity|]. cbn [interp_loop]. rewrite nth_error_map. change (num ROps) with R. destruct (nth_error te ck) as [tc|]; [|reflexivity]. cbn [option_map]. rops.
  rewrite lt_scale. destruct (Rltb tc (t + dt)); [|reflexivity]. rewrite sum_scale. destruct (@bmid_sum ROps bm st) as [s| |]; try reflexivity. cbn [rmap rbind]. unfold rmap. cbn [rbind].
  rewrite v1, v4, fit_scale, eval_scale. destruct (interp_evaluate _ _ _ _) as [xi| |]; try reflexivity. cbn [rbind].
  refine (eq_trans _ (IH (ck + 1)%nat (times ++ [tc]) (sol ++ [xi]))). rewrite map_app. reflexivity.
Qed.

Variable s : solver ROps (vec ROps).
Hypothesis Hs : forall x t h k1, snd (s_step s g x (c * t) (c * h) (Some (sc k1))) = scaled_ret (snd (s_step s f x t h (Some k1))).
Notation P := (fun ff T te a r ip al sm => @MkP ROps ff s T te a r ip al sm).
Definition sst (st : @astate ROps) : @astate ROps :=
  @MkA ROps (c * a_t st) (c * a_dt st) (a_x st) (sc (a_k1 st)) (a_ck st) (map (Rmult c) (a_times st)) (a_sol st).
Variables (T : R) (te : list R) (atol rtol : R) (ip : option (list R)) (al : bool) (sm : option nat).
Notation p := (@MkP ROps f s T te atol rtol ip al sm).
Notation p' := (@MkP ROps g s (c * T) (map (Rmult c) te) atol rtol ip al sm).
Lemma attempt_scale st : @attempt_dt ROps p' (sst st) = (c * fst (@attempt_dt ROps p st), option_map (Rmult c) (snd (@attempt_dt ROps p st))).
Proof.
  unfold attempt_dt, sst. cbn [a_t a_dt a_ck p_T p_t_eval p_interp]. rops. rewrite lt_scale.
  set (d := if Rltb T (a_t st + a_dt st) then T - a_t st else a_dt st).
  assert (E : (if Rltb T (a_t st + a_dt st) then c * T - c * a_t st else c * a_dt st) = c * d) by (unfold d; destruct (Rltb _ _); ring).
  rewrite nth_error_map. rewrite E. destruct (nth_error te (a_ck st)) as [tc|]; [|reflexivity]. cbn [option_map]. rewrite lt_scale. destruct (Rltb tc (a_t st + d)); [|reflexivity].
  destruct ip; [reflexivity|]. cbn [fst snd option_map]. f_equal. ring.
Qed.
Lemma accept_scale st dt kn xn stg : @accept_out ROps p' (sst st) (c * dt) (sc kn) xn (map sc stg) = rmap sout (@accept_out ROps p st dt kn xn stg).
Proof.
  unfold accept_out, sst. cbn [a_t a_x a_ck a_k1 a_times a_sol p_interp p_t_eval p_all]. rewrite map_length.
  match goal with |- rbind ?q1 _ = rmap _ (rbind ?q2 _) => set (q := q2); assert (E : q1 = rmap sout q) end.
  { unfold q. destruct ip; [apply interp_scale|reflexivity]. }
  rewrite E. clear E. destruct q as [[[ck times] sol]| |]; try reflexivity. unfold rmap. cbn [rbind sout]. unfold pyget. rewrite nth_error_map. change (num ROps) with R. destruct (nth_error te ck) as [tc|]; [|reflexivity]. cbn [option_map rbind]. rops.
  rewrite eq_scale. destruct (Reqb (a_t st + dt) tc || al)%bool; [|reflexivity]. cbn [rbind sout]. rewrite map_app. cbn [map]. rewrite Rmult_plus_distr_l. reflexivity.
Qed.
Lemma adapt_scale d r a b e o : @adapt_step ROps (c * d) r a b e o = c * @adapt_step ROps d r a b e o.
Proof. rewrite !adapt_factor. rops. ring. Qed.
Lemma iter_scale st : snd (@adaptive_iter ROps p' (sst st)) = rmap sst (snd (@adaptive_iter ROps p st)).
Proof.
  unfold adaptive_iter. rewrite attempt_scale. destruct (@attempt_dt ROps p st) as [d od]. cbn [fst snd]. rewrite !snd_mbind.
  cbn [p_solver p_f p_atol p_rtol p_semi]. unfold sst at 1 2 3. cbn [a_x a_t a_k1]. rewrite Hs.
  match goal with |- rbind (scaled_ret ?u) _ = rmap _ (rbind ?v _) => change v with u; destruct u as [[| kn xn er stg]| |]; try reflexivity end.
  cbn [scaled_ret rbind]. cbv zeta. change (a_x (sst st)) with (a_x st). match goal with |- context [@nleb ROps ?r (nQ 1)] => set (ra := r) end.
  assert (Eo : match option_map (Rmult c) od with Some old => @nsub ROps old (c * d) | None => c * d end = c * match od with Some o => o - d | None => d end)
    by (destruct od; cbn [option_map]; rops; ring).
  assert (ET : forall t, @nadd ROps (c * t) (c * d) = c * (t + d)) by (intros; rops; ring).
  destruct (@nleb ROps ra (nQ 1)).
  - rewrite !snd_mbind, !snd_mlift. rewrite accept_scale. destruct (@accept_out ROps p st d kn xn stg) as [[[ck times] sol]| |]; try reflexivity.
    unfold rmap. cbn [rbind sout snd mret]. refine (f_equal (@Ok _) _). unfold sst. cbn [a_t a_dt a_x a_k1 a_ck a_times a_sol].
    refine (eq_trans (f_equal (fun u => @MkA ROps _ (@adapt_step ROps u _ _ _ _ _) _ _ _ _ _) Eo) _). rewrite adapt_scale, ET. reflexivity.
  - rewrite !snd_mbind. cbn [rbind snd mret]. unfold rmap. cbn [rbind]. refine (f_equal (@Ok _) _). unfold sst. cbn [a_t a_dt a_x a_k1 a_ck a_times a_sol].
    refine (eq_trans (f_equal (fun u => @MkA ROps _ (@adapt_step ROps u _ _ _ _ _) _ _ _ _ _) Eo) _). rewrite adapt_scale. reflexivity.
Qed.
Lemma loop_scale fuel : forall st, snd (@adaptive_loop ROps fuel p' (sst st)) =
  rmap (fun r : list R * list (list R) => (map (Rmult c) (fst r), snd r)) (snd (@adaptive_loop ROps fuel p st)).
Proof.
  induction fuel as [|fuel IH]; intros st; cbn [adaptive_loop]; unfold sst at 1; cbn [a_t p_T]; rops; rewrite lt_scale2; destruct (Rltb (a_t st) T); try reflexivity.
  rewrite !snd_mbind, iter_scale.
  match goal with |- rbind (rmap _ ?u) _ = rmap _ (rbind ?v _) => change v with u; destruct u as [st'| |]; try reflexivity end. unfold rmap at 1. cbn [rbind]. apply IH.
Qed.
End Loop.

(** C156 (adaptive loop).  Everything except the choice of the first step size is independent of the unit: _adaptive_odeint with the first slope and the first step size in
    the new unit returns the same states.  (partial: odeint chooses the first step size; C156_adaptive_refuted.) *)
Lemma C156_loop_partial_pf : forall fuel s rows b bh f k1 x dt c ts atol rtol interp all semi,
  builtin_pair s rows b bh -> 0 < c ->
  snd (@adaptive_odeint ROps fuel (rescaled_field c f) (map (Rmult (/ c)) k1) x (c * dt) (map (Rmult c) ts) s atol rtol interp all semi) =
  rmap (fun r : list R * list (list R) => (map (Rmult c) (fst r), snd r)) (snd (@adaptive_odeint ROps fuel f k1 x dt ts s atol rtol interp all semi)).
Proof.
  intros fuel s rows b bh f k1 x dt c ts atol rtol ip al sm HP Hc. unfold adaptive_odeint. rewrite !snd_mbind, !snd_mlift.
  destruct ts as [|t0 ts]; [reflexivity|]. cbn [map pyget nth_error rbind]. unfold pyget. cbn [nth_error rbind]. rewrite !snd_mbind, !snd_mlift.
  assert (EL : @pylast R (c * t0 :: map (Rmult c) ts) = rmap (Rmult c) (@pylast R (t0 :: ts))).
  { change (c * t0 :: map (Rmult c) ts) with (map (Rmult c) (t0 :: ts)). unfold pylast. rewrite <- map_rev. destruct (rev (t0 :: ts)); reflexivity. }
  refine (eq_trans (f_equal (fun r => rbind r _) EL) _). change (num ROps) with R. destruct (@pylast R (t0 :: ts)) as [T| |]; try reflexivity. unfold rmap at 1. cbn [rbind]. cbv zeta. cbn [skipn].
  assert (Hs : forall x t h k1, snd (s_step s (rescaled_field c f) x (c * t) (c * h) (Some (map (Rmult (/ c)) k1))) = scaled_ret c (snd (s_step s f x t h (Some k1)))).
  { intros. destruct HP as [(-> & _)|(-> & _)]; apply (erk7_scale c f Hc). }
  exact (loop_scale c f Hc s Hs T ts atol rtol ip al sm fuel (@MkA ROps t0 dt x k1 0 [t0] [x])).
Qed.

(** ** The first step size depends on the unit *)
Definition W1 (t : R) : R := 1 + t ^ 5.
Definition W2 (u : R) : R := / 100 * (1 + (u / 100) ^ 5).
Lemma w1_x x t h : @qx ROps W1 x t h (W1 t) = x + h + ((t + h) ^ 6 - t ^ 6) / 6 - h ^ 6 / 5400.
Proof. unfold qx, q2, q3, q4, q5, q6, W1. rops. qlit. field. Qed.
Lemma w2_x x t h : @qx ROps W2 x t h (W2 t) = x + h / 100 + ((t + h) ^ 6 - t ^ 6) / 6000000000000 - h ^ 6 / 5400000000000000.
Proof. unfold qx, q2, q3, q4, q5, q6, W2. rops. qlit. field. Qed.
Lemma w2_6 t h : @q6 ROps W2 t h = W2 (t + h).
Proof. unfold q6, W2. rops. qlit. field. Qed.
Lemma w1_e t h : @qe ROps W1 t h (W1 t) = h * (71 / 81000 * t * h ^ 4 + 19099 / 36450000 * h ^ 5).
Proof. unfold qe, ei, tget, construct_dopri5, te, vsub, q2, q3, q4, q5, q6, W1. cbn [map2 nth]. rops. qlit. field. Qed.
Lemma w2_e t h : @qe ROps W2 t h (W2 t) = / 1000000000000 * h * (71 / 81000 * t * h ^ 4 + 19099 / 36450000 * h ^ 5).
Proof. unfold qe, ei, tget, construct_dopri5, te, vsub, q2, q3, q4, q5, q6, W2. cbn [map2 nth]. rops. qlit. field. Qed.
Lemma ratio1 G x t h k : @qratio ROps G 1 0 x t h k = Rabs (@qe ROps G t h k).
Proof.
  unfold qratio, error_ratio, vdiv, vmax, vabs. cbn [map map2]. rewrite hairer1. rops. rewrite Rmult_0_l, Rplus_0_r. f_equal. field.
Qed.
Lemma w1_run fuel : snd (@odeint ROps (S fuel) (fun t _ => [1 + t ^ 5]) [1] (@TTensor ROps [0; 1 / 20]) (DormandPrince45 ROps) 1 0 false false [] None) =
  Ok ([0; 0 + (1 / 20 - 0)], [[1]; [1 + 1 / 20 + (1 / 20) ^ 6 / 6 - (1 / 20) ^ 6 / 5400]]).
Proof.
  rewrite <- odeint_ad_id.
  destruct (@q_step ROps W1 1 0 (1 / 20 - 0) (W1 0)) as (st & Es).
  assert (I : exists h, snd (@init_step ROps (fun t _ => [1 + t ^ 5]) [W1 0] [1] 0 5 1 0) = Ok h /\ 1 / 20 < 0 + h).
  { eexists. unfold init_step. cbv zeta. unfold call. rewrite snd_mbind. cbn [snd rbind map]. unfold vsub, vdiv. cbn [map2 map]. rewrite !hairer1. rops.
    replace (1 + Rabs 1 * 0) with 1 by ring. replace (W1 0) with 1 by (unfold W1; ring). replace (Rabs (1 / 1)) with 1 by (rewrite Rabs_pos_eq; lra).
    qlit. rewrite !Rltb_f by lra. cbn [orb]. rewrite Rleb_f by lra. cbn [andb].
    replace (1 + (0 + 1 / 100 * 1 / 1) ^ 5 - 1) with ((1 / 100) ^ 5) by field.
    rewrite (Rabs_pos_eq ((1 / 100) ^ 5 / 1)) by lra.
    unfold pymax. rops. rewrite Rltb_f by lra. cbn [mret snd]. split; [reflexivity|]. rewrite Rplus_0_l. apply Rmin_glb_lt; [lra|].
    unfold nnat. rops. cbn [Z.of_nat Nat.add Pos.of_succ_nat Pos.succ]. rewrite Q2R_int. replace (1 / 1 / 6) with (1 / 6) by field.
    rewrite Rpw_pos by lra. replace (1 / 20) with (Rpower ((1 / 20) ^ 6) (1 / 6)).
    - apply Rlt_Rpower_l; lra.
    - rewrite <- Rpower_pow by lra. rewrite Rpower_mult. replace (INR 6 * (1 / 6)) with 1 by (cbn; field). apply Rpower_1. lra. }
  destruct I as (h & I1 & I2).
  refine (eq_trans (@Pf_AdGrad.one_step ROps (fun a => a) fuel _ [1] 0 (1 / 20) (DormandPrince45 ROps) 1 0 false false [] h _ _ _ st eq_refl _ _ I1 _ _ Es _ _ _) _).
  - apply Rltb_f. lra.
  - apply Rltb_t. lra.
  - apply Rltb_t. exact I2.
  - apply Rltb_f. rops. lra.
  - apply Rleb_t. change (@qratio ROps W1 1 0 1 0 (1 / 20 - 0) (W1 0) <= Q2R 1). rewrite ratio1, w1_e. rewrite Rabs_pos_eq by lra. unfold Q2R. cbn. lra.
  - apply Reqb_t. rops. lra.
  - apply Rltb_f. rops. lra.
  - rewrite w1_x. assert (EX : forall a b, a = b -> @Ok (list R * list (list R)) ([0; 0 + (1 / 20 - 0)], [[1]; [a]]) = Ok ([0; 0 + (1 / 20 - 0)], [[1]; [b]])) by (intros; now subst).
    apply EX. field.
Qed.
Section Two.
Context {K : NumOps}.
Variables (G : K -> K) (T atol rtol : K).
Notation qadapt := (qadapt G atol rtol). Notation qratio := (qratio G atol rtol).
Lemma q_run2 fuel x t0 h1 h2 : (2 <= fuel)%nat ->
  (t0 <? T)%N = true -> (T <? t0)%N = false ->
  snd (init_step (qF G) [G t0] [x] t0 5 atol rtol) = Ok h1 ->
  (T <? t0 + h1)%N = false -> (qratio x t0 h1 (G t0) <=? n1)%N = true -> (t0 + h1 =? T)%N = false ->
  let t1 := (t0 + h1)%N in let x1 := qx G x t0 h1 (G t0) in let k1 := q6 G t0 h1 in
  h2 = (T - t1)%N -> (t1 <? T)%N = true ->
  (T <? t1 + qadapt x t0 h1 (G t0))%N = true -> (T <? t1 + h2)%N = false -> (qratio x1 t1 h2 k1 <=? n1)%N = true -> (t1 + h2 =? T)%N = true ->
  (t1 + h2 <? T)%N = false ->
  snd (odeint fuel (qF G) [x] (TTensor [t0; T]) (DormandPrince45 K) atol rtol false false [] None) = Ok ([t0; (t1 + h2)%N], [[x]; [qx G x1 t1 h2 k1]]).
Proof.
  intros Hf A0 A0' Hi A1 A2 A3 t1 x1 k1 Eh2 B0 B1 B2 B3 B4 B5. rewrite <- odeint_ad_id.
  destruct fuel as [|[|fuel]]; try lia. clear Hf.
  unfold odeint_ad. rewrite snd_mbind, snd_mlift. unfold prep_time. cbn [ts_list pyget nth_error rbind]. rewrite A0'. cbn [rbind s_fixed DormandPrince45 mk_solver s_is_tsit5 pyget nth_error].
  rewrite snd_mbind, snd_mlift. cbn [rbind]. rewrite snd_mbind. unfold call at 1. cbn [snd rbind]. change (qF G t0 [x]) with [G t0]. rewrite snd_mbind. cbn [s_order].
  refine (eq_trans (f_equal (fun r => rbind r _) Hi) _). cbn [rbind]. unfold adaptive_odeint_ad. rewrite snd_mbind, snd_mlift. cbn [pyget nth_error rbind]. rewrite snd_mbind, snd_mlift. unfold pylast. cbn [rev app rbind skipn]. cbv zeta.
  change (MkP (qF G) _ T [T] atol rtol None false None) with (qP G T atol rtol).
  cbn [adaptive_loop_ad a_t]. change (p_T (qP G T atol rtol)) with T. rewrite A0. rewrite snd_mbind.
  refine (eq_trans (f_equal (fun r => rbind r _) (q_iter G (fun a => a) T atol rtol x t0 h1 (G t0) h1 _ _ false (eq_sym (f_equal (fun b : bool => if b then _ else _) A1)) A1 A2 A3)) _). cbn [rbind]. change (t0 + h1)%N with t1. change (qx G x t0 h1 (G t0)) with x1. change (q6 G t0 h1) with k1.
  cbn [adaptive_loop_ad a_t]. change (p_T (qP G T atol rtol)) with T. rewrite B0. rewrite snd_mbind.
  refine (eq_trans (f_equal (fun r => rbind r _) (q_iter G (fun a => a) T atol rtol x1 t1 _ k1 h2 _ _ true (eq_trans Eh2 (eq_sym (f_equal (fun b : bool => if b then _ else _) B1))) B2 B3 B4)) _). cbn [rbind].
  destruct fuel; cbn [adaptive_loop_ad a_t]; change (p_T (qP G T atol rtol)) with T; rewrite B5; reflexivity.
Qed.
End Two.
Lemma w2_small x : 0 <= @qratio ROps W2 1 0 x 0 1 (W2 0) <= (9 / 100) ^ 5.
Proof. rewrite ratio1, w2_e. rewrite Rabs_pos_eq by lra. lra. Qed.
Lemma w2_run fuel : (2 <= fuel)%nat -> snd (@odeint ROps fuel (rescaled_field 100 (fun t _ => [1 + t ^ 5])) [1] (@TTensor ROps (map (Rmult 100) [0; 1 / 20])) (DormandPrince45 ROps) 1 0 false false [] None) =
  Ok (map (Rmult 100) [0; 1 / 20], [[1]; [1 + 1 / 20 + (1 / 20) ^ 6 / 6 - ((1 / 100) ^ 6 + (4 / 100) ^ 6) / 5400]]).
Proof.
  intros Hf. change (rescaled_field 100 (fun t _ => [1 + t ^ 5])) with (@qF ROps W2).
  assert (ET : map (Rmult 100) [0; 1 / 20] = [0; 5]) by (cbn [map]; repeat (f_equal; try lra)). rewrite ET.
  pose proof (@q_run2 ROps W2 5 1 0 fuel 1 0 1 (5 - (0 + 1)) Hf) as Q. rops. refine (eq_trans (Q _ _ _ _ _ _ _ _ _ _ _ _ _) _); clear Q.
  - apply Rltb_t. lra.
  - apply Rltb_f. lra.
  - unfold init_step. cbv zeta. unfold call. rewrite snd_mbind. cbn [snd rbind map]. unfold qF, vsub, vdiv. cbn [map2 map]. rewrite !hairer1. rops.
    replace (1 + Rabs 1 * 0) with 1 by ring. replace (W2 0) with (1 / 100) by (unfold W2; field). replace (Rabs (1 / 1)) with 1 by (rewrite Rabs_pos_eq; lra).
    rewrite (Rabs_pos_eq (1 / 100 / 1)) by lra.
    qlit. rewrite !Rltb_f by lra. cbn [orb]. rewrite Rleb_f by lra. cbn [andb].
    replace (1 / 100 * 1 / (1 / 100 / 1)) with 1 by field. replace (W2 (0 + 1) - 1 / 100) with (1 / 1000000000000) by (unfold W2; field).
    rewrite (Rabs_pos_eq (1 / 1000000000000 / 1)) by lra.
    unfold pymax. rops. rewrite Rltb_f by lra. cbn [mret snd]. f_equal. 
    unfold nnat. rops. cbn [Z.of_nat Nat.add Pos.of_succ_nat Pos.succ]. rewrite Q2R_int. replace (1 / 1 / 6) with (1 / 6) by field.
    replace (1 / 100 / (1 / 100 / 1)) with 1 by field. rewrite Rpw_pos by lra. replace (Rpower 1 (1 / 6)) with 1 by (unfold Rpower; rewrite ln_1, Rmult_0_r, exp_0; reflexivity).
    apply Rmin_right. lra.
  - apply Rltb_f. lra.
  - apply Rleb_t. refine (Rle_trans _ _ _ (proj2 (w2_small _)) _). unfold Q2R. cbn. lra.
  - apply Reqb_f. lra.
  - reflexivity.
  - apply Rltb_t. lra.
  - apply Rltb_t. refine (Rlt_le_trans _ (0 + 1 + 10) _ _ _); [lra|]. right. f_equal. symmetry.
    unfold qadapt. rewrite adapt_factor. rops. qlit. change (Q2R 10) with (Q2R (10 # 1)). qlit.
    destruct (w2_small 1) as [L U]. set (r := qratio _ _ _ _ _ _ _) in *. clearbody r. unfold factor_of, Reqb.
    destruct (Req_EM_T r 0) as [|N]; [lra|]. assert (Hr : 0 < r) by lra. rewrite Rpw_pos by exact Hr.
    assert (E : Rpower r (1 / INR 5) <= 9 / 100).
    { replace (9 / 100) with (Rpower ((9 / 100) ^ 5) (1 / INR 5)).
      - apply Rle_Rpower_l; [unfold Rdiv; rewrite Rmult_1_l; left; apply Rinv_0_lt_compat; cbn; lra|lra].
      - rewrite <- Rpower_pow by lra. rewrite Rpower_mult. replace (INR 5 * (1 / INR 5)) with 1 by (cbn; field). apply Rpower_1. lra. }
    assert (G : 10 <= 9 / 10 / Rpower r (1 / INR 5)).
    { assert (P : 0 < Rpower r (1 / INR 5)) by apply Rpower_gt0. apply (Rmult_le_reg_r (Rpower r (1 / INR 5))); [exact P|]. unfold Rdiv at 2. rewrite Rmult_assoc, Rinv_l by lra. lra. }
    rewrite Rmin_left; [lra|]. eapply Rle_trans; [|apply Rmax_l]. lra.
  - apply Rltb_f. lra.
  - apply Rleb_t. rewrite w2_6, ratio1, w2_e. rewrite Rabs_pos_eq by lra. unfold Q2R. cbn. lra.
  - apply Reqb_t. lra.
  - apply Rltb_f. lra.
  - rewrite w2_6, !w2_x.
    assert (EX : forall a b a' b' : R, a = a' -> b = b' -> @Ok (list ROps * list (vec ROps)) ([0; a], [[1]; [b]]) = Ok ([0; a'], [[1]; [b']])) by (intros; subst; reflexivity).
    apply EX; field.
Qed.

(** C156 is violated for adaptive solvers: x' = 1 + t^5 from 1 over [0, 1/20] with dopri5, atol = 1, rtol = 0 takes one step; in hundredths it takes two, and returns another state: the
    formula for the first step size ([init_step], utils.py lines 37-54) has (0.01 / slope) ** (1 / (order + 1)), which does not scale with the unit. *)
Lemma C156_adaptive_refuted_pf : forall fuel, (2 <= fuel)%nat ->
  let f := fun (t : R) (_ : list R) => [1 + t ^ 5] in
  exists times times' y y',
    snd (@odeint ROps fuel f [1] (@TTensor ROps [0; 1 / 20]) (DormandPrince45 ROps) 1 0 false false [] None) = Ok (times, [[1]; [y]]) /\
    snd (@odeint ROps fuel (rescaled_field 100 f) [1] (@TTensor ROps (map (Rmult 100) [0; 1 / 20])) (DormandPrince45 ROps) 1 0 false false [] None) = Ok (times', [[1]; [y']]) /\
    times' = map (Rmult 100) times /\ y < y'.
Proof.
  intros fuel Hf f. destruct fuel as [|fuel]; [lia|]. do 4 eexists. split; [exact (w1_run fuel)|]. split; [exact (w2_run (S fuel) Hf)|]. split; [|lra].
  cbn [map]. repeat (f_equal; try lra).
Qed.

(** C156, refuted for fixed-step solvers: x' = x by euler over [0, 1] works; in units of 10^9 the interval is [0, 10^-9], and the same solve raises AssertionError. *)
Lemma C156_fixed_refuted_pf : forall fuel,
  let f := fun (t : R) (y : list R) => y in
  (exists r, snd (@odeint ROps fuel f [1] (@TTensor ROps [0; 1]) (Euler ROps) (1/1000) (1/1000) false false [] None) = Ok r) /\
  snd (@odeint ROps fuel (rescaled_field (1 / 1000000000) f) [1] (@TTensor ROps (map (Rmult (1 / 1000000000)) [0; 1])) (Euler ROps)
    (1/1000) (1/1000) false false [] None) = Err AssertionError.
Proof.
  intros fuel f. set (c := 1 / 1000000000). assert (Hf : field_on 1 f) by (intros t y Hy; exact Hy).
  assert (Hg : field_on 1 (rescaled_field c f)) by (intros t y Hy; unfold rescaled_field; rewrite map_length; exact Hy).
  pose proof (builtin_fixed_erk (Euler ROps) _ _ (or_introl (conj eq_refl (conj eq_refl eq_refl)))) as HM.
  destruct (odeint_fixed_result fuel _ _ _ 1 f [1] 0 1 [] (1/1000) (1/1000) false false [] None HM Hf eq_refl) as [_ B1].
  destruct (odeint_fixed_result fuel _ _ _ 1 (rescaled_field c f) [1] (c * 0) (c * 1) [] (1/1000) (1/1000) false false [] None HM Hg eq_refl) as [A2 _].
  cbv zeta in B1, A2. destruct (Rlt_dec 1 0) as [?|_]; [lra|]. destruct (Rlt_dec (c * 1) (c * 0)) as [?|_]; [unfold c in *; lra|].
  split.
  - eexists. refine (eq_trans (B1 _) _).
    + intros i j a d Hij Ha Hd. destruct i as [|[|i]], j as [|[|j]]; try lia; simpl in Ha, Hd;
        try (destruct i; discriminate); try (destruct j; discriminate);
        injection Ha as <-; injection Hd as <-; unfold close_to.
      * rewrite (Rabs_left (0 - 1)), (Rabs_right 1) by lra. lra.
      * rewrite (Rabs_right (1 - 0)), Rabs_R0 by lra. lra.
    + unfold fixed_result. rewrite select_all; [rewrite traj_hd; reflexivity|auto|symmetry; apply traj_length].
  - refine (A2 _). intros Hs. apply (Hs 0%nat 1%nat (c * 0) (c * 1)); auto. unfold close_to, c.
    unfold Rabs. repeat destruct (Rcase_abs _); lra.
Qed.

(** The hypotheses of C156 are met: three times, in seconds and milliseconds. *)
Lemma C156_ex_pf : 0 < 1000 /\ increasing [0; 1; 2] /\ separated [0; 1; 2] /\ separated (map (Rmult 1000) [0; 1; 2]) /\
  builtin_fixed (Euler ROps) (to_R_rows q_euler) (to_R qb_euler) /\
  rescaled_field 1000 (fun t x => [t + nth 0 x 0]) 2000 [3] = [/ 1000 * (2000 / 1000 + 3)].
Proof.
  split; [lra|]. split; [apply increasing_sorted; repeat constructor; lra|]. split; [exact grid3_separated|]. split; [|split; [left; auto|reflexivity]].
  intros i j p q Hij Hp Hq. unfold close_to.
  destruct i as [|[|[|i]]]; destruct j as [|[|[|j]]]; try lia; cbn in Hp, Hq; try (destruct i; discriminate); try (destruct j; discriminate);
    injection Hp as <-; injection Hq as <-; unfold Rabs; repeat destruct (Rcase_abs _); lra.
Qed.
