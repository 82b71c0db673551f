(** Proofs of the property about the times at which the field is evaluated. *)
From Coq Require Import ZArith QArith Qreals Reals Lra Lia List Bool Sorted.
From Verif Require Import Num Py Tensor M_Constants M_SolversOde M_Utils M_Interp M_Odeint Spec_Ode Spec_RK Spec_Trees Spec_Inv Spec_Norm Spec_Adaptive.
From Verif Require Import L_Base L_Fixed L_Fixed2 L_Steps L_Steps2 L_Reach L_Inv L_Leap L_Adaptive L_Adaptive2 Pf_Fixed Pf_Causal.
Import ListNotations.
Local Notation length := List.length.
Local Open Scope R_scope.

Definition in_step (lg : R -> R -> list R -> list (R * list R)) : Prop := forall t h x c y, 0 <= h -> In (c, y) (lg t h x) -> t <= c <= t + h.

Lemma euler_in : in_step euler_log.
Proof. intros t h x c y Hh [E|[]]. injection E as <- _. lra. Qed.
Lemma midpoint_in f : in_step (midpoint_log f).
Proof. intros t h x c y Hh Hi. unfold midpoint_log in Hi. repeat (destruct Hi as [E|Hi]; [injection E as <- _; cbn; unfold Q2R; cbn; lra|]). destruct Hi. Qed.
Lemma alf_in f : in_step (alf_log f).
Proof. intros t h x c y Hh Hi. unfold alf_log in Hi. repeat (destruct Hi as [E|Hi]; [injection E as <- _; cbn; unfold Q2R; cbn; lra|]). destruct Hi. Qed.
Lemma rk4_in f : in_step (rk4_log f).
Proof. intros t h x c y Hh Hi. unfold rk4_log in Hi. repeat (destruct Hi as [E|Hi]; [injection E as <- _; cbn; unfold Q2R; cbn; lra|]). destruct Hi. Qed.

Lemma log_in one lg : in_step lg -> forall ts a x c y, increasing (a :: ts) -> In (c, y) (traj_log one lg x (a :: ts)) -> a <= c <= last ts a.
Proof.
  intros HL. induction ts as [|b ts IH]; intros a x c y Hi Hc; [destruct Hc|].
  assert (Hab : a < b) by (apply (Hi 0%nat 1%nat); auto). pose proof (inc_last b ts (inc_tl _ _ Hi)) as Hbl. rewrite last_shift.
  change (In (c, y) (lg a (b - a) x ++ traj_log one lg (one a (b - a) x) (b :: ts))) in Hc. apply in_app_or in Hc. destruct Hc as [Hc|Hc].
  - pose proof (HL a (b - a) x c y ltac:(lra) Hc). lra.
  - pose proof (IH b _ c y (inc_tl _ _ Hi) Hc). lra.
Qed.

(** euler, midpoint, rk4 and leapfrog on increasing grids: every call of the field is at a time between the first and the last time of the grid. *)
Lemma C206_fixed_partial_pf :
  forall fuel (s : solver ROps (vec ROps)) f x t0 t1 ts atol rtol interp all semi,
  s = Euler ROps \/ s = Midpoint ROps \/ s = RungeKutta4 ROps \/ s = AsynchronousLeapfrog ROps false -> increasing (t0 :: t1 :: ts) -> separated (t0 :: t1 :: ts) ->
  forall c y, In (c, y) (fst (@odeint ROps fuel f x (@TTensor ROps (t0 :: t1 :: ts)) s atol rtol interp all [] semi)) -> t0 <= c <= last (t1 :: ts) t0.
Proof.
  intros fuel s f x t0 t1 ts atol rtol interp all semi Hs Hi Hsep c y Hc.
  assert (Hle : t0 <= t1) by (left; apply (Hi 0%nat 1%nat); auto).
  assert (X : s_fixed s = true /\ exists one lg, fixed_stepper (s_step s) f one lg /\ in_step lg).
  { destruct Hs as [->|[->|[->| ->]]]; (split; [reflexivity|]).
    - exists (euler_one f), euler_log. split; [apply (euler_stepper f)|apply euler_in].
    - exists (midpoint_one f), (midpoint_log f). split; [apply (midpoint_stepper f)|apply midpoint_in].
    - exists (rk4_one f), (rk4_log f). split; [apply (rk4_stepper f)|apply rk4_in].
    - exists (alf_one f), (alf_log f). split; [apply (alf_stepper f)|apply alf_in]. }
  destruct X as (Hfix & one & lg & Hst & HL).
  rewrite (odeint_fixed_inc fuel s atol rtol interp all semi Hfix) in Hc by auto. rewrite (fixed_default s f one lg) in Hc by (auto; simpl; lia). cbn [fst] in Hc.
  exact (log_in one lg HL (t1 :: ts) t0 x c y Hi Hc).
Qed.

(** dopri5 and tsit5 call the field outside: for y' = 1 from 1000 over [0, 1] the initial step is chosen with a call at time 10. *)
Lemma C206_adaptive_refuted_pf :
  forall fuel (s : solver ROps (vec ROps)) interp all semi, s = DormandPrince45 ROps \/ s = Tsitouras45 ROps ->
  In (10, [1010]) (fst (@odeint ROps fuel (fun _ _ => [1]) [1000] (@TTensor ROps [0; 1]) s 1 0 interp all [] semi)).
Proof.
  intros fuel s interp all semi Hs. assert (Hfix : s_fixed s = false) by (destruct Hs as [-> | ->]; reflexivity).
  assert (EN : forall a, 0 <= a -> @hairer_norm ROps [a] = a).
  { intros a Ha. unfold hairer_norm, vmean. cbn. rewrite (Rabs_pos_eq a) by lra.
    replace ((Q2R 0 + a * a) / Q2R (inject_Z 1)) with (a * a) by (unfold Q2R; cbn; field). now apply sqrt_square. }
  assert (EI : exists dt, @init_step ROps (fun _ _ => [1]) [1] [1000] 0 (s_order s) 1 0 = ([(10, [1010])], Ok dt)).
  { unfold init_step. cbv zeta.
    match goal with |- context [@map ?A ?B ?g ?l] => assert (Es : @map A B g l = [1]) by (cbn; f_equal; ring); rewrite Es end.
    assert (V0 : @vdiv ROps [1000] [1] = [1000]) by (cbn; f_equal; field). assert (V1 : @vdiv ROps [1] [1] = [1]) by (cbn; f_equal; field). rewrite V0, V1, !EN by lra.
    assert (C0 : @nltb ROps 1000 (@nQ ROps (1 # 100000)) = false) by (apply Rltb_false; cbn; unfold Q2R; cbn; lra).
    assert (C1 : @nltb ROps 1 (@nQ ROps (1 # 100000)) = false) by (apply Rltb_false; cbn; unfold Q2R; cbn; lra).
    rewrite C0, C1. cbn [orb].
    assert (Eh : @ndiv ROps (@nmul ROps (@nQ ROps (1 # 100)) 1000) 1 = 10) by (cbn; unfold Q2R; cbn; field). rewrite Eh.
    eexists. unfold call, mbind, mret. cbn [fst snd app]. f_equal. cbn. repeat f_equal; ring. }
  destruct EI as (dt & EI).
  unfold odeint, prep_time. cbn [ts_list pyget nth_error rbind]. rops. rewrite (proj2 (Rltb_false 1 0)) by lra. unfold mlift. rewrite mbind_Ok. cbn [app]. rewrite Hfix.
  cbn [fst pyget nth_error]. unfold mbind at 1. cbn [fst snd app]. unfold call. unfold mbind at 1. cbn [fst snd app]. rewrite EI. unfold mbind at 1. cbn [fst snd app]. right. left. reflexivity.
Qed.

(** The calls of one attempt of dopri5 or tsit5 lie in the step. *)
Lemma pair_step_in s rows b bh : builtin_pair s rows b bh ->
  forall f x t h k c y, 0 <= h -> In (c, y) (fst (s_step s f x t h (Some k))) -> t <= c <= t + h.
Proof.
  intros Hs f x t h k c y Hh Hc.
  assert (X : forall q : Q, 0 <= Q2R q <= 1 -> t <= t + Q2R q * h <= t + h).
  { intros q Hq. assert (0 <= Q2R q * h) by (apply Rmult_le_pos; lra). assert (Q2R q * h <= 1 * h) by (apply Rmult_le_compat_r; lra). lra. }
  destruct Hs as [(-> & _)|(-> & _)].
  - repeat (destruct Hc as [E|Hc]; [apply (f_equal fst) in E; cbn [fst] in E; rewrite <- E; apply X; unfold Q2R; cbn; lra|]). destruct Hc.
  - repeat (destruct Hc as [E|Hc]; [apply (f_equal fst) in E; cbn [fst] in E; rewrite <- E; apply X; unfold Q2R; cbn; lra|]). destruct Hc.
Qed.

Lemma iter_log (p : @aparams ROps) (st : astate ROps) h old : attempt_dt p st = (h, old) ->
  fst (@adaptive_iter ROps p st) = fst (s_step (p_solver p) (p_f p) (a_x st) (a_t st) h (Some (a_k1 st))).
Proof.
  intros E. unfold adaptive_iter. rewrite E. unfold mbind at 1.
  destruct (s_step (p_solver p) (p_f p) (a_x st) (a_t st) h (Some (a_k1 st))) as [lg [[f1 x1 e1|f1 x1 e1 sg]| |]]; cbn [fst snd]; auto.
  - apply app_nil_r.
  - etransitivity; [|apply app_nil_r]. f_equal. cbv zeta. unfold mbind.
    match goal with |- context [if ?c then _ else _] => destruct c end; cbn [fst snd mret mlift]; [|reflexivity].
    destruct (accept_out p st h f1 x1 sg) as [[[? ?] ?]| |]; reflexivity.
Qed.

Section AdaptiveLog.
Variables (s : solver ROps (vec ROps)) (rows : list (R * list R)) (b bh : list R).
Hypothesis HB : builtin_pair s rows b bh.
Variables (n : nat) (f : R -> list R -> list R).
Hypothesis Hf : field_on n f.
Variables (atol rtol : R) (interp all : bool) (semi : option nat).
Let bmid := if s_is_tsit5 s then None else if interp then Some (construct_4th ROps) else None.

Lemma loop_log T t_eval fuel : forall (st : astate ROps) rest, Inv f T t_eval n st rest ->
  forall c y, In (c, y) (fst (@adaptive_loop ROps fuel (@MkP ROps f s T t_eval atol rtol bmid all semi) st)) -> a_t st <= c <= T.
Proof.
  pose proof (builtin_embedded _ _ _ _ HB) as HP. pose proof HP as (_ & H1' & H2 & H3 & _ & _). assert (H1 : 0 < s_min_factor s <= 1) by lra.
  induction fuel as [|fuel IH]; intros st rest HI c y Hc; cbn [adaptive_loop] in Hc; cbn [p_T] in Hc; destruct (nltb (a_t st) T) eqn:Ht; try (destruct Hc; fail).
  apply Rltb_true in Ht.
  destruct (iter_spec f s T t_eval atol rtol bmid all semi n (erk_step rows b f)
    (fun t h x => @vsub ROps (erk_step rows b f t h x) (erk_step rows bh f t h x)) (erk_stages rows f) (pdense rows b f)
    (p_step s rows b bh HP n f Hf) (p_len rows b n f Hf) (fun bm x t h c => p_dense s rows b bh HP n f Hf bmid bm x t h c (bmid_cases s interp)) H1 H2 st rest HI Ht)
    as (h & old & st' & Ea & Hh & HhT & Ei & _ & Hcase).
  unfold mbind in Hc. rewrite Ei in Hc. cbn [fst] in Hc. apply in_app_or in Hc. destruct Hc as [Hc|Hc].
  - rewrite (iter_log _ _ _ _ Ea) in Hc. pose proof (pair_step_in _ _ _ _ HB f (a_x st) (a_t st) h (a_k1 st) c y (Rlt_le _ _ Hh) Hc). lra.
  - destruct Hcase as [(_ & E & _ & _ & _ & HI')|(_ & E & cr & hit & rest' & _ & _ & _ & _ & _ & _ & HI')]; pose proof (IH st' _ HI' c y Hc); lra.
Qed.
End AdaptiveLog.

(** dopri5 and tsit5 on increasing grids, for every number of iterations: the first call is at the first time, the second is the one that chooses the initial step,
    and every other call is at a time between the first and the last time of the grid. *)
Lemma C206_adaptive_partial_pf :
  forall fuel (s : solver ROps (vec ROps)) n f x t0 t1 ts atol rtol interp all save_at semi,
  s = DormandPrince45 ROps \/ s = Tsitouras45 ROps -> field_on n f -> length x = n -> increasing (t0 :: t1 :: ts) ->
  exists probe lg,
    fst (@odeint ROps fuel f x (@TTensor ROps (t0 :: t1 :: ts)) s atol rtol interp all save_at semi) = (t0, x) :: probe :: lg /\
    forall c y, In (c, y) lg -> t0 <= c <= last (t1 :: ts) t0.
Proof.
  intros fuel s n f x t0 t1 ts atol rtol interp all save_at semi Hs Hf Hx Hi.
  assert (HB : exists rows b bh, builtin_pair s rows b bh).
  { destruct Hs as [-> | ->]; do 3 eexists; [left|right]; repeat split. }
  destruct HB as (rows & b & bh & HB). pose proof (builtin_embedded _ _ _ _ HB) as HP.
  assert (Hle : t0 <= t1) by (left; apply (Hi 0%nat 1%nat); auto).
  destruct (odeint_adaptive_inc s rows b bh HP f atol rtol interp all semi fuel x t0 t1 ts save_at Hle) as (dt & pr & Hd & _ & Eo).
  exists pr. eexists. split; [rops; rewrite Eo; reflexivity|].
  intros c y Hc.
  assert (El : @pylast R (t0 :: t1 :: ts) = Ok (last (t1 :: ts) t0)).
  { rewrite (pylast_last _ t0) by discriminate. reflexivity. }
  unfold adaptive_odeint in Hc. rewrite (mbind_eq (mlift _) [] t0 _ eq_refl) in Hc.
  rewrite (mbind_eq (mlift _) [] (last (t1 :: ts) t0) _ (f_equal mlift El)) in Hc. cbn [fst app] in Hc.
  refine (loop_log s rows b bh HB n f Hf atol rtol interp all semi _ _ fuel _ (t1 :: ts) _ c y Hc).
  apply init_inv; auto; [now apply increasing_sorted|discriminate].
Qed.

(** The hypotheses are met by the grid 0, 1, 2 and the field y' = t y. *)
Lemma C206_ex_pf : increasing [0; 1; 2] /\ separated [0; 1; 2] /\ field_on 1 (fun t x => map (Rmult t) x).
Proof.
  split; [|split; [exact C04_ex_pf|intros t x Hx; now rewrite map_length]]. intros [|[|[|i]]] [|[|[|j]]] a b Hij Ha Hb; cbn in *; try lia; try discriminate; try (destruct i; discriminate); try (destruct j; discriminate); injection Ha as <-; injection Hb as <-; lra.
Qed.
