(** Proofs of the property about times that are requested twice. *)
From Coq Require Import ZArith QArith Qreals Reals Lra Lia List Bool.
From Verif Require Import Num Py Tensor M_Constants M_SolversOde M_Utils M_Interp M_Odeint.
From Verif Require Import Spec_Ode Spec_Adaptive L_Base L_Fixed L_Utils Pf_HybPlain.
From Verif Require Import Spec_RK Spec_Norm L_Vec L_Steps L_Tables L_Steps2 L_Adaptive L_Adaptive2 L_Hybrid2 Pf_Hybrid Pf_Cast.
Import ListNotations.
Local Notation length := List.length.
Local Open Scope R_scope.

Lemma close_refl a : @isclose ROps a a = true.
Proof. apply isclose_R. unfold close_to. replace (a - a) with 0 by ring. rewrite Rabs_R0. pose proof (Rabs_pos a). lra. Qed.

Lemma fixed_repeated f x c l1 l2 l3 step : @fixed_odeint ROps (vec ROps) f x (l1 ++ c :: l2 ++ c :: l3) step [] = mraise AssertionError.
Proof.
  unfold fixed_odeint. cbv iota zeta.
  set (ts := l1 ++ c :: l2 ++ c :: l3).
  assert (E : forallb (fun t => (@isclose_count ROps t ts =? 1)%nat) ts = false).
  { apply not_true_iff_false. intros H. rewrite forallb_forall in H. specialize (H c). rewrite Nat.eqb_eq in H.
    assert (Hin : In c ts) by (apply in_or_app; right; now left). specialize (H Hin). revert H.
    unfold ts, isclose_count. rewrite map_app. cbn [map]. rewrite map_app. cbn [map]. rewrite count_true_app, count_true_cons, count_true_app, count_true_cons.
    rewrite (close_refl c). lia. }
  rewrite E. reflexivity.
Qed.

(** Fixed-step solvers: a grid in which some time occurs twice raises AssertionError, for every field, state, solver and direction of time. *)
Lemma C189_fixed_refuted_pf :
  forall fuel f x ts c l1 l2 l3 s atol rtol interp all semi, s_fixed s = true -> ts = l1 ++ c :: l2 ++ c :: l3 ->
  snd (@odeint ROps fuel f x (@TTensor ROps ts) s atol rtol interp all [] semi) = Err AssertionError.
Proof.
  intros fuel f x ts c l1 l2 l3 s atol rtol interp all semi Hs Hts. unfold odeint, prep_time. cbn [ts_list].
  assert (Hl : (2 <= length ts)%nat) by (rewrite Hts, app_length; cbn [length]; rewrite app_length; cbn [length]; lia).
  destruct ts as [|t0 [|t1 ts]]; cbn [length] in Hl; try lia. cbn [pyget nth_error rbind].
  destruct (@nltb ROps t1 t0); rewrite mb_lift, Hs, Hts; [|now rewrite fixed_repeated].
  rewrite map_app. cbn [map]. rewrite map_app. cbn [map]. now rewrite fixed_repeated.
Qed.

Lemma last_nth {A} (l : list A) k d d0 : nth_error l k = Some d -> (S k >= length l)%nat -> last l d0 = d.
Proof.
  revert k. induction l as [|a l IH]; intros [|k] H Hk; cbn [length] in *; try discriminate.
  - destruct l; cbn [length] in *; [|lia]. injection H as ->. reflexivity.
  - destruct l as [|b l]; [now destruct k|]. apply (IH k); [exact H|lia].
Qed.
Section Last.
Variables (f : R -> list R -> list R) (s : solver ROps (vec ROps)) (T atol rtol : R) (te : list R) (all : bool) (semi : option nat).
Hypothesis HT : last te 0 = T.
Let p := @MkP ROps f s T te atol rtol None all semi.
Let p2 := @MkP ROps f s T (te ++ [T]) atol rtol None all semi.

Lemma end_same fuel (st : @astate ROps) : a_t st = T -> @adaptive_loop ROps fuel p2 st = @adaptive_loop ROps fuel p st.
Proof.
  intros E. destruct fuel; cbn [adaptive_loop p p2 p_T]; rewrite E; change (@nltb ROps T T) with (Rltb T T); destruct (Rltb_spec T T); try lra; reflexivity.
Qed.
Lemma accept_last (st : @astate ROps) h f_new x_new stages : (a_ck st < length te)%nat ->
  exists ck times sol, @accept_out ROps p st h f_new x_new stages = Ok (ck, times, sol) /\ @accept_out ROps p2 st h f_new x_new stages = Ok (ck, times, sol) /\
  ((ck < length te)%nat \/ a_t st + h = T).
Proof.
  intros Hck. assert (Ee : exists tc, @pyget (num ROps) te (a_ck st) = Ok tc /\ @pyget (num ROps) (te ++ [T]) (a_ck st) = Ok tc /\ nth_error te (a_ck st) = Some tc).
  { destruct (nth_error te (a_ck st)) as [tc|] eqn:Ec; [|apply nth_error_None in Ec; lia]. exists tc. unfold pyget.
    change (num ROps) with R. rewrite nth_error_app1 by auto. now rewrite Ec. }
  destruct Ee as (tc & E1 & E2 & E3). unfold accept_out. cbn [p p2 p_interp p_t_eval p_all rbind]. rewrite E1, E2. cbn [rbind].
  destruct (@neqb ROps (@nadd ROps (a_t st) h) tc) eqn:Eh; cbn [orb].
  - do 3 eexists. split; [reflexivity|]. split; [reflexivity|]. destruct (Nat.lt_ge_cases (a_ck st + 1) (length te)) as [Hl|Hl]; [now left|right].
    apply (last_nth te (a_ck st) tc 0) in E3; [|lia]. rewrite <- HT, E3. apply Reqb_true. exact Eh.
  - destruct all; do 3 eexists; (split; [reflexivity|]); (split; [reflexivity|]); now left.
Qed.
Lemma last_same fuel : forall (st : @astate ROps), (a_ck st < length te)%nat -> @adaptive_loop ROps fuel p2 st = @adaptive_loop ROps fuel p st.
Proof.
  induction fuel as [|fuel IH]; intros st Hck; cbn [adaptive_loop]; change (p_T p2) with T; change (p_T p) with T; [reflexivity|].
  destruct (@nltb ROps (a_t st) T); [|reflexivity].
  unfold adaptive_iter.
  assert (EA : @attempt_dt ROps p2 st = @attempt_dt ROps p st).
  { unfold attempt_dt. cbn [p p2 p_T p_t_eval p_interp]. now rewrite nth_error_app1. }
  rewrite EA. destruct (@attempt_dt ROps p st) as [h old]. rewrite !mb_assoc. cbn [p p2 p_solver p_f].
  apply mbind_ext. intros [? ? ?|f_new x_new x_err stages]; [reflexivity|]. cbv zeta. cbn [p p2 p_atol p_rtol p_semi p_solver].
  destruct (@nleb ROps _ _).
  - destruct (accept_last st h f_new x_new stages Hck) as (ck & times & sol & E1 & E2 & H).
    rewrite E1, E2, !mb_assoc, !mb_lift, !mb_ret. destruct H as [H|H]; [now apply IH|now apply end_same].
  - rewrite !mb_assoc, !mb_ret. now apply IH.
Qed.
End Last.

(** Adaptive solvers: repeating the last time has no effect at all: the calls and the outcome are those of the grid without the repetition,
    so that the time occurs once in the output. *)
Lemma C189_last_refuted_pf :
  forall fuel f x t0 t1 ts T s atol rtol all save_at semi, s_fixed s = false -> t0 <= t1 -> last (t1 :: ts) 0 = T ->
  @odeint ROps fuel f x (@TTensor ROps (t0 :: t1 :: ts ++ [T])) s atol rtol false all save_at semi =
  @odeint ROps fuel f x (@TTensor ROps (t0 :: t1 :: ts)) s atol rtol false all save_at semi.
Proof.
  intros fuel f x t0 t1 ts T s atol rtol all save semi Hs Hle HT. unfold odeint, prep_time. cbn [ts_list pyget nth_error rbind].
  change (@nltb ROps t1 t0) with (Rltb t1 t0). destruct (Rltb_spec t1 t0) as [C|_]; [lra|]. rewrite !mb_lift, Hs.
  replace (if s_is_tsit5 s then None else if false then Some (construct_4th ROps) else None) with (@None (list R)) by now destruct (s_is_tsit5 s).
  cbn [pyget nth_error]. rewrite !mb_lift. apply mbind_ext. intros k1. apply mbind_ext. intros dt.
  unfold adaptive_odeint. cbn [pyget nth_error skipn]. rewrite !mb_lift.
  assert (E1 : @pylast (num ROps) (t0 :: t1 :: ts ++ [T]) = Ok T).
  { unfold pylast. change (@rev (num ROps) (t0 :: t1 :: ts ++ [T])) with (rev ((t0 :: t1 :: ts) ++ [T])). now rewrite rev_app_distr. }
  assert (E2 : @pylast (num ROps) (t0 :: t1 :: ts) = Ok T).
  { unfold pylast. change (num ROps) with R. destruct (exists_last (l := t1 :: ts)) as (l & a & E); [discriminate|]. rewrite E in HT |- *. rewrite last_last in HT. subst a.
    change (t0 :: l ++ [T]) with ((t0 :: l) ++ [T]). now rewrite rev_app_distr. }
  rewrite E1, E2, !mb_lift. cbv zeta. apply (last_same f s T atol rtol (t1 :: ts)); auto. cbn [a_ck length]. lia.
Qed.

(** In particular an interval of length zero: both times are requested, the initial state is returned once. *)
Lemma C189_zero_interval_refuted_pf :
  forall fuel f x t s atol rtol interp all save_at semi, s_fixed s = false ->
  snd (@odeint ROps fuel f x (@TTensor ROps [t; t]) s atol rtol interp all save_at semi) = Ok ([t], [x]).
Proof.
  intros fuel f x t s atol rtol interp all save semi Hs. unfold odeint, prep_time. cbn [ts_list pyget nth_error rbind].
  change (@nltb ROps t t) with (Rltb t t). destruct (Rltb_spec t t) as [C|_]; [lra|]. rewrite !mb_lift, Hs. cbn [pyget nth_error]. rewrite !mb_lift.
  destruct (init_step_value f (f t x) x t (s_order s) atol rtol) as (h & lg & E & _).
  unfold call. unfold mbind. cbn [snd fst]. rewrite E. cbn [snd fst]. unfold adaptive_odeint. cbn [pyget nth_error pylast rev app]. rewrite !mb_lift.
  destruct fuel; cbn [adaptive_loop a_t p_T]; change (@nltb ROps t t) with (Rltb t t); destruct (Rltb_spec t t); try lra; reflexivity.
Qed.

Lemma rms_zeros l : (forall e, In e l -> e = 0) -> rms l = 0.
Proof.
  intros H. unfold rms. assert (E : sum_sq l = 0).
  { induction l as [|a l IH]; [reflexivity|]. simpl. rewrite IH by (intros e He; apply H; now right). rewrite (H a (or_introl eq_refl)). ring. }
  rewrite E. unfold Rdiv. rewrite Rmult_0_l. apply sqrt_0.
Qed.
Lemma map2_zero (l : list R) : forall m, (forall e, In e l -> e = 0) -> forall e, In e (map2 Rdiv l m) -> e = 0.
Proof.
  induction l as [|a l IH]; intros [|c m] H e He; cbn in He; try contradiction. destruct He as [<-|He].
  - rewrite (H a (or_introl eq_refl)). unfold Rdiv. ring.
  - apply (IH m); auto. intros e' He'. apply H. now right.
Qed.
Lemma self_ratio atol rtol semi (x : list R) : @error_ratio ROps atol rtol semi x x (@vsub ROps x x) = 0.
Proof.
  unfold error_ratio. rewrite hairer_rms. apply rms_zeros. unfold vdiv. apply map2_zero.
  assert (H : forall e, In e (@vsub ROps x x) -> e = 0).
  { unfold vsub. induction x as [|a x IH]; intros e He; cbn in He; [contradiction|]. destruct He as [<-|He]; [rops; ring|auto]. }
  intros e He. apply H. destruct semi as [d|]; auto. rewrite <- (firstn_skipn d (@vsub ROps x x)). apply in_or_app. now left.
Qed.
Lemma loop_extends fuel : forall (p : @aparams ROps) st times sol, p_interp p = None -> snd (@adaptive_loop ROps fuel p st) = Ok (times, sol) ->
  exists l m, times = a_times st ++ l /\ sol = a_sol st ++ m.
Proof.
  induction fuel as [|fuel IH]; intros p st times sol Hp H; cbn [adaptive_loop] in H; destruct (@nltb ROps (a_t st) (p_T p)); try discriminate;
    try (injection H as <- <-; exists [], []; now rewrite !app_nil_r).
  apply snd_bind_inv in H. destruct H as (st' & H1 & H2). apply IH in H2; auto. destruct H2 as (l & m & -> & ->).
  assert (E : exists l' m', a_times st' = a_times st ++ l' /\ a_sol st' = a_sol st ++ m').
  { unfold adaptive_iter in H1. destruct (@attempt_dt ROps p st) as [h old]. apply snd_bind_inv in H1. destruct H1 as (r & _ & H1).
    destruct r as [? ? ?|f_new x_new x_err stages]; [discriminate|]. cbv zeta in H1. apply snd_bind_inv in H1. destruct H1 as ([[ck tm] sl] & H1 & H3).
    injection H3 as <-. cbn [a_times a_sol]. destruct (@nleb ROps _ _).
    - cbn [mlift snd] in H1. unfold accept_out in H1. rewrite Hp in H1. cbn [rbind] in H1. destruct (pyget (p_t_eval p) (a_ck st)) as [tc|e|]; cbn [rbind] in H1; try discriminate.
      destruct (@neqb ROps _ _ || p_all p); injection H1 as _ <- <-; [eexists; eexists; split; reflexivity|exists [], []; now rewrite !app_nil_r].
    - injection H1 as _ <- <-. exists [], []; now rewrite !app_nil_r. }
  destruct E as (l' & m' & -> & ->). rewrite <- !app_assoc. eauto.
Qed.

(** A repeated first time is returned twice with the initial state, by both built-in adaptive solvers and for every continuation of the grid. *)
Lemma C189_start_partial_pf :
  forall fuel s rows b bh n f x t0 t1 ts atol rtol all save_at semi times sol,
  builtin_pair s rows b bh -> field_on n f -> length x = n -> t0 < last (t1 :: ts) 0 ->
  snd (@odeint ROps fuel f x (@TTensor ROps (t0 :: t0 :: t1 :: ts)) s atol rtol false all save_at semi) = Ok (times, sol) ->
  exists l m, times = t0 :: t0 :: l /\ sol = x :: x :: m.
Proof.
  intros fuel s rows b bh n f x t0 t1 ts atol rtol all save semi times sol HB Hf Hx HT Hr.
  assert (Hs : s_fixed s = false) by (destruct HB as [(-> & _)|(-> & _)]; reflexivity).
  destruct (init_step_value f (f t0 x) x t0 (s_order s) atol rtol) as (dt & lg & E & Hd & _).
  unfold odeint, prep_time in Hr. cbn [ts_list pyget nth_error rbind] in Hr.
  change (@nltb ROps t0 t0) with (Rltb t0 t0) in Hr. destruct (Rltb_spec t0 t0) as [C|_]; [lra|]. rewrite !mb_lift, Hs in Hr.
  replace (if s_is_tsit5 s then None else if false then Some (construct_4th ROps) else None) with (@None (list R)) in Hr by now destruct (s_is_tsit5 s).
  cbn [pyget nth_error] in Hr. rewrite !mb_lift in Hr. apply snd_bind_inv in Hr. destruct Hr as (k1 & Hk & Hr). injection Hk as <-.
  apply snd_bind_inv in Hr. destruct Hr as (dt' & Hk & Hr). rewrite E in Hk. injection Hk as <-.
  unfold adaptive_odeint in Hr. cbn [pyget nth_error skipn] in Hr. rewrite !mb_lift in Hr. apply snd_bind_inv in Hr. destruct Hr as (T & HTT & Hr). cbv zeta in Hr.
  assert (ET : T = last (t1 :: ts) 0).
  { revert HTT. cbn [mlift snd]. unfold pylast. change (num ROps) with R. destruct (exists_last (l := t1 :: ts)) as (l & a & El); [discriminate|]. rewrite El, last_last.
    change (t0 :: t0 :: l ++ [a]) with ((t0 :: t0 :: l) ++ [a]). rewrite rev_app_distr. cbn [rev app]. now intros [= ->]. }
  rewrite <- ET in HT. clear ET HTT.
  destruct fuel as [|fuel]; cbn [adaptive_loop a_t p_T] in Hr; change (@nltb ROps t0 T) with (Rltb t0 T) in Hr; (destruct (Rltb_spec t0 T) as [_|C]; [|lra]); [discriminate|].
  apply snd_bind_inv in Hr. destruct Hr as (st & Hi & Hr). apply loop_extends in Hr; [|reflexivity].
  assert (E2 : a_times st = [t0; t0] /\ a_sol st = [x; x]); [|destruct E2 as [E2 E3]; destruct Hr as (l & m & -> & ->); exists l, m; rewrite E2, E3; split; reflexivity].
  clear Hr. revert Hi. unfold adaptive_iter, attempt_dt. cbn [a_t a_dt a_ck p_T p_t_eval p_interp nth_error].
  set (h := if @nltb ROps T (@nadd ROps t0 dt) then @nsub ROps T t0 else dt).
  assert (Hh : t0 < t0 + h).
  { unfold h. change (@nltb ROps T (@nadd ROps t0 dt)) with (Rltb T (t0 + dt)). change (@nsub ROps T t0) with (T - t0). destruct (Rltb_spec T (t0 + dt)); lra. }
  change (@nltb ROps t0 (@nadd ROps t0 h)) with (Rltb t0 (t0 + h)). destruct (Rltb_spec t0 (t0 + h)) as [_|C]; [|lra].
  replace (@nsub ROps t0 t0) with 0 by (rops; ring). cbn [a_x a_k1 p_solver p_f]. intros Hi.
  apply snd_bind_inv in Hi. destruct Hi as (r & H1 & H2). pose proof (eq_trans (eq_sym H1) (p_step s rows b bh (builtin_embedded _ _ _ _ HB) n f Hf x t0 0 Hx)) as H1'. injection H1' as ->.
  rewrite !(erk_zero n) in H2 by auto. cbv zeta in H2. cbn [p_atol p_rtol p_semi a_x] in H2.
  assert (ER : @error_ratio ROps atol rtol semi x x (@vsub ROps x x) = 0).
  { apply self_ratio. }
  rewrite ER in H2. change (@nleb ROps 0 (@nQ ROps 1)) with (Rleb 0 (Q2R 1)) in H2. destruct (Rleb_spec 0 (Q2R 1)) as [_|C]; [|unfold Q2R in C; cbn in C; lra].
  apply snd_bind_inv in H2. destruct H2 as ([[ck tm] sl] & H2 & H3). injection H3 as <-. cbn [a_times a_sol].
  revert H2. cbn [mlift snd]. unfold accept_out. cbn [p_interp a_ck a_times a_sol a_t p_t_eval p_all rbind pyget nth_error].
  change (@neqb ROps (@nadd ROps t0 0) t0) with (Reqb (t0 + 0) t0). destruct (Reqb_spec (t0 + 0) t0) as [Eq|C]; [|lra]. cbn [orb app]. intros [= _ <- <-].
  change (@nadd ROps t0 0) with (t0 + 0). now rewrite Eq.
Qed.

(** The grids meant: [0; 1; 1; 2] for the fixed-step solvers, [0; 1; 2; 2] for the others. *)
Lemma C189_ex_pf :
  [0; 1; 1; 2] = [0] ++ 1 :: [] ++ 1 :: [2] /\ 0 <= 1 /\ last [1; 2] 0 = 2 /\ s_fixed (RungeKutta4 ROps) = true /\ s_fixed (DormandPrince45 ROps) = false.
Proof. repeat split; cbn; lra. Qed.
