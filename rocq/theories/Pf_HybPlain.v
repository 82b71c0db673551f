(** Proofs of the property that hybrid solves without events are plain adaptive solves. *)
From Coq Require Import ZArith QArith Qreals Reals Lra Lia String List Bool Sorted.
From Verif Require Import Num Py Tensor M_Constants M_SolversOde M_Utils M_Interp M_Odeint.
From Verif Require Import Spec_Ode Spec_Trees Spec_RK Spec_Norm Spec_Adaptive Spec_Hybrid.
From Verif Require Import L_Base L_Fixed L_Vec L_Steps L_Tables L_Steps2 L_Interp L_Utils L_Fixed2 L_Adaptive L_Run.
From Verif Require Import L_Adaptive2 L_Nan L_Hybrid L_Hybrid2 Pf_Adaptive Pf_Hybrid Pf_Inv.
From Verif Require Pf_AdGrad.
Import ListNotations.
Local Notation length := List.length.
Local Open Scope R_scope.

Lemma mbind_ext {E A B} (m : M E A) (k k' : A -> M E B) : (forall a, k a = k' a) -> mbind m k = mbind m k'.
Proof. intros H. unfold mbind. destruct (snd m); auto. now rewrite H. Qed.
Lemma mb_assoc {E A B C} (m : M E A) (g : A -> M E B) (l : B -> M E C) : mbind (mbind m g) l = mbind m (fun a => mbind (g a) l).
Proof.
  unfold mbind. destruct m as [lg [a|e|]]; cbn [fst snd]; auto. destruct (g a) as [lg' [b|e|]]; cbn [fst snd]; auto.
  now rewrite app_assoc.
Qed.
Lemma mb_ret {E A B} (a : A) (g : A -> M E B) : mbind (mret a) g = g a.
Proof. unfold mbind, mret. cbn. now destruct (g a). Qed.
Lemma mb_lift {E A B} (a : A) (g : A -> M E B) : mbind (mlift (Ok a)) g = g a.
Proof. unfold mbind, mlift. cbn. now destruct (g a). Qed.

Section Same.
Variables (f : R -> list R -> list R) (s : solver ROps (vec ROps)) (cbs : list cbk) (T atol rtol etol : R) (ip : option (list R)) (semi : option nat) (js : nat).
Hypothesis Hq : forall t y, ~ fires cbs t y.
Hypothesis Hj : (1 <= js)%nat.
Let p := @MkP ROps f s T [T] atol rtol ip true semi.
Let hp := @MkHP ROps f s (mkcbs cbs) T [T] atol rtol etol semi.

Lemma loop_end fuel (hst : @hstate ROps) (ast : @astate ROps) : h_t hst = a_t ast -> h_times hst = a_times ast -> h_sol hst = a_sol ast -> a_t ast = T ->
  @hybrid_loop ROps fuel hp 0 js hst = @adaptive_loop ROps fuel p ast.
Proof.
  intros E1 E2 E3 E4. destruct fuel; cbn [hybrid_loop adaptive_loop hp p hp_T p_T]; rewrite E1, E4, E2, E3;
  change (@nltb ROps T T) with (Rltb T T); destruct (Rltb_spec T T); try lra; reflexivity.
Qed.
Lemma accept_same t dt x k1 times sol h f_new x_new stages : t + h <= T ->
  @accept_out ROps p (@MkA ROps t dt x k1 0 times sol) h f_new x_new stages =
  Ok (if @neqb ROps (@nadd ROps t h) T then 1%nat else 0%nat, times ++ [@nadd ROps t h], sol ++ [x_new]).
Proof.
  intros Hh. unfold accept_out. cbn [a_t a_x a_ck a_times a_sol a_k1 p p_interp p_t_eval p_all].
  destruct ip as [bm|]; [|cbn [rbind pyget nth_error]; now rewrite orb_true_r]. cbn [length Nat.sub interp_loop nth_error].
  change (@nltb ROps T (@nadd ROps t h)) with (Rltb T (t + h)). destruct (Rltb_spec T (t + h)); [lra|]. cbn [rbind pyget nth_error]. now rewrite orb_true_r.
Qed.
Lemma loop_same fuel : forall t dt x k1 times sol,
  @hybrid_loop ROps fuel hp 0 js (@MkH ROps t dt x (Some k1) 0 None times sol) = @adaptive_loop ROps fuel p (@MkA ROps t dt x k1 0 times sol).
Proof.
  induction fuel as [|fuel IH]; intros t dt x k1 times sol; cbn [hybrid_loop adaptive_loop]; cbn [h_t a_t hp p hp_T p_T];
    (destruct (0 <? js)%nat eqn:Ej; [|apply Nat.ltb_ge in Ej; lia]); change (@nltb ROps t T) with (Rltb t T);
    destruct (Rltb_spec t T) as [Ht|Ht]; cbn [andb]; try reflexivity.
  unfold hybrid_iter, adaptive_iter, hybrid_attempt, attempt_dt. cbn [h_t h_dt h_ck h_old a_t a_dt a_ck hp p hp_T p_T hp_t_eval p_t_eval nth_error p_interp].
  set (h := if @nltb ROps T (t + dt) then T - t else dt).
  assert (Hh : t + h <= T).
  { unfold h. change (@nltb ROps T (t + dt)) with (Rltb T (t + dt)). destruct (Rltb_spec T (t + dt)); lra. }
  change (@nltb ROps T (@nadd ROps t (if @nltb ROps T (@nadd ROps t dt) then @nsub ROps T t else dt))) with (Rltb T (t + h)).
  destruct (Rltb_spec T (t + h)) as [C|_]; [lra|].
  change (if @nltb ROps T (@nadd ROps t dt) then @nsub ROps T t else dt) with h.
  cbn [h_x a_x h_k1 a_k1 hp_solver p_solver hp_f p_f hp_cbs]. rewrite !mb_assoc. apply mbind_ext. intros [? ? ?|f_new x_new x_err stages]; [reflexivity|].
  pose proof (proj2 (triggered_flags_f cbs (t + h) x_new) (Hq (t + h) x_new)) as Hn.
  match goal with |- mbind (if ?c then _ else _) _ = _ => assert (Hc : c = false) by exact Hn; rewrite Hc; clear Hc end.
  cbv zeta. cbn [hp_atol hp_rtol hp_semi p_atol p_rtol p_semi hp p h_times h_sol a_times a_sol a_ck].
  set (ra := @error_ratio ROps atol rtol semi x x_new x_err).
  destruct (@nleb ROps ra (@nQ ROps 1)) eqn:Ea.
  - rewrite (accept_same t dt x k1 times sol h f_new x_new stages Hh). rewrite !mb_assoc, !mb_ret, !mb_lift.
    destruct (@neqb ROps (@nadd ROps t h) T) eqn:Eh; cbv iota; rewrite !mb_ret; [|apply IH].
    assert (ET : t + h = T) by (apply Reqb_true; exact Eh).
    apply loop_end; [reflexivity..|exact ET].
  - rewrite !mb_assoc, !mb_ret. cbv iota. rewrite ?mb_ret. apply IH.
Qed.
End Same.

(** With two times (start and end), callbacks that never fire and any adaptive solver, odeint_hybrid makes the same calls of the field and
    has the same outcome as odeint with all evaluations returned, whatever the event tolerance, the priority and the interpolator are. *)
Lemma C188_plain_partial_pf :
  forall fuel f x t0 T j_span s cbs atol rtol etol jump_first interp save_at semi,
  s_fixed s = false -> t0 <= T -> (1 <= j_span)%nat -> (forall t y, ~ fires cbs t y) ->
  @odeint_hybrid ROps fuel f x [t0; T] j_span s (mkcbs cbs) atol rtol etol jump_first semi =
  @odeint ROps fuel f x (@TTensor ROps [t0; T]) s atol rtol interp true save_at semi.
Proof.
  intros fuel f x t0 T js s cbs atol rtol etol jf interp save semi Hs Ht Hj Hq. unfold odeint_hybrid, odeint, prep_time. cbn [ts_list pyget nth_error rbind].
  change (@nltb ROps T t0) with (Rltb T t0). destruct (Rltb_spec T t0) as [C|_]; [lra|]. rewrite !mb_lift, Hs. cbn [pyget nth_error pylast rev app]. rewrite !mb_lift.
  cbv zeta. pose proof (proj2 (triggered_flags_f cbs t0 x) (Hq t0 x)) as Hn.
  match goal with |- context [if ?c then mbind _ _ else mret (x, 0%nat)] => assert (Hc : c = false) by exact Hn; rewrite Hc; clear Hc end.
  assert (Ej : (if jf then @mret (num ROps * vec ROps) _ (x, 0%nat) else mret (x, 0%nat)) = mret (x, 0%nat)) by now destruct jf. rewrite Ej, mb_ret.
  apply mbind_ext. intros k1. apply mbind_ext. intros dt. unfold adaptive_odeint. cbn [pyget nth_error pylast rev app skipn]. rewrite !mb_lift. cbv zeta.
  apply loop_same; auto.
Qed.

(** In reversed time odeint_hybrid does not integrate at all: it returns the initial state as the only output. *)
Lemma C188_reversed_refuted_pf :
  forall fuel f x t0 T j_span s cbs atol rtol etol jump_first semi, T < t0 -> (forall t y, ~ fires cbs t y) ->
  snd (@odeint_hybrid ROps fuel f x [t0; T] j_span s (mkcbs cbs) atol rtol etol jump_first semi) = Ok ([t0], [x]).
Proof.
  intros fuel f x t0 T js s cbs atol rtol etol jf semi Ht Hq.
  destruct (init_step_value f (f t0 x) x t0 (s_order s) atol rtol) as (h & lg & E & _).
  rewrite (@hybrid_start_any ROps fuel f x [t0; T] js s (mkcbs cbs) atol rtol etol jf semi t0 T h); auto.
  - destruct fuel; cbn [hybrid_loop h_t hp_T]; change (@nltb ROps t0 T) with (Rltb t0 T); destruct (Rltb_spec t0 T); try lra; reflexivity.
  - apply triggered_flags_f, Hq.
  - now rewrite E.
Qed.

Definition no_field : R -> list R -> list R := fun _ _ => [0].
Section Twice.
Let s := DormandPrince45 ROps.
Let tol := 1 / 1000.
Let HB : builtin_pair s (to_R_rows q_dopri5) (to_R qb5_dopri5) (to_R qb4_dopri5). Proof. left; auto. Qed.
Let Hf : field_on 1 no_field. Proof. intros t y _. reflexivity. Qed.
Lemma flow1 rows b t h : erk_step rows b no_field t h [1] = [1].
Proof. now apply (erk_step_equilibrium 1). Qed.
Lemma rat0 t h : hrat (to_R_rows q_dopri5) (to_R qb5_dopri5) (to_R qb4_dopri5) no_field tol tol None t h [1] = 0.
Proof.
  unfold hrat. rewrite !flow1. unfold error_ratio, vsub, vdiv, vmax, vabs. cbn [map map2]. rewrite Pf_AdGrad.hairer1. rops.
  replace (1 - 1) with 0 by ring. unfold Rdiv at 1. rewrite Rmult_0_l. apply Rabs_R0.
Qed.
Variables (d etol : R).
Hypothesis Hd : 0 < d.
Let hp := @MkHP ROps no_field s (mkcbs []) (2 * d) [d; 2 * d] tol tol etol None.
Lemma iter0 t dt ck times sol h old ck' : @hybrid_attempt ROps hp (@MkH ROps t dt [1] (Some [0]) ck None times sol) = (h, old, ck') ->
  snd (@hybrid_iter ROps hp (@MkH ROps t dt [1] (Some [0]) ck None times sol)) =
  Ok (@MkH ROps (t + h) (10 * match old with Some o => o - h | None => h end) [1] (Some [0]) ck' None (times ++ [t + h]) (sol ++ [[1]])).
Proof.
  intros Ha. rewrite (hybrid_iter_quiet s _ _ _ HB 1 no_field Hf [] (2 * d) [d; 2 * d] tol tol etol None _ h old ck'); [|split; [reflexivity|right; reflexivity]|exact Ha|intros (c & [] & _)].
  cbn [h_t h_x h_k1 h_times h_sol]. rewrite rat0. cbv zeta. destruct (Rleb_spec 0 1) as [_|C]; [|lra]. rewrite !flow1. do 2 f_equal.
  unfold hnext. rewrite adapt_factor. unfold factor_of. destruct (Reqb_spec 0 0) as [_|C]; [|congruence].
  cbn [s s_max_factor DormandPrince45 mk_solver]. change (@nQ ROps 10) with (Q2R 10). replace (Q2R 10) with 10 by (unfold Q2R; cbn; lra). destruct old; ring.
Qed.
Ltac att := unfold hybrid_attempt; cbn [h_t h_dt h_ck h_old hp hp_T hp_t_eval nth_error Nat.add]; cbv zeta; rops;
  repeat match goal with |- context [Rltb ?a ?b] => destruct (Rltb_spec a b); try (exfalso; lra) end.
Lemma run0 m : snd (@hybrid_loop ROps (3 + m) hp 0 1 (@MkH ROps 0 d [1] (Some [0]) 0 None [0] [[1]])) = Ok ([0; d; d; 2 * d], [[1]; [1]; [1]; [1]]).
Proof.
  assert (E1 : snd (@hybrid_iter ROps hp (@MkH ROps 0 d [1] (Some [0]) 0 None [0] [[1]])) = Ok (@MkH ROps d (10 * d) [1] (Some [0]) 0 None [0; d] [[1]; [1]])).
  { rewrite (iter0 0 d 0 [0] [[1]] d None 0) by (att; reflexivity). rewrite Rplus_0_l. reflexivity. }
  assert (E2 : snd (@hybrid_iter ROps hp (@MkH ROps d (10 * d) [1] (Some [0]) 0 None [0; d] [[1]; [1]])) =
    Ok (@MkH ROps d (10 * d) [1] (Some [0]) 1 None [0; d; d] [[1]; [1]; [1]])).
  { rewrite (iter0 d (10 * d) 0 [0; d] [[1]; [1]] 0 (Some d) 1).
    2:{ att. f_equal. f_equal; [|f_equal]; lra. }
    rewrite Rplus_0_r. do 2 f_equal. lra. }
  assert (E3 : snd (@hybrid_iter ROps hp (@MkH ROps d (10 * d) [1] (Some [0]) 1 None [0; d; d] [[1]; [1]; [1]])) =
    Ok (@MkH ROps (2 * d) (10 * d) [1] (Some [0]) 1 None [0; d; d; 2 * d] [[1]; [1]; [1]; [1]])).
  { rewrite (iter0 d (10 * d) 1 [0; d; d] [[1]; [1]; [1]] d None 1).
    2:{ att. f_equal. f_equal. lra. }
    replace (d + d) with (2 * d) by ring. reflexivity. }
  rewrite (@hsteps_loop ROps 3 hp _ (@MkH ROps (2 * d) (10 * d) [1] (Some [0]) 1 None [0; d; d; 2 * d] [[1]; [1]; [1]; [1]])).
  - destruct m; cbn [hybrid_loop h_t hp hp_T]; change (@nltb ROps (2 * d) (2 * d)) with (Rltb (2 * d) (2 * d)); destruct (Rltb_spec (2 * d) (2 * d)); try lra; reflexivity.
  - cbn [hsteps h_t]. change (hp_T hp) with (2 * d). change (@nltb ROps) with Rltb.
    destruct (Rltb_spec 0 (2 * d)); [|lra]. rewrite E1. cbn [h_t]. destruct (Rltb_spec d (2 * d)); [|lra]. rewrite E2. cbn [h_t].
    destruct (Rltb_spec d (2 * d)); [|lra]. rewrite E3. reflexivity.
  - lia.
Qed.
End Twice.

(** With an inner time that a step meets by itself, odeint_hybrid without callbacks adds a step of length zero and returns that time twice;
    odeint never does so. *)
Lemma C188_grid_refuted_pf :
  exists (f : R -> list R -> list R) (x : list R) (t1 T : R), increasing [0; t1; T] /\ field_on 1 f /\
  (forall fuel etol, (3 <= fuel)%nat ->
    snd (@odeint_hybrid ROps fuel f x [0; t1; T] 1 (DormandPrince45 ROps) (mkcbs []) (1 / 1000) (1 / 1000) etol true None) =
      Ok ([0; t1; t1; T], [x; x; x; x])) /\
  (forall fuel times sol, snd (@odeint ROps fuel f x (@TTensor ROps [0; t1; T]) (DormandPrince45 ROps) (1 / 1000) (1 / 1000) false true [] None) = Ok (times, sol) ->
     increasing times) /\
  exists fuel r, snd (@odeint ROps fuel f x (@TTensor ROps [0; t1; T]) (DormandPrince45 ROps) (1 / 1000) (1 / 1000) false true [] None) = Ok r.
Proof.
  destruct (init_step_value no_field [0] [1] 0 5 (1 / 1000) (1 / 1000)) as (d & lg & E & Hd & _).
  assert (HB : builtin_pair (DormandPrince45 ROps) (to_R_rows q_dopri5) (to_R qb5_dopri5) (to_R qb4_dopri5)) by (left; auto).
  assert (Hf : field_on 1 no_field) by (intros t y _; reflexivity).
  assert (Hi : increasing [0; d; 2 * d]).
  { apply increasing_sorted. repeat constructor; lra. }
  exists no_field, [1], d, (2 * d). split; [exact Hi|]. split; [exact Hf|]. split; [|split].
  - intros fuel etol Hfu. rewrite (@hybrid_start_any ROps fuel no_field [1] [0; d; 2 * d] 1 _ (mkcbs []) (1 / 1000) (1 / 1000) etol true None 0 (2 * d) d); auto.
    + replace fuel with (3 + (fuel - 3))%nat by lia. now apply run0.
    + cbn [s_order DormandPrince45 mk_solver]. change (no_field 0 [1]) with [0]. now rewrite E.
  - intros fuel times sol Hr. now apply (C11_all_evaluations_pf fuel _ _ _ _ 1 no_field [1] [0; d; 2 * d] _ _ _ _ _ _ _ 0 HB Hf eq_refl Hi ltac:(cbn; lia)) in Hr.
  - apply (C84_returns_pf _ _ _ _ 1 no_field [1] 0 d [2 * d] _ _ _ _ _ _ HB Hf eq_refl Hi); auto; try lra; try discriminate.
Qed.

(** The hypotheses of the equality are met by dopri5 and a callback that never fires. *)
Lemma C188_ex_pf :
  s_fixed (DormandPrince45 ROps) = false /\ forall t (y : list R), ~ fires [((fun _ _ => false), (fun _ y => y))] t y.
Proof. split; [reflexivity|]. intros t y (c & [<-|[]] & H). discriminate. Qed.
