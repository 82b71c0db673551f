(** Integer time spans and lists of times. *)
From Coq Require Import ZArith QArith Qreals Reals Lra Lia List Bool.
From Verif Require Import Num Py Tensor M_Constants M_SolversOde M_Utils M_Interp M_Odeint M_Dtype M_Cast.
From Verif Require Import Spec_Ode Spec_Trees Spec_RK Spec_Norm Spec_Adaptive.
From Verif Require Import L_Base L_Fixed L_Vec L_Steps L_Steps2 L_Tables L_Utils L_Fixed2 L_Adaptive L_Adaptive2 L_Hybrid L_Nan L_Adaptive3 L_Adaptive4 Pf_Fixed Pf_Adaptive.
Import ListNotations.
Local Notation length := List.length.
Local Open Scope R_scope.

(** Conversion of a real number to an integer dtype *)
Definition to_integer (a : R) : R := if Rlt_dec a 0 then - IZR (Int_part (- a)) else IZR (Int_part a).

Lemma to_integer_0 a : 0 <= a < 1 -> to_integer a = 0.
Proof.
  intros H. unfold to_integer. destruct (Rlt_dec a 0); [lra|].
  unfold Int_part. replace (up a) with 1%Z; [reflexivity|]. apply tech_up; cbn; lra.
Qed.

(** The entries of v in units of the tolerances at x *)
Definition in_tolerances (atol rtol : R) (v x : list R) : list R := map2 Rdiv v (map (fun a => atol + Rabs a * rtol) x).

(** The first step size of an integer time span is 0 unless the slope is tiny. *)
Definition stalls (atol rtol : R) (slope x : list R) : Prop :=
  rms (in_tolerances atol rtol x x) < 1 / 100000 \/ rms (in_tolerances atol rtol slope x) < 1 / 100000 \/
  1 / 100 < rms (in_tolerances atol rtol slope x).

Lemma rpw_nn a b : 0 <= Rpw a b.
Proof. unfold Rpw. destruct (Req_EM_T a 0); [destruct (Req_EM_T b 0); lra|]. unfold Rpower. left. apply exp_pos. Qed.

Lemma init_cast_zero f (f0 x0 : rvec) t0 order atol rtol : stalls atol rtol f0 x0 ->
  snd (@init_step_cast ROps to_integer f f0 x0 t0 order atol rtol) = Ok 0.
Proof.
  intros H. unfold init_step_cast. cbv zeta. unfold vdiv. rewrite !hairer_rms. rops.
  unfold stalls, in_tolerances in H.
  set (scale := map (fun a => atol + Rabs a * rtol) x0) in *.
  set (d0 := rms (map2 Rdiv x0 scale)) in *. set (d1 := rms (map2 Rdiv f0 scale)) in *.
  assert (Hd0 : 0 <= d0) by apply rms_nonneg. assert (Hd1 : 0 <= d1) by apply rms_nonneg.
  set (h0 := if Rltb d0 (Q2R (1 # 100000)) || Rltb d1 (Q2R (1 # 100000)) then to_integer (Q2R (1 # 1000000)) else Q2R (1 # 100) * d0 / d1).
  unfold call. rewrite mbind_Ok. cbn [fst snd mret app].
  match goal with |- context [Rleb (?a / h0) _] => set (d2 := a / h0) end.
  match goal with |- Ok (to_integer (Rmin ?a ?b)) = _ => set (h1 := b); set (h00 := a) end.
  f_equal. apply to_integer_0.
  assert (Z6 : to_integer (Q2R (1 # 1000000)) = 0) by (apply to_integer_0; qlit; lra).
  assert (Hh0 : 0 <= h0 /\ ((d0 < 1 / 100000 \/ d1 < 1 / 100000) -> h0 = 0)).
  { unfold h0. rewrite Z6. qlit. destruct (Rltb_spec d0 (1 / 100000)) as [G|G]; simpl; [split; [lra|reflexivity]|].
    destruct (Rltb_spec d1 (1 / 100000)) as [G'|G']; simpl; [split; [lra|reflexivity]|].
    split; [|intros [?|?]; lra]. unfold Rdiv. apply Rmult_le_pos; [lra|]. left. apply Rinv_0_lt_compat. lra. }
  destruct Hh0 as [Hh0 Hz]. assert (H1 : 0 <= h1).
  { unfold h1. rewrite Z6. destruct (_ && _); [apply Rmax_l|]. apply rpw_nn. }
  assert (H00 : h00 = 100 * h0) by (unfold h00; qlit; lra).
  split; [apply Rmin_glb; lra|].
  destruct H as [H|[H|H]].
  - eapply Rle_lt_trans; [apply Rmin_l|]. rewrite H00, (Hz (or_introl H)). lra.
  - eapply Rle_lt_trans; [apply Rmin_l|]. rewrite H00, (Hz (or_intror H)). lra.
  - eapply Rle_lt_trans; [apply Rmin_r|]. unfold h1. qlit.
    replace (Rleb d1 (1 / 1000000000000000)) with false by (symmetry; apply Rleb_false; lra). cbn [andb].
    assert (Hp : 1 / 100 < @pymax ROps d1 d2) by (unfold pymax; rops; destruct (Rltb_spec d1 d2); lra).
    assert (Hq : 0 < 1 / 100 / @pymax ROps d1 d2 < 1).
    { split; [apply Rdiv_lt_0_compat; lra|]. apply (Rmult_lt_reg_r (@pymax ROps d1 d2)); [lra|]. unfold Rdiv. rewrite Rmult_assoc, Rinv_l by lra. lra. }
    rewrite Rpw_pos by lra. unfold Rpower. apply (Rlt_le_trans _ (exp 0)); [|rewrite exp_0; lra]. apply exp_increasing.
    assert (Hl : ln (1 / 100 / @pymax ROps d1 d2) < 0) by (rewrite <- ln_1; apply ln_increasing; lra).
    assert (Hn : 0 < 1 / 1 / @nnat ROps (order + 1)).
    { rewrite nnat_INR. apply Rdiv_lt_0_compat; [lra|]. apply lt_0_INR. lia. }
    nra.
Qed.

Lemma erk_zero n rows b f t x : field_on n f -> length x = n -> erk_step rows b f t 0 x = x.
Proof.
  intros Hf Hx. apply (list_ext n); [now apply erk_step_len|assumption|]. intros i Hi. unfold erk_step.
  rewrite (nth_comb n) by (try assumption; intros k Hk; eapply erk_stages_len; eauto). lra.
Qed.

(** Loops started with step size 0 never end. *)
Section Stuck.
Variables (s : solver ROps (vec ROps)) (rows : list (R * list R)) (b bh : list R).
Hypothesis HB : builtin_pair s rows b bh.
Variables (n : nat) (f : R -> rvec -> rvec) (x : rvec).
Hypotheses (Hf : field_on n f) (Hx : length x = n).
Variables (T t0 t1 : R) (te : list R) (atol rtol : R).
Hypotheses (H01 : t0 < t1) (H0T : t0 < T).

Lemma adapt_zero r (a c d : R) o : @adapt_step ROps 0 r a c d o = 0.
Proof. unfold adapt_step. cbv zeta. rops. destruct (Reqb _ _); ring. Qed.

Section Adaptive.
Variables (bmid : option (list R)) (all : bool) (semi : option nat).
Local Notation p := (@MkP ROps f s T (t1 :: te) atol rtol bmid all semi).

Lemma stuck_iter times sol : exists times' sol',
  snd (@adaptive_iter ROps p (@MkA ROps t0 0 x (f t0 x) 0 times sol)) = Ok (@MkA ROps t0 0 x (f t0 x) 0 times' sol').
Proof.
  assert (Ea : @attempt_dt ROps p (@MkA ROps t0 0 x (f t0 x) 0 times sol) = (0, None)).
  { unfold attempt_dt. cbn [a_t a_dt p_T p_t_eval a_ck nth_error p_interp]. rops.
    replace (Rltb T (t0 + 0)) with false by (symmetry; apply Rltb_false; lra).
    replace (Rltb t1 (t0 + 0)) with false by (symmetry; apply Rltb_false; lra). reflexivity. }
  unfold adaptive_iter. rewrite Ea. cbn [p_solver p_f p_atol p_rtol p_semi a_x a_t a_k1 a_ck a_times a_sol].
  pose proof (p_step s rows b bh (builtin_embedded _ _ _ _ HB) n f Hf x t0 0 Hx) as Es. cbn zeta in Es.
  rewrite (erk_zero n) in Es by assumption.
  set (e := @vsub ROps _ _) in Es. set (stg := erk_stages rows f t0 0 x) in Es. rewrite Rplus_0_r in Es.
  enough (G : exists times' sol', snd (@mbind (R * rvec) _ _ (if @nleb ROps (@error_ratio ROps atol rtol semi x x e) n1
      then mlift (@accept_out ROps p (@MkA ROps t0 0 x (f t0 x) 0 times sol) 0 (f t0 x) x stg)
      else mret (0%nat, times, sol)) (fun out => let '(ck, times, sol) := out in
        mret (@MkA ROps (if @nleb ROps (@error_ratio ROps atol rtol semi x x e) n1 then t0 + 0 else t0)
           (@adapt_step ROps 0 (@error_ratio ROps atol rtol semi x x e) (s_safety s) (s_min_factor s) (s_max_factor s) (s_order s))
           (if @nleb ROps (@error_ratio ROps atol rtol semi x x e) n1 then x else x)
           (if @nleb ROps (@error_ratio ROps atol rtol semi x x e) n1 then f t0 x else f t0 x) ck times sol)))
      = Ok (@MkA ROps t0 0 x (f t0 x) 0 times' sol')).
  { destruct G as (times' & sol' & G). exists times', sol'. refine (eq_trans (snd_bind_ok _ _ _ Es) _). exact G. }
  assert (Eacc : exists times' sol', @accept_out ROps p (@MkA ROps t0 0 x (f t0 x) 0 times sol) 0 (f t0 x) x stg = Ok (0%nat, times', sol')).
  { unfold accept_out. cbn [p_interp a_t a_x a_ck a_k1 a_times a_sol p_t_eval p_all].
    assert (Ei : (match bmid with
         | None => Ok (0%nat, times, sol)
         | Some bmid => @interp_loop ROps (length (t1 :: te) - 0) bmid (t1 :: te) t0 0 x (f t0 x) (f t0 x) x stg 0 times sol
         end) = Ok (0%nat, times, sol)).
    { destruct bmid; [|reflexivity]. cbn [length Nat.sub interp_loop nth_error]. rops.
      replace (Rltb t1 (t0 + 0)) with false by (symmetry; apply Rltb_false; lra). reflexivity. }
    rbw Ei. cbn [rbind]. unfold pyget. cbn [nth_error rbind]. rops.
    replace (Reqb (t0 + 0) t1) with false by (symmetry; apply Reqb_false; lra). cbn [orb]. destruct all; eauto. }
  destruct Eacc as (times' & sol' & Eacc).
  destruct (@nleb ROps _ _).
  - rewrite snd_mbind, snd_mlift. rewrite Eacc. cbn [rbind snd mret]. rewrite adapt_zero, Rplus_0_r. eauto.
  - rewrite mbind_Ok || idtac. unfold mret at 1. unfold mbind. cbn [snd fst mret]. rewrite adapt_zero. eauto.
Qed.

Lemma stuck_loop fuel : forall times sol, snd (@adaptive_loop ROps fuel p (@MkA ROps t0 0 x (f t0 x) 0 times sol)) = OutOfFuel.
Proof.
  induction fuel as [|fuel IH]; intros times sol; cbn [adaptive_loop a_t p_T]; rops;
    replace (Rltb t0 T) with true by (symmetry; apply Rltb_true; lra); [reflexivity|].
  destruct (stuck_iter times sol) as (times' & sol' & E). refine (eq_trans (snd_bind_ok _ _ _ E) _). apply IH.
Qed.
End Adaptive.

Section Hybrid.
Variables (cbs : list (@callback ROps)) (etol : R) (semi : option nat) (j_span : nat).
Hypothesis Hc : forall cb, In cb cbs -> check_event cb t0 x = false.
Hypothesis Hj : (1 <= j_span)%nat.
Local Notation p := (@MkHP ROps f s cbs T (t1 :: te) atol rtol etol semi).

Lemma quiet : triggered (event_flags cbs t0 x) (map (fun _ => false) cbs) = false.
Proof.
  unfold triggered. replace (count_true _) with 0%nat; [reflexivity|]. symmetry. unfold event_flags.
  clear -Hc. induction cbs as [|c l IH]; [reflexivity|]. cbn [map map2].
  rewrite (Hc c) by now left. cbn. apply IH. intros; apply Hc. now right.
Qed.

Lemma stuck_hybrid fuel : forall times sol,
  snd (@hybrid_loop ROps fuel p 0 j_span (@MkH ROps t0 0 x (Some (f t0 x)) 0 None times sol)) = OutOfFuel.
Proof.
  assert (EI : forall times sol, exists times' sol', snd (@hybrid_iter ROps p (@MkH ROps t0 0 x (Some (f t0 x)) 0 None times sol)) =
    Ok (@MkH ROps t0 0 x (Some (f t0 x)) 0 None times' sol')).
  { intros times sol.
    assert (Ea : @hybrid_attempt ROps p (@MkH ROps t0 0 x (Some (f t0 x)) 0 None times sol) = (0, None, 0%nat)).
    { unfold hybrid_attempt. cbn [h_t h_dt hp_T hp_t_eval h_ck h_old nth_error]. rops.
      replace (Rltb T (t0 + 0)) with false by (symmetry; apply Rltb_false; lra).
      replace (Rltb t1 (t0 + 0)) with false by (symmetry; apply Rltb_false; lra). reflexivity. }
    unfold hybrid_iter. rewrite Ea. cbn [hp_solver hp_f hp_atol hp_rtol hp_semi hp_cbs hp_etol h_x h_t h_k1 h_times h_sol].
    pose proof (p_step s rows b bh (builtin_embedded _ _ _ _ HB) n f Hf x t0 0 Hx) as Es. cbn zeta in Es.
    rewrite (erk_zero n) in Es by assumption. rewrite Rplus_0_r in Es.
    match goal with |- exists _ _, ?L = _ => eassert (EQ : L = _) end.
    { refine (eq_trans (snd_bind_ok _ _ _ Es) _). cbn beta iota. rops. rewrite Rplus_0_r, quiet.
      unfold mret. cbn [snd]. rewrite adapt_zero. reflexivity. }
    rewrite EQ. destruct (Rleb _ _); eauto. }
  induction fuel as [|fuel IH]; intros times sol; cbn [hybrid_loop h_t hp_T]; rops;
    (replace (Rltb t0 T) with true by (symmetry; apply Rltb_true; lra));
    (replace (0 <? j_span)%nat with true by (symmetry; apply Nat.ltb_lt; lia)); cbn [andb]; [reflexivity|].
  destruct (EI times sol) as (times' & sol' & E). refine (eq_trans (snd_bind_ok _ _ _ E) _). apply IH.
Qed.
End Hybrid.
End Stuck.


(** C149.  If the dtype of the tensor made of save_at is that of t_span the list is as good as a tensor. *)
Lemma C149_same_dtype_partial_pf : forall fuel f x td ts (s : solver ROps (vec ROps)) atol rtol interp all semi save_at,
  s_fixed s = true -> save_dtype save_at = td ->
  odeint_save f x td ts s save_at = @odeint ROps fuel f x ts s atol rtol interp all (save_values save_at) semi.
Proof.
  intros fuel f x td ts s atol rtol interp all semi save_at Hs Hd. unfold odeint_save, odeint. f_equal.
  apply FunctionalExtensionality.functional_extensionality. intros [f_ t_span]. rewrite Hs. unfold fixed_odeint_save.
  replace (tdtype_eqb (save_dtype save_at) td) with true by (rewrite Hd; destruct td as [[]|]; reflexivity).
  destruct (save_values save_at); reflexivity.
Qed.

Lemma save_mismatch f x td ts (s : solver ROps (vec ROps)) save_at r :
  save_values save_at <> [] -> tdtype_eqb (save_dtype save_at) td = false ->
  snd (odeint_save f x td ts s save_at) <> Ok r.
Proof.
  intros Hl Hd H. unfold odeint_save in H. rewrite snd_mbind, snd_mlift in H.
  destruct (prep_time f ts) as [[f_ t_span]| |]; try discriminate. cbn [rbind] in H. unfold fixed_odeint_save in H. rewrite Hd in H.
  destruct (save_values save_at) as [|a l]; [congruence|]. cbv zeta iota in H.
  destruct (negb _); [discriminate|]. rewrite !snd_mbind, !snd_mlift in H.
  destruct (pyget t_span 0); try discriminate. cbn [rbind] in H. rewrite ?snd_mbind, ?snd_mlift in H.
  destruct (pylast t_span); try discriminate. cbn [rbind] in H. rewrite ?snd_mbind, ?snd_mlift in H.
  destruct (pyget t_span 1); discriminate.
Qed.

(** C149.  A list of floats never works with a float64 t_span, a list of integers never with a floating point t_span,
    although the tensor of the same times does: for every part of the grid (picked by mask) the states are returned. *)
Lemma C149_list_refuted_pf : forall f x ts (s : solver ROps (vec ROps)) (l : list R), l <> [] ->
  (forall r, snd (@odeint_save ROps f x (FloatT Double) ts s (@SaveFloats ROps l)) <> Ok r) /\
  (forall d r, snd (@odeint_save ROps f x (FloatT d) ts s (@SaveInts ROps l)) <> Ok r) /\
  (forall r, snd (@odeint_save ROps f x Int64T ts s (@SaveFloats ROps l)) <> Ok r) /\
  (forall d t0 t1 te mask one lg, s_fixed s = true -> fixed_stepper (s_step s) f one lg ->
    ts = @TTensor ROps (t0 :: t1 :: te) -> separated (t0 :: t1 :: te) -> t0 <= t1 ->
    length mask = length (t0 :: t1 :: te) -> l = pick mask (t0 :: t1 :: te) ->
    snd (@odeint_save ROps f x d ts s (@SaveTensor ROps d l)) = Ok (l, pick mask (one_step_traj one x (t0 :: t1 :: te)))).
Proof.
  intros f x ts s l Hl. split; [|split; [|split]]; intros; try (apply save_mismatch; auto; fail).
  subst ts. rewrite (C149_same_dtype_partial_pf 0 f x d _ s 0 0 false false None) by auto. subst l. cbn [save_values].
  apply (C02_save_at_selects_pf 0 s f one lg); auto.
Qed.

(** The end of the grid 0, 1, 2 requested from Euler's method for x' = t + x *)
Lemma C149_ex_pf : let f := fun (t : R) (x : list R) => map (Rplus t) x in let ts := @TTensor ROps [0; 1; 2] in
  snd (@odeint_save ROps f [1] (FloatT Double) ts (Euler ROps) (@SaveTensor ROps (FloatT Double) [2])) = Ok ([2], [[5]]) /\
  snd (@odeint_save ROps f [1] (FloatT Float) ts (Euler ROps) (@SaveFloats ROps [2])) = Ok ([2], [[5]]) /\
  snd (@odeint_save ROps f [1] (FloatT Double) ts (Euler ROps) (@SaveFloats ROps [2])) = Err RuntimeError.
Proof.
  intros f ts.
  assert (T : forall d, snd (@odeint_save ROps f [1] d ts (Euler ROps) (@SaveTensor ROps d [2])) = Ok ([2], [[5]])).
  { intros d. destruct (C149_list_refuted_pf f [1] ts (Euler ROps) [2] ltac:(discriminate)) as (_ & _ & _ & H).
    refine (eq_trans (H d 0 1 [2] [false; false; true] (euler_one f) euler_log eq_refl (euler_stepper f) eq_refl grid3_separated _ eq_refl eq_refl) _); [lra|].
    unfold euler_one, vadd, vscale, f. cbn [one_step_traj pick map map2]. rops. repeat f_equal; lra. }
  split; [apply T|]. split; [exact (T (FloatT Float))|].
  unfold odeint_save. rewrite snd_mbind, snd_mlift. unfold prep_time. cbn [ts_list ts pyget nth_error rbind]. rops.
  replace (Rltb 1 0) with false by (symmetry; apply Rltb_false; lra). cbn [rbind]. unfold fixed_odeint_save.
  cbn [save_values save_dtype default_dtype tdtype_eqb].
  replace (forallb _ _) with true; [reflexivity|]. symmetry. apply assertion_separated.
  intros i j a c Hij Ha Hc. destruct i as [|[|i]], j as [|[|j]]; cbn in Ha, Hc; try discriminate; congruence.
Qed.

(** C150.  Fixed-step solves are not concerned by the dtype of the times, whatever the conversion is. *)
Lemma C150_fixed_partial_pf : forall cast fuel f x ts (s : solver ROps (vec ROps)) atol rtol interp all save_at semi,
  s_fixed s = true ->
  @odeint_cast ROps cast fuel f x ts s atol rtol interp all save_at semi =
  @odeint ROps fuel f x ts s atol rtol interp all save_at semi.
Proof.
  intros cast fuel f x ts s atol rtol interp all save_at semi Hs. unfold odeint_cast, odeint. rewrite Hs. reflexivity.
Qed.

(** C150.  The adaptive solves never return with integer times: the first step size is truncated to 0 and stays 0.  (By C14
    they return with floating point times for every field of linear growth.) *)
Lemma C150_adaptive_refuted_pf : forall s rows b bh n f x t0 t1 te atol rtol interp all save_at semi,
  builtin_pair s rows b bh -> field_on n f -> length x = n -> t0 < t1 -> t0 < last (t1 :: te) t0 ->
  stalls atol rtol (f t0 x) x ->
  forall fuel, snd (@odeint_cast ROps to_integer fuel f x (@TTensor ROps (t0 :: t1 :: te)) s atol rtol interp all save_at semi) = OutOfFuel.
Proof.
  intros s rows b bh n f x t0 t1 te atol rtol interp all save_at semi HB Hf Hx H01 H0T Hs fuel.
  assert (Hfx : s_fixed s = false) by (destruct HB as [(-> & _)|(-> & _)]; reflexivity).
  unfold odeint_cast. rewrite snd_mbind, snd_mlift. unfold prep_time. cbn [ts_list pyget nth_error rbind]. rops.
  replace (Rltb t1 t0) with false by (symmetry; apply Rltb_false; lra). cbn [rbind]. rewrite Hfx.
  rewrite snd_mbind, snd_mlift. cbn [pyget nth_error rbind]. unfold call at 1. rewrite snd_mbind. cbn [snd rbind].
  refine (eq_trans (snd_bind_ok _ _ _ (init_cast_zero f _ x t0 _ atol rtol Hs)) _).
  unfold adaptive_odeint. rewrite snd_mbind, snd_mlift. cbn [pyget nth_error rbind].
  rewrite snd_mbind, snd_mlift. replace (pylast _) with (@Ok R (last (t1 :: te) t0)) by (symmetry; exact (pylast_last (t0 :: t1 :: te) t0 ltac:(discriminate))).
  cbn [rbind skipn].
  apply (stuck_loop s rows b bh HB n); auto.
Qed.

(** C150.  The same for solves with events: no event at the start and a jump budget suffice. *)
Lemma C150_hybrid_refuted_pf : forall s rows b bh n f x t0 t1 te j_span (cbs : list (@callback ROps)) atol rtol etol jump_first semi,
  builtin_pair s rows b bh -> field_on n f -> length x = n -> t0 < t1 -> t0 < last (t1 :: te) t0 ->
  (forall cb, In cb cbs -> @check_event ROps cb t0 x = false) -> (1 <= j_span)%nat -> stalls atol rtol (f t0 x) x ->
  forall fuel, snd (@odeint_hybrid_cast ROps to_integer fuel f x (t0 :: t1 :: te) j_span s cbs atol rtol etol jump_first semi) = OutOfFuel.
Proof.
  intros s rows b bh n f x t0 t1 te j_span cbs atol rtol etol jump_first semi HB Hf Hx H01 H0T Hc Hj Hs fuel.
  unfold odeint_hybrid_cast. rewrite snd_mbind, snd_mlift. cbn [pyget nth_error rbind].
  rewrite snd_mbind, snd_mlift. replace (pylast _) with (@Ok R (last (t1 :: te) t0)) by (symmetry; exact (pylast_last (t0 :: t1 :: te) t0 ltac:(discriminate))).
  cbn [rbind skipn].
  rewrite (quiet x t0 cbs Hc).
  match goal with |- snd (mbind ?m _) = _ => replace m with (@mret (R * rvec) _ (x, 0%nat)) by (destruct jump_first; reflexivity) end.
  rewrite snd_mbind. cbn [mret snd rbind]. unfold call at 1. rewrite snd_mbind. cbn [snd rbind].
  refine (eq_trans (snd_bind_ok _ _ _ (init_cast_zero f _ x t0 _ atol rtol Hs)) _).
  apply (stuck_hybrid s rows b bh HB n); auto.
Qed.

(** x' = - x from 1 with the default tolerances over 0, 1, 2: floating point times work, integer times do not. *)
Lemma C150_ex_pf : let f := fun (_ : R) (x : list R) => map Ropp x in let ts := @TTensor ROps [0; 1; 2] in
  let s := DormandPrince45 ROps in
  (exists fuel r, snd (@odeint_cast ROps (fun a => a) fuel f [1] ts s (1/1000) (1/1000) false false [] None) = Ok r) /\
  (forall fuel, snd (@odeint_cast ROps to_integer fuel f [1] ts s (1/1000) (1/1000) false false [] None) = OutOfFuel).
Proof.
  intros f ts s. assert (HB : builtin_pair s (to_R_rows q_dopri5) (to_R qb5_dopri5) (to_R qb4_dopri5)) by (left; auto).
  assert (Hf : field_on 1 f) by (intros t x Hx; unfold f; now rewrite map_length).
  split.
  - rewrite odeint_cast_id.
    refine (C14_linear_growth_pf s _ _ _ 1 f 1 [1] 0 1 [2] (1/1000) (1/1000) false false [] None HB Hf eq_refl _ (le_n 1) _ _ _ _ _); try lra; try discriminate.
    + apply increasing_sorted. repeat constructor; lra.
    + intros t y B _ HB' Hb a Ha. apply in_map_iff in Ha. destruct Ha as (u & <- & Hu). rewrite Rabs_Ropp. specialize (Hb u Hu). lra.
  - intros fuel. refine (C150_adaptive_refuted_pf s _ _ _ 1 f [1] 0 1 [2] _ _ _ _ _ _ HB Hf eq_refl _ _ _ fuel); [lra|cbn; lra|].
    right. right. unfold in_tolerances, f. cbn [map map2]. rewrite Rabs_R1. unfold rms. cbn [map fold_right length INR].
    match goal with |- _ < sqrt ?e => replace e with 250000 by (cbn; field) end. replace 250000 with (500 * 500) by lra. rewrite sqrt_square; lra.
Qed.
