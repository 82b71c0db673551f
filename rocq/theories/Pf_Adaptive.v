(** Proofs of the properties of the adaptive solvers. *)
From Coq Require Import ZArith QArith Qreals Reals Lra Lia String List Bool Sorted Floats.
From Verif Require Import Num Py Tensor M_Constants M_SolversOde M_Utils M_Interp M_Odeint.
From Verif Require Import Spec_Ode Spec_Trees Spec_RK Spec_Norm Spec_Adaptive.
From Verif Require Import L_Base L_Fixed L_Vec L_Steps L_Tables L_Steps2 L_Interp L_Utils L_Fixed2 L_Adaptive L_Run.
From Verif Require Import L_Adaptive2 L_Term L_Growth L_Adaptive3 L_Adaptive4 L_Nan.
Import ListNotations.
Local Open Scope R_scope.

(** C08 (adaptive).  A dopri5 or tsit5 solve that returns has attempted some number m of steps
    (m iterations of the loop are enough, fewer are not) and has called the vector field exactly
    2 + 6 m times. *)
Lemma C08_adaptive_evaluations_pf :
  forall fuel s rows b bh f x t0 t1 ts atol rtol interp all save_at semi r,
  builtin_pair s rows b bh -> t0 <= t1 ->
  let solve k := @odeint ROps k f x (@TTensor ROps (t0 :: t1 :: ts)) s atol rtol interp all save_at semi in
  snd (solve fuel) = Ok r ->
  exists m, (m <= fuel)%nat /\ snd (solve m) = Ok r /\
    (forall k, (k < m)%nat -> snd (solve k) = OutOfFuel) /\
    List.length (fst (solve fuel)) = (2 + 6 * m)%nat.
Proof.
  intros fuel s rows b bh f x t0 t1 ts atol rtol interp all save_at semi r HP Hle solve Hr.
  destruct (odeint_calls s rows b bh (builtin_embedded _ _ _ _ HP) f atol rtol interp all semi 6 fuel x t0 t1 ts save_at r)
    as (m & H1 & H2 & H3 & H4); auto.
  { intros. now apply (builtin_calls s rows b bh). }
  exists m. split; auto. split; [|split; auto].
  unfold solve in *. rewrite H2; auto.
Qed.

(** C09.  Without interpolator (and without return_all_eval) an adaptive solve that returns has
    t_eval = t_span, one state per time, the first being the initial condition.
    [fuel] bounds the iterations of the while loop; the statement is about every run that
    returns. *)
Lemma C09_adaptive_times_pf :
  forall fuel s rows b bh n f x ts atol rtol save_at semi times sol,
  builtin_pair s rows b bh -> field_on n f -> List.length x = n ->
  increasing ts -> (2 <= List.length ts)%nat ->
  snd (@odeint ROps fuel f x (@TTensor ROps ts) s atol rtol false false save_at semi) = Ok (times, sol) ->
  times = ts /\ List.length sol = List.length ts /\ nth_error sol 0 = Some x.
Proof.
  intros fuel s rows b bh n f x ts atol rtol save_at semi times sol HP Hf Hx Hinc Hlen Hr.
  destruct ts as [|t0 [|t1 ts]]; simpl in Hlen; try lia. apply increasing_sorted in Hinc.
  destruct (odeint_run s rows b bh (builtin_embedded _ _ _ _ HP) n f Hf _ _ _ _ _ _ _ _ _ _ _ _ _ Hinc Hx Hr)
    as (times' & sol' & -> & -> & Hrun).
  pose proof (run_times _ _ _ _ _ Hrun eq_refl) as ->. apply run_lengths in Hrun.
  split; auto. split; auto. exact (f_equal S Hrun).
Qed.

(** C10.  The same with the 4th-order interpolator, whatever the number of requested times crossed
    by one step. *)
Lemma C10_interpolated_times_pf :
  forall fuel s rows b bh n f x ts atol rtol save_at semi times sol,
  builtin_pair s rows b bh -> field_on n f -> List.length x = n ->
  increasing ts -> (2 <= List.length ts)%nat ->
  snd (@odeint ROps fuel f x (@TTensor ROps ts) s atol rtol true false save_at semi) = Ok (times, sol) ->
  times = ts /\ List.length sol = List.length ts /\ nth_error sol 0 = Some x.
Proof.
  intros fuel s rows b bh n f x ts atol rtol save_at semi times sol HP Hf Hx Hinc Hlen Hr.
  destruct ts as [|t0 [|t1 ts]]; simpl in Hlen; try lia. apply increasing_sorted in Hinc.
  destruct (odeint_run s rows b bh (builtin_embedded _ _ _ _ HP) n f Hf _ _ _ _ _ _ _ _ _ _ _ _ _ Hinc Hx Hr)
    as (times' & sol' & -> & -> & Hrun).
  pose proof (run_times _ _ _ _ _ Hrun eq_refl) as ->. apply run_lengths in Hrun.
  split; auto. split; auto. exact (f_equal S Hrun).
Qed.

(** C10.  Every state returned with the interpolator (dopri5) is a state reached by accepted steps
    or the value, inside an accepted step, of the quartic interpolating both end states, both end
    slopes and the mid-point state of that step. *)
Lemma C10_interpolated_states_pf :
  forall fuel n f x t0 t1 ts atol rtol all save_at semi times sol,
  let rows := to_R_rows q_dopri5 in let b := to_R qb5_dopri5 in let bh := to_R qb4_dopri5 in
  let accepts := pair_accepts rows b bh f atol rtol semi in
  field_on n f -> List.length x = n -> increasing (t0 :: t1 :: ts) ->
  snd (@odeint ROps fuel f x (@TTensor ROps (t0 :: t1 :: ts)) (DormandPrince45 ROps) atol rtol true all save_at semi)
    = Ok (times, sol) ->
  forall i tc xc, nth_error times i = Some tc -> nth_error sol i = Some xc ->
  chain accepts t0 x tc xc \/
  exists t h y y', chain accepts t0 x t y /\ accepts t h y y' /\ t < tc < t + h /\
    xc = pair_dense rows b (construct_4th ROps) f t h y tc.
Proof.
  intros fuel n f x t0 t1 ts atol rtol all save_at semi times sol rows b bh accepts Hf Hx Hinc Hr i tc xc H1 H2.
  apply increasing_sorted in Hinc.
  destruct (odeint_run _ rows b bh dopri5_pair n f Hf _ _ _ _ _ _ _ _ _ _ _ _ _ Hinc Hx Hr)
    as (times' & sol' & -> & -> & Hrun).
  destruct i as [|i].
  - injection H1 as <-. injection H2 as <-. left. apply chain_nil.
  - cbn [nth_error] in *.
    destruct (run_outputs _ _ _ _ _ Hrun t0 x (chain_nil _ _) i tc xc H1 H2) as [H|(_ & t & y & h & y' & Ha & Hb & Hc & Hd)];
      [now left|right]. exists t, h, y, y'. auto.
Qed.

(** C11.  With return_all_eval the times are strictly increasing, start and end at the ends of
    t_span and contain all of t_span; there is one state per time. *)
Lemma C11_all_evaluations_pf :
  forall fuel s rows b bh n f x ts atol rtol interp save_at semi times sol d,
  builtin_pair s rows b bh -> field_on n f -> List.length x = n ->
  increasing ts -> (2 <= List.length ts)%nat ->
  snd (@odeint ROps fuel f x (@TTensor ROps ts) s atol rtol interp true save_at semi) = Ok (times, sol) ->
  increasing times /\ nth_error times 0 = nth_error ts 0 /\ last times d = last ts d /\
  (forall c, In c ts -> In c times) /\ List.length sol = List.length times /\ nth_error sol 0 = Some x.
Proof.
  intros fuel s rows b bh n f x ts atol rtol interp save_at semi times sol d HP Hf Hx Hinc Hlen Hr.
  destruct ts as [|t0 [|t1 ts]]; simpl in Hlen; try lia. apply increasing_sorted in Hinc.
  destruct (odeint_run s rows b bh (builtin_embedded _ _ _ _ HP) n f Hf _ _ _ _ _ _ _ _ _ _ _ _ _ Hinc Hx Hr)
    as (times' & sol' & -> & -> & Hrun).
  inversion Hinc as [|? ? Hs2 _]; subst.
  split. { apply increasing_sorted. constructor; [eapply run_sorted; eauto|].
    apply Forall_forall. intros c Hc. eapply run_after; eauto. }
  split; [reflexivity|]. split.
  { assert (Hne : times' <> []).
    { intros ->. destruct (run_req_in _ _ _ _ _ Hrun t1 (or_introl eq_refl)). }
    pose proof (run_last _ _ _ _ _ Hrun d ltac:(discriminate) Hs2 (run_le _ _ _ _ _ Hrun d Hs2)) as H.
    destruct times'; [congruence|]. exact H. }
  split. { intros c [<-|Hc]; [now left|right]. eapply run_req_in; eauto. }
  split; auto. simpl. f_equal. eapply run_lengths; eauto.
Qed.

(** C12.  Without interpolator, consecutive returned states are joined by a finite chain of steps of
    the embedded pair, contiguous in time, all of positive size and with scaled error norm at
    most 1. *)
Lemma C12_accepted_steps_pf :
  forall fuel s rows b bh n f x t0 t1 ts atol rtol all save_at semi times sol,
  builtin_pair s rows b bh -> field_on n f -> List.length x = n -> increasing (t0 :: t1 :: ts) ->
  snd (@odeint ROps fuel f x (@TTensor ROps (t0 :: t1 :: ts)) s atol rtol false all save_at semi) = Ok (times, sol) ->
  forall i ta xa tb xb,
    nth_error times i = Some ta -> nth_error sol i = Some xa ->
    nth_error times (S i) = Some tb -> nth_error sol (S i) = Some xb ->
    chain (pair_accepts rows b bh f atol rtol semi) ta xa tb xb.
Proof.
  intros fuel s rows b bh n f x t0 t1 ts atol rtol all save_at semi times sol HP Hf Hx Hinc Hr i ta xa tb xb H1 H2 H3 H4.
  apply increasing_sorted in Hinc.
  destruct (odeint_run s rows b bh (builtin_embedded _ _ _ _ HP) n f Hf _ _ _ _ _ _ _ _ _ _ _ _ _ Hinc Hx Hr)
    as (times' & sol' & -> & -> & Hrun).
  apply (run_chain _ _ _ _ _ Hrun eq_refl t0 x (chain_nil _ _) i); auto.
Qed.

(** C13.  An adaptive solve that returns is a path of accepted steps of positive size with strictly
    increasing ends, none beyond t_span[-1], the last one at t_span[-1]; without interpolator every
    requested time is the end of a step, so none is stepped over. *)
Lemma C13_no_overshoot_pf :
  forall fuel s rows b bh n f x t0 t1 ts atol rtol interp all save_at semi times sol,
  builtin_pair s rows b bh -> field_on n f -> List.length x = n -> increasing (t0 :: t1 :: ts) ->
  snd (@odeint ROps fuel f x (@TTensor ROps (t0 :: t1 :: ts)) s atol rtol interp all save_at semi) = Ok (times, sol) ->
  let T := last (t1 :: ts) t0 in
  exists ends xT,
    path (pair_accepts rows b bh f atol rtol semi) t0 x ends T xT /\
    increasing (t0 :: ends) /\ (forall e, In e ends -> e <= T) /\
    (interp = false -> forall c, In c (t1 :: ts) -> In c ends) /\
    (all = true -> forall e, In e ends -> In e times).
Proof.
  intros fuel s rows b bh n f x t0 t1 ts atol rtol interp all save_at semi times sol HP Hf Hx Hinc Hr T.
  apply increasing_sorted in Hinc.
  destruct (odeint_run s rows b bh (builtin_embedded _ _ _ _ HP) n f Hf _ _ _ _ _ _ _ _ _ _ _ _ _ Hinc Hx Hr)
    as (times' & sol' & -> & -> & Hrun).
  inversion Hinc as [|? ? Hs2 _]; subst.
  destruct (run_path _ _ _ _ _ Hrun Hs2) as (ends & xT & P & S1 & B & I1 & _ & I3).
  exists ends, xT. split; [exact P|]. split.
  { apply increasing_sorted. constructor; auto. apply Forall_forall. intros c Hc. now apply B. }
  split; [intros e He; now apply B|]. split.
  - intros Hi c Hc. apply I1; auto. unfold interp_on. now rewrite Hi.
  - intros Ha e He. right. auto.
Qed.

(** C13.  An adaptive solve on an increasing t_span never raises. *)
Lemma C13_never_raises_pf :
  forall fuel s rows b bh n f x t0 t1 ts atol rtol interp all save_at semi e,
  builtin_pair s rows b bh -> field_on n f -> List.length x = n -> increasing (t0 :: t1 :: ts) ->
  snd (@odeint ROps fuel f x (@TTensor ROps (t0 :: t1 :: ts)) s atol rtol interp all save_at semi) <> Err e.
Proof.
  intros fuel s rows b bh n f x t0 t1 ts atol rtol interp all save_at semi e HP Hf Hx Hinc.
  apply increasing_sorted in Hinc.
  exact (odeint_no_error s rows b bh (builtin_embedded _ _ _ _ HP) n f Hf _ _ _ _ _ _ _ _ _ _ _ _ Hinc Hx).
Qed.

(** C14.  If, on a set D of states that accepted steps do not leave, every step of size at most hm
    has error norm strictly below 1, the adaptive solve terminates: enough iterations make it
    return. *)
Lemma C14_termination_pf :
  forall s rows b bh n f x t0 t1 ts atol rtol interp all save_at semi (D : R -> list R -> Prop) hm,
  builtin_pair s rows b bh -> field_on n f -> List.length x = n -> increasing (t0 :: t1 :: ts) ->
  let T := last (t1 :: ts) t0 in
  let error t h y := scaled_error atol rtol semi y (erk_step rows b f t h y)
                       (minus_list (erk_step rows b f t h y) (erk_step rows bh f t h y)) in
  0 < hm -> D t0 x ->
  (forall t h y y', D t y -> List.length y = n -> 0 < h -> t + h <= T ->
     pair_accepts rows b bh f atol rtol semi t h y y' -> D (t + h) y') ->
  (forall t h y, D t y -> List.length y = n -> 0 < h <= hm -> t + h <= T -> error t h y < 1) ->
  exists fuel r,
    snd (@odeint ROps fuel f x (@TTensor ROps (t0 :: t1 :: ts)) s atol rtol interp all save_at semi) = Ok r.
Proof.
  intros s rows b bh n f x t0 t1 ts atol rtol interp all save_at semi D hm HP Hf Hx Hinc T error Hhm HD H1 H2.
  apply increasing_sorted in Hinc.
  exact (odeint_halts s rows b bh (builtin_embedded _ _ _ _ HP) n f Hf atol rtol interp all semi D hm x t0 t1 ts save_at
    Hinc Hx Hhm HD H1 H2).
Qed.

(** C14.  For every vector field of linear growth |f t x| <= L (1 + |x|), continuous or not, and
    atol > 0 the adaptive solve terminates. *)
Lemma C14_linear_growth_pf :
  forall s rows b bh n f L x t0 t1 ts atol rtol interp all save_at semi,
  builtin_pair s rows b bh -> field_on n f -> List.length x = n -> increasing (t0 :: t1 :: ts) ->
  (1 <= n)%nat -> semi <> Some 0%nat -> 0 < atol -> 0 <= rtol -> 0 <= L ->
  (forall t y B, List.length y = n -> 0 <= B -> bounded_by B y -> bounded_by (L * (1 + B)) (f t y)) ->
  exists fuel r,
    snd (@odeint ROps fuel f x (@TTensor ROps (t0 :: t1 :: ts)) s atol rtol interp all save_at semi) = Ok r.
Proof.
  intros s rows b bh n f L x t0 t1 ts atol rtol interp all save_at semi HP Hf Hx Hinc _ _ Ha Hr HL Hg.
  apply increasing_sorted in Hinc.
  exact (odeint_growth_halts s rows b bh (builtin_embedded _ _ _ _ HP) n f Hf atol rtol interp all semi L x t0 t1 ts save_at
    Hinc Hx HL Hg Ha Hr).
Qed.

(** A decay problem on [0; 1; 3] meets the hypotheses of C09-C14; by C14 its solve returns. *)
Lemma C14_ex_pf : 
  let f := fun (t : R) (x : list R) => map (fun a => - a) x in
  builtin_pair (DormandPrince45 ROps) (to_R_rows q_dopri5) (to_R qb5_dopri5) (to_R qb4_dopri5) /\
  field_on 2 f /\ increasing [0; 1; 3] /\
  (forall t y B, List.length y = 2%nat -> 0 <= B -> bounded_by B y -> bounded_by (1 * (1 + B)) (f t y)) /\
  exists fuel sol, snd (@odeint ROps fuel f [1; 2] (@TTensor ROps [0; 1; 3]) (DormandPrince45 ROps) (1/1000) (1/1000)
     false false [] None) = Ok ([0; 1; 3], sol) /\ List.length sol = 3%nat.
Proof.
  intros f.
  assert (HP : builtin_pair (DormandPrince45 ROps) (to_R_rows q_dopri5) (to_R qb5_dopri5) (to_R qb4_dopri5)).
  { left. auto. }
  assert (Hf : field_on 2 f) by (intros t x Hx; unfold f; now rewrite map_length).
  assert (Hi : increasing [0; 1; 3]).
  { apply increasing_sorted. repeat constructor; lra. }
  assert (Hg : forall t y B, List.length y = 2%nat -> 0 <= B -> bounded_by B y -> bounded_by (1 * (1 + B)) (f t y)).
  { intros t y B _ HB Hb a Ha. apply in_map_iff in Ha. destruct Ha as (u & <- & Hu). rewrite Rabs_Ropp.
    specialize (Hb u Hu). lra. }
  do 4 (split; [auto|]).
  destruct (C14_linear_growth_pf _ _ _ _ 2 f 1 [1; 2] 0 1 [3] (1/1000) (1/1000) false false [] None HP Hf eq_refl Hi
    ltac:(lia) ltac:(discriminate) ltac:(lra) ltac:(lra) ltac:(lra) Hg) as (fuel & [times sol] & Hr).
  destruct (C09_adaptive_times_pf fuel _ _ _ _ 2 f [1; 2] [0; 1; 3] (1/1000) (1/1000) [] None times sol HP Hf eq_refl Hi
    ltac:(simpl; lia) Hr) as (-> & H2 & _).
  exists fuel, sol. auto.
Qed.

(** ** Vector fields of one variable that ignore the state *)
Definition scalar_field (g : R -> R) : R -> list R -> list R := fun t _ => [g t].
Fixpoint dotp (w v : list R) : R :=
  match w, v with a :: w', c :: v' => a * c + dotp w' v' | _, _ => 0 end.

Lemma stages_scalar rows g t h x : erk_stages rows (scalar_field g) t h x = map (fun r => [g (t + fst r * h)]) rows.
Proof.
  unfold erk_stages, scalar_field.
  assert (G : forall rows acc, fold_left (fun (ks : list (list R)) (r : R * list R) => ks ++ [[g (t + fst r * h)]]) rows acc
    = acc ++ map (fun r => [g (t + fst r * h)]) rows).
  { clear. induction rows as [|r rows IH]; intros acc; simpl; [now rewrite app_nil_r|].
    rewrite IH, <- app_assoc. reflexivity. }
  apply G.
Qed.

Lemma comb_scalar w u h (gs : list R) : comb [u] h w (map (fun a => [a]) gs) = [u + h * dotp w gs].
Proof.
  unfold comb. revert u gs. induction w as [|w0 w IH]; intros u [|g0 gs]; cbn [map combine fold_left dotp];
    try (f_equal; ring).
  cbn [fst snd]. unfold axpy at 2. cbn [combine map fst snd]. rewrite IH. f_equal. ring.
Qed.

Lemma step_scalar rows b g t h u :
  erk_step rows b (scalar_field g) t h [u] = [u + h * dotp b (map (fun r => g (t + fst r * h)) rows)].
Proof.
  unfold erk_step. rewrite stages_scalar. rewrite <- comb_scalar. f_equal. now rewrite map_map.
Qed.

Lemma rms1 a : rms [a] = Rabs a.
Proof.
  unfold rms. simpl. replace ((a * a + 0) / 1) with (Rsqr a) by (unfold Rsqr; field).
  apply sqrt_Rsqr_abs.
Qed.

Lemma scaled1 atol rtol x x' e : scaled_error atol rtol None [x] [x'] [e] =
  Rabs (e / (atol + rtol * Rmax (Rabs x) (Rabs x'))).
Proof. unfold scaled_error. cbn [combine map fst snd]. apply rms1. Qed.

Definition pole : R -> R := fun t => if Rle_dec t 0 then 0 else 1 / t.

(** C15, refuted.  The scalar field 1/t for t > 0 (and 0 for t <= 0), from state 0 over [0; 1] with
    default tolerances: every attempted step is rejected, dopri5 never returns. *)
Lemma C15_never_returns_refuted_pf :
  exists (f : R -> list R -> list R) x ts, field_on 1 f /\ List.length x = 1%nat /\ increasing ts /\
  forall fuel, snd (@odeint ROps fuel f x (@TTensor ROps ts) (DormandPrince45 ROps) (1/1000) (1/1000)
     false false [] None) = OutOfFuel.
Proof.
  exists (scalar_field pole), [0], [0; 1].
  assert (Hi : StronglySorted Rlt [0; 1]) by (repeat constructor; lra).
  split; [intros t x _; reflexivity|]. split; [reflexivity|]. split; [now apply increasing_sorted|].
  apply (odeint_stuck _ _ _ _ dopri5_pair 1); auto.
  { intros t x _. reflexivity. }
  intros h Hh _. rewrite !step_scalar. unfold minus_list. cbn [combine map fst snd]. rewrite scaled1.
  assert (H0 : forall c, c = 0 -> pole (0 + c * h) = 0).
  { intros c ->. unfold pole. destruct (Rle_dec (0 + 0 * h) 0); auto. exfalso; lra. }
  assert (Hc : forall c, 0 < c -> pole (0 + c * h) = 1 / (c * h)).
  { intros c Hc. unfold pole. pose proof (Rmult_lt_0_compat _ _ Hc Hh).
    destruct (Rle_dec (0 + c * h) 0); [lra|]. f_equal. ring. }
  set (B := 0 + h * dotp (to_R qb5_dopri5) (map (fun r => pole (0 + fst r * h)) (to_R_rows q_dopri5))).
  set (B4 := 0 + h * dotp (to_R qb4_dopri5) (map (fun r => pole (0 + fst r * h)) (to_R_rows q_dopri5))).
  assert (EB : B = 500 / 1113 * (10 / 3) + 125 / 192 * (5 / 4) + -2187 / 6784 * (9 / 8) + 11 / 84).
  { unfold B. unfold to_R, to_R_rows, q_dopri5, qb5_dopri5. cbn [map fst snd dotp]. qlit.
    rewrite (H0 (0 / 1)) by lra. rewrite !Hc by lra. field. lra. }
  assert (EB4 : B4 = 22642 / 50085 * (10 / 3) + 451 / 720 * (5 / 4) + -12231 / 42400 * (9 / 8) + 649 / 6300 + 1 / 60).
  { unfold B4. unfold to_R, to_R_rows, q_dopri5, qb4_dopri5. cbn [map fst snd dotp]. qlit.
    rewrite (H0 (0 / 1)) by lra. rewrite !Hc by lra. field. lra. }
  clearbody B B4. rewrite Rabs_R0.
  assert (Hm : Rmax 0 (Rabs B) = B). { rewrite Rabs_right by (subst; lra). apply Rmax_right. subst; lra. }
  rewrite Hm. assert (0 < B) by (subst; lra).
  rewrite <- Rabs_Ropp. apply Rlt_le_trans with (- ((B - B4) / (1 / 1000 + 1 / 1000 * B))); [|apply RRle_abs].
  replace (- ((B - B4) / (1 / 1000 + 1 / 1000 * B))) with ((B4 - B) / (1 / 1000 + 1 / 1000 * B)) by (field; lra).
  apply (Rmult_lt_reg_r (1 / 1000 + 1 / 1000 * B)); [lra|].
  unfold Rdiv at 3. rewrite Rmult_assoc, Rinv_l, Rmult_1_r by lra. subst. lra.
Qed.

(** C15.  In general: if at the initial state every step size up to the end is rejected, the solve
    never returns (there is no lower bound on the step and no iteration limit). *)
Lemma C15_no_step_limit_pf :
  forall s rows b bh n f x t0 t1 ts atol rtol interp all save_at semi,
  builtin_pair s rows b bh -> field_on n f -> List.length x = n -> increasing (t0 :: t1 :: ts) ->
  (forall h, 0 < h -> t0 + h <= last (t1 :: ts) t0 ->
     1 < scaled_error atol rtol semi x (erk_step rows b f t0 h x)
           (minus_list (erk_step rows b f t0 h x) (erk_step rows bh f t0 h x))) ->
  forall fuel, snd (@odeint ROps fuel f x (@TTensor ROps (t0 :: t1 :: ts)) s atol rtol interp all save_at semi) = OutOfFuel.
Proof.
  intros s rows b bh n f x t0 t1 ts atol rtol interp all save_at semi HP Hf Hx Hinc Hst.
  apply increasing_sorted in Hinc.
  exact (odeint_stuck s rows b bh (builtin_embedded _ _ _ _ HP) n f Hf atol rtol interp all semi x t0 t1 ts save_at Hinc Hx Hst).
Qed.

(** C16, refuted.  In IEEE-754 binary64 (whatever the power function [pw]) the zero field from
    state 0 over t_span = [0, 3.4] with dopri5 and default tolerances returns one time and one
    state instead of two: the last step starts at t = 1.111111 and t + (3.4 - t) rounds above 3.4. *)
Lemma C16_final_time_lost_refuted_pf :
  forall pw : float -> float -> float,
  exists ts : list float, List.length ts = 2%nat /\
  exists times sol,
    snd (@odeint (FloatOps pw) 20 (fun _ _ => [0%float]) [0%float] (@TTensor (FloatOps pw) ts)
      (DormandPrince45 (FloatOps pw)) 0.001%float 0.001%float false false [] None) = Ok (times, sol) /\
    List.length times = 1%nat /\ List.length sol = 1%nat.
Proof.
  intros pw. exists [0%float; 3.4%float]. split; [reflexivity|]. do 2 eexists.
  split; [vm_compute; reflexivity|]. split; reflexivity.
Qed.

(** C15, refuted in binary64: a vector field that returns NaN makes dopri5 loop forever (whatever
    the power function). *)
Lemma C15_nan_field_refuted_pf :
  forall pw : float -> float -> float,
  exists (f : float -> list float -> list float) (x ts : list float),
  forall fuel, snd (@odeint (FloatOps pw) fuel f x (@TTensor (FloatOps pw) ts) (DormandPrince45 (FloatOps pw))
     0.001%float 0.001%float false false [] None) = OutOfFuel.
Proof.
  intros pw. exists (fun _ _ => [nan]), [0%float], [0%float; 1%float]. apply nan_odeint.
Qed.

(** ** C20 *)
Definition reversed (f : R -> list R -> list R) : R -> list R -> list R := fun t x => map Ropp (f (- t) x).

(** C20 (what holds).  On a decreasing grid the solve is a run of accepted steps of the reversed field
    over the negated grid, so C09-C13 hold for it with the times negated; only the initial step size
    differs from that of solving the reversed field. *)
Lemma C20_reversed_run_partial_pf :
  forall fuel s rows b bh n f x t0 t1 ts atol rtol interp all save_at semi times sol,
  builtin_pair s rows b bh -> field_on n f -> List.length x = n -> decreasing (t0 :: t1 :: ts) ->
  snd (@odeint ROps fuel f x (@TTensor ROps (t0 :: t1 :: ts)) s atol rtol interp all save_at semi) = Ok (times, sol) ->
  exists times' sol', times = - t0 :: times' /\ sol = x :: sol' /\
    run (pair_accepts rows b bh (reversed f) atol rtol semi)
        (pair_dense rows b (construct_4th ROps) (reversed f))
        (interp && negb (s_is_tsit5 s)) all (- t0) x (map Ropp (t1 :: ts)) times' sol'.
Proof.
  intros fuel s rows b bh n f x t0 t1 ts atol rtol interp all save_at semi times sol HP Hf Hx Hdec Hr.
  assert (Hs : StronglySorted Rlt (map Ropp (t0 :: t1 :: ts))).
  { apply increasing_sorted. intros i j u v Hij Hu Hv. rewrite nth_error_map in Hu, Hv.
    destruct (nth_error (t0 :: t1 :: ts) i) as [u'|] eqn:Eu; [|discriminate].
    destruct (nth_error (t0 :: t1 :: ts) j) as [v'|] eqn:Ev; [|discriminate].
    injection Hu as <-. injection Hv as <-. pose proof (Hdec i j u' v' Hij Eu Ev). lra. }
  assert (Hlt : t1 < t0) by (apply (Hdec 0%nat 1%nat); auto).
  pose proof (builtin_embedded _ _ _ _ HP) as HE.
  destruct (odeint_adaptive_dec s f atol rtol interp all semi fuel x t0 t1 ts save_at (proj1 HE) Hlt) as (dt & lg & Hd & _ & Eo).
  rewrite Eo in Hr. cbn [map] in Hr, Hs.
  assert (Hfr : field_on n (@neg_field ROps f)).
  { intros t y Hy. unfold neg_field. apply vopp_len. now apply Hf. }
  exact (adaptive_odeint_run s rows b bh HE n (@neg_field ROps f) Hfr atol rtol interp all semi fuel
    (@neg_field ROps f (- t0) x) x dt (- t0) (- t1 :: map Ropp ts) times sol Hs ltac:(discriminate) Hx eq_refl Hd Hr).
Qed.

Lemma init_const u (Hu : u = 1 \/ u = -1) : exists lg,
  @init_step ROps (fun _ _ => [u]) [-1] [1] 0 5 (1/1000) (1/1000) =
  ([lg], Ok (Rmin 1 (Rpower (1 / 100 / (if Req_EM_T u 1 then 100000 else 500)) (1 / 6)))).
Proof.
  unfold init_step. cbv zeta. unfold vdiv. rewrite !hairer_rms. unfold call. rewrite mbind_Ok.
  cbn [fst snd mret app map map2 vsub vadd vscale]. rops. rewrite !rms1. eexists. 
  apply pair_equal_spec. split; [reflexivity|]. apply f_equal.
  rewrite (Rabs_right 1) by lra. qlit.
  assert (E0 : Rabs (1 / (1 / 1000 + 1 * (1 / 1000))) = 500) by (rewrite Rabs_right; lra).
  assert (E1 : Rabs (-1 / (1 / 1000 + 1 * (1 / 1000))) = 500) by (rewrite Rabs_left; lra).
  rewrite E0, E1.
  rewrite (proj2 (Rltb_false 500 (1 / 100000))) by lra. cbn [orb].
  rewrite (proj2 (Rleb_false 500 (1 / 1000000000000000))) by lra. cbn [andb].
  rewrite nnat_INR. unfold pymax. rops.
  replace (1 / 100 * 500 / 500) with (1 / 100) by field. replace (100 / 1 * (1 / 100)) with 1 by field.
  destruct Hu as [->| ->].
  - rewrite !hairer_rms, !rms1. rewrite (Rabs_right ((1 - -1) / _)) by lra.
    replace ((1 - -1) / (1 / 1000 + 1 * (1 / 1000)) / (1 / 100)) with 100000 by field.
    rewrite (proj2 (Rltb_true 500 100000)) by lra. destruct (Req_EM_T 1 1) as [_|H]; [|lra].
    rewrite Rpw_pos by lra. simpl INR. f_equal. f_equal. lra.
  - rewrite !hairer_rms, !rms1. replace ((-1 - -1) / (1 / 1000 + 1 * (1 / 1000))) with 0 by field. rewrite Rabs_R0.
    rewrite (proj2 (Rltb_false 500 (0 / (1 / 100)))) by lra. destruct (Req_EM_T (-1) 1) as [H|_]; [lra|].
    rewrite Rpw_pos by lra. simpl INR. f_equal. f_equal. lra.
Qed.

(** C20, refuted.  The constant field 1 over [0; -2] (return_all_eval, default tolerances): dopri5
    takes a first step different from the one it takes for the reversed field over [0; 2]. *)
Lemma C20_reversed_steps_refuted_pf :
  exists (f : R -> list R -> list R) x ts, decreasing ts /\
  let solve g l k := snd (@odeint ROps k g x (@TTensor ROps l) (DormandPrince45 ROps) (1/1000) (1/1000)
      false true [] None) in
  exists k1 k2 times1 sol1 times2 sol2,
    solve f ts k1 = Ok (times1, sol1) /\ solve (reversed f) (map Ropp ts) k2 = Ok (times2, sol2) /\
    nth_error times1 1 <> nth_error times2 1.
Proof.
  set (f := fun (_ : R) (_ : list R) => [1]).
  exists f, [1], [0; -2]. split.
  { intros i j a b Hij Ha Hb. destruct i as [|[|i]]; destruct j as [|[|j]]; try lia; simpl in *;
      try (destruct i; discriminate); try (destruct j; discriminate).
    injection Ha as <-. injection Hb as <-. lra. }
  intros solve.
  assert (Hf : field_on 1 f) by (intros t x _; reflexivity).
  assert (Hr : field_on 1 (reversed f)) by (intros t x _; reflexivity).
  assert (Hsc : forall t h u, scaled_error (1/1000) (1/1000) None [u] (erk_step (to_R_rows q_dopri5) (to_R qb5_dopri5) (reversed f) t h [u])
    (minus_list (erk_step (to_R_rows q_dopri5) (to_R qb5_dopri5) (reversed f) t h [u])
       (erk_step (to_R_rows q_dopri5) (to_R qb4_dopri5) (reversed f) t h [u])) = 0).
  { intros t h u. change (reversed f) with (scalar_field (fun _ => - 1)). rewrite !step_scalar.
    unfold minus_list. cbn [combine map fst snd]. rewrite scaled1.
    unfold to_R, to_R_rows, q_dopri5, qb5_dopri5, qb4_dopri5. cbn [map fst snd dotp]. qlit.
    match goal with |- Rabs (?e / _) = 0 => replace e with 0 by field end.
    unfold Rdiv. rewrite Rmult_0_l. apply Rabs_R0. }
  assert (Hg : linear_growth 1 1 (reversed f)).
  { intros t y B _ HB _ a [<-|[]]. rewrite Rabs_Ropp, Rabs_right; lra. }
  assert (Hs : StronglySorted Rlt [0; 2]) by (repeat constructor; lra).
  assert (Hneg : map Ropp [0; -2] = [0; 2]) by (cbn [map]; repeat f_equal; lra).
  (* both solves are runs of the same loop *)
  assert (Hhalt : forall dt, 0 < dt -> exists k r,
    snd (@adaptive_odeint ROps k (reversed f) (reversed f 0 [1]) [1] dt [0; 2] (DormandPrince45 ROps) (1/1000) (1/1000) None true None) = Ok r).
  { intros dt Hd. apply (adaptive_odeint_halts (DormandPrince45 ROps) _ _ _ dopri5_pair 1 (reversed f) Hr (1/1000) (1/1000) false true None
      (fun _ _ => True) 1 [1] dt 0 [2]); auto; try discriminate; try lra.
    intros t h [|u [|v y]] _ Hy _ _; try discriminate. rewrite Hsc. lra. }
  assert (Hfirst : forall k dt times sol, 0 < dt -> dt < 2 ->
    snd (@adaptive_odeint ROps k (reversed f) (reversed f 0 [1]) [1] dt [0; 2] (DormandPrince45 ROps) (1/1000) (1/1000) None true None) = Ok (times, sol) ->
    nth_error times 1 = Some (0 + dt)).
  { intros k dt times sol Hd Hd2 Hok.
    apply (loop_first (DormandPrince45 ROps) _ _ _ dopri5_pair 1 (reversed f) Hr (1/1000) (1/1000) false true None k [1] dt 0 [2] times sol); auto;
      try discriminate.
    - intros c [<-|[]]. lra.
    - rewrite rat_scaled. rewrite Hsc. lra. }
  (* initial steps *)
  assert (Hdt : forall v, 0 < Rmin 1 (Rpower v (1 / 6)) < 2).
  { intros v. pose proof (Rpower_gt0 v (1/6)). split; [apply Rmin_glb_lt; lra|].
    apply Rle_lt_trans with 1; [apply Rmin_l|lra]. }
  set (d1 := Rmin 1 (Rpower (1 / 100 / 100000) (1 / 6))). set (d2 := Rmin 1 (Rpower (1 / 100 / 500) (1 / 6))).
  assert (Hne : d1 <> d2).
  { unfold d1, d2. assert (H : forall v, 0 < v < 1 -> Rpower v (1/6) < 1).
    { intros v Hv. assert (E : Rpower 1 (1/6) = 1) by (unfold Rpower; rewrite ln_1, Rmult_0_r, exp_0; reflexivity). rewrite <- E at 2. apply Rlt_Rpower_l; lra. }
    rewrite !Rmin_right by (left; apply H; lra).
    apply Rlt_not_eq. apply Rlt_Rpower_l; lra. }
  destruct (Hhalt d1 (proj1 (Hdt _))) as (k1 & [times1 sol1] & E1).
  destruct (Hhalt d2 (proj1 (Hdt _))) as (k2 & [times2 sol2] & E2).
  exists k1, k2, times1, sol1, times2, sol2. split; [|split].
  - unfold solve. destruct (odeint_adaptive_dec (DormandPrince45 ROps) f (1/1000) (1/1000) false true None k1 [1] 0 (-2) [] [] eq_refl ltac:(lra))
      as (dt & lg & _ & Ei & Eo).
    rewrite Eo.
    destruct (init_const 1 (or_introl eq_refl)) as (lg' & Ec).
    assert (dt = d1).
    { assert (Ei' : @init_step ROps (fun _ _ => [1]) [-1] [1] 0 5 (1/1000) (1/1000) = ([lg], Ok dt)).
      { rewrite <- Ei. rewrite Ropp_0. unfold neg_field. cbn. reflexivity. }
      rewrite Ec in Ei'. injection Ei' as _ <-. unfold d1. destruct (Req_EM_T 1 1); [reflexivity|lra]. }
    subst dt. rewrite Hneg, Ropp_0. exact E1.
  - unfold solve. rewrite Hneg.
    destruct (odeint_adaptive_inc (DormandPrince45 ROps) _ _ _ dopri5_pair (reversed f) (1/1000) (1/1000) false true None k2 [1] 0 2 [] [] ltac:(lra))
      as (dt & lg & _ & Ei & Eo).
    rewrite Eo. cbn [snd].
    destruct (init_const (-1) (or_intror eq_refl)) as (lg' & Ec).
    assert (dt = d2).
    { assert (Ei' : @init_step ROps (fun _ _ => [-1]) [-1] [1] 0 5 (1/1000) (1/1000) = ([lg], Ok dt)).
      { rewrite <- Ei. reflexivity. }
      rewrite Ec in Ei'. injection Ei' as _ <-. unfold d2. destruct (Req_EM_T (-1) 1); [lra|reflexivity]. }
    subst dt. exact E2.
  - rewrite (Hfirst k1 d1 times1 sol1), (Hfirst k2 d2 times2 sol2); auto; try apply Hdt.
    intros E. injection E as E. lra.
Qed.
