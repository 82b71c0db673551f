(** Gradients through implicit Euler. *)
From Coq Require Import ZArith QArith Reals Lra Lia List Bool Floats.
From Verif Require Import Num Py Tensor M_Constants M_SolversOde M_Utils M_Interp M_Odeint M_Autograd M_Implicit.
From Verif Require Import Spec_Ode Spec_Autograd L_Base L_Fixed L_Vec L_Steps L_Rel Pf_Fixed Pf_Values Pf_Autograd.
Import ListNotations.
Local Notation length := List.length.
Local Open Scope R_scope.

(** A state none of whose entries has a derivative *)
Definition no_gradient {K : NumOps} (X : vec (DualOps K)) : Prop := Forall (fun a => snd a = n0) X.
(** Optimisers that depend on the values of the objective only *)
Definition sees_values {K : NumOps} (m : (vec K -> K) -> vec K -> vec K) : Prop :=
  forall r r' x, (forall y, r y = r' y) -> m r x = m r' x.
(** Optimisers that find the zero of a nonnegative quadratic objective in one unknown *)
Definition finds_zeros (m : (list R -> R) -> list R -> list R) : Prop :=
  forall r a b c x z, (forall y, r [y] = a * y * y + b * y + c) -> a <> 0 -> (forall y, 0 <= r [y]) -> r [z] = 0 ->
  m r [x] = [z].

Section Leaf.
Context {K : NumOps}.
Notation D := (DualOps K).
Variable m : (vec K -> K) -> vec K -> vec K.
Variables (F : D -> vec D -> vec D) (X0 : vec D).
Definition leaf (s : vec D) : Prop := s = X0 \/ no_gradient s.

Lemma leaf_loop ts sv : forall n steps x t dt sol r, Forall leaf sol ->
  snd (fixed_loop F (implicit_step_autograd m) ts sv n steps x t dt sol) = Ok r -> Forall leaf r.
Proof.
  induction n as [|n IH]; intros steps x t dt sol r Hsol E; cbn [fixed_loop] in E; [cbn in E; congruence|].
  apply mbind_inv_ok in E. destruct E as (st & Est & E).
  unfold implicit_step_autograd in Est. cbn [snd mret] in Est. cbv zeta in Est. injection Est as <-. cbv beta iota zeta in E.
  match type of E with context [map cst ?v] => assert (Hy : no_gradient (map (@cst K) v)) end.
  { apply Forall_forall. intros a Ha. apply in_map_iff in Ha. destruct Ha as (b & <- & _). reflexivity. }
  apply mbind_inv_ok in E. destruct E as (dt' & _ & E). eapply IH; [|exact E].
  destruct (_ =? _)%nat; auto. apply Forall_app. split; auto. constructor; [right; exact Hy|constructor].
Qed.
End Leaf.

(** C153: what autograd sees.  In any arithmetic, for any optimiser, field, grid and initial state, with derivatives given to parameters, times and the
    initial state in any way: every state returned by a solve with implicit Euler is the initial state itself or has derivative 0. *)
Lemma C153_leaf_pf : forall (K : NumOps) (m : (vec K -> K) -> vec K -> vec K) (F : DualOps K -> vec (DualOps K) -> vec (DualOps K))
    (fuel : nat) (X : vec (DualOps K)) ts atol rtol interp all save_at semi times sol,
  snd (odeint_autograd fuel F X ts (ImplicitEuler_autograd m) atol rtol interp all save_at semi) = Ok (times, sol) ->
  Forall (fun s => s = X \/ no_gradient s) sol.
Proof.
  intros K m F fuel X ts atol rtol interp all sv semi times sol E.
  unfold odeint_autograd, odeint_ad in E. apply mbind_inv_ok in E. destruct E as ([f_ l] & _ & E). cbn [s_fixed ImplicitEuler_autograd mk_solver s_step] in E. cbv zeta in E.
  unfold fixed_odeint in E. cbv zeta in E. destruct (negb _); [discriminate|].
  do 3 (apply mbind_inv_ok in E; destruct E as (? & _ & E)). apply mbind_inv_ok in E. destruct E as (sol' & Es & E).
  apply (leaf_loop m f_ X) in Es; [|destruct (_ =? _)%nat; constructor; [now left|constructor]].
  destruct sol'; [discriminate|]. cbn in E. injection E as <- <-. exact Es.
Qed.

(** C153 (partial): recording gradients does not change the values.  The solve has the values and exceptions of the solve without gradients, for every
    optimiser that depends on the values of its objective only. *)
Lemma C153_values_partial_pf : forall (K : NumOps) (m : (vec K -> K) -> vec K -> vec K) (F : DualOps K -> vec (DualOps K) -> vec (DualOps K)) (f : K -> vec K -> vec K)
    (fuel : nat) (X : vec (DualOps K)) ts atol rtol interp all save_at semi,
  sees_values m -> values_of F f ->
  plain_res (snd (odeint_autograd fuel F X ts (ImplicitEuler_autograd m) atol rtol interp all save_at semi)) =
  snd (odeint fuel f (plain_vec X) (plain_tspan ts) (ImplicitEuler m) (plain atol) (plain rtol) interp all (plain_vec save_at) semi).
Proof.
  intros K m F f fuel X ts atol rtol interp all sv semi Hm HF. refine (proj2 (rp_out _ _ _)). unfold odeint_autograd.
  pose proof (@rp_related K) as HR.
  apply (odeint_rel rp HR); auto; try apply rp_vec'; try reflexivity; [now apply rp_field|apply rp_tspan|].
  unfold ImplicitEuler_autograd, ImplicitEuler. apply (mk_rel rp HR).
  intros g g' x x' t t' h h' k k' Hg Hx Ht Hh _. unfold implicit_step_autograd, implicit_step. cbv zeta. apply rel_mret. cbn [rel_ret].
  split; [exact I|]. split; [|exact I]. apply rp_vec. unfold plain_vec. rewrite map_map. change (fun x0 => plain (cst x0)) with (fun x0 : K => x0). rewrite map_id.
  apply rp_vec in Hx. unfold plain_vec in Hx. replace (map fst x) with x' by (symmetry; exact Hx).
  apply Hm. intros y. change (rp (implicit_euler_residual g x t h (map cst y)) (implicit_euler_residual g' x' t' h' y)).
  assert (Hy : Forall2 rp (map (@cst K) y) y) by (apply rp_vec; unfold plain_vec; rewrite map_map; apply map_id).
  assert (Hx' : Forall2 rp x x') by (apply rp_vec; exact Hx).
  unfold implicit_euler_residual. cbv zeta.
  assert (Hd : Forall2 rp (map cst y - x - h * g t (map cst y))%V (y - x' - h' * g' t' y)%V).
  { apply (rv_sub _ HR); [now apply (rv_sub _ HR)|]. apply (rv_scale _ HR); auto. }
  apply (r_sum _ HR). revert Hd. set (u := (map cst y - x - h * g t (map cst y))%V). set (v := (y - x' - h' * g' t' y)%V). clearbody u v. intros Hd.
  unfold vmul. induction Hd; cbn; constructor; auto. now apply (r_mul _ _ _ HR).
Qed.

Section Linear.
Variable m : (list R -> R) -> list R -> list R.
Hypothesis Hm : finds_zeros m.

(** one step for x' = c x from x = 1 over [0, 1] *)
Lemma linear_step c : c <> 1 -> m (@implicit_euler_residual ROps (fun _ y => map (Rmult c) y) [1] 0 (1 - 0)) [1] = [/ (1 - c)].
Proof.
  intros Hc. set (r := @implicit_euler_residual ROps _ _ _ _).
  assert (E : forall y, r [y] = (y - 1 - (1 - 0) * (c * y)) * (y - 1 - (1 - 0) * (c * y))).
  { intros y. unfold r, implicit_euler_residual, vsum, vmul, vsub, vscale. cbn [map map2 fold_left]. rops. qlit. lra. }
  apply (Hm r ((1 - c) * (1 - c)) (- (2 * (1 - c))) 1).
  - intros y. rewrite E. ring.
  - intros H. apply Rmult_integral in H. lra.
  - intros y. rewrite E. apply Rle_0_sqr.
  - rewrite E. field. lra.
Qed.
Lemma unit_separated : separated [0; 1].
Proof.
  assert (A : ~ close_to 0 1) by (unfold close_to; rewrite (Rabs_left (0 - 1)), (Rabs_pos_eq 1) by lra; lra).
  assert (B : ~ close_to 1 0) by (unfold close_to; rewrite (Rabs_pos_eq (1 - 0)), Rabs_R0 by lra; lra).
  intros i j a b Hne Hi Hj. destruct i as [|[|i]], j as [|[|j]]; cbn in Hi, Hj; try congruence;
    try (destruct i; discriminate); try (destruct j; discriminate); injection Hi as <-; injection Hj as <-; assumption.
Qed.

Lemma linear_run fuel c atol rtol interp all semi : c <> 1 ->
  snd (@odeint ROps fuel (fun _ y => map (Rmult c) y) [1] (@TTensor ROps [0; 1]) (@ImplicitEuler ROps m) atol rtol interp all [] semi)
  = Ok ([0; 1], [[1]; [/ (1 - c)]]).
Proof.
  intros Hc.
  rewrite (C01_fixed_trajectory_pf fuel (@ImplicitEuler ROps m) _ (fun t h x => m (@implicit_euler_residual ROps (fun _ y => map (Rmult c) y) x t h) x) (fun _ _ _ => [])).
  - cbn [one_step_traj]. rewrite linear_step by exact Hc. reflexivity.
  - reflexivity.
  - intros x t dt. exists None, None. reflexivity.
  - apply unit_separated.
  - lra.
Qed.
End Linear.

Lemma shift_tracks a : tracks (a, 1) (fun e => a + e).
Proof.
  split; [cbn; lra|]. cbn [snd]. replace 1 with (0 + 1) by lra. apply (derivable_pt_lim_plus (fun _ => a) (fun e => e)); [apply derivable_pt_lim_const|apply (derivable_pt_lim_id 0)].
Qed.
Lemma map_tracks k c n : tracks k c -> tracks_field n (fun _ Y => map (@nmul DR k) Y) (fun e _ y => map (Rmult (c e)) y).
Proof.
  intros Hk t Y y (L1 & L2 & H). split; [now rewrite map_length|]. split; [intros e; now rewrite map_length|].
  intros i Hi. refine (eq_ind_r (fun d => tracks d _) _ (eq_trans (nth_indep (map (@nmul DR k) Y) (0, 0) (@nmul DR k (0, 0)) _) (map_nth (@nmul DR k) Y (0, 0) i)));
    [|rewrite map_length; change (num DR) with (R * R)%type; lia].
  apply (tr_ext _ (fun e => c e * nth i (y e) 0)); [|apply tr_mul; auto].
  intros e. symmetry. rewrite (nth_indep _ 0 (Rmult (c e) 0)) by (rewrite map_length, L2; exact Hi). apply map_nth.
Qed.

(** C153 fails.  x' = theta x from x = 1 over [0, 1], theta <> 1, with any optimiser that depends on the values of its objective only and finds the zeros of
    quadratic objectives in one unknown: the solve returns 1 / (1 - theta), for every theta; its derivative in theta is 1 / (1 - theta)^2, not 0; autograd, asked
    for the derivative in theta, returns 0. *)
Lemma C153_gradient_refuted_pf : forall (m : (list R -> R) -> list R -> list R) fuel theta atol rtol atol' rtol' interp all semi,
  @sees_values ROps m -> finds_zeros m -> theta <> 1 ->
  let F := fun (_ : R * R) (Y : list (R * R)) => map (@nmul DR (theta, 1)) Y in
  let f := fun (e _ : R) (y : list R) => map (Rmult (theta + e)) y in
  tracks_field 1 F f /\
  (forall e, theta + e <> 1 ->
     snd (@odeint ROps fuel (f e) [1] (@TTensor ROps [0; 1]) (@ImplicitEuler ROps m) atol rtol interp all [] semi) = Ok ([0; 1], [[1]; [/ (1 - (theta + e))]])) /\
  (exists times, snd (@odeint_autograd ROps fuel F [(1, 0)] (@TTensor DR [(0, 0); (1, 0)]) (@ImplicitEuler_autograd ROps m) atol' rtol' interp all [] semi)
     = Ok (times, [[(1, 0)]; [(/ (1 - theta), 0)]])) /\
  derivable_pt_lim (fun e => / (1 - (theta + e))) 0 (/ ((1 - theta) * (1 - theta))) /\ / ((1 - theta) * (1 - theta)) <> 0.
Proof.
  intros m fuel theta atol rtol atol' rtol' interp all semi Hv Hz Ht F f.
  split; [|split; [|split; [|split]]].
  - apply (map_tracks (theta, 1) (fun e => theta + e)), shift_tracks.
  - intros e He. now apply linear_run.
  - pose proof (C153_values_partial_pf ROps m F (f 0) fuel [(1, 0)] (@TTensor DR [(0, 0); (1, 0)]) atol' rtol' interp all [] semi Hv) as V.
    assert (HF : @values_of ROps F (f 0)).
    { intros t X. unfold F, f, plain_vec. rewrite !map_map. apply map_ext. intros a. unfold plain. cbn. now rewrite Rplus_0_r. }
    specialize (V HF). cbn [plain_vec plain_tspan map plain fst] in V.
    unfold f in V. rewrite Rplus_0_r in V. change (@plain_vec ROps []) with (@nil R) in V. rewrite (linear_run m Hz) in V by exact Ht.
    destruct (snd (odeint_autograd _ _ _ _ _ _ _ _ _ _ _)) as [[times sol]| |] eqn:E; try discriminate.
    apply (C153_leaf_pf ROps) in E. exists times. f_equal. f_equal. cbn [plain_res] in V.
    assert (V' : map (@plain_vec ROps) sol = [[1]; [/ (1 - theta)]]) by congruence.
    assert (N : Forall (@no_gradient ROps) sol).
    { eapply Forall_impl; [|exact E]. intros s [->|H]; [|exact H]. constructor; [|constructor]. cbn. unfold Q2R. cbn. lra. }
    assert (Z : forall s v, @plain_vec ROps s = [v] -> @no_gradient ROps s -> s = [(v, 0)]).
    { intros s v Es Hn. destruct s as [|[a b] [|]]; try discriminate. injection Es as <-. inversion Hn as [|? ? Hb]; subst. cbn in Hb. rewrite Hb. do 2 f_equal. unfold Q2R. cbn. lra. }
    destruct sol as [|s1 [|s2 [|]]]; try discriminate. injection V' as V1 V2. inversion N as [|? ? N1 N']; subst. inversion N' as [|? ? N2]; subst.
    rewrite (Z s1 1), (Z s2 (/ (1 - theta))); auto.
  - destruct (shift_tracks theta) as [_ D]. cbn [snd] in D.
    assert (G : derivable_pt_lim (fun e => 1 - (theta + e)) 0 (0 - 1)) by (apply (derivable_pt_lim_minus (fun _ => 1) (fun e => theta + e)); [apply derivable_pt_lim_const|exact D]).
    pose proof (derivable_pt_lim_div (fun _ => 1) (fun e => 1 - (theta + e)) 0 0 (0 - 1) (derivable_pt_lim_const 1 0) G) as Q.
    assert (N : 1 - (theta + 0) <> 0) by lra. specialize (Q N). cbv beta in Q.
    replace (/ ((1 - theta) * (1 - theta))) with ((0 * (1 - (theta + 0)) - (0 - 1) * 1) / (1 - (theta + 0))²) by (unfold Rsqr; field; lra).
    intros eps He. destruct (Q eps He) as (del & Hd). exists del. intros h Hh Hl. specialize (Hd h Hh Hl). unfold div_fct, Rdiv in Hd |- *. rewrite !Rmult_1_l in Hd. exact Hd.
  - intros H. apply (Rinv_neq_0_compat ((1 - theta) * (1 - theta))); auto. intros H'. apply Rmult_integral in H'. lra.
Qed.

(** The minimum of a quadratic objective in one unknown from three of its values (what one Newton step finds) *)
Definition parabola (r : list R -> R) (_ : list R) : list R :=
  [- ((r [1] - r [-1]) / 2) / (r [1] + r [-1] - 2 * r [0])].

(** The hypotheses of C153 are met by the optimiser [parabola]. *)
Lemma C153_ex_pf : @sees_values ROps parabola /\ finds_zeros parabola.
Proof.
  split.
  - intros r r' x H. unfold parabola. now rewrite !H.
  - intros r a b c x z Hr Ha Hpos Hz. unfold parabola. rewrite !Hr.
    replace (a * 1 * 1 + b * 1 + c + (a * -1 * -1 + b * -1 + c) - 2 * (a * 0 * 0 + b * 0 + c)) with (2 * a) by ring.
    replace ((a * 1 * 1 + b * 1 + c - (a * -1 * -1 + b * -1 + c)) / 2) with b by field.
    f_equal. rewrite Hr in Hz.
    assert (P : forall d, 0 <= a * d * d + (2 * a * z + b) * d).
    { intros d. specialize (Hpos (z + d)). rewrite Hr in Hpos. nra. }
    assert (Z : 2 * a * z + b = 0).
    { set (q := 2 * a * z + b) in *. destruct (Req_dec q 0) as [E|E]; [exact E|exfalso].
      pose proof (P (- q / (Rabs a + 1))) as P3.
      assert (A : 0 < Rabs a + 1) by (pose proof (Rabs_pos a); lra).
      replace (a * (- q / (Rabs a + 1)) * (- q / (Rabs a + 1)) + q * (- q / (Rabs a + 1))) with (q * q * (a - (Rabs a + 1)) / ((Rabs a + 1) * (Rabs a + 1))) in P3 by (field; lra).
      assert (0 < q * q) by nra. pose proof (RRle_abs a).
      assert (q * q * (a - (Rabs a + 1)) / ((Rabs a + 1) * (Rabs a + 1)) < 0); [|lra].
      assert (I : 0 < / ((Rabs a + 1) * (Rabs a + 1))) by (apply Rinv_0_lt_compat; nra). assert (J : q * q * (a - (Rabs a + 1)) < 0) by nra.
      unfold Rdiv. set (i := / _) in *. clearbody i. set (j := q * q * _) in *. clearbody j. nra. }
    apply (Rmult_eq_reg_r (2 * a)); [|lra]. unfold Rdiv. rewrite Rmult_assoc, Rinv_l by lra. lra.
Qed.
