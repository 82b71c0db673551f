(** The unit of the state. *)
From Coq Require Import ZArith QArith Qreals Reals Lra Lia List Bool.
From Verif Require Import Num Py Tensor M_Constants M_SolversOde M_Utils M_Interp M_Odeint L_Rel L_Lin L_Base.
Import ListNotations.
Local Notation length := List.length.
Local Open Scope R_scope.

(** the state in a unit that is 1/c of the old one, and the field and the events in this unit *)
Definition in_unit (c : R) (x : list R) : list R := map (Rmult c) x.
Definition field_in_unit (c : R) (f : R -> list R -> list R) (t : R) (y : list R) : list R := in_unit c (f t (in_unit (/ c) y)).
Definition event_in_unit (c : R) (e : callback ROps) : callback ROps :=
  @MkCb ROps (fun t y => check_event e t (in_unit (/ c) y)) (fun t y => in_unit c (jump_map e t (in_unit (/ c) y))).
(** the solvers, with the network of a hypersolver in the new unit *)
Inductive solver_in_unit (c : R) : solver ROps (vec ROps) -> solver ROps (vec ROps) -> Prop :=
| u_euler : solver_in_unit c (Euler ROps) (Euler ROps)
| u_midpoint : solver_in_unit c (Midpoint ROps) (Midpoint ROps)
| u_rk4 : solver_in_unit c (RungeKutta4 ROps) (RungeKutta4 ROps)
| u_dopri5 : solver_in_unit c (DormandPrince45 ROps) (DormandPrince45 ROps)
| u_tsit5 : solver_in_unit c (Tsitouras45 ROps) (Tsitouras45 ROps)
| u_hypereuler h : solver_in_unit c (@HyperEuler ROps h) (@HyperEuler ROps (field_in_unit c h))
| u_hypermidpoint h : solver_in_unit c (@HyperMidpoint ROps h) (@HyperMidpoint ROps (field_in_unit c h))
| u_hyperrk4 h : solver_in_unit c (@HyperRungeKutta4 ROps h) (@HyperRungeKutta4 ROps (field_in_unit c h)).

Section Unit.
Variable c : R.
Hypothesis Hc : c <> 0.
Definition U (x y : list R) : Prop := y = in_unit c x.
Lemma U_map2 (o : R -> R -> R) a a' b b' : (forall u v, c * o u v = o (c * u) (c * v)) -> U a a' -> U b b' -> U (map2 o a b) (map2 o a' b').
Proof.
  intros Ho -> ->. unfold U, in_unit. revert b. induction a as [|u a IH]; intros [|v b]; cbn; auto. f_equal; [symmetry; apply Ho|]. symmetry. rewrite <- IH. reflexivity.
Qed.
Lemma U_map (o : R -> R) a a' : (forall u, c * o u = o (c * u)) -> U a a' -> U (map o a) (map o a').
Proof. intros Ho ->. unfold U, in_unit. rewrite !map_map. apply map_ext. intros. symmetry. apply Ho. Qed.
Lemma back x : in_unit (/ c) (in_unit c x) = x.
Proof. unfold in_unit. rewrite map_map. rewrite <- (map_id x) at 2. apply map_ext. intros. now field. Qed.

Lemma U_add a a' b b' : U a a' -> U b b' -> U (@vadd ROps a b) (@vadd ROps a' b').
Proof. apply (U_map2 Rplus). intros. ring. Qed.
Lemma U_sub a a' b b' : U a a' -> U b b' -> U (@vsub ROps a b) (@vsub ROps a' b').
Proof. apply (U_map2 Rminus). intros. ring. Qed.
Lemma U_scale k a a' : U a a' -> U (@vscale ROps k a) (@vscale ROps k a').
Proof. apply (U_map (fun u => k * u)). intros. ring. Qed.
Lemma U_opp a a' : U a a' -> U (@vopp ROps a) (@vopp ROps a').
Proof. apply (U_map Ropp). intros. ring. Qed.
Lemma U_zero a a' : U a a' -> U (@vadds ROps (Q2R 0) a) (@vadds ROps (Q2R 0) a').
Proof. apply (U_map (fun u => Q2R 0 + u)). intros. unfold Q2R; cbn; lra. Qed.

Lemma hairer_abs (v w : list R) : map Rabs v = map Rabs w -> @hairer_norm ROps v = @hairer_norm ROps w.
Proof.
  intros H. unfold hairer_norm.
  assert (E : @map R R (fun a => Rabs a * Rabs a) v = map (fun a => Rabs a * Rabs a) w).
  { rewrite <- !(map_map Rabs (fun a => a * a)). now rewrite H. }
  exact (f_equal (fun l : list R => @nsqrt ROps (@vmean ROps l)) E).
Qed.
Lemma quot_abs e : forall sc, map Rabs (@vdiv ROps (in_unit c e) (in_unit (Rabs c) sc)) = map Rabs (@vdiv ROps e sc).
Proof.
  induction e as [|a e IH]; intros [|b sc]; try reflexivity. cbn. f_equal; [|apply IH].
  unfold Rdiv. rewrite Rinv_mult, !Rabs_mult, !Rabs_inv, Rabs_Rabsolu.
  assert (E : Rabs c * / Rabs c = 1) by (apply Rinv_r; now apply Rabs_no_R0).
  transitivity (Rabs a * / Rabs b * (Rabs c * / Rabs c)); [ring|rewrite E; ring].
Qed.
Lemma U_norm atol rtol x x' k k' : U x x' -> U k k' ->
  @hairer_norm ROps (@vdiv ROps k (map (fun a => atol + Rabs a * rtol) x)) =
  @hairer_norm ROps (@vdiv ROps k' (map (fun a => Rabs c * atol + Rabs a * rtol) x')).
Proof.
  intros -> ->. apply hairer_abs. rewrite <- quot_abs. do 2 f_equal. unfold in_unit. rewrite !map_map.
  apply map_ext. intros a. rewrite Rabs_mult. ring.
Qed.
Lemma U_ratio atol rtol semi x x' y y' e e' : U x x' -> U y y' -> U e e' ->
  @error_ratio ROps atol rtol semi x y e = @error_ratio ROps (Rabs c * atol) rtol semi x' y' e'.
Proof.
  intros -> -> ->. unfold error_ratio. cbv zeta. apply hairer_abs.
  assert (C : forall l, match semi with Some d => firstn d (in_unit c l) | None => in_unit c l end = in_unit c (match semi with Some d => firstn d l | None => l end)).
  { intros l. destruct semi; [|reflexivity]. unfold in_unit. now rewrite firstn_map. }
  cbn [num ROps] in *. rewrite !C. generalize (match semi with Some d => firstn d x | None => x end) (match semi with Some d => firstn d y | None => y end) (match semi with Some d => firstn d e | None => e end).
  clear x y e. intros x y e. rewrite <- quot_abs. do 2 f_equal. unfold in_unit, vabs, vmax. cbn.
  revert y. induction x as [|a x IH]; intros [|b y]; try reflexivity. cbn. f_equal; [|apply IH].
  rewrite !Rabs_mult, RmaxRmult by apply Rabs_pos. ring.
Qed.
Lemma U_field f : @rel_field ROps ROps eq _ _ U f (field_in_unit c f).
Proof. intros t t' x x' <- ->. unfold U, field_in_unit. now rewrite back. Qed.
Lemma U_solver s s' : solver_in_unit c s s' -> @lin_solver ROps U s s'.
Proof.
  intros H. destruct H.
  - exact (@lin_mk ROps U 1 true false _ _ (@lin_euler ROps U U_add U_scale)).
  - exact (@lin_mk ROps U 2 true false _ _ (@lin_midpoint ROps U U_add U_scale)).
  - exact (@lin_mk ROps U 4 true false _ _ (@lin_rk4 ROps U U_add U_scale)).
  - exact (@lin_mk ROps U 5 false false _ _ (@lin_erk7 ROps U U_add U_scale (construct_dopri5 ROps))).
  - exact (@lin_mk ROps U 5 false true _ _ (@lin_erk7 ROps U U_add U_scale (construct_tsit5 ROps))).
  - exact (@lin_mk ROps U 1 true false _ _ (@lin_hyper ROps U U_add U_scale _ _ 1 _ _ (@lin_euler ROps U U_add U_scale) (U_field h))).
  - exact (@lin_mk ROps U 2 true false _ _ (@lin_hyper ROps U U_add U_scale _ _ 2 _ _ (@lin_midpoint ROps U U_add U_scale) (U_field h))).
  - exact (@lin_mk ROps U 4 true false _ _ (@lin_hyper ROps U U_add U_scale _ _ 4 _ _ (@lin_rk4 ROps U U_add U_scale) (U_field h))).
Qed.
Lemma U_event e : @lin_cb ROps U e (event_in_unit c e).
Proof.
  split.
  - intros t x x' ->. unfold event_in_unit. cbn. now rewrite back.
  - intros t t' x x' <- ->. unfold U, event_in_unit. cbn. now rewrite back.
Qed.
End Unit.

(** the same calls of the field and the same outcome, in the new unit *)
Definition outcome_in_unit (c : R) (m : M (R * list R) (list R * list (list R))) : M (R * list R) (list R * list (list R)) :=
  (map (fun q => (fst q, in_unit c (snd q))) (fst m), rmap (fun r => (fst r, map (in_unit c) (snd r))) (snd m)).
Lemma rel_outcome c m m' : @rel_m ROps ROps eq _ _ _ _ (U c) (rel_pair (@eq (list R)) (Forall2 (U c))) m m' -> m' = outcome_in_unit c m.
Proof.
  assert (F : forall l l', Forall2 (U c) l l' -> l' = map (in_unit c) l) by (intros l l' H; induction H; cbn; congruence).
  intros [H1 H2]. destruct m as [tr r], m' as [tr' r']. unfold outcome_in_unit. cbn [fst snd] in *. f_equal.
  - clear H2. induction H1 as [|[a b] [a' b'] l l' [E1 E2] _ IH]; [reflexivity|]. cbn in *. rewrite IH, E1, E2. reflexivity.
  - destruct r as [[u v]| |], r' as [[u' v']| |]; cbn in *; try contradiction; try congruence.
    destruct H2 as [E1 E2]. cbn in *. now rewrite E1, (F _ _ E2).
Qed.

(** C167: a solve in another unit of the state: the field, the initial state and, multiplied by |c|, the absolute
    tolerance; every built-in solver and hypersolver, every option.  The calls, the times, the exceptions are the same,
    the states are those of the original solve in the new unit *)
Lemma C167_units_pf : forall c fuel s s' f x ts atol rtol interp all save_at semi, c <> 0 -> solver_in_unit c s s' ->
  @odeint ROps fuel (field_in_unit c f) (in_unit c x) ts s' (Rabs c * atol) rtol interp all save_at semi =
  outcome_in_unit c (@odeint ROps fuel f x ts s atol rtol interp all save_at semi).
Proof.
  intros c fuel s s' f x ts atol rtol interp all save_at semi Hc Hs. apply rel_outcome.
  apply (@lin_odeint ROps (U c)); try first [exact (U_add c)|exact (U_sub c)|exact (U_scale c)|exact (U_opp c)|exact (U_zero c)|reflexivity].
  - intros. now apply U_ratio.
  - intros. now apply U_norm.
  - now apply U_solver.
  - left. reflexivity.
  - now apply U_field.
Qed.

(** C167: the same for hybrid solves *)
Lemma C167_units_hybrid_pf : forall c fuel s s' f x ts j_span events atol rtol etol first semi, c <> 0 -> solver_in_unit c s s' ->
  @odeint_hybrid ROps fuel (field_in_unit c f) (in_unit c x) ts j_span s' (map (event_in_unit c) events) (Rabs c * atol) rtol etol first semi =
  outcome_in_unit c (@odeint_hybrid ROps fuel f x ts j_span s events atol rtol etol first semi).
Proof.
  intros c fuel s s' f x ts j events atol rtol etol first semi Hc Hs. apply rel_outcome.
  apply (@lin_hybrid ROps (U c)); try first [exact (U_add c)|exact (U_sub c)|exact (U_scale c)|exact (U_opp c)|exact (U_zero c)|reflexivity].
  - intros. now apply U_ratio.
  - intros. now apply U_norm.
  - now apply U_solver.
  - now apply U_field.
  - induction events; constructor; [now apply U_event|assumption].
Qed.

(** y' = y^2 in metres and in millimetres: the field for millimetres is y^2 / 1000 *)
Lemma C167_ex_pf : forall t y, field_in_unit 1000 (fun _ x => map (fun a => a * a) x) t [y] = [y * y / 1000] /\ Rabs 1000 * (1 / 1000) = 1.
Proof. intros t y. split; [unfold field_in_unit, in_unit; cbn; f_equal; field|]. rewrite Rabs_right; lra. Qed.
