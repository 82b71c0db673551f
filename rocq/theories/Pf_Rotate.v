(** Rotations of the state. *)
From Coq Require Import ZArith QArith Qreals Reals Lra Lia List Bool.
From Verif Require Import Num Py Tensor M_Constants M_SolversOde M_Utils M_Interp M_Odeint L_Rel L_Lin L_Base Spec_Ode.
Import ListNotations.
Local Notation length := List.length.
Local Open Scope R_scope.

Fixpoint sumsq (x : list R) : R := match x with [] => 0 | a :: x' => a * a + sumsq x' end.
Definition plus (x y : list R) : list R := map (fun p => fst p + snd p) (combine x y).
Definition times (c : R) (x : list R) : list R := map (Rmult c) x.
(** a linear map of the states of dimension n that preserves the Euclidean length: a rotation or a reflection *)
Definition isometry (n : nat) (Q : list R -> list R) : Prop :=
  (forall x, length x = n -> length (Q x) = n) /\
  (forall x y, length x = n -> length y = n -> Q (plus x y) = plus (Q x) (Q y)) /\
  (forall c x, length x = n -> Q (times c x) = times c (Q x)) /\
  (forall x, length x = n -> sumsq (Q x) = sumsq x).
(** g is the field f seen in the rotated coordinates *)
Definition rotated_field (n : nat) (Q : list R -> list R) (f g : R -> list R -> list R) : Prop :=
  forall t x, length x = n -> length (f t x) = n /\ g t (Q x) = Q (f t x).
Definition rotated_event (n : nat) (Q : list R -> list R) (e e' : callback ROps) : Prop :=
  (forall t x, length x = n -> check_event e' t (Q x) = check_event e t x) /\ rotated_field n Q (jump_map e) (jump_map e').
(** the solvers, with the network of a hypersolver in the rotated coordinates *)
Inductive rotated_solver (n : nat) (Q : list R -> list R) : solver ROps (vec ROps) -> solver ROps (vec ROps) -> Prop :=
| r_euler : rotated_solver n Q (Euler ROps) (Euler ROps)
| r_midpoint : rotated_solver n Q (Midpoint ROps) (Midpoint ROps)
| r_rk4 : rotated_solver n Q (RungeKutta4 ROps) (RungeKutta4 ROps)
| r_dopri5 : rotated_solver n Q (DormandPrince45 ROps) (DormandPrince45 ROps)
| r_tsit5 : rotated_solver n Q (Tsitouras45 ROps) (Tsitouras45 ROps)
| r_hypereuler h h' : rotated_field n Q h h' -> rotated_solver n Q (@HyperEuler ROps h) (@HyperEuler ROps h')
| r_hypermidpoint h h' : rotated_field n Q h h' -> rotated_solver n Q (@HyperMidpoint ROps h) (@HyperMidpoint ROps h')
| r_hyperrk4 h h' : rotated_field n Q h h' -> rotated_solver n Q (@HyperRungeKutta4 ROps h) (@HyperRungeKutta4 ROps h').
(** the same calls of the field and the same outcome, in the rotated coordinates *)
Definition rotated_outcome (Q : list R -> list R) (m : M (R * list R) (list R * list (list R))) : M (R * list R) (list R * list (list R)) :=
  (map (fun q => (fst q, Q (snd q))) (fst m), rmap (fun r => (fst r, map Q (snd r))) (snd m)).

Section Rot.
Variables (n : nat) (Q : list R -> list R).
Hypothesis HQ : isometry n Q.
Definition V (x y : list R) : Prop := length x = n /\ y = Q x.
Lemma vadd_plus : forall x y, @vadd ROps x y = plus x y.
Proof. induction x as [|a x IH]; intros [|b y]; try reflexivity. unfold plus. cbn. f_equal. apply IH. Qed.
Lemma len_plus x y : length x = n -> length y = n -> length (plus x y) = n.
Proof. intros Hx Hy. unfold plus. rewrite map_length, combine_length. lia. Qed.
Lemma vsub_plus : forall x y, @vsub ROps x y = plus x (times (-1) y).
Proof. induction x as [|a x IH]; intros [|b y]; try reflexivity. unfold plus, times. cbn. f_equal; [ring|]. apply IH. Qed.
Lemma len_times c x : length x = n -> length (times c x) = n.
Proof. intros Hx. unfold times. now rewrite map_length. Qed.
Lemma V_add a a' b b' : V a a' -> V b b' -> V (@vadd ROps a b) (@vadd ROps a' b').
Proof. intros [Ha ->] [Hb ->]. destruct HQ as (L & A & _). split; [rewrite vadd_plus; now apply len_plus|]. rewrite !vadd_plus. symmetry. now apply A. Qed.
Lemma V_scale k a a' : V a a' -> V (@vscale ROps k a) (@vscale ROps k a').
Proof. intros [Ha ->]. destruct HQ as (L & _ & S & _). split; [now apply (len_times k)|]. symmetry. now apply (S k). Qed.
Lemma V_sub a a' b b' : V a a' -> V b b' -> V (@vsub ROps a b) (@vsub ROps a' b').
Proof.
  intros Ha Hb. pose proof (V_add _ _ _ _ Ha (V_scale (-1) _ _ Hb)) as H. rewrite !vadd_plus in H. rewrite !vsub_plus. exact H.
Qed.
Lemma vopp_times x : @vopp ROps x = times (-1) x.
Proof. unfold vopp, times. apply map_ext. intros. cbn. ring. Qed.
Lemma V_opp a a' : V a a' -> V (@vopp ROps a) (@vopp ROps a').
Proof. intros H. rewrite !vopp_times. exact (V_scale (-1) _ _ H). Qed.
Lemma vadds0 (x : list R) : @vadds ROps (Q2R 0) x = x.
Proof. unfold vadds. rewrite <- (map_id x) at 2. apply map_ext. intros. cbn. unfold Q2R; cbn; lra. Qed.
Lemma V_zero a a' : V a a' -> V (@vadds ROps (Q2R 0) a) (@vadds ROps (Q2R 0) a').
Proof. intros H. rewrite !vadds0. exact H. Qed.

Lemma hairer_sumsq (v : list R) : @hairer_norm ROps v = sqrt (sumsq v / @nnat ROps (length v)).
Proof.
  unfold hairer_norm, vmean. rewrite map_length. change (@nsqrt ROps) with sqrt. f_equal. change (@ndiv ROps) with Rdiv. f_equal.
  unfold vsum. assert (G : forall (v : list R) a, fold_left Rplus (map (fun u => Rabs u * Rabs u) v) a = a + sumsq v).
  { clear v. induction v as [|b v IH]; intros a; cbn; [ring|]. rewrite IH. rewrite <- Rabs_mult, (Rabs_right (b * b)) by (apply Rle_ge, Rle_0_sqr). ring. }
  refine (eq_trans (G v (Q2R 0)) _). unfold Q2R; cbn. lra.
Qed.
Lemma vdiv_const (d : R) : forall (k : list R) (sc : list R), length sc = length k -> (forall a, In a sc -> a = d) -> @vdiv ROps k sc = times (/ d) k.
Proof.
  induction k as [|a k IH]; intros [|b sc] Hl Hs; try discriminate; [reflexivity|]. unfold times. cbn. f_equal.
  - rewrite (Hs b (or_introl eq_refl)). unfold Rdiv. ring.
  - apply IH; [now injection Hl|]. intros c Hc. apply Hs. now right.
Qed.
Lemma norm_rot d k : length k = n -> @hairer_norm ROps (times (/ d) k) = @hairer_norm ROps (times (/ d) (Q k)).
Proof.
  intros Hk. destruct HQ as (L & _ & S & N). rewrite !hairer_sumsq. rewrite <- S by exact Hk. rewrite N by now apply len_times.
  rewrite (L _ (len_times (/ d) k Hk)), (len_times (/ d) k Hk). reflexivity.
Qed.
Lemma V_norm atol x x' k k' : V x x' -> V k k' ->
  @hairer_norm ROps (@vdiv ROps k (map (fun a => atol + Rabs a * 0) x)) = @hairer_norm ROps (@vdiv ROps k' (map (fun a => atol + Rabs a * 0) x')).
Proof.
  intros [Hx ->] [Hk ->]. destruct HQ as (L & _).
  assert (C : forall y a, In a (map (fun a => atol + Rabs a * 0) y) -> a = atol) by (intros y a Ha; apply in_map_iff in Ha; destruct Ha as (b & <- & _); ring).
  rewrite (vdiv_const atol k); [|now rewrite map_length, Hx, Hk|apply C]. rewrite (vdiv_const atol (Q k)); [|now rewrite map_length, !L|apply C].
  now apply norm_rot.
Qed.
Lemma len_map2 {A B C} (o : A -> B -> C) : forall a b, length a = n -> length b = n -> length (map2 o a b) = n.
Proof. intros a b Ha Hb. rewrite map2_length. lia. Qed.
Lemma V_ratio atol x x' y y' e e' : V x x' -> V y y' -> V e e' ->
  @error_ratio ROps atol 0 None x y e = @error_ratio ROps atol 0 None x' y' e'.
Proof.
  intros [Hx ->] [Hy ->] [He ->]. destruct HQ as (L & _). unfold error_ratio. cbv zeta.
  assert (C : forall y a, In a (map (fun m => atol + 0 * m) y) -> a = atol) by (intros z a Ha; apply in_map_iff in Ha; destruct Ha as (b & <- & _); ring).
  assert (Lv : forall a b, length a = n -> length b = n -> length (@vmax ROps (@vabs ROps a) (@vabs ROps b)) = n).
  { intros a b Ha Hb. unfold vmax, vabs. apply len_map2; now rewrite map_length. }
  refine (eq_trans (f_equal (@hairer_norm ROps) (vdiv_const atol e _ _ _)) (eq_trans (norm_rot atol e He) (f_equal (@hairer_norm ROps) (eq_sym (vdiv_const atol (Q e) _ _ _)))));
    try apply C; rewrite map_length; refine (eq_trans (Lv _ _ _ _) _); auto; symmetry; auto.
Qed.
Lemma V_field f g : rotated_field n Q f g -> @rel_field ROps ROps eq _ _ V f g.
Proof. intros H t t' x x' <- [Hx ->]. destruct (H t x Hx) as [H1 H2]. now split. Qed.
Lemma V_solver s s' : rotated_solver n Q s s' -> @lin_solver ROps V s s'.
Proof.
  intros H. destruct H.
  - exact (@lin_mk ROps V 1 true false _ _ (@lin_euler ROps V V_add V_scale)).
  - exact (@lin_mk ROps V 2 true false _ _ (@lin_midpoint ROps V V_add V_scale)).
  - exact (@lin_mk ROps V 4 true false _ _ (@lin_rk4 ROps V V_add V_scale)).
  - exact (@lin_mk ROps V 5 false false _ _ (@lin_erk7 ROps V V_add V_scale (construct_dopri5 ROps))).
  - exact (@lin_mk ROps V 5 false true _ _ (@lin_erk7 ROps V V_add V_scale (construct_tsit5 ROps))).
  - exact (@lin_mk ROps V 1 true false _ _ (@lin_hyper ROps V V_add V_scale _ _ 1 _ _ (@lin_euler ROps V V_add V_scale) (V_field _ _ H))).
  - exact (@lin_mk ROps V 2 true false _ _ (@lin_hyper ROps V V_add V_scale _ _ 2 _ _ (@lin_midpoint ROps V V_add V_scale) (V_field _ _ H))).
  - exact (@lin_mk ROps V 4 true false _ _ (@lin_hyper ROps V V_add V_scale _ _ 4 _ _ (@lin_rk4 ROps V V_add V_scale) (V_field _ _ H))).
Qed.
(** values of a step *)
Lemma bind_value {C A B} (P : B -> Prop) (m : M C A) (k : A -> M C B) : (forall a b, snd (k a) = Ok b -> P b) -> forall b, snd (mbind m k) = Ok b -> P b.
Proof. intros Hk b. unfold mbind. destruct m as [lg [a| |]]; cbn; try discriminate. destruct (k a) as [lg' r] eqn:E. cbn. intros ->. apply (Hk a). now rewrite E. Qed.
Definition has_stages {X} (r : step_ret X) : Prop := match r with Ret4 _ _ _ st => st <> [] | _ => True end.
Lemma stages_erk7 tab g x t h k r : snd (@erk7_step ROps tab g x t h k) = Ok r -> has_stages r.
Proof.
  revert r. unfold erk7_step. cbv zeta. do 7 (apply bind_value; intros ?; cbv beta). intros r E. injection E as <-. intros H0; discriminate H0.
Qed.
Lemma stages_hyper b o w g x t h k r : snd (@hyper_step ROps b o w g x t h k) = Ok r -> has_stages r.
Proof. revert r. unfold hyper_step. apply bind_value. intros a r. destruct a; cbn; [|discriminate]. intros E. injection E as <-. exact I. Qed.
Lemma V_stages s s' : rotated_solver n Q s s' -> forall g x t h k fn xn xe st, snd (s_step s g x t h k) = Ok (Ret4 fn xn xe st) -> st <> [].
Proof.
  intros H g x t h k fn xn xe st E. change (@has_stages (vec ROps) (Ret4 fn xn xe st)). revert E. generalize (Ret4 fn xn xe st). destruct H.
  - unfold Euler, mk_solver; cbn [s_step]. unfold euler_step. do 1 (apply bind_value; intros ?; cbv beta). intros r E. injection E as <-. exact I.
  - unfold Midpoint, mk_solver; cbn [s_step]. unfold midpoint_step. cbv zeta. do 2 (apply bind_value; intros ?; cbv beta). intros r E. injection E as <-. exact I.
  - unfold RungeKutta4, mk_solver; cbn [s_step]. unfold rk4_step. cbv zeta. do 4 (apply bind_value; intros ?; cbv beta). intros r E. injection E as <-. exact I.
  - intros r. apply stages_erk7.
  - intros r. apply stages_erk7.
  - intros r. apply stages_hyper.
  - intros r. apply stages_hyper.
  - intros r. apply stages_hyper.
Qed.
Lemma V_event e e' : rotated_event n Q e e' -> @lin_cb ROps V e e'.
Proof. intros [H1 H2]. split; [intros t x x' [Hx ->]; symmetry; now apply H1|now apply V_field]. Qed.
Lemma V_outcome m m' : @rel_m ROps ROps eq _ _ _ _ V (rel_pair (@eq (list R)) (Forall2 V)) m m' -> m' = rotated_outcome Q m.
Proof.
  assert (F : forall l l', Forall2 V l l' -> l' = map Q l) by (intros l l' H; induction H as [|? ? ? ? [_ ->] _ ->]; reflexivity).
  intros [H1 H2]. destruct m as [tr r], m' as [tr' r']. unfold rotated_outcome. cbn [fst snd] in *. f_equal.
  - clear H2. induction H1 as [|[a b] [a' b'] l l' [E1 [_ E2]] _ IH]; [reflexivity|]. cbn in *. rewrite IH, E1, E2. reflexivity.
  - destruct r as [[u v]| |], r' as [[u' v']| |]; cbn in *; try contradiction; try congruence.
    destruct H2 as [E1 E2]. cbn in *. now rewrite E1, (F _ _ E2).
Qed.
End Rot.

(** C170: a solve in rotated coordinates with an absolute tolerance only; every built-in solver and hypersolver, every other
    option.  The calls, the times, the exceptions are the same, the states are the rotated ones *)
Lemma C170_rotations_pf : forall n Q fuel s s' f g x ts atol interp all save_at, isometry n Q -> rotated_solver n Q s s' ->
  rotated_field n Q f g -> List.length x = n -> atol <> 0 ->
  @odeint ROps fuel g (Q x) ts s' atol 0 interp all save_at None =
  rotated_outcome Q (@odeint ROps fuel f x ts s atol 0 interp all save_at None).
Proof.
  intros n Q fuel s s' f g x ts atol interp all save_at HQ Hs Hf Hx _. apply (V_outcome n).
  apply (@lin_odeint ROps (V n Q)); try first [exact (V_add n Q HQ)|exact (V_sub n Q HQ)|exact (V_scale n Q HQ)|exact (V_opp n Q HQ)|exact (V_zero n Q)].
  - intros. now apply (V_ratio n Q HQ).
  - intros. now apply (V_norm n Q HQ).
  - now apply V_solver.
  - right. exact (V_stages n Q s s' Hs).
  - now apply V_field.
  - now split.
Qed.

(** C170: the same for hybrid solves *)
Lemma C170_rotations_hybrid_pf : forall n Q fuel s s' f g x ts j_span events events' atol etol first, isometry n Q -> rotated_solver n Q s s' ->
  rotated_field n Q f g -> Forall2 (rotated_event n Q) events events' -> List.length x = n -> atol <> 0 ->
  @odeint_hybrid ROps fuel g (Q x) ts j_span s' events' atol 0 etol first None =
  rotated_outcome Q (@odeint_hybrid ROps fuel f x ts j_span s events atol 0 etol first None).
Proof.
  intros n Q fuel s s' f g x ts j events events' atol etol first HQ Hs Hf He Hx _. apply (V_outcome n).
  apply (@lin_hybrid ROps (V n Q)); try first [exact (V_add n Q HQ)|exact (V_sub n Q HQ)|exact (V_scale n Q HQ)|exact (V_opp n Q HQ)|exact (V_zero n Q)].
  - intros. now apply (V_ratio n Q HQ).
  - intros. now apply (V_norm n Q HQ).
  - now apply V_solver.
  - now apply V_field.
  - induction He; constructor; [now apply V_event|assumption].
  - now split.
Qed.

(** x' = y, y' = -4 x seen in coordinates rotated by the angle with cosine 3/5 and sine 4/5 *)
Definition turn (z : list R) : list R := match z with [a; b] => [3 / 5 * a - 4 / 5 * b; 4 / 5 * a + 3 / 5 * b] | _ => z end.
Definition unturn (z : list R) : list R := match z with [a; b] => [3 / 5 * a + 4 / 5 * b; - 4 / 5 * a + 3 / 5 * b] | _ => z end.
Definition spring (_ : R) (z : list R) : list R := match z with [a; b] => [b; -4 * a] | _ => z end.
Lemma C170_ex_pf : isometry 2 turn /\ rotated_field 2 turn spring (fun t z => turn (spring t (unturn z))) /\ turn [1; 0] = [3 / 5; 4 / 5].
Proof.
  split; [|split].
  - repeat split.
    + intros [|a [|b [|c x]]] Hx; try discriminate; reflexivity.
    + intros [|a [|b [|c x]]] [|a' [|b' [|c' y]]] Hx Hy; try discriminate. unfold plus; cbn. f_equal; [field|]. f_equal. field.
    + intros k [|a [|b [|c x]]] Hx; try discriminate. unfold times; cbn. f_equal; [field|]. f_equal. field.
    + intros [|a [|b [|c x]]] Hx; try discriminate. cbn. field.
  - intros t [|a [|b [|c x]]] Hx; try discriminate. split; [reflexivity|]. cbn. f_equal; [field|]. f_equal. field.
  - cbn. f_equal; [field|]. f_equal. field.
Qed.
