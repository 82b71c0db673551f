(** Positivity and contraction of the Euler method. *)
From Coq Require Import ZArith QArith Qreals Reals Lra Lia List Bool Psatz.
From Verif Require Import Num Py Tensor M_Constants M_SolversOde M_Utils M_Interp M_Odeint.
From Verif Require Import Spec_Ode Spec_Trees Spec_RK Spec_Norm Spec_Adaptive Spec_Inv Spec_Lin Spec_Diss.
From Verif Require Import L_Base L_Fixed L_Vec L_Steps L_Tables L_Steps2 L_Interp L_Utils L_Fixed2 L_Adaptive L_Run.
From Verif Require Import L_Adaptive2 L_Adaptive3 L_Adaptive4 Pf_Fixed Pf_Adaptive L_Reach L_Inv Pf_Lin.
Import ListNotations.
Local Open Scope R_scope.

Lemma euler_axpy f t h x : euler_one f t h x = axpy h (f t x) x.
Proof. unfold euler_one. rewrite axpy_vadd. reflexivity. Qed.

(** states along a grid satisfy whatever one step from such a state gives *)
Lemma traj_all {X} (P : X -> Prop) (one : R -> R -> X -> X) : forall ts x,
  (forall t h y, In h (spacings ts) -> P y -> P (one t h y)) -> P x -> Forall P (one_step_traj one x ts).
Proof.
  induction ts as [|t0 [|t1 ts] IH]; intros x H Px; [constructor|repeat constructor; exact Px|].
  change (one_step_traj one x (t0 :: t1 :: ts)) with (x :: one_step_traj one (one t0 (t1 - t0) x) (t1 :: ts)).
  constructor; [exact Px|]. apply IH.
  - intros t h y Hh. apply H. now right.
  - apply H; [now left|exact Px].
Qed.

Lemma nonneg_nth y : nonnegative y <-> forall j, 0 <= nth j y 0.
Proof.
  split.
  - intros H j. destruct (Nat.lt_ge_cases j (length y)) as [Hj|Hj].
    + exact (proj1 (Forall_forall _ _) H _ (nth_In y 0 Hj)).
    + rewrite nth_overflow by exact Hj. lra.
  - intros H. apply Forall_forall. intros a Ha. destruct (In_nth y a 0 Ha) as (j & _ & <-). apply H.
Qed.

(** C131.  If no entry of a nonnegative state decreases faster than at the relative rate lambda, and every spacing h
    satisfies 0 <= h and lambda h <= 1, all states euler returns from a nonnegative state are nonnegative. *)
Lemma C131_euler_nonnegative_pf :
  forall fuel n f lambda x t0 t1 ts atol rtol interp all semi,
  field_on n f -> decay_at_most n lambda f -> List.length x = n -> nonnegative x ->
  separated (t0 :: t1 :: ts) -> (forall h, In h (spacings (t0 :: t1 :: ts)) -> 0 <= h /\ lambda * h <= 1) ->
  exists sol, snd (@odeint ROps fuel f x (@TTensor ROps (t0 :: t1 :: ts)) (Euler ROps) atol rtol interp all [] semi)
    = Ok (t0 :: t1 :: ts, sol) /\ List.length sol = List.length (t0 :: t1 :: ts) /\ Forall nonnegative sol.
Proof.
  intros fuel n f lambda x t0 t1 ts atol rtol interp all semi Hf Hd Hx Hp Hsep Hh.
  exists (one_step_traj (euler_one f) x (t0 :: t1 :: ts)). split; [|split].
  - apply (C01_fixed_trajectory_pf fuel (Euler ROps) f (euler_one f) euler_log); auto; [apply (euler_stepper f)|].
    destruct (Hh (t1 - t0)); [now left|lra].
  - apply traj_length.
  - assert (A : Forall (fun y => length y = n /\ nonnegative y) (one_step_traj (euler_one f) x (t0 :: t1 :: ts))).
    { apply traj_all; [|auto]. intros t h y Hin (Hy & Py). destruct (Hh h Hin) as (H0 & H1).
      assert (Fy := Hf t y Hy). rewrite euler_axpy. split; [apply axpy_len; auto|].
      apply nonneg_nth. intros j. assert (Q := proj1 (nonneg_nth y) Py j). assert (D := Hd t y j Hy Py).
      destruct (Nat.lt_ge_cases j n) as [Hj|Hj].
      - rewrite (nth_axpy n) by auto.
        assert (0 <= h * (nth j (f t y) 0 + lambda * nth j y 0)) by (apply Rmult_le_pos; lra).
        assert (0 <= (1 - lambda * h) * nth j y 0) by (apply Rmult_le_pos; lra). lra.
      - rewrite nth_overflow; [lra|]. rewrite (axpy_len n) by auto. exact Hj. }
    eapply Forall_impl; [|exact A]. now intros y (_ & H).
Qed.

(** The limit is sharp: for y' = - lambda y one Euler step with lambda h > 1 makes a positive state negative. *)
Lemma C131_euler_limit_pf :
  forall fuel lambda x h atol rtol interp all semi,
  0 < x -> 1 < lambda * h -> 0 <= h -> separated [0; h] ->
  exists y, snd (@odeint ROps fuel (fun _ => map (Rmult (- lambda))) [x] (@TTensor ROps [0; h]) (Euler ROps) atol rtol interp all [] semi)
    = Ok ([0; h], [[x]; [y]]) /\ y < 0.
Proof.
  intros fuel lambda x h atol rtol interp all semi Hx Hl Hh Hsep.
  exists (x + h * (- lambda * x)). split.
  - rewrite (C01_fixed_trajectory_pf fuel (Euler ROps) (fun _ => map (Rmult (- lambda))) (euler_one (fun _ => map (Rmult (- lambda)))) euler_log); auto; [|apply (euler_stepper _)].
    cbn [one_step_traj]. rewrite euler_axpy. unfold axpy. cbn. repeat f_equal. ring.
  - assert (0 < (lambda * h - 1) * x) by (apply Rmult_lt_0_compat; lra). lra.
Qed.

(** C131, refuted for midpoint: the field max(-1, 4 - 20 t) y has lambda = 1, but a step of length 1 takes 1 to -2. *)
Lemma C131_midpoint_refuted_pf :
  let f := fun (t : R) => map (Rmult (Rmax (- 1) (4 - 20 * t))) in
  field_on 1 f /\ decay_at_most 1 1 f /\ (forall h, In h (spacings [0; 1]) -> 0 <= h /\ 1 * h <= 1) /\
  snd (@odeint ROps 0 f [1] (@TTensor ROps [0; 1]) (Midpoint ROps) (1 / 10 ^ 3) (1 / 10 ^ 3) false true [] None)
  = Ok ([0; 1], [[1]; [- 2]]).
Proof.
  intros f. split; [intros t x Hx; unfold f; rewrite map_length; exact Hx|]. split; [|split].
  - intros t y j Hy Hn. assert (Q := proj1 (nonneg_nth y) Hn j).
    assert (M := map_nth (Rmult (Rmax (- 1) (4 - 20 * t))) y 0 j). rewrite Rmult_0_r in M. unfold f. rewrite M.
    apply Rmult_le_compat_r; [exact Q|]. apply Rmax_l.
  - intros h [<-|[]]. lra.
  - rewrite (C01_fixed_trajectory_pf 0 (Midpoint ROps) f (midpoint_one f) (midpoint_log f)); auto; [|apply (midpoint_stepper f)| |lra].
    + cbn [one_step_traj]. unfold midpoint_one, midpoint_arg, f, vadd, vscale. cbn [map map2]. rops.
      rewrite (Rmax_right (-1) (4 - 20 * 0)) by lra.
      rewrite (Rmax_left (-1) (4 - 20 * (0 + / 2 * (1 - 0)))) by lra.
      repeat f_equal. lra.
    + apply (spaced_separated _ 1 1); [|lra|].
      * intros t [<-|[<-|[]]]; rewrite Rabs_right; lra.
      * intros i j a b Hij Ha Hb. destruct i as [|[|i]]; try (destruct i; discriminate);
        destruct j as [|[|j]]; try lia; try (destruct j; discriminate).
        simpl in *; injection Ha as <-; injection Hb as <-; lra.
Qed.

(** A chain of reactions a -> b -> nothing with rates 2 and 1. *)
Lemma C131_ex_pf :
  let f := fun (_ : R) (y : list R) => match y with [a; b] => [- 2 * a; 2 * a - b] | _ => y end in
  field_on 2 f /\ decay_at_most 2 2 f /\ nonnegative [1; 0] /\ separated [0; 1; 3] /\ f 0 [1; 0] = [- 2; 2].
Proof.
  intros f. split; [|split; [|split; [|split]]].
  - intros t x Hx. destruct x as [|a [|b [|]]]; try discriminate. reflexivity.
  - intros t y j Hy Hn. destruct y as [|a [|b [|]]]; try discriminate. inversion Hn as [|? ? Ha Hb']. inversion Hb' as [|? ? Hb _]. subst.
    unfold f. destruct j as [|[|j]]; cbn [nth]; [lra|lra|]. destruct j; lra.
  - repeat constructor; lra.
  - apply (spaced_separated _ 3 1); [|lra|].
    + intros t [<-|[<-|[<-|[]]]]; rewrite Rabs_right; lra.
    + intros i j a b Hij Ha Hb. destruct i as [|[|[|i]]]; try (destruct i; discriminate);
      destruct j as [|[|[|j]]]; try lia; try (destruct j; discriminate);
      simpl in *; injection Ha as <-; injection Hb as <-; lra.
  - unfold f. repeat f_equal; ring.
Qed.

(** ** Contraction *)
Lemma diff_len n : forall y z, length y = n -> length z = n -> length (diff y z) = n.
Proof. induction n as [|n IH]; intros [|a y] [|b z] Hy Hz; simpl in *; try lia. now rewrite IH by lia. Qed.

Lemma diff_axpy n h : forall k y l z, length k = n -> length y = n -> length l = n -> length z = n ->
  diff (axpy h k y) (axpy h l z) = axpy h (diff k l) (diff y z).
Proof.
  induction n as [|n IH]; intros [|a k] [|b y] [|c l] [|d z] Hk Hy Hl Hz; simpl in *; try lia; auto.
  unfold axpy in *. cbn [combine map fst snd diff]. f_equal; [ring|]. apply IH; lia.
Qed.

Lemma inner_sym : forall y z, inner y z = inner z y.
Proof. induction y as [|a y IH]; intros [|b z]; cbn [inner]; auto. rewrite IH. ring. Qed.

Lemma dist2_step n h k y l z : length k = n -> length y = n -> length l = n -> length z = n ->
  dist2 (axpy h k y) (axpy h l z) = dist2 y z + 2 * h * inner (diff k l) (diff y z) + h ^ 2 * dist2 k l.
Proof.
  intros Hk Hy Hl Hz. unfold dist2. rewrite (diff_axpy n) by auto.
  assert (D1 := diff_len n k l Hk Hl). assert (D2 := diff_len n y z Hy Hz).
  rewrite inner_axpy by congruence. rewrite (inner_sym (axpy _ _ _) (diff y z)), (inner_sym (axpy _ _ _) (diff k l)).
  rewrite !inner_axpy by congruence. rewrite (inner_sym (diff y z) (diff k l)). ring.
Qed.

Lemma dist2_pos : forall y z, 0 <= dist2 y z.
Proof. unfold dist2. induction y as [|a y IH]; intros [|b z]; cbn [diff inner]; try lra. assert (A := IH z). assert (B := Rle_0_sqr (a - b)). unfold Rsqr in B. lra. Qed.

Definition efactor (mu L h : R) : R := 1 - 2 * mu * h + L ^ 2 * h ^ 2.
Lemma efactor_pos mu L h : Rabs mu <= L -> 0 <= efactor mu L h.
Proof.
  intros H. unfold efactor. assert (mu ^ 2 <= L ^ 2) by (rewrite <- (pow2_abs mu); apply pow_incr; split; [apply Rabs_pos|exact H]).
  assert (0 <= (1 - mu * h) ^ 2) by apply pow2_ge_0. assert (0 <= h ^ 2 * (L ^ 2 - mu ^ 2)) by (apply Rmult_le_pos; [apply pow2_ge_0|lra]). nra.
Qed.

Lemma euler_dist n f mu L : field_on n f -> dissipative n mu L f -> Rabs mu <= L ->
  forall i ts x x' y y', (forall h, In h (spacings ts) -> 0 <= h) -> length x = n -> length x' = n ->
  nth_error (one_step_traj (euler_one f) x ts) i = Some y -> nth_error (one_step_traj (euler_one f) x' ts) i = Some y' ->
  dist2 y y' <= grid_product (efactor mu L) ts i * dist2 x x'.
Proof.
  intros Hf Hd Hmu. induction i as [|i IH]; intros ts x x' y y' Hh Hx Hx' Hy Hy'.
  - destruct ts as [|t0 [|t1 ts]]; [discriminate| |]; injection Hy as <-; injection Hy' as <-; cbn [grid_product]; lra.
  - destruct ts as [|t0 [|t1 ts]]; [discriminate|cbn in Hy; destruct i; discriminate|].
    change (nth_error (one_step_traj (euler_one f) (euler_one f t0 (t1 - t0) x) (t1 :: ts)) i = Some y) in Hy.
    change (nth_error (one_step_traj (euler_one f) (euler_one f t0 (t1 - t0) x') (t1 :: ts)) i = Some y') in Hy'.
    assert (H0 := Hh (t1 - t0) (or_introl eq_refl)).
    assert (F1 := Hf t0 x Hx). assert (F2 := Hf t0 x' Hx').
    rewrite euler_axpy in Hy, Hy'.
    eapply Rle_trans; [apply (IH (t1 :: ts) _ _ y y' (fun h Hin => Hh h (or_intror Hin)) (axpy_len n _ _ _ Hx F1) (axpy_len n _ _ _ Hx' F2) Hy Hy')|].
    rewrite (dist2_step n) by auto.
    change (grid_product (efactor mu L) (t0 :: t1 :: ts) (S i)) with (efactor mu L (t1 - t0) * grid_product (efactor mu L) (t1 :: ts) i).
    rewrite (Rmult_comm (efactor mu L (t1 - t0))), (Rmult_assoc (grid_product _ _ _)). apply Rmult_le_compat_l.
    + clear - Hmu. revert i. generalize (t1 :: ts). intros l. induction l as [|a [|b l] IHl]; intros [|i]; cbn [grid_product]; try lra.
      apply Rmult_le_pos; [now apply efactor_pos|apply IHl].
    + destruct (Hd t0 x x' Hx Hx') as (D1 & D2). unfold efactor. set (h := t1 - t0) in *.
      assert (A1 : 0 <= h * (- mu * dist2 x x' - inner (diff (f t0 x) (f t0 x')) (diff x x'))) by (apply Rmult_le_pos; lra).
      assert (A2 : 0 <= h ^ 2 * (L ^ 2 * dist2 x x' - dist2 (f t0 x) (f t0 x'))) by (apply Rmult_le_pos; [apply pow2_ge_0|lra]).
      lra.
Qed.

(** C132.  Two Euler solutions of a dissipative field on the same grid: the squared distance of the states is at most
    the initial one times the product of 1 - 2 mu h + L^2 h^2 over the steps. *)
Lemma C132_euler_contraction_pf :
  forall fuel n f mu L x x' t0 t1 ts atol rtol interp all semi times sol times' sol',
  field_on n f -> dissipative n mu L f -> Rabs mu <= L -> List.length x = n -> List.length x' = n ->
  separated (t0 :: t1 :: ts) -> (forall h, In h (spacings (t0 :: t1 :: ts)) -> 0 <= h) ->
  snd (@odeint ROps fuel f x (@TTensor ROps (t0 :: t1 :: ts)) (Euler ROps) atol rtol interp all [] semi) = Ok (times, sol) ->
  snd (@odeint ROps fuel f x' (@TTensor ROps (t0 :: t1 :: ts)) (Euler ROps) atol rtol interp all [] semi) = Ok (times', sol') ->
  List.length sol = List.length (t0 :: t1 :: ts) /\ List.length sol' = List.length (t0 :: t1 :: ts) /\
  forall i y y', nth_error sol i = Some y -> nth_error sol' i = Some y' ->
  dist2 y y' <= grid_product (fun h => 1 - 2 * mu * h + L ^ 2 * h ^ 2) (t0 :: t1 :: ts) i * dist2 x x'.
Proof.
  intros fuel n f mu L x x' t0 t1 ts atol rtol interp all semi times sol times' sol' Hf Hd Hmu Hx Hx' Hsep Hh E E'.
  assert (H0 : t0 <= t1) by (generalize (Hh (t1 - t0) (or_introl eq_refl)); lra).
  assert (C := fun z => C01_fixed_trajectory_pf fuel (Euler ROps) f (euler_one f) euler_log z t0 t1 ts atol rtol interp all semi eq_refl (euler_stepper f) Hsep H0).
  destruct (Ok_pair _ _ _ _ (eq_trans (eq_sym E) (C x))) as [_ ->].
  destruct (Ok_pair _ _ _ _ (eq_trans (eq_sym E') (C x'))) as [_ ->].
  split; [apply traj_length|]. split; [apply traj_length|].
  intros i y y' Hy Hy'. exact (euler_dist n f mu L Hf Hd Hmu i (t0 :: t1 :: ts) x x' y y' Hh Hx Hx' Hy Hy').
Qed.

(** C132.  With spacings L^2 h <= 2 mu trajectories never move apart: the distance at i never exceeds the initial one. *)
Lemma C132_euler_nonexpansive_pf :
  forall fuel n f mu L x x' t0 t1 ts atol rtol interp all semi times sol times' sol',
  field_on n f -> dissipative n mu L f -> Rabs mu <= L -> List.length x = n -> List.length x' = n ->
  separated (t0 :: t1 :: ts) -> (forall h, In h (spacings (t0 :: t1 :: ts)) -> 0 <= h /\ L ^ 2 * h <= 2 * mu) ->
  snd (@odeint ROps fuel f x (@TTensor ROps (t0 :: t1 :: ts)) (Euler ROps) atol rtol interp all [] semi) = Ok (times, sol) ->
  snd (@odeint ROps fuel f x' (@TTensor ROps (t0 :: t1 :: ts)) (Euler ROps) atol rtol interp all [] semi) = Ok (times', sol') ->
  forall i y y', nth_error sol i = Some y -> nth_error sol' i = Some y' -> dist2 y y' <= dist2 x x'.
Proof.
  intros fuel n f mu L x x' t0 t1 ts atol rtol interp all semi times sol times' sol' Hf Hd Hmu Hx Hx' Hsep Hh E E' i y y' Hy Hy'.
  destruct (C132_euler_contraction_pf fuel n f mu L x x' t0 t1 ts atol rtol interp all semi times sol times' sol'
    Hf Hd Hmu Hx Hx' Hsep (fun h Hin => proj1 (Hh h Hin)) E E') as (_ & _ & H).
  eapply Rle_trans; [exact (H i y y' Hy Hy')|].
  assert (P : grid_product (fun h => 1 - 2 * mu * h + L ^ 2 * h ^ 2) (t0 :: t1 :: ts) i <= 1).
  { eapply Rle_trans; [apply Rle_abs|]. apply product_le. intros h Hin. destruct (Hh h Hin) as (H1 & H2).
    rewrite Rabs_right by (apply Rle_ge; now apply efactor_pos).
    assert (0 <= h * (2 * mu - L ^ 2 * h)) by (apply Rmult_le_pos; lra). lra. }
  assert (D := dist2_pos x x'). rewrite <- (Rmult_1_l (dist2 x x')) at 2. now apply Rmult_le_compat_r.
Qed.

(** Beyond the limit trajectories may separate: y' = (y_2 - y_1, - y_1 - y_2) has mu = 1, L^2 = 2, and a step of
    length 3/2 > 2 mu / L^2 multiplies squared distances by 5/2. *)
Lemma C132_ex_pf :
  let f := fun (_ : R) (y : list R) => match y with [a; b] => [b - a; - a - b] | _ => y end in
  field_on 2 f /\ dissipative 2 1 (sqrt 2) f /\ Rabs 1 <= sqrt 2 /\ separated [0; 1; 2] /\
  (forall h, In h (spacings [0; 1; 2]) -> 0 <= h /\ sqrt 2 ^ 2 * h <= 2 * 1) /\
  snd (@odeint ROps 0 f [1; 0] (@TTensor ROps [0; 3 / 2]) (Euler ROps) (1 / 10 ^ 3) (1 / 10 ^ 3) false true [] None)
  = Ok ([0; 3 / 2], [[1; 0]; [- (1 / 2); - (3 / 2)]]) /\
  snd (@odeint ROps 0 f [0; 0] (@TTensor ROps [0; 3 / 2]) (Euler ROps) (1 / 10 ^ 3) (1 / 10 ^ 3) false true [] None)
  = Ok ([0; 3 / 2], [[0; 0]; [0; 0]]).
Proof.
  intros f. assert (S2 : sqrt 2 ^ 2 = 2) by (rewrite <- Rsqr_pow2; apply Rsqr_sqrt; lra).
  assert (Sep : separated [0; 3 / 2]).
  { apply (spaced_separated _ (3 / 2) (3 / 2)); [|lra|].
    - intros t [<-|[<-|[]]]; rewrite Rabs_right; lra.
    - intros i j a b Hij Ha Hb. destruct i as [|[|i]]; try (destruct i; discriminate);
      destruct j as [|[|j]]; try lia; try (destruct j; discriminate).
      simpl in *; injection Ha as <-; injection Hb as <-; lra. }
  split; [|split; [|split; [|split; [|split]]]].
  - intros t x Hx. destruct x as [|a [|b [|]]]; try discriminate. reflexivity.
  - intros t y z Hy Hz. destruct y as [|a [|b [|]]]; try discriminate. destruct z as [|c [|d [|]]]; try discriminate.
    rewrite S2. unfold dist2, f. cbn [diff inner]. split; lra.
  - rewrite Rabs_R1. rewrite <- sqrt_1 at 1. apply sqrt_le_1; lra.
  - apply (spaced_separated _ 2 1); [|lra|].
    + intros t [<-|[<-|[<-|[]]]]; rewrite Rabs_right; lra.
    + intros i j a b Hij Ha Hb. destruct i as [|[|[|i]]]; try (destruct i; discriminate);
      destruct j as [|[|[|j]]]; try lia; try (destruct j; discriminate);
      simpl in *; injection Ha as <-; injection Hb as <-; lra.
  - intros h [<-|[<-|[]]]; rewrite S2; lra.
  - split; refine (eq_trans (C01_fixed_trajectory_pf 0 (Euler ROps) f (euler_one f) euler_log _ 0 (3 / 2) [] _ _ _ _ _ eq_refl (euler_stepper f) Sep ltac:(lra)) _);
    cbn [one_step_traj]; rewrite euler_axpy; unfold f, axpy; cbn [combine map fst snd]; repeat f_equal; lra.
Qed.
