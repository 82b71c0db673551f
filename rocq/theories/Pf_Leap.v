(** Proofs of the properties of odeint_symplectic and of the asynchronous leapfrog method. *)
From Coq Require Import ZArith QArith Reals Lra Lia List Bool Floats.
From Verif Require Import Num Py Tensor M_SolversOde M_Utils M_Odeint Spec_Ode Spec_RK Spec_Conv Spec_Leap.
From Verif Require Import L_Base L_Fixed L_Vec L_Steps L_Steps2 L_Fixed2 L_Jagged L_Conv L_Sens L_Leap Pf_Fixed Pf_Conv L_Utils L_Adaptive L_Adaptive2.
Import ListNotations.
Local Open Scope R_scope.

Ltac eqr := repeat first [match goal with |- @eq R _ _ => field end | f_equal].

(** C115.  With a fixed-step solver and a field carrying an admissible [order], odeint_symplectic
    is odeint: same calls of the field, same result, whatever the tolerances and return_all_eval. *)
Lemma C115_same_as_odeint_pf :
  forall fuel fuel' f o x ts (s : solver ROps (vec ROps)) is_alf atol rtol atol' rtol' interp all all' save_at semi,
  s_fixed s = true -> (is_alf = true -> o <> 2%nat) ->
  @odeint_symplectic ROps fuel f (Some o) x ts s is_alf atol rtol all save_at =
  @odeint ROps fuel' f x ts s atol' rtol' interp all' save_at semi.
Proof.
  intros fuel fuel' f o x ts s is_alf atol rtol atol' rtol' interp all all' save_at semi Hfix Ho.
  unfold odeint_symplectic, odeint. destruct (prep_time f ts) as [[f_ t_span]| |]; try reflexivity.
  unfold mlift. rewrite !mbind_Ok. rewrite Hfix.
  assert (E : is_alf && (o =? 2)%nat = false).
  { destruct is_alf; [|reflexivity]. apply Nat.eqb_neq. now apply Ho. }
  rewrite E. reflexivity.
Qed.

(** C115.  The leapfrog solver returns the leapfrog states along the grid, starting from the given
    position and velocity; on a decreasing grid they are the leapfrog states with negative steps, started
    from the opposite velocity and reported with the opposite velocity. *)
Lemma C115_trajectory_pf :
  forall n f o x v t0 t1 ts fuel atol rtol all,
  field_on n f -> length x = n -> length v = n -> o <> 2%nat -> separated (t0 :: t1 :: ts) -> t0 <= t1 ->
  snd (@odeint_symplectic ROps fuel f (Some o) (x ++ v) (@TTensor ROps (t0 :: t1 :: ts)) (AsynchronousLeapfrog ROps false) true atol rtol all [])
  = Ok (t0 :: t1 :: ts, map join (one_step_traj (leap f) (x, v) (t0 :: t1 :: ts))).
Proof.
  intros n f o x v t0 t1 ts fuel atol rtol all Hf Hx Hv Ho Hsep Hle.
  rewrite (C115_same_as_odeint_pf fuel 0 f o (x ++ v) _ (AsynchronousLeapfrog ROps false) true atol rtol 0 0 false all false [] None eq_refl (fun _ => Ho)).
  rewrite (C01_fixed_trajectory_pf 0 (AsynchronousLeapfrog ROps false) f (alf_one f) (alf_log f)); auto using alf_stepper.
  do 2 f_equal. exact (alf_traj n f (t0 :: t1 :: ts) (x, v) Hf (conj Hx Hv)).
Qed.

Lemma C115_trajectory_reversed_pf :
  forall n f o x v t0 t1 ts fuel atol rtol all,
  field_on n f -> length x = n -> length v = n -> o <> 2%nat -> separated (t0 :: t1 :: ts) -> t1 < t0 ->
  rmap snd (snd (@odeint_symplectic ROps fuel f (Some o) (x ++ v) (@TTensor ROps (t0 :: t1 :: ts)) (AsynchronousLeapfrog ROps false) true atol rtol all []))
  = Ok (map join (map flip (one_step_traj (leap f) (flip (x, v)) (t0 :: t1 :: ts)))).
Proof.
  intros n f o x v t0 t1 ts fuel atol rtol all Hf Hx Hv Ho Hsep Hlt.
  rewrite (C115_same_as_odeint_pf fuel 0 f o (x ++ v) _ (AsynchronousLeapfrog ROps false) true atol rtol 0 0 false all false [] None eq_refl (fun _ => Ho)).
  rewrite (odeint_fixed_dec 0 (AsynchronousLeapfrog ROps false)) by auto.
  pose proof (fixed_default (AsynchronousLeapfrog ROps false) (@neg_field ROps f) _ _ (x ++ v) (map Ropp (t0 :: t1 :: ts))
    (alf_stepper (@neg_field ROps f))) as H.
  assert (E : snd (@fixed_odeint ROps (vec ROps) (@neg_field ROps f) (x ++ v) (map Ropp (t0 :: t1 :: ts)) (s_step (AsynchronousLeapfrog ROps false)) [])
     = Ok (map Ropp (t0 :: t1 :: ts), one_step_traj (alf_one (@neg_field ROps f)) (x ++ v) (map Ropp (t0 :: t1 :: ts)))).
  { rewrite H; auto. - simpl; lia. - now apply separated_opp in Hsep. }
  rewrite E. unfold rmap, rbind. f_equal. cbn [snd].
  assert (Hp : pair_on n (flip (x, v))) by (apply flip_on; split; auto).
  pose proof (neg_field_on n f Hf) as Hn.
  refine (eq_trans (alf_traj n (@neg_field ROps f) _ (x, v) Hn (conj Hx Hv)) _). f_equal.
  rewrite <- (leap_traj_neg n f (t0 :: t1 :: ts) (flip (x, v)) Hf Hp), flip_flip. reflexivity.
Qed.

(** C115, bookkeeping: a field without [order], and the leapfrog solver with a field of order 2, are
    rejected before the field is called. *)
Lemma C115_order_checked_pf :
  forall fuel f x t0 t1 ts (s : solver ROps (vec ROps)) is_alf atol rtol all save_at,
  @odeint_symplectic ROps fuel f None x (@TTensor ROps (t0 :: t1 :: ts)) s is_alf atol rtol all save_at = ([], Err RuntimeError) /\
  @odeint_symplectic ROps fuel f (Some 2%nat) x (@TTensor ROps (t0 :: t1 :: ts)) s true atol rtol all save_at = ([], Err RuntimeError).
Proof.
  intros. unfold odeint_symplectic, prep_time. cbn [ts_list pyget nth_error rbind].
  destruct (@nltb ROps t1 t0); split; reflexivity.
Qed.

Lemma C115_ex_pf : let f := fun (_ : R) (x : list R) => map (Rmult 2) x in
  field_on 1 f /\ separated [0; 1; 2] /\ map join (one_step_traj (leap f) ([1], [2]) [0; 1; 2]) = [[1; 2]; [5; 6]; [21; 26]].
Proof.
  intros f. split; [intros t x Hx; unfold f; now rewrite map_length|]. split; [exact C04_ex_pf|].
  unfold f. rewrite !traj_cons. unfold leap, axpy, join. cbn [map combine fst snd one_step_traj app].
  eqr.
Qed.

(** C116.  Convergence: f is L-Lipschitz, y solves y' = f(t, y) with second and third derivatives bounded by
    M2, M3.  On an increasing grid of equal steps h, started from the position y(t0) and a velocity
    differing from f(t0, y(t0)) by at most delta, the positions are within
    exp(2 L (t - t0)) (h delta / 2 + (t - t0) (L M2 / 4 + M3 / 6) h^2) of y, and the velocities
    within twice that divided by h of f(t, y(t)). *)
Lemma C116_leapfrog_second_order_pf :
  forall n f o L y y2 y3 M2 M3 h delta v t0 t1 ts fuel atol rtol all,
  field_on n f -> 0 <= L -> lipschitz n L f ->
  let T := last (t1 :: ts) t0 in
  solves n t0 T f y -> curve_derivative n t0 T (fun t => f t (y t)) y2 -> curve_derivative n t0 T y2 y3 ->
  0 <= M2 -> curve_bound n t0 T M2 y2 -> 0 <= M3 -> curve_bound n t0 T M3 y3 ->
  0 < h -> equal_steps h (t0 :: t1 :: ts) -> separated (t0 :: t1 :: ts) ->
  o <> 2%nat -> length v = n -> 0 <= delta -> near n delta v (f t0 (y t0)) ->
  let B t := exp (2 * L * (t - t0)) * (h * delta / 2 + (t - t0) * (L * M2 / 4 + M3 / 6) * (h * h)) in
  exists ps,
    snd (@odeint_symplectic ROps fuel f (Some o) (y t0 ++ v) (@TTensor ROps (t0 :: t1 :: ts)) (AsynchronousLeapfrog ROps false) true atol rtol all [])
      = Ok (t0 :: t1 :: ts, map join ps) /\ length ps = length (t0 :: t1 :: ts) /\
    forall k tk p, nth_error (t0 :: t1 :: ts) k = Some tk -> nth_error ps k = Some p ->
      length (fst p) = n /\ length (snd p) = n /\
      near n (B tk) (fst p) (y tk) /\ near n (2 * B tk / h) (snd p) (f tk (y tk)).
Proof.
  intros n f o L y y2 y3 M2 M3 h delta v t0 t1 ts fuel atol rtol all Hf HL Hlip T Hsol Hy2 Hy3 HM2 Hb2 HM3 Hb3 Hh Heq Hsep Ho Hv Hd Hnv B.
  exists (one_step_traj (leap f) (y t0, v) (t0 :: t1 :: ts)).
  assert (H01 : t1 - t0 = h) by (apply (Heq 0%nat); reflexivity).
  split; [apply (C115_trajectory_pf n); auto; [apply Hsol|lra]|]. split; [apply traj_len|].
  intros k tk p Hk Hp.
  assert (Hinc : increasing (t0 :: t1 :: ts)).
  { assert (G : forall l, equal_steps h l -> forall i j a b, nth_error l i = Some a -> nth_error l (i + S j) = Some b -> a < b).
    { intros l Hl i j. induction j as [|j IH]; intros a b Ha Hb'.
      - replace (i + 1)%nat with (S i) in Hb' by lia. pose proof (Hl i a b Ha Hb'). lra.
      - destruct (nth_error l (i + S j)) as [c|] eqn:Hc.
        + pose proof (IH a c Ha eq_refl). replace (i + S (S j))%nat with (S (i + S j)) in Hb' by lia. pose proof (Hl _ c b Hc Hb'). lra.
        + apply nth_error_None in Hc. assert (nth_error l (i + S (S j)) <> None) by congruence. apply nth_error_Some in H. lia. }
    intros i j a b Hij Ha Hb'. apply (G _ Heq i (j - i - 1)%nat); auto. replace (i + S (j - i - 1))%nat with j by lia. exact Hb'. }
  destruct (leap_traj_ok n f L t0 T y Hf HL Hlip Hsol y2 y3 M2 M3 Hy2 HM2 Hb2 Hy3 HM3 Hb3 (h * delta) h (t1 :: ts) t0 (y t0, v)) with (k := k) (a := tk) (q := p)
    as (Ht & Hpo & e & d & He & Hd' & Hed & N1 & N2); auto; try lra.
  - apply Rmult_le_pos; lra.
  - split; [split; [apply Hsol|exact Hv]|]. exists 0, (h * delta). cbn [fst snd].
    split; [lra|]. split; [apply Rmult_le_pos; lra|]. split; [|split].
    + unfold lbound. replace (t0 - t0) with 0 by ring. replace (2 * L * 0) with 0 by ring. rewrite exp_0. lra.
    + intros i Hi. replace (nth i (y t0) 0 - nth i (y t0) 0) with 0 by ring. rewrite Rabs_R0. lra.
    + replace (h * delta / h) with delta by (field; lra). exact Hnv.
  - intros a Ha. unfold T. now apply inc_last.
  - destruct Hpo as [P1 P2]. split; [exact P1|]. split; [exact P2|].
    assert (E2 : 2 * B tk = lbound L t0 M2 M3 (h * delta) h tk) by (unfold B, lbound; field).
    split.
    + eapply near_le; [|exact N1]. lra.
    + eapply near_le; [|exact N2]. apply Rmult_le_compat_r; [left; now apply Rinv_0_lt_compat|]. lra.
Qed.

(** y' = y with y = exp on the grid 0, 1/2, 1 meets the hypotheses of C116. *)
Lemma C116_ex_pf :
  let f := fun (_ : R) (x : list R) => x in let y := fun t => [exp t] in
  field_on 1 f /\ lipschitz 1 1 f /\ solves 1 0 1 f y /\
  curve_derivative 1 0 1 (fun t => f t (y t)) y /\ curve_derivative 1 0 1 y y /\ curve_bound 1 0 1 (exp 1) y /\
  equal_steps (1/2) [0; 1/2; 1] /\ separated [0; 1/2; 1] /\ near 1 0 [1] (f 0 (y 0)).
Proof.
  destruct C25_ex_pf as (H1 & H2 & H3 & H4 & H5 & H6 & _ & H7 & _).
  split; [exact H1|]. split; [exact H2|]. split; [exact H3|]. split; [exact H4|]. split; [exact H5|]. split; [exact H6|].
  split; [|split; [exact H7|]].
  - intros i a b Ha Hb. destruct i as [|[|[|i]]]; try discriminate; simpl in *; injection Ha as <-; injection Hb as <-; lra.
  - cbv zeta beta. rewrite exp_0. intros [|i] Hi; [|lia]. cbn [nth]. replace (1 - 1) with 0 by ring. rewrite Rabs_R0. lra.
Qed.

(** C116 in reversed time: the velocity handed over must be the derivative along the reversed time,
    -f(t0, y(t0)), and the velocities returned are those. *)
Lemma symplectic_neg fuel f o x t0 t1 ts (s : solver ROps (vec ROps)) is_alf atol rtol all : s_fixed s = true -> t1 < t0 ->
  @odeint_symplectic ROps fuel f (Some o) x (@TTensor ROps (t0 :: t1 :: ts)) s is_alf atol rtol all [] =
  @odeint_symplectic ROps fuel (@neg_field ROps f) (Some o) x (@TTensor ROps (map Ropp (t0 :: t1 :: ts))) s is_alf atol rtol all [].
Proof.
  intros Hfix Hlt. unfold odeint_symplectic, prep_time. cbn [ts_list pyget nth_error rbind map]. rops.
  rewrite (proj2 (Rltb_true t1 t0)) by lra. rewrite (proj2 (Rltb_false (- t1) (- t0))) by lra.
  unfold mlift. rewrite !mbind_Ok. rewrite Hfix. reflexivity.
Qed.

Lemma curve_reversed n a b y dy : curve_derivative n a b y dy -> curve_derivative n (- b) (- a) (fun s => y (- s)) (fun s => map Ropp (dy (- s))).
Proof.
  intros H i t Hi Ht. rewrite nth_map_opp.
  pose proof (dlim_refl (fun s => nth i (y s) 0) 0 t (nth i (dy (- t)) 0)) as D. cbv beta in D.
  rewrite Rminus_0_l in D. specialize (D (H i (- t) Hi ltac:(lra))).
  eapply dlim_ext; [| |exact D]; [intros z; cbv beta; now rewrite Rminus_0_l|reflexivity].
Qed.

Lemma C116_reversed_second_order_pf :
  forall n f o L y y2 y3 M2 M3 h delta v t0 t1 ts fuel atol rtol all,
  field_on n f -> 0 <= L -> lipschitz n L f ->
  let T := last (t1 :: ts) t0 in
  solves n T t0 f y -> curve_derivative n T t0 (fun t => f t (y t)) y2 -> curve_derivative n T t0 y2 y3 ->
  0 <= M2 -> curve_bound n T t0 M2 y2 -> 0 <= M3 -> curve_bound n T t0 M3 y3 ->
  0 < h -> equal_steps (- h) (t0 :: t1 :: ts) -> separated (t0 :: t1 :: ts) ->
  o <> 2%nat -> length v = n -> 0 <= delta -> near n delta v (map Ropp (f t0 (y t0))) ->
  let B t := exp (2 * L * (t0 - t)) * (h * delta / 2 + (t0 - t) * (L * M2 / 4 + M3 / 6) * (h * h)) in
  exists ps,
    rmap snd (snd (@odeint_symplectic ROps fuel f (Some o) (y t0 ++ v) (@TTensor ROps (t0 :: t1 :: ts)) (AsynchronousLeapfrog ROps false) true atol rtol all []))
      = Ok (map join ps) /\ length ps = length (t0 :: t1 :: ts) /\
    forall k tk p, nth_error (t0 :: t1 :: ts) k = Some tk -> nth_error ps k = Some p ->
      length (fst p) = n /\ length (snd p) = n /\
      near n (B tk) (fst p) (y tk) /\ near n (2 * B tk / h) (snd p) (map Ropp (f tk (y tk))).
Proof.
  intros n f o L y y2 y3 M2 M3 h delta v t0 t1 ts fuel atol rtol all Hf HL Hlip T Hsol Hy2 Hy3 HM2 Hb2 HM3 Hb3 Hh Heq Hsep Ho Hv Hd Hnv B.
  assert (H01 : t1 - t0 = - h) by (apply (Heq 0%nat); reflexivity).
  rewrite symplectic_neg by (auto; lra).
  set (g := @neg_field ROps f). set (z := fun s => y (- s)).
  assert (Eg : forall s, g s (z s) = map Ropp (f (- s) (y (- s)))) by reflexivity.
  assert (ET : last (- t1 :: map Ropp ts) (- t0) = - T).
  { change (- t1 :: map Ropp ts) with (map Ropp (t1 :: ts)). unfold T. generalize (t1 :: ts) t0. clear.
    induction l as [|a [|b l] IH]; intros t0; try reflexivity. exact (IH t0). }
  destruct (C116_leapfrog_second_order_pf n g o L z (fun s => y2 (- s)) (fun s => map Ropp (y3 (- s))) M2 M3 h delta v (- t0) (- t1) (map Ropp ts) fuel atol rtol all)
    as (ps & E & Hlen & Hps); auto.
  - now apply neg_field_on.
  - intros t x x' D Hx Hx' Hn i Hi. unfold g, neg_field. change (@vopp ROps) with (map Ropp). rops. rewrite !nth_map_opp.
    pose proof (Hlip (- t) x x' D Hx Hx' Hn i Hi) as Hl'. replace (- nth i (f (- t) x) 0 - - nth i (f (- t) x') 0) with
      (- (nth i (f (- t) x) 0 - nth i (f (- t) x') 0)) by ring. now rewrite Rabs_Ropp.
  - rewrite ET. destruct Hsol as [Hl Hder]. split; [intros t; apply Hl|]. exact (curve_reversed n T t0 _ _ Hder).
  - rewrite ET. intros i t Hi Ht. pose proof (curve_reversed n T t0 _ _ Hy2 i t Hi Ht) as D. cbv beta in D. rewrite nth_map_opp in D.
    pose proof (derivable_pt_lim_opp _ _ _ D) as D'. rewrite Ropp_involutive in D'.
    eapply dlim_ext; [| |exact D']; [|reflexivity]. intros s. unfold opp_fct. rewrite Eg, nth_map_opp. reflexivity.
  - rewrite ET. exact (curve_reversed n T t0 _ _ Hy3).
  - rewrite ET. intros i t Hi Ht. apply Hb2; auto. lra.
  - rewrite ET. intros i t Hi Ht. rewrite nth_map_opp, Rabs_Ropp. apply Hb3; auto. lra.
  - change (- t0 :: - t1 :: map Ropp ts) with (map Ropp (t0 :: t1 :: ts)). intros i a b Ha Hb. rewrite nth_error_map in Ha, Hb.
    destruct (nth_error (t0 :: t1 :: ts) i) as [a'|] eqn:Ea; [|discriminate].
    destruct (nth_error (t0 :: t1 :: ts) (S i)) as [b'|] eqn:Eb; [|discriminate].
    injection Ha as <-. injection Hb as <-. pose proof (Heq i a' b' Ea Eb). lra.
  - now apply separated_opp in Hsep.
  - rewrite Eg, Ropp_involutive. exact Hnv.
  - exists ps. unfold z in E. rewrite Ropp_involutive in E. cbn [map]. rewrite E. split; [reflexivity|].
    split; [rewrite Hlen; cbn [length]; now rewrite map_length|].
    intros k tk p Hk Hp.
    assert (Hk' : nth_error (- t0 :: - t1 :: map Ropp ts) k = Some (- tk)).
    { change (- t0 :: - t1 :: map Ropp ts) with (map Ropp (t0 :: t1 :: ts)). rewrite nth_error_map, Hk. reflexivity. }
    destruct (Hps k (- tk) p Hk' Hp) as (P1 & P2 & N1 & N2). split; [exact P1|]. split; [exact P2|].
    cbv beta in N1, N2. rewrite Eg in N2. unfold z in N1. rewrite Ropp_involutive in N1, N2.
    replace (- tk - - t0) with (t0 - tk) in N1, N2 by ring. split; [exact N1|exact N2].
Qed.

(** C116, refuted for reversed time started from the velocity f(t0, x0) of the equation: for y' = y from
    y(0) = 1 the first step of size h is off by at least h^2 / 2, so the method is not of second order. *)
Lemma C116_reversed_velocity_refuted_pf :
  let f := fun (_ : R) (x : list R) => x in
  forall h, 1 / 10000000 <= h <= 1 -> exists x1 v1,
  rmap snd (snd (@odeint_symplectic ROps 0 f (Some 1%nat) ([1] ++ f 0 [1]) (@TTensor ROps [0; - h]) (AsynchronousLeapfrog ROps false) true (1/1000) (1/1000) false []))
    = Ok [[1; 1]; [x1; v1]] /\ h * h / 2 <= Rabs (x1 - exp (- h)).
Proof.
  intros f h Hh.
  assert (Hsep : separated [0; - h]).
  { intros i j a b Hij Ha Hb Hc. unfold close_to in Hc. destruct i as [|[|i]]; destruct j as [|[|j]]; simpl in *; try congruence;
      try (destruct i; discriminate); try (destruct j; discriminate); injection Ha as <-; injection Hb as <-;
      revert Hc; unfold Rabs; repeat destruct Rcase_abs; lra. }
  exists (1 - h - h * h / 2), (-2 - h - 1). split.
  - refine (eq_trans (C115_trajectory_reversed_pf 1 f 1 [1] (f 0 [1]) 0 (- h) [] 0 (1/1000) (1/1000) false (fun t x Hx => Hx) eq_refl eq_refl ltac:(lia) Hsep ltac:(lra)) _).
    unfold flip at 2. unfold f. cbn [fst snd]. rewrite !traj_cons. unfold leap, axpy, join, flip. cbn [map combine fst snd one_step_traj app].
    eqr.
  - pose proof (exp_ge1 (- h)) as H. assert (0 <= h * h) by (apply Rle_0_sqr). rewrite Rabs_left1; lra.
Qed.

(** C117.  Time reversal: solve over an increasing grid, then over the flipped grid from the final position and
    the opposite of the final velocity; the second solve returns the states of the first in opposite
    order, with opposite velocities, exactly. *)
Lemma traj_snoc {X} (one : R -> R -> X -> X) l : forall x a b d,
  one_step_traj one x (l ++ [a; b]) = one_step_traj one x (l ++ [a]) ++ [one a (b - a) (last (one_step_traj one x (l ++ [a])) d)].
Proof.
  induction l as [|t0 l IH]; intros x a b d; [reflexivity|].
  destruct l as [|t1 l].
  - reflexivity.
  - change ((t0 :: t1 :: l) ++ [a; b]) with (t0 :: t1 :: (l ++ [a; b])). change ((t0 :: t1 :: l) ++ [a]) with (t0 :: t1 :: (l ++ [a])).
    rewrite !traj_cons. change (t1 :: l ++ [a; b]) with ((t1 :: l) ++ [a; b]). change (t1 :: l ++ [a]) with ((t1 :: l) ++ [a]).
    rewrite (IH _ a b d). reflexivity.
Qed.

Lemma leap_traj_back n f d ts : forall p t, field_on n f -> pair_on n p ->
  one_step_traj (leap f) (last (one_step_traj (leap f) p (t :: ts)) d) (rev (t :: ts)) = rev (one_step_traj (leap f) p (t :: ts)).
Proof.
  induction ts as [|t1 ts IH]; intros p t Hf Hp; [reflexivity|].
  rewrite traj_cons. set (p1 := leap f t (t1 - t) p). set (tr := one_step_traj (leap f) p1 (t1 :: ts)).
  assert (Hp1 : pair_on n p1) by (now apply leap_on).
  assert (Hne : tr <> []) by (unfold tr; destruct ts; discriminate).
  assert (El : last (p :: tr) d = last tr d) by (destruct tr; [congruence|reflexivity]).
  rewrite El. change (rev (t :: t1 :: ts)) with ((rev ts ++ [t1]) ++ [t]). rewrite <- app_assoc. cbn [app].
  rewrite (traj_snoc _ _ _ _ _ d). change (rev ts ++ [t1]) with (rev (t1 :: ts)). pose proof (IH p1 t1 Hf Hp1) as E. fold tr in E. rewrite E.
  cbn [rev]. f_equal. f_equal.
  assert (Eh : tr = p1 :: tl tr) by (unfold tr; destruct ts; reflexivity).
  rewrite Eh. cbn [rev]. rewrite last_last. unfold p1.
  replace (leap f t1) with (leap f (t + (t1 - t))) by (f_equal; ring). replace (t - t1) with (- (t1 - t)) by ring. now apply (leap_back n).
Qed.

Lemma separated_rev l : separated l -> separated (rev l).
Proof.
  intros H i j a b Hij Ha Hb. assert (Hi : (i < length l)%nat) by (rewrite <- rev_length; apply nth_error_Some; congruence).
  assert (Hj : (j < length l)%nat) by (rewrite <- rev_length; apply nth_error_Some; congruence).
  rewrite (nth_error_nth' _ 0) in Ha by (rewrite rev_length; auto). rewrite rev_nth in Ha by auto.
  rewrite (nth_error_nth' _ 0) in Hb by (rewrite rev_length; auto). rewrite rev_nth in Hb by auto.
  injection Ha as Ha. injection Hb as Hb. apply (H (length l - S i)%nat (length l - S j)%nat); [lia| |];
    rewrite (nth_error_nth' _ 0) by lia; now f_equal.
Qed.

Lemma C117_leapfrog_reversible_pf :
  forall n f o x v t0 t1 ts fuel fuel' atol rtol atol' rtol' all all',
  field_on n f -> length x = n -> length v = n -> o <> 2%nat -> separated (t0 :: t1 :: ts) -> increasing (t0 :: t1 :: ts) ->
  exists ps pN,
    snd (@odeint_symplectic ROps fuel f (Some o) (x ++ v) (@TTensor ROps (t0 :: t1 :: ts)) (AsynchronousLeapfrog ROps false) true atol rtol all [])
      = Ok (t0 :: t1 :: ts, map join (ps ++ [pN])) /\
    rmap snd (snd (@odeint_symplectic ROps fuel' f (Some o) (join (flip pN)) (@TTensor ROps (rev (t0 :: t1 :: ts))) (AsynchronousLeapfrog ROps false) true atol' rtol' all' []))
      = Ok (map join (map flip (rev (ps ++ [pN])))) /\
    hd_error (map join (ps ++ [pN])) = Some (x ++ v).
Proof.
  intros n f o x v t0 t1 ts fuel fuel' atol rtol atol' rtol' all all' Hf Hx Hv Ho Hsep Hinc.
  set (tr := one_step_traj (leap f) (x, v) (t0 :: t1 :: ts)).
  assert (Hne : tr <> []) by (unfold tr; discriminate).
  destruct (exists_last Hne) as (ps & pN & Etr).
  assert (Hall : Forall (pair_on n) tr).
  { unfold tr. assert (G : forall l p, pair_on n p -> Forall (pair_on n) (one_step_traj (leap f) p l)).
    { induction l as [|a [|b l] IH]; intros p Hp; [constructor|repeat constructor; apply Hp|].
      rewrite traj_cons. constructor; auto. apply IH. now apply leap_on. }
    apply G. split; auto. }
  exists ps, pN. split; [|split].
  - rewrite <- Etr. apply (C115_trajectory_pf n); auto. left. apply (Hinc 0%nat 1%nat); auto.
  - assert (Hb : exists b0 b1 bs, rev (t0 :: t1 :: ts) = b0 :: b1 :: bs /\ b1 < b0).
    { pose proof (separated_rev _ Hsep) as _. destruct (rev (t0 :: t1 :: ts)) as [|b0 [|b1 bs]] eqn:E.
      - apply (f_equal (@length R)) in E. rewrite rev_length in E. discriminate.
      - apply (f_equal (@length R)) in E. rewrite rev_length in E. discriminate.
      - exists b0, b1, bs. split; auto. apply (f_equal (@rev R)) in E. rewrite rev_involutive in E. cbn [rev] in E.
        rewrite <- app_assoc in E. cbn [app] in E. rewrite E in Hinc.
        apply (Hinc (length (rev bs)) (S (length (rev bs)))); [lia| |].
        + rewrite nth_error_app2, Nat.sub_diag by lia. reflexivity.
        + rewrite nth_error_app2 by lia. replace (S (length (rev bs)) - length (rev bs))%nat with 1%nat by lia. reflexivity. }
    destruct Hb as (b0 & b1 & bs & Eb & Hlt).
    assert (HN : pair_on n pN).
    { rewrite Etr in Hall. apply Forall_app in Hall. destruct Hall as [_ H]. now inversion H. }
    pose proof (separated_rev _ Hsep) as Hsr.
    pose proof (leap_traj_back n f pN (t1 :: ts) (x, v) t0 Hf (conj Hx Hv)) as Eback. fold tr in Eback. rewrite Etr, last_last in Eback.
    rewrite Eb in *. 
    refine (eq_trans (C115_trajectory_reversed_pf n f o (fst (flip pN)) (snd (flip pN)) b0 b1 bs fuel' atol' rtol' all' Hf _ _ Ho Hsr Hlt) _).
    { apply (flip_on n pN HN). } { apply (flip_on n pN HN). }
    do 2 f_equal. f_equal. rewrite <- surjective_pairing, flip_flip. exact Eback.
  - rewrite <- Etr. reflexivity.
Qed.

(** C117, refuted for the state as returned: for x' = x over [0; 1] from x = v = 1, solving back over [1; 0] from the
    returned final state [5/2; 2] gives [-1; -9] instead of [1; 1]. *)
Lemma C117_round_trip_refuted_pf :
  let f := fun (_ : R) (x : list R) => x in
  let solve x l := rmap snd (snd (@odeint_symplectic ROps 0 f (Some 1%nat) x (@TTensor ROps l) (AsynchronousLeapfrog ROps false) true (1/1000) (1/1000) false [])) in
  solve [1; 1] [0; 1] = Ok [[1; 1]; [5/2; 2]] /\ solve [5/2; 2] [1; 0] = Ok [[5/2; 2]; [-1; -9]].
Proof.
  intros f solve.
  assert (Hs : forall a b, Rabs (a - b) = 1 -> Rabs a <= 1 -> Rabs b <= 1 -> separated [a; b]).
  { intros u w Hu H1 H2 i j a b Hij Ha Hb Hc. unfold close_to in Hc. destruct i as [|[|i]]; destruct j as [|[|j]]; simpl in *; try congruence;
      try (destruct i; discriminate); try (destruct j; discriminate); injection Ha as <-; injection Hb as <-;
      [|rewrite Rabs_minus_sym in Hc]; lra. }
  split; unfold solve.
  - pose proof (C115_trajectory_pf 1 f 1 [1] [1] 0 1 [] 0 (1/1000) (1/1000) false (fun t x Hx => Hx) eq_refl eq_refl ltac:(lia)) as H.
    refine (eq_trans (f_equal (rmap snd) (H _ ltac:(lra))) _).
    + apply Hs; unfold Rabs; destruct Rcase_abs; lra.
    + unfold f. rewrite !traj_cons. unfold leap, axpy, join. cbn [map combine fst snd one_step_traj app rmap rbind]. eqr.
  - pose proof (C115_trajectory_reversed_pf 1 f 1 [5/2] [2] 1 0 [] 0 (1/1000) (1/1000) false (fun t x Hx => Hx) eq_refl eq_refl ltac:(lia)) as H.
    refine (eq_trans (H _ ltac:(lra)) _).
    + apply Hs; unfold Rabs; destruct Rcase_abs; lra.
    + unfold flip at 2. unfold f. cbn [fst snd]. rewrite !traj_cons. unfold leap, axpy, join, flip. cbn [map combine fst snd one_step_traj app].
      eqr.
Qed.

Lemma C117_ex_pf : let f := fun (_ : R) (x : list R) => map (Rmult 2) x in
  field_on 1 f /\ separated [0; 1; 2] /\ increasing [0; 1; 2] /\
  one_step_traj (leap f) ([21], [26]) [2; 1; 0] = rev (one_step_traj (leap f) ([1], [2]) [0; 1; 2]).
Proof.
  intros f. destruct C115_ex_pf as (H1 & H2 & _). split; [exact H1|]. split; [exact H2|]. split.
  - intros i j a b Hij Ha Hb. destruct i as [|[|[|i]]]; destruct j as [|[|[|j]]]; try lia; simpl in *; try (destruct j; discriminate); try (destruct i; discriminate);
      injection Ha as <-; injection Hb as <-; lra.
  - unfold f. rewrite !traj_cons. unfold leap, axpy. cbn [map combine fst snd one_step_traj app rev]. eqr.
Qed.

(** C118.  With dopri5 or tsit5, a field of order 2 (any order but 1) and an increasing grid, odeint_symplectic
    is odeint without interpolator and without return_all_eval. *)
Lemma C118_adaptive_same_as_odeint_pf :
  forall n f o fuel x t0 t1 ts (s : solver ROps (vec ROps)) is_alf atol rtol all save_at save_at',
  s_fixed s = false -> (is_alf = true -> o <> 2%nat) -> o <> 1%nat -> field_on n f -> length x = n -> t0 <= t1 ->
  @odeint_symplectic ROps fuel f (Some o) x (@TTensor ROps (t0 :: t1 :: ts)) s is_alf atol rtol all save_at =
  @odeint ROps fuel f x (@TTensor ROps (t0 :: t1 :: ts)) s atol rtol false false save_at' None.
Proof.
  intros n f o fuel x t0 t1 ts s is_alf atol rtol all save_at save_at' Hfx Ho H1 Hf Hx Hle.
  assert (E : is_alf && (o =? 2)%nat = false).
  { destruct is_alf; [|reflexivity]. apply Nat.eqb_neq. now apply Ho. }
  unfold odeint_symplectic, odeint, prep_time. cbn [ts_list pyget nth_error rbind]. rops.
  rewrite (proj2 (Rltb_false t1 t0)) by lra. rewrite !(mbind_eq (mlift _) [] (f, t0 :: t1 :: ts) _ eq_refl). cbv beta iota zeta.
  rewrite E, Hfx. rewrite !(mbind_eq (mlift _) [] t0 _ eq_refl). rewrite (proj2 (Nat.eqb_neq o 1)) by auto.
  rewrite !(mbind_eq (call f t0 x) [(t0, x)] (f t0 x) _ eq_refl).
  destruct (init_step_value f (f t0 x) x t0 (s_order s) atol rtol) as (dt & lg & Ei & _ & _).
  assert (E' : @init_step ROps f (f t0 x) x t0 (s_order s) atol rtol = ([lg], Ok dt)) by exact Ei.
  rewrite !(mbind_eq _ _ _ _ E').
  assert (El : @pylast R (t0 :: t1 :: ts) = Ok (last (t1 :: ts) t0)).
  { rewrite (pylast_last _ t0) by discriminate. reflexivity. }
  rewrite (mbind_eq (mlift _) [] (last (t1 :: ts) t0) _ (f_equal mlift El)).
  assert (Lk : length (f t0 x) = n) by (now apply Hf).
  assert (Ek : match f t0 x with [c] => repeat c (length x) | _ => f t0 x end = f t0 x).
  { destruct (f t0 x) as [|c [|c' r]] eqn:Ef; try reflexivity. cbn [length] in Lk. rewrite Hx, <- Lk. reflexivity. }
  assert (Ek' : @eq (vec ROps) match f t0 x with [c] => repeat c (length x) | _ => f t0 x end (f t0 x)) by exact Ek.
  rewrite Ek'. 
  assert (Eb : Nat.eqb (length (f t0 x)) (length x) = true) by (apply Nat.eqb_eq; congruence).
  change (vec ROps) with rvl in *. change (num ROps) with R in *. rewrite Eb. rewrite andb_false_r. cbn [andb app fst snd].
  destruct (s_is_tsit5 s); reflexivity.
Qed.

(** C118, refuted: return_all_eval is ignored (it is passed as [args]).  Over [0; 1] for the zero field
    odeint returns the accepted steps, odeint_symplectic only the grid (binary64, any power function). *)
Lemma C118_return_all_eval_refuted_pf :
  (forall fuel f o x ts (s : solver ROps (vec ROps)) is_alf atol rtol all all' save_at,
    @odeint_symplectic ROps fuel f o x ts s is_alf atol rtol all save_at = @odeint_symplectic ROps fuel f o x ts s is_alf atol rtol all' save_at) /\
  forall pw, exists times1 sol1 times2 sol2,
    snd (@odeint_symplectic (FloatOps pw) 20 (fun _ _ => [0%float]) (Some 2%nat) [0%float] (@TTensor (FloatOps pw) [0%float; 1%float])
      (DormandPrince45 (FloatOps pw)) false 0.001%float 0.001%float true []) = Ok (times1, sol1) /\
    snd (@odeint (FloatOps pw) 20 (fun _ _ => [0%float]) [0%float] (@TTensor (FloatOps pw) [0%float; 1%float])
      (DormandPrince45 (FloatOps pw)) 0.001%float 0.001%float false true [] None) = Ok (times2, sol2) /\
    length times1 = 2%nat /\ (length times1 < length times2)%nat.
Proof.
  split; [reflexivity|]. intros pw. do 4 eexists. split; [vm_compute; reflexivity|]. split; [vm_compute; reflexivity|].
  split; [reflexivity|]. cbn [length]. lia.
Qed.

(** C118, refuted for reversed grids: the first slope is the field at the negated initial time, with the
    wrong sign.  The field vanishes at all times t >= 0 and the grid lies in t >= 0, so the state
    should stay 0; it does not (binary64, any power function). *)
Lemma C118_reversed_first_slope_refuted_pf :
  forall pw,
  let f := fun (t : float) (_ : list float) => if PrimFloat.ltb t 0 then [1e-19%float] else [0%float] in
  exists t1 times sol x1, PrimFloat.ltb 0.5 t1 = true /\ PrimFloat.ltb t1 1 = true /\
    snd (@odeint_symplectic (FloatOps pw) 20 f (Some 2%nat) [0%float] (@TTensor (FloatOps pw) [1%float; t1])
      (DormandPrince45 (FloatOps pw)) false 0.001%float 0.001%float false []) = Ok (times, sol) /\
    sol = [[0%float]; [x1]] /\ PrimFloat.eqb x1 0 = false.
Proof.
  intros pw f. exists (1 - 0x1p-21)%float. do 3 eexists. split; [reflexivity|]. split; [reflexivity|].
  split; [vm_compute; reflexivity|]. split; [reflexivity|]. vm_compute; reflexivity.
Qed.

(** C118, refuted for fields of order 1 with dopri5 / tsit5: the slope of the positions is
    combined with the full state, which fails whenever there are at least two positions. *)
Lemma C118_half_slope_refuted_pf :
  forall m f fuel x t0 t1 ts (s : solver ROps (vec ROps)) atol rtol all save_at,
  s_fixed s = false -> (2 <= m)%nat -> length x = (m + m)%nat -> (forall t y, length (f t y) = length y) ->
  t0 <= t1 -> t0 < last (t1 :: ts) t0 ->
  snd (@odeint_symplectic ROps fuel f (Some 1%nat) x (@TTensor ROps (t0 :: t1 :: ts)) s false atol rtol all save_at) = Err RuntimeError.
Proof.
  intros m f fuel x t0 t1 ts s atol rtol all save_at Hfx Hm Hx Hf Hle Hlt.
  unfold odeint_symplectic, prep_time. cbn [ts_list pyget nth_error rbind]. rops.
  rewrite (proj2 (Rltb_false t1 t0)) by lra. rewrite !(mbind_eq (mlift _) [] (f, t0 :: t1 :: ts) _ eq_refl). cbv beta iota zeta.
  rewrite Hfx. cbn [andb]. rewrite !(mbind_eq (mlift _) [] t0 _ eq_refl). cbn [Nat.eqb].
  set (y := firstn (Nat.div (length x) 2) x).
  assert (Ly : length y = m).
  { unfold y. change (vec ROps) with rvl in *. change (num ROps) with R in *. rewrite firstn_length, Hx.
    replace (m + m)%nat with (m * 2)%nat by lia. rewrite Nat.div_mul by lia. lia. }
  rewrite !(mbind_eq (call f t0 y) [(t0, y)] (f t0 y) _ eq_refl).
  destruct (init_step_value f (f t0 y) y t0 (s_order s) atol rtol) as (dt & lg & Ei & _ & _).
  assert (E' : @init_step ROps f (f t0 y) y t0 (s_order s) atol rtol = ([lg], Ok dt)) by exact Ei.
  rewrite !(mbind_eq _ _ _ _ E').
  assert (El : @pylast R (t0 :: t1 :: ts) = Ok (last (t1 :: ts) t0)).
  { rewrite (pylast_last _ t0) by discriminate. reflexivity. }
  rewrite (mbind_eq (mlift _) [] (last (t1 :: ts) t0) _ (f_equal mlift El)).
  assert (Lk : length (f t0 y) = m) by (rewrite Hf; exact Ly).
  assert (Ek : @eq (vec ROps) match f t0 y with [c] => repeat c (length x) | _ => f t0 y end (f t0 y)).
  { destruct (f t0 y) as [|c [|c' r]] eqn:Ef; try reflexivity. cbn [length] in Lk. lia. }
  rewrite Ek. change (vec ROps) with rvl in *. change (num ROps) with R in *.
  assert (Eb : Nat.eqb (length (f t0 y)) (length x) = false) by (apply Nat.eqb_neq; lia).
  rewrite Eb. change (@nltb ROps t0 (last (t1 :: ts) t0)) with (Rltb t0 (last (t1 :: ts) t0)).
  rewrite (proj2 (Rltb_true t0 (last (t1 :: ts) t0))) by auto. reflexivity.
Qed.

(** C118, refuted: the adaptive leapfrog never returns a solution; the step returns three values where four are
    expected, through odeint_symplectic and through odeint alike. *)
Lemma C118_adaptive_leapfrog_refuted_pf :
  forall f o fuel x t0 t1 ts atol rtol all interp save_at semi,
  o <> 2%nat -> t0 <= t1 -> t0 < last (t1 :: ts) t0 ->
  snd (@odeint_symplectic ROps (S fuel) f (Some o) x (@TTensor ROps (t0 :: t1 :: ts)) (AsynchronousLeapfrog ROps true) true atol rtol all save_at) = Err ValueError /\
  snd (@odeint ROps (S fuel) f x (@TTensor ROps (t0 :: t1 :: ts)) (AsynchronousLeapfrog ROps true) atol rtol interp all save_at semi) = Err ValueError.
Proof.
  intros f o fuel x t0 t1 ts atol rtol all interp save_at semi Ho Hle Hlt.
  assert (El : @pylast R (t0 :: t1 :: ts) = Ok (last (t1 :: ts) t0)).
  { rewrite (pylast_last _ t0) by discriminate. reflexivity. }
  assert (A : forall k1 dt bm al se, snd (@adaptive_odeint ROps (S fuel) f k1 x dt (t0 :: t1 :: ts) (AsynchronousLeapfrog ROps true) atol rtol bm al se) = Err ValueError).
  { intros k1 dt bm al se. unfold adaptive_odeint. rewrite (mbind_eq (mlift _) [] t0 _ eq_refl).
    rewrite (mbind_eq (mlift _) [] (last (t1 :: ts) t0) _ (f_equal mlift El)). cbn [fst snd app adaptive_loop a_t p_T].
    change (@nltb ROps t0 (last (t1 :: ts) t0)) with (Rltb t0 (last (t1 :: ts) t0)).
    rewrite (proj2 (Rltb_true t0 (last (t1 :: ts) t0))) by auto.
    rewrite snd_mbind. unfold adaptive_iter. destruct (attempt_dt _ _) as [h old]. cbn [p_solver a_x a_t a_k1 p_f]. reflexivity. }
  split.
  - unfold odeint_symplectic, prep_time. cbn [ts_list pyget nth_error rbind]. rops.
    rewrite (proj2 (Rltb_false t1 t0)) by lra. rewrite !(mbind_eq (mlift _) [] (f, t0 :: t1 :: ts) _ eq_refl). cbv beta iota zeta.
    rewrite (proj2 (Nat.eqb_neq o 2)) by auto. cbn [andb negb s_fixed AsynchronousLeapfrog mk_solver].
    rewrite !(mbind_eq (mlift _) [] t0 _ eq_refl).
    set (y := if (o =? 1)%nat then _ else _).
    rewrite !(mbind_eq (call f t0 y) [(t0, y)] (f t0 y) _ eq_refl).
    destruct (init_step_value f (f t0 y) y t0 2 atol rtol) as (dt & lg & Ei & _ & _).
    rewrite !(mbind_eq _ [lg] dt _ Ei).
    rewrite (mbind_eq (mlift _) [] (last (t1 :: ts) t0) _ (f_equal mlift El)). cbn [snd]. apply A.
  - unfold odeint, prep_time. cbn [ts_list pyget nth_error rbind]. rops.
    rewrite (proj2 (Rltb_false t1 t0)) by lra. rewrite !(mbind_eq (mlift _) [] (f, t0 :: t1 :: ts) _ eq_refl). cbv beta iota zeta.
    cbn [andb negb s_fixed AsynchronousLeapfrog mk_solver].
    rewrite !(mbind_eq (mlift _) [] t0 _ eq_refl).
    rewrite !(mbind_eq (call f t0 x) [(t0, x)] (f t0 x) _ eq_refl).
    destruct (init_step_value f (f t0 x) x t0 2 atol rtol) as (dt & lg & Ei & _ & _).
    rewrite !(mbind_eq _ [lg] dt _ Ei). cbn [snd]. apply A.
Qed.

(** Four-dimensional states [x1; x2; v1; v2] with the field f(t, y) = 2 y meet the hypotheses of C118. *)
Lemma C118_ex_pf : let f := fun (_ : R) (y : list R) => map (Rmult 2) y in
  field_on 4 f /\ (forall t y, length (f t y) = length y) /\ length [1; 2; 3; 4] = (2 + 2)%nat /\
  s_fixed (DormandPrince45 ROps) = false /\ s_fixed (AsynchronousLeapfrog ROps true) = false /\ 0 < last [1; 2] 0.
Proof.
  intros f. split; [intros t y Hy; unfold f; now rewrite map_length|]. split; [intros t y; apply map_length|].
  repeat split; auto. simpl. lra.
Qed.
