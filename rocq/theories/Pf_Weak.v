(** Weak convergence of the SDE solvers for linear equations. *)
From Coq Require Import ZArith QArith Qreals Reals Lra Lia String List Bool Psatz.
From Verif Require Import Num Py Tensor M_SolversOde M_Odeint M_Sde Spec_Ode Spec_RK Spec_Sde Spec_Lin Spec_Moment Spec_Conv.
From Verif Require Import L_Base L_Fixed L_Fixed2 L_Vec L_Steps L_Conv L_Sde Pf_Fixed Pf_Sde Pf_Moment Pf_Order.
Import ListNotations.
Local Notation length := List.length.
Local Open Scope R_scope.

(** ** The exponential *)
Lemma exp_above x : 1 + x <= exp x.
Proof. destruct (Req_dec x 0) as [->|H]; [rewrite exp_0; lra|]. left. now apply exp_ineq1. Qed.

Lemma exp_mono x y : x <= y -> exp x <= exp y.
Proof. intros [H| ->]; [left; now apply exp_increasing | lra]. Qed.

Lemma exp_remainder x : 0 <= exp x - (1 + x) <= x ^ 2 * exp (Rabs x).
Proof.
  pose proof (exp_above x) as A. pose proof (exp_above (- x)) as B. pose proof (exp_pos x) as P.
  assert (E : exp x * exp (- x) = 1) by (rewrite <- exp_plus, <- exp_0; f_equal; ring).
  assert (U : exp x <= 1 + x * exp x) by nra.
  split; [lra|]. destruct (Rle_dec 0 x) as [H|H].
  - rewrite Rabs_right by lra. nra.
  - rewrite Rabs_left by lra. pose proof (exp_above (- x)) as Q. nra.
Qed.

(** ** Products along a grid *)
Lemma product_near phi (K C L H : R) : 0 <= K -> 0 <= C -> Rabs L <= K -> 0 <= H ->
  forall ts t0, (forall h, In h (spacings (t0 :: ts)) -> 0 < h <= H) ->
  (forall h, In h (spacings (t0 :: ts)) -> Rabs (phi h) <= exp (K * h) /\ Rabs (phi h - exp (L * h)) <= C * h * H * exp (K * h)) ->
  forall i t, nth_error (t0 :: ts) i = Some t ->
  t0 <= t /\ Rabs (grid_product phi (t0 :: ts) i) <= exp (K * (t - t0)) /\
  Rabs (grid_product phi (t0 :: ts) i - exp (L * (t - t0))) <= C * H * (t - t0) * exp (K * (t - t0)).
Proof.
  intros HK HC HL HH ts. induction ts as [|t1 ts IH]; intros t0 Hsp Hphi i t Ht.
  - destruct i as [|[|i]]; try discriminate. injection Ht as <-. cbn [grid_product].
    replace (t0 - t0) with 0 by ring. rewrite !Rmult_0_r, exp_0, Rabs_R1. replace (1 - 1) with 0 by ring. rewrite Rabs_R0. lra.
  - destruct i as [|i].
    { injection Ht as <-. cbn [grid_product].
      replace (t0 - t0) with 0 by ring. rewrite !Rmult_0_r, exp_0, Rabs_R1. replace (1 - 1) with 0 by ring. rewrite Rabs_R0. lra. }
    cbn [nth_error] in Ht.
    destruct (IH t1 (fun h Hh => Hsp h (or_intror Hh)) (fun h Hh => Hphi h (or_intror Hh)) i t Ht) as (A & B & D).
    pose proof (Hsp (t1 - t0) (or_introl eq_refl)) as Hh. destruct (Hphi (t1 - t0) (or_introl eq_refl)) as [P1 P2].
    change (grid_product phi (t0 :: t1 :: ts) (S i)) with (phi (t1 - t0) * grid_product phi (t1 :: ts) i).
    set (h := t1 - t0) in *. set (g := grid_product phi (t1 :: ts) i) in *. set (T := t - t1) in *.
    assert (EK : exp (K * (t - t0)) = exp (K * h) * exp (K * T)) by (rewrite <- exp_plus; f_equal; unfold h, T; ring).
    assert (EL : exp (L * (t - t0)) = exp (L * h) * exp (L * T)) by (rewrite <- exp_plus; f_equal; unfold h, T; ring).
    assert (ET : t - t0 = h + T) by (unfold h, T; ring). assert (T0 : 0 <= T) by (unfold T; lra).
    pose proof (exp_pos (K * h)) as Q1. pose proof (exp_pos (K * T)) as Q2.
    split; [unfold h in Hh; lra|]. split.
    { rewrite Rabs_mult, EK. apply Rmult_le_compat; auto using Rabs_pos. }
    replace (phi h * g - exp (L * (t - t0))) with (phi h * (g - exp (L * T)) + (phi h - exp (L * h)) * exp (L * T)) by (rewrite EL; ring).
    refine (Rle_trans _ _ _ (Rabs_triang _ _) _). rewrite !Rabs_mult.
    assert (EL2 : Rabs (exp (L * T)) <= exp (K * T)).
    { rewrite Rabs_right by (left; apply exp_pos). apply exp_mono. apply Rmult_le_compat_r; [exact T0|]. pose proof (Rle_abs L). lra. }
    assert (X1 : Rabs (phi h) * Rabs (g - exp (L * T)) <= exp (K * h) * (C * H * T * exp (K * T))) by (apply Rmult_le_compat; auto using Rabs_pos).
    assert (X2 : Rabs (phi h - exp (L * h)) * Rabs (exp (L * T)) <= (C * h * H * exp (K * h)) * exp (K * T)) by (apply Rmult_le_compat; auto using Rabs_pos).
    refine (Rle_trans _ _ _ (Rplus_le_compat _ _ _ _ X1 X2) _). rewrite EK, ET. right. ring.
Qed.

(** one step of the mean: 1 + l h against exp (l h) *)
Lemma linear_factor l H h : 0 < h <= H ->
  Rabs (1 + l * h) <= exp (Rabs l * h) /\ Rabs (1 + l * h - exp (l * h)) <= l ^ 2 * h * H * exp (Rabs l * h).
Proof.
  intros Hh. split.
  - refine (Rle_trans _ _ _ (Rabs_triang _ _) _). rewrite Rabs_R1, Rabs_mult, (Rabs_right h) by lra. apply exp_above.
  - destruct (exp_remainder (l * h)) as [A B]. rewrite Rabs_minus_sym, Rabs_right by lra.
    refine (Rle_trans _ _ _ B _). rewrite Rabs_mult, (Rabs_right h) by lra. apply Rmult_le_compat_r; [left; apply exp_pos|].
    replace ((l * h) ^ 2) with (l ^ 2 * h * h) by ring. apply Rmult_le_compat_l; [|lra]. apply Rmult_le_pos; [apply pow2_ge_0 | lra].
Qed.

(** one step of the mean square *)
Lemma square_factor a b H h : 0 < h <= H ->
  Rabs ((1 + a * h) ^ 2 + b ^ 2 * h) <= exp ((2 * Rabs a + b ^ 2) * h) /\
  Rabs ((1 + a * h) ^ 2 + b ^ 2 * h - exp ((2 * a + b ^ 2) * h)) <= ((2 * a + b ^ 2) ^ 2 + a ^ 2) * h * H * exp ((2 * Rabs a + b ^ 2) * h).
Proof.
  intros Hh. pose proof (pow2_ge_0 b) as Hb. pose proof (pow2_ge_0 a) as Ha. pose proof (Rabs_pos a) as Pa. split.
  - rewrite Rabs_right by (apply Rle_ge; pose proof (pow2_ge_0 (1 + a * h)); nra).
    destruct (linear_factor a h h) as [A _]; [lra|].
    assert (S : (1 + a * h) ^ 2 <= exp (Rabs a * h) ^ 2).
    { rewrite <- (pow2_abs (1 + a * h)). apply pow_incr. split; [apply Rabs_pos | exact A]. }
    assert (E : exp (Rabs a * h) ^ 2 = exp (2 * Rabs a * h)).
    { replace (exp (Rabs a * h) ^ 2) with (exp (Rabs a * h) * exp (Rabs a * h)) by ring. rewrite <- exp_plus. f_equal. ring. }
    assert (E2 : exp ((2 * Rabs a + b ^ 2) * h) = exp (2 * Rabs a * h) * exp (b ^ 2 * h)) by (rewrite <- exp_plus; f_equal; ring).
    rewrite E in S. rewrite E2. pose proof (exp_above (b ^ 2 * h)) as B.
    pose proof (exp_above (2 * Rabs a * h)) as B2.
    assert (0 <= 2 * Rabs a * h) by (apply Rmult_le_pos; lra). assert (0 <= b ^ 2 * h) by (apply Rmult_le_pos; lra). nra.
  - set (l := 2 * a + b ^ 2). destruct (exp_remainder (l * h)) as [A B].
    replace ((1 + a * h) ^ 2 + b ^ 2 * h - exp (l * h)) with (- (exp (l * h) - (1 + l * h)) + a ^ 2 * h ^ 2) by (unfold l; ring).
    refine (Rle_trans _ _ _ (Rabs_triang _ _) _). rewrite Rabs_Ropp, Rabs_right by lra.
    rewrite (Rabs_right (a ^ 2 * h ^ 2)) by (apply Rle_ge, Rmult_le_pos; [lra | apply pow2_ge_0]).
    set (K := 2 * Rabs a + b ^ 2). assert (HK : Rabs (l * h) <= K * h).
    { rewrite Rabs_mult, (Rabs_right h) by lra. apply Rmult_le_compat_r; [lra|]. unfold l, K.
      refine (Rle_trans _ _ _ (Rabs_triang _ _) _). rewrite Rabs_mult, (Rabs_right 2), (Rabs_right (b ^ 2)) by lra. lra. }
    pose proof (exp_mono _ _ HK) as M. assert (One : 1 <= exp (K * h)).
    { rewrite <- exp_0. apply exp_mono. apply Rmult_le_pos; [unfold K|]; lra. }
    assert (X : (l * h) ^ 2 * exp (Rabs (l * h)) <= l ^ 2 * h * H * exp (K * h)).
    { replace ((l * h) ^ 2) with (l ^ 2 * h * h) by ring. apply Rmult_le_compat; [| left; apply exp_pos | | exact M].
      - apply Rmult_le_pos; [apply Rmult_le_pos; [apply pow2_ge_0|] |]; lra.
      - apply Rmult_le_compat_l; [|lra]. apply Rmult_le_pos; [apply pow2_ge_0 | lra]. }
    assert (Y : a ^ 2 * h ^ 2 <= a ^ 2 * h * H * exp (K * h)).
    { replace (a ^ 2 * h ^ 2) with (a ^ 2 * h * h * 1) by ring. apply Rmult_le_compat; [| lra | | exact One].
      - apply Rmult_le_pos; [apply Rmult_le_pos|]; lra.
      - apply Rmult_le_compat_l; [|lra]. apply Rmult_le_pos; lra. }
    lra.
Qed.

(** ** Means of linear one-step methods *)
Lemma mean_product n one phi x grid D j : (forall s t w a, length (one s t w a) = n) -> length x = n -> grid <> [] -> (j < n)%nat ->
  Forall2 (white n) (spacings grid) D ->
  (forall s t d a, In (t - s) (spacings grid) -> white n (t - s) d -> length a = n ->
     average (fun w => comp (one s t w a) j) d = phi (t - s) * comp a j) ->
  forall i, (i < length grid)%nat ->
  average (fun p => comp (nth i (ptraj one x grid p) []) j) (paths D) = grid_product phi grid i * comp x j.
Proof.
  intros Ho Hx Hg Hj HD Hone.
  pose proof (length_of_forall2 n grid D Hg HD) as HL. pose proof (white_nonempty n _ _ HD) as HN. pose proof (paths_nonempty D HN) as HP.
  induction i as [|i IH]; intros Hi.
  - rewrite (average_ext _ (fun _ => comp x j)) by (intros p _; now rewrite ptraj_0). rewrite (average_const _ _ HP).
    destruct grid; [congruence|]. cbn [grid_product]. ring.
  - destruct (nth_error grid i) as [s|] eqn:Hs; [|apply nth_error_None in Hs; lia].
    destruct (nth_error grid (S i)) as [t|] eqn:Ht; [|apply nth_error_None in Ht; lia].
    pose proof (spacings_nth grid i s t Hs Ht) as Hsp. destruct (Forall2_nth _ _ _ _ _ HD Hsp) as (d & Hd & Hw).
    rewrite (tower one (fun z => comp z j) grid D x i s t d HL HN Hs Ht Hd).
    rewrite (average_ext _ (fun p => phi (t - s) * comp (nth i (ptraj one x grid p) []) j)).
    + rewrite average_scal, IH by lia. rewrite (product_step phi grid i s t Hs Ht). ring.
    + intros p Hp. apply Hone; auto; [eapply nth_error_In; eauto|]. apply ptraj_len; auto; [|lia]. now rewrite (paths_length D p Hp).
Qed.

Lemma scaled_near G E B c : Rabs (G - E) <= B -> Rabs (G * c - E * c) <= B * Rabs c.
Proof. intros HB. replace (G * c - E * c) with ((G - E) * c) by ring. rewrite Rabs_mult. apply Rmult_le_compat_r; [apply Rabs_pos | exact HB]. Qed.

(** dX_j = alpha_j X_j dt + beta_j X_j dW_j *)
Definition linear_sde (n : nat) (sde : sde_func ROps) (alpha beta : nat -> R) : Prop :=
  forall t y j, length y = n -> (j < n)%nat ->
  comp (sde_f sde t y) j = alpha j * comp y j /\ comp (sde_g sde t y) j = beta j * comp y j.

(** the solver solves the equation along every path of the increments D *)
Definition solved_along (n : nat) (sde : sde_func ROps) (name : string) (x grid : list R) (D : list (list (list R)))
    (B : list (list R) -> brownian ROps) (sol : list (list R) -> list (list R)) : Prop :=
  forall p, In p (paths D) -> sized n sde (B p) /\ increments (B p) grid p /\
    @sdeint ROps sde x grid name (B p) [] = Ok (grid, sol p).

(** C177, Ito: the mean of the solutions converges with first order to the mean exp(alpha t) x of the exact solution. *)
Lemma C177_ito_mean_partial_pf :
  forall n name sde alpha beta D B x t0 t1 ts sol H,
  name = "euler"%string \/ name = "milstein_ito"%string ->
  linear_sde n sde alpha beta -> length x = n -> (forall h, In h (spacings (t0 :: t1 :: ts)) -> 0 < h <= H) ->
  Forall2 (white n) (spacings (t0 :: t1 :: ts)) D -> solved_along n sde name x (t0 :: t1 :: ts) D B sol ->
  forall i t j, nth_error (t0 :: t1 :: ts) i = Some t -> (j < n)%nat ->
  Rabs (average (fun p => comp (nth i (sol p) []) j) (paths D) - exp (alpha j * (t - t0)) * comp x j) <=
  alpha j ^ 2 * H * (t - t0) * exp (Rabs (alpha j) * (t - t0)) * Rabs (comp x j).
Proof.
  intros n name sde alpha beta D B x t0 t1 ts sol H Hn Hlin Hx Hsp HD Hs i t j Ht Hj.
  destruct (all_ptraj n name sde B D x t0 t1 ts sol Hx HD Hs) as (one & E1 & E2 & F1 & F2 & E3).
  rewrite (average_ext _ (fun p => comp (nth i (ptraj one x (t0 :: t1 :: ts) p) []) j)) by (intros p Hp; now rewrite E3).
  rewrite (mean_product n one (fun h => 1 + alpha j * h) x (t0 :: t1 :: ts) D j E2 Hx ltac:(discriminate) Hj HD).
  - apply scaled_near.
    assert (HH : 0 <= H) by (pose proof (Hsp (t1 - t0) (or_introl eq_refl)); lra).
    apply (product_near (fun h => 1 + alpha j * h) (Rabs (alpha j)) (alpha j ^ 2) (alpha j) H); auto using Rabs_pos, pow2_ge_0; [lra|].
    intros h Hh. now apply linear_factor, Hsp.
  - intros s u d a Hin [Hd Hw] La. destruct (Hw j Hj) as [W1 W2].
    destruct Hn as [-> | ->]; injection E1 as <-.
    + rewrite (average_ext _ (fun w => beta j * comp a j * comp w j + (1 + alpha j * (u - s)) * comp a j)).
      2: { intros w _. unfold one_em. rewrite comp_map by auto. destruct (Hlin s a j La Hj) as [-> ->]. ring. }
      rewrite average_lin, W1, (average_const _ d Hd). ring.
    + set (q := (comp (sde_g sde s (map (fun j => comp a j + comp (sde_f sde s a) j * (u - s) + comp (sde_g sde s a) j * sqrt (u - s)) (seq 0 n))) j
        - comp (sde_g sde s a) j) / (2 * sqrt (u - s))).
      rewrite (average_ext _ (fun w => comp (sde_g sde s a) j * comp w j + (q * comp w j ^ 2 + (comp a j + comp (sde_f sde s a) j * (u - s) - q * (u - s))))).
      2: { intros w _. unfold one_mil. rewrite comp_map by auto. fold q. ring. }
      rewrite average_lin, average_lin, W1, W2, (average_const _ d Hd). destruct (Hlin s a j La Hj) as [-> _]. ring.
  - apply nth_error_Some. congruence.
Qed.

(** C177, Ito, euler: the mean square converges with first order to exp((2 a + b^2) t) x^2. *)
Lemma C177_ito_square_partial_pf :
  forall sde a b D B x t0 t1 ts sol H,
  linear_sde 1 sde (fun _ => a) (fun _ => b) -> length x = 1%nat -> (forall h, In h (spacings (t0 :: t1 :: ts)) -> 0 < h <= H) ->
  Forall2 (white 1) (spacings (t0 :: t1 :: ts)) D -> solved_along 1 sde "euler" x (t0 :: t1 :: ts) D B sol ->
  forall i t, nth_error (t0 :: t1 :: ts) i = Some t ->
  Rabs (average (fun p => comp (nth i (sol p) []) 0 ^ 2) (paths D) - exp ((2 * a + b ^ 2) * (t - t0)) * comp x 0 ^ 2) <=
  ((2 * a + b ^ 2) ^ 2 + a ^ 2) * H * (t - t0) * exp ((2 * Rabs a + b ^ 2) * (t - t0)) * comp x 0 ^ 2.
Proof.
  intros sde a b D B x t0 t1 ts sol H Hlin Hx Hsp HD Hs i t Ht.
  destruct (C129_mean_square_stability_pf sde a b D B x t0 t1 ts sol) as [E _]; auto.
  { intros u y Hy. apply (Hlin u y 0%nat Hy). lia. }
  { intros u y Hy. apply (Hlin u y 0%nat Hy). lia. }
  { intros h Hh. now apply Hsp. }
  rewrite E by (apply nth_error_Some; congruence).
  rewrite <- (Rabs_right (comp x 0 ^ 2)) at 3 by (apply Rle_ge, pow2_ge_0).
  apply scaled_near.
  assert (HH : 0 <= H) by (pose proof (Hsp (t1 - t0) (or_introl eq_refl)); lra).
  pose proof (pow2_ge_0 b) as Hb. pose proof (pow2_ge_0 a) as Ha. pose proof (Rabs_pos a) as Pa. pose proof (pow2_ge_0 (2 * a + b ^ 2)) as Hl.
  apply (product_near (fun h => (1 + a * h) ^ 2 + b ^ 2 * h) (2 * Rabs a + b ^ 2) ((2 * a + b ^ 2) ^ 2 + a ^ 2) (2 * a + b ^ 2) H); auto; try lra.
  - refine (Rle_trans _ _ _ (Rabs_triang _ _) _). rewrite Rabs_mult, (Rabs_right 2), (Rabs_right (b ^ 2)) by lra. lra.
  - intros h Hh. now apply square_factor, Hsp.
Qed.

(** C177, Stratonovich, eulerHeun: the mean converges with first order to exp((alpha + beta^2 / 2) t) x. *)
Lemma C177_heun_mean_partial_pf :
  forall n sde alpha beta D B x t0 t1 ts sol H,
  linear_sde n sde alpha beta -> length x = n -> (forall h, In h (spacings (t0 :: t1 :: ts)) -> 0 < h <= H) ->
  Forall2 (white n) (spacings (t0 :: t1 :: ts)) D -> solved_along n sde "eulerHeun" x (t0 :: t1 :: ts) D B sol ->
  forall i t j, nth_error (t0 :: t1 :: ts) i = Some t -> (j < n)%nat ->
  let l := alpha j + beta j ^ 2 / 2 in
  Rabs (average (fun p => comp (nth i (sol p) []) j) (paths D) - exp (l * (t - t0)) * comp x j) <=
  l ^ 2 * H * (t - t0) * exp (Rabs l * (t - t0)) * Rabs (comp x j).
Proof.
  intros n sde alpha beta D B x t0 t1 ts sol H Hlin Hx Hsp HD Hs i t j Ht Hj l.
  destruct (all_ptraj n _ sde B D x t0 t1 ts sol Hx HD Hs) as (one & E1 & E2 & F1 & F2 & E3).
  rewrite (average_ext _ (fun p => comp (nth i (ptraj one x (t0 :: t1 :: ts) p) []) j)) by (intros p Hp; now rewrite E3).
  rewrite (mean_product n one (fun h => 1 + l * h) x (t0 :: t1 :: ts) D j E2 Hx ltac:(discriminate) Hj HD).
  - apply scaled_near.
    assert (HH : 0 <= H) by (pose proof (Hsp (t1 - t0) (or_introl eq_refl)); lra).
    apply (product_near (fun h => 1 + l * h) (Rabs l) (l ^ 2) l H); auto using Rabs_pos, pow2_ge_0; [lra|].
    intros h Hh. now apply linear_factor, Hsp.
  - intros s u d a Hin [Hd Hw] La. destruct (Hw j Hj) as [W1 W2]. injection E1 as <-.
    rewrite (average_ext _ (fun w => beta j * comp a j * comp w j + (beta j ^ 2 / 2 * comp a j * comp w j ^ 2 + (1 + alpha j * (u - s)) * comp a j))).
    2: { intros w _. unfold one_heun. rewrite comp_map by auto.
         rewrite (fun h => proj2 (Hlin u (map h (seq 0 n)) j (eq_trans (map_length _ _) (seq_length _ _)) Hj)), comp_map by auto.
         destruct (Hlin s a j La Hj) as [-> ->]. field. }
    rewrite average_lin, average_lin, W1, W2, (average_const _ d Hd). unfold l. field.
  - apply nth_error_Some. congruence.
Qed.

(** one step of milstein_stratonovich multiplies the mean by this *)
Definition milstein_factor (a b h : R) : R := 1 + h * (a * (1 + b * sqrt h / 2) + b ^ 2 / 2).

Lemma milstein_mean n sde alpha beta D B x t0 t1 ts sol :
  linear_sde n sde alpha beta -> length x = n -> (forall h, In h (spacings (t0 :: t1 :: ts)) -> 0 < h) ->
  Forall2 (white n) (spacings (t0 :: t1 :: ts)) D -> solved_along n sde "milstein_stratonovich" x (t0 :: t1 :: ts) D B sol ->
  forall i j, (i < length (t0 :: t1 :: ts))%nat -> (j < n)%nat ->
  average (fun p => comp (nth i (sol p) []) j) (paths D) = grid_product (milstein_factor (alpha j) (beta j)) (t0 :: t1 :: ts) i * comp x j.
Proof.
  intros Hlin Hx Hpos HD Hs i j Hi Hj.
  destruct (all_ptraj n _ sde B D x t0 t1 ts sol Hx HD Hs) as (one & E1 & E2 & F1 & F2 & E3).
  rewrite (average_ext _ (fun p => comp (nth i (ptraj one x (t0 :: t1 :: ts) p) []) j)) by (intros p Hp; now rewrite E3).
  apply (mean_product n one _ x (t0 :: t1 :: ts) D j E2 Hx ltac:(discriminate) Hj HD); [|exact Hi].
  intros s t d a Hin [Hd Hw] La. destruct (Hw j Hj) as [W1 W2]. injection E1 as <-.
  pose proof (Hpos _ Hin) as Hh. pose proof (sqrt_lt_R0 _ Hh) as Hr. pose proof (sqrt_sqrt (t - s) ltac:(lra)) as Hq.
  unfold milstein_factor. set (r := sqrt (t - s)) in *.
  rewrite (average_ext _ (fun w => beta j * comp a j * comp w j +
    ((beta j * (alpha j * r + beta j) / 2 * comp a j) * comp w j ^ 2 + (1 + alpha j * (t - s)) * comp a j))).
  2: { intros w _. unfold one_mil. rewrite comp_map by auto. fold r.
       rewrite (fun h => proj2 (Hlin s (map h (seq 0 n)) j (eq_trans (map_length _ _) (seq_length _ _)) Hj)), comp_map by auto.
       destruct (Hlin s a j La Hj) as [-> ->]. rewrite <- Hq. field. lra. }
  rewrite average_lin, average_lin, W1, W2, (average_const _ d Hd). field.
Qed.

(** C177, Stratonovich, milstein_stratonovich: the mean converges, with the square root of the step size. *)
Lemma C177_milstein_half_order_partial_pf :
  forall n sde alpha beta D B x t0 t1 ts sol H,
  linear_sde n sde alpha beta -> length x = n -> H <= 1 -> (forall h, In h (spacings (t0 :: t1 :: ts)) -> 0 < h <= H) ->
  Forall2 (white n) (spacings (t0 :: t1 :: ts)) D -> solved_along n sde "milstein_stratonovich" x (t0 :: t1 :: ts) D B sol ->
  forall i t j, nth_error (t0 :: t1 :: ts) i = Some t -> (j < n)%nat ->
  let l := alpha j + beta j ^ 2 / 2 in let c := Rabs (alpha j * beta j) / 2 in
  Rabs (average (fun p => comp (nth i (sol p) []) j) (paths D) - exp (l * (t - t0)) * comp x j) <=
  (l ^ 2 + c) * sqrt H * (t - t0) * exp ((Rabs l + c) * (t - t0)) * Rabs (comp x j).
Proof.
  intros n sde alpha beta D B x t0 t1 ts sol H Hlin Hx H1 Hsp HD Hs i t j Ht Hj l c.
  rewrite (milstein_mean n sde alpha beta D B x t0 t1 ts sol Hlin Hx (fun h Hh => proj1 (Hsp h Hh)) HD Hs)
    by (auto; apply nth_error_Some; congruence).
  apply scaled_near.
  assert (HH : 0 < H) by (pose proof (Hsp (t1 - t0) (or_introl eq_refl)); lra).
  assert (Pc : 0 <= c) by (unfold c; pose proof (Rabs_pos (alpha j * beta j)); lra).
  assert (Pl : 0 <= l ^ 2) by apply pow2_ge_0. pose proof (Rabs_pos l) as Al.
  assert (HS : 0 < sqrt H <= 1) by (split; [now apply sqrt_lt_R0 | rewrite <- sqrt_1; now apply sqrt_le_1_alt]).
  assert (HHS : H <= sqrt H) by (pose proof (sqrt_sqrt H ltac:(lra)); nra).
  apply (product_near (milstein_factor (alpha j) (beta j)) (Rabs l + c) (l ^ 2 + c) l (sqrt H)); auto; try lra.
  { intros h Hh. destruct (Hsp h Hh). lra. }
  intros h Hh. destruct (Hsp h Hh) as [h0 hH].
  assert (Hr : 0 <= sqrt h <= sqrt H) by (split; [apply sqrt_pos | now apply sqrt_le_1_alt]).
  replace (milstein_factor (alpha j) (beta j) h) with ((1 + l * h) + alpha j * beta j / 2 * (h * sqrt h)) by (unfold milstein_factor, l; field).
  assert (Ev : Rabs (alpha j * beta j / 2 * (h * sqrt h)) = c * (h * sqrt h)).
  { rewrite Rabs_mult, (Rabs_right (h * sqrt h)) by (apply Rle_ge, Rmult_le_pos; lra). unfold Rdiv. rewrite Rabs_mult, (Rabs_right (/ 2)) by lra. reflexivity. }
  assert (Cv : c * (h * sqrt h) <= c * h * sqrt H).
  { rewrite <- Rmult_assoc. apply Rmult_le_compat_l; [apply Rmult_le_pos; lra | lra]. }
  destruct (linear_factor l H h ltac:(lra)) as [A1 A2].
  assert (Ek : exp ((Rabs l + c) * h) = exp (Rabs l * h) * exp (c * h)) by (rewrite <- exp_plus; f_equal; ring).
  assert (E1 : 1 + c * h <= exp (c * h)) by apply exp_above.
  assert (E2 : 1 <= exp (Rabs l * h)). { rewrite <- exp_0. apply exp_mono, Rmult_le_pos; lra. }
  assert (Ch : 0 <= c * h) by (apply Rmult_le_pos; lra).
  assert (E3 : 1 <= exp ((Rabs l + c) * h)). { rewrite Ek. nra. }
  split.
  - refine (Rle_trans _ _ _ (Rabs_triang _ _) _). rewrite Ev, Ek. assert (c * h * sqrt H <= c * h) by nra. nra.
  - replace (1 + l * h + alpha j * beta j / 2 * (h * sqrt h) - exp (l * h)) with ((1 + l * h - exp (l * h)) + alpha j * beta j / 2 * (h * sqrt h)) by ring.
    refine (Rle_trans _ _ _ (Rabs_triang _ _) _). rewrite Ev.
    assert (X1 : l ^ 2 * h * H * exp (Rabs l * h) <= l ^ 2 * h * sqrt H * exp ((Rabs l + c) * h)).
    { apply Rmult_le_compat; [apply Rmult_le_pos; [apply Rmult_le_pos|]; lra | left; apply exp_pos | | apply exp_mono, Rmult_le_compat_r; lra].
      apply Rmult_le_compat_l; [apply Rmult_le_pos|]; lra. }
    assert (X2 : c * h * sqrt H <= c * h * sqrt H * exp ((Rabs l + c) * h)).
    { rewrite <- (Rmult_1_r (c * h * sqrt H)) at 1. apply Rmult_le_compat_l; [apply Rmult_le_pos; lra | exact E3]. }
    replace ((l ^ 2 + c) * h * sqrt H * exp ((Rabs l + c) * h)) with (l ^ 2 * h * sqrt H * exp ((Rabs l + c) * h) + c * h * sqrt H * exp ((Rabs l + c) * h)) by ring.
    lra.
Qed.

(** ** Coins along a grid *)
Definition coin_of (h : R) : list (list R) := [[sqrt h]; [- sqrt h]].
Definition coins (grid : list R) : list (list (list R)) := map coin_of (spacings grid).
Fixpoint drawn (grid : list R) (p : list (list R)) (s : R) : list R :=
  match grid, p with
  | t :: grid', w :: p' => if Req_EM_T s t then w else drawn grid' p' s
  | _, _ => [0]
  end.
Definition tosses (grid : list R) (p : list (list R)) : brownian ROps := fun s _ => drawn grid p s.

Lemma coin_of_white h : 0 < h -> white 1 h (coin_of h).
Proof.
  intros Hh. split; [discriminate|]. intros j Hj. assert (j = 0%nat) by lia. subst j. unfold average, mean, comp, coin_of.
  cbn [map nth fold_right length INR]. pose proof (sqrt_sqrt h ltac:(lra)) as E. split; [field|].
  replace ((sqrt h ^ 2 + ((- sqrt h) ^ 2 + 0)) / (1 + 1)) with (sqrt h * sqrt h) by field. exact E.
Qed.

Lemma coins_white grid : (forall h, In h (spacings grid) -> 0 < h) -> Forall2 (white 1) (spacings grid) (coins grid).
Proof.
  unfold coins. induction (spacings grid) as [|h l IH]; intros H; cbn [map]; constructor.
  - apply coin_of_white, H. now left.
  - apply IH. intros k Hk. apply H. now right.
Qed.

Lemma coins_len l : forall p, In p (paths (map coin_of l)) -> Forall (fun w => length w = 1%nat) p.
Proof.
  induction l as [|h l IH]; cbn [map paths]; intros p Hp.
  - destruct Hp as [<-|[]]. constructor.
  - apply in_flat_map in Hp. destruct Hp as (w & Hw & Hp). apply in_map_iff in Hp. destruct Hp as (q & <- & Hq).
    constructor; [|now apply IH]. destruct Hw as [<-|[<-|[]]]; reflexivity.
Qed.

Lemma drawn_len : forall grid p s, Forall (fun w => length w = 1%nat) p -> length (drawn grid p s) = 1%nat.
Proof.
  induction grid as [|t grid IH]; intros [|w p] s Hp; cbn [drawn]; try reflexivity.
  destruct (Req_EM_T s t); [exact (Forall_inv Hp) | apply IH; exact (Forall_inv_tail Hp)].
Qed.

Lemma drawn_nth : forall grid p i s, increasing grid -> nth_error grid i = Some s -> (i < length p)%nat -> drawn grid p s = nth i p [].
Proof.
  induction grid as [|t grid IH]; intros [|w p] i s Hinc Hs Hi; cbn in Hi; try lia; [destruct i; discriminate|].
  cbn [drawn]. destruct i as [|i].
  - injection Hs as <-. destruct (Req_EM_T t t); [reflexivity | congruence].
  - destruct (Req_EM_T s t) as [E|E].
    + pose proof (Hinc 0%nat (S i) t s ltac:(lia) eq_refl Hs). lra.
    + cbn [nth]. apply IH; [|exact Hs | lia]. intros u v a b Huv Ha Hb. apply (Hinc (S u) (S v)); auto; lia.
Qed.

Lemma increasing_spacings grid : increasing grid -> forall h, In h (spacings grid) -> 0 < h.
Proof.
  induction grid as [|t0 [|t1 grid] IH]; intros Hinc h Hh; [contradiction | contradiction |].
  destruct Hh as [<-|Hh].
  - pose proof (Hinc 0%nat 1%nat t0 t1 ltac:(lia) eq_refl eq_refl). lra.
  - apply IH; [|exact Hh]. intros u v a b Huv Ha Hb. apply (Hinc (S u) (S v)); auto; lia.
Qed.

(** the states of a solve along the tosses p *)
Definition tossed (sde : sde_func ROps) (x grid : list R) (name : string) (p : list (list R)) : list (list R) :=
  match @sdeint ROps sde x grid name (tosses grid p) [] with Ok (_, l) => l | _ => [] end.

Lemma tossed_ok ty name t0 t1 ts : increasing (t0 :: t1 :: ts) ->
  name = "euler"%string /\ ty = "ito"%string \/ name = "eulerHeun"%string /\ ty = "stratonovich"%string
   \/ name = "milstein_ito"%string \/ name = "milstein_stratonovich"%string ->
  solved_along 1 (gbm ty) name [1] (t0 :: t1 :: ts) (coins (t0 :: t1 :: ts)) (tosses (t0 :: t1 :: ts)) (tossed (gbm ty) [1] (t0 :: t1 :: ts) name).
Proof.
  intros Hinc Hn p Hp. set (grid := t0 :: t1 :: ts) in *.
  pose proof (coins_len _ p Hp) as Hl. pose proof (paths_length _ _ Hp) as HL. unfold coins in HL. rewrite map_length, spacings_length in HL.
  assert (Hz : sized 1 (gbm ty) (tosses grid p)).
  { split; [intros; assumption|]. split; [intros; assumption|]. intros s t. now apply drawn_len. }
  split; [exact Hz|]. split.
  - intros i s t Hs Ht. unfold tosses. apply drawn_nth; auto. rewrite HL.
    assert ((S i < length grid)%nat) by (apply nth_error_Some; congruence). lia.
  - assert (E : exists sv S0, @sde_str_to_solver ROps name (gbm ty) (tosses grid p) = Ok sv /\ scheme_of name (sde_f (gbm ty)) (sde_g (gbm ty)) (tosses grid p) = Some S0).
    { destruct Hn as [[-> ->]|[[-> ->]|[->| ->]]]; do 2 eexists; split; reflexivity. }
    destruct E as (sv & S0 & E1 & E2).
    destruct (C41_sde_trajectory_pf 1 name (gbm ty) (tosses grid p) sv S0 [1] t0 t1 ts Hz eq_refl E1 E2) as (xs & E & _).
    assert (M : tossed (gbm ty) [1] grid name p = xs) by exact (f_equal (fun r => match r with Ok (_, l) => l | _ => [] end) E).
    rewrite M. exact E.
Qed.

Lemma gbm_linear ty : linear_sde 1 (gbm ty) (fun _ => 1) (fun _ => 1).
Proof. intros t y j _ _. cbn [gbm sde_f sde_g]. lra. Qed.

Lemma ugrid_spacings h m : forall t d, In d (spacings (ugrid h m t)) -> d = h.
Proof.
  induction m as [|m IH]; intros t d Hd; [contradiction|].
  assert (E : ugrid h m (t + h) = (t + h) :: tl (ugrid h m (t + h))) by (destruct m; reflexivity).
  cbn [ugrid] in Hd. rewrite E in Hd. cbn [spacings] in Hd. destruct Hd as [<-|Hd]; [ring|]. apply (IH (t + h)). rewrite E. exact Hd.
Qed.

Lemma ugrid_product phi h m : forall t k, (k <= m)%nat -> grid_product phi (ugrid h m t) k = phi h ^ k.
Proof.
  induction m as [|m IH]; intros t [|k] Hk; try lia; [reflexivity | reflexivity |].
  assert (E : ugrid h m (t + h) = (t + h) :: tl (ugrid h m (t + h))) by (destruct m; reflexivity).
  transitivity (phi (t + h - t) * grid_product phi (ugrid h m (t + h)) k); [cbn [ugrid]; rewrite E; reflexivity|].
  rewrite IH by lia. replace (t + h - t) with h by ring. reflexivity.
Qed.

Lemma ugrid_increasing h m t : 0 < h -> increasing (ugrid h m t).
Proof.
  intros Hh i j a b Hij Ha Hb. rewrite (ugrid_nth _ _ _ _ _ Ha), (ugrid_nth _ _ _ _ _ Hb). apply lt_INR in Hij. nra.
Qed.

Lemma INR_above r : exists m, r < INR m.
Proof.
  destruct (archimed r) as [A _]. exists (Z.to_nat (up r)). destruct (Z_le_gt_dec 0 (up r)) as [H|H].
  - rewrite INR_IZR_INZ, Z2Nat.id by lia. lra.
  - assert (IZR (up r) < 0) by (apply IZR_lt; lia). pose proof (pos_INR (Z.to_nat (up r))). lra.
Qed.

Lemma pow_split A B : 1 <= A -> 0 <= B -> forall m, A ^ m + INR m * B <= (A + B) ^ m.
Proof.
  intros HA HB. induction m as [|m IH]; [simpl; lra|]. rewrite S_INR. cbn [pow].
  assert (P : 1 <= A ^ m) by now apply pow_R1_Rle. pose proof (pos_INR m) as Pm.
  assert (0 <= INR m * B) by now apply Rmult_le_pos. nra.
Qed.

(** C177 fails for milstein_stratonovich: dX = X dt + X o dW from 1 over [[0, 1]] with coin tosses; the error of the mean
    is not bounded by a multiple of the step size 1 / m. *)
Lemma C177_milstein_refuted_pf :
  forall C, exists m, (0 < m)%nat /\
  let h := / INR m in let grid := ugrid h m 0 in
  let sde := gbm "stratonovich" in
  linear_sde 1 sde (fun _ => 1) (fun _ => 1) /\ (forall d, In d (spacings grid) -> d = h) /\ nth_error grid m = Some 1 /\
  Forall2 (white 1) (spacings grid) (coins grid) /\
  exists B sol, solved_along 1 sde "milstein_stratonovich" [1] grid (coins grid) B sol /\
  C * h < Rabs (average (fun p => comp (nth m (sol p) []) 0) (paths (coins grid)) - exp ((1 + 1 ^ 2 / 2) * (1 - 0)) * 1).
Proof.
  intros C. set (K := 9 / 4 * exp (3 / 2)).
  destruct (INR_above (4 * (Rabs C + K) ^ 2)) as [m Hm].
  pose proof (exp_pos (3 / 2)) as PE. assert (PK : 0 < K) by (unfold K; lra). pose proof (Rabs_pos C) as PC.
  assert (Pm : 0 < INR m) by nra.
  exists m. split; [apply INR_lt; exact Pm|]. intros h grid sde.
  assert (Hh : 0 < h) by (apply Rinv_0_lt_compat; exact Pm). assert (Hmh : INR m * h = 1) by (unfold h; field; lra). clearbody h.
  assert (Hinc : increasing grid) by now apply ugrid_increasing.
  assert (Hsp : forall d, In d (spacings grid) -> d = h) by (intros d; apply ugrid_spacings).
  assert (Hlast : nth_error grid m = Some 1).
  { destruct (nth_error grid m) as [a|] eqn:E; [|apply nth_error_None in E; unfold grid in E; rewrite ugrid_len in E; lia].
    rewrite (ugrid_nth _ _ _ _ _ E), Hmh. f_equal. ring. }
  assert (HW : Forall2 (white 1) (spacings grid) (coins grid)) by (apply coins_white; intros d Hd; now rewrite (Hsp d Hd)).
  split; [apply gbm_linear|]. split; [exact Hsp|]. split; [exact Hlast|]. split; [exact HW|].
  exists (tosses grid), (tossed sde [1] grid "milstein_stratonovich").
  assert (Eg : exists t1 ts, grid = 0 :: t1 :: ts).
  { unfold grid. destruct m as [|m']; [simpl in Pm; lra|]. cbn [ugrid]. destruct m' as [|m'']; cbn [ugrid]; eauto. }
  destruct Eg as (t1 & ts & Eg).
  assert (HS : solved_along 1 sde "milstein_stratonovich" [1] grid (coins grid) (tosses grid) (tossed sde [1] grid "milstein_stratonovich")).
  { rewrite Eg in Hinc |- *. apply tossed_ok; [exact Hinc|]. auto. }
  split; [exact HS|].
  assert (EM : average (fun p => comp (nth m (tossed sde [1] grid "milstein_stratonovich" p) []) 0) (paths (coins grid)) = milstein_factor 1 1 h ^ m).
  { rewrite <- (ugrid_product (milstein_factor 1 1) h m 0 m (le_n m)). fold grid.
    assert (Hlen : (m < length grid)%nat) by (unfold grid; rewrite ugrid_len; lia).
    clearbody grid. subst grid.
    rewrite (milstein_mean 1 sde (fun _ => 1) (fun _ => 1) (coins (0 :: t1 :: ts)) (tosses (0 :: t1 :: ts)) [1] 0 t1 ts _
      (gbm_linear _) eq_refl (fun d Hd => eq_ind_r (fun d => 0 < d) Hh (Hsp d Hd)) HW HS m 0%nat Hlen ltac:(lia)).
    unfold comp. cbn [nth]. ring. }
  rewrite EM.
  assert (Hr : 0 < sqrt h) by now apply sqrt_lt_R0. pose proof (sqrt_sqrt h ltac:(lra)) as Hq. set (r := sqrt h) in *.
  assert (F : milstein_factor 1 1 h = (1 + 3 / 2 * h) + h * r / 2) by (unfold milstein_factor; fold r; field).
  rewrite F.
  assert (L1 : (1 + 3 / 2 * h) ^ m + INR m * (h * r / 2) <= (1 + 3 / 2 * h + h * r / 2) ^ m) by (apply pow_split; nra).
  assert (L0 : INR m * (h * r / 2) = r / 2).
  { transitivity ((INR m * h) * (r / 2)); [field | rewrite Hmh; field]. }
  rewrite L0 in L1.
  assert (L2 : exp (3 / 2) - K * h <= (1 + 3 / 2 * h) ^ m).
  { rewrite <- (ugrid_product (fun h => 1 + 3 / 2 * h) h m 0 m (le_n m)). fold grid.
    assert (X : Rabs (grid_product (fun h => 1 + 3 / 2 * h) grid m - exp (3 / 2 * (1 - 0))) <= (3 / 2) ^ 2 * h * (1 - 0) * exp (3 / 2 * (1 - 0))).
    { rewrite Eg in Hsp, Hlast |- *.
      apply (product_near (fun h => 1 + 3 / 2 * h) (3 / 2) ((3 / 2) ^ 2) (3 / 2) h ltac:(lra) ltac:(lra) ltac:(rewrite Rabs_right; lra) ltac:(lra) (t1 :: ts) 0).
      - intros d Hd. rewrite (Hsp d Hd). lra.
      - intros d Hd. rewrite (Hsp d Hd). destruct (linear_factor (3 / 2) h h ltac:(lra)) as [A B]. rewrite (Rabs_right (3 / 2)) in A, B by lra. auto.
      - exact Hlast. }
    replace (3 / 2 * (1 - 0)) with (3 / 2) in X by ring. 
    match type of X with Rabs ?z <= _ => pose proof (Rle_abs (- z)) as Y; rewrite Rabs_Ropp in Y end. unfold K. lra. }
  replace (exp ((1 + 1 ^ 2 / 2) * (1 - 0)) * 1) with (exp (3 / 2)) by (rewrite Rmult_1_r; f_equal; field).
  assert (Big : 2 * (Rabs C + K) * h < r).
  { assert (S : (2 * (Rabs C + K)) ^ 2 * h < 1).
    { rewrite <- Hmh. apply Rmult_lt_compat_r; [exact Hh|]. nra. }
    assert (Q : (2 * (Rabs C + K) * r) ^ 2 < 1 ^ 2).
    { replace ((2 * (Rabs C + K) * r) ^ 2) with ((2 * (Rabs C + K)) ^ 2 * (r * r)) by ring. rewrite Hq. lra. }
    assert (Z : 2 * (Rabs C + K) * r < 1).
    { apply Rnot_le_lt. intros N. assert (1 ^ 2 <= (2 * (Rabs C + K) * r) ^ 2) by (apply pow_incr; lra). lra. }
    rewrite <- Hq, <- Rmult_assoc. rewrite <- (Rmult_1_l r) at 3. now apply Rmult_lt_compat_r. }
  pose proof (Rle_abs C) as AC.
  refine (Rlt_le_trans _ _ _ _ (Rle_abs _)). nra.
Qed.

(** the hypotheses of C177 hold for geometric Brownian motion with coin tosses along every increasing grid *)
Lemma C177_ex_pf :
  forall t0 t1 ts, increasing (t0 :: t1 :: ts) ->
  linear_sde 1 (gbm "ito") (fun _ => 1) (fun _ => 1) /\ (forall h, In h (spacings (t0 :: t1 :: ts)) -> 0 < h) /\
  Forall2 (white 1) (spacings (t0 :: t1 :: ts)) (coins (t0 :: t1 :: ts)) /\
  solved_along 1 (gbm "ito") "euler" [1] (t0 :: t1 :: ts) (coins (t0 :: t1 :: ts)) (tosses (t0 :: t1 :: ts)) (tossed (gbm "ito") [1] (t0 :: t1 :: ts) "euler") /\
  solved_along 1 (gbm "stratonovich") "eulerHeun" [1] (t0 :: t1 :: ts) (coins (t0 :: t1 :: ts)) (tosses (t0 :: t1 :: ts))
    (tossed (gbm "stratonovich") [1] (t0 :: t1 :: ts) "eulerHeun").
Proof.
  intros t0 t1 ts Hinc. split; [apply gbm_linear|]. pose proof (increasing_spacings _ Hinc) as P. split; [exact P|].
  split; [now apply coins_white|]. split; apply tossed_ok; auto.
Qed.
