(** Euler solves of gradient flows (torchdyn/models/energy.py:57-62) descend. *)
From Coq Require Import ZArith Reals Lra Lia List Bool Psatz.
From Verif Require Import Num Py Tensor M_Constants M_SolversOde M_Utils M_Interp M_Odeint M_Models.
From Verif Require Import Spec_Ode Spec_Norm Spec_RK Spec_Root Spec_Conv Spec_Models Spec_Lin.
From Verif Require Import L_Base L_Fixed L_Vec L_Steps L_Utils L_Fixed2 L_Root L_Models L_Sens Pf_Models Pf_Fixed L_Reach L_Inv Pf_Lin Pf_Diss.
Import ListNotations.
Local Open Scope R_scope.

(** the field of a GNF for a batch of one row *)
Definition gnf_field (grad_sum : list (list R) -> list (list R)) (t : R) (y : list R) : list R :=
  nth 0 (@gnf ROps grad_sum [y]) [].

(** |a - b|^2 *)
Definition sqdist (a b : list R) : R := dot (minus_vec a b) (minus_vec a b).

(** G is the gradient of E on R^n and is Lipschitz with constant L in the Euclidean norm *)
Definition smooth_energy (n : nat) (E : list R -> R) (G : list R -> list R) (L : R) : Prop :=
  0 <= L /\ (forall y, length y = n -> gradient E y (G y)) /\
  (forall y z, length y = n -> length z = n -> sqdist (G y) (G z) <= L ^ 2 * sqdist y z).

(** E lies above its tangent planes *)
Definition convex_energy (n : nat) (E : list R -> R) (G : list R -> list R) : Prop :=
  forall y z, length y = n -> length z = n -> E y + dot (G y) (minus_vec z y) <= E z.

Lemma minus_axpy e : forall v x : list R, length v = length x -> minus_vec (axpy e v x) x = times e v.
Proof.
  induction v as [|a v IH]; intros [|b x] H; try discriminate; [reflexivity|].
  unfold minus_vec, axpy, times in *. cbn. f_equal; [ring|]. apply IH. now injection H.
Qed.
Lemma axpy_minus : forall x y : list R, length x = length y -> axpy 1 (minus_vec y x) x = y.
Proof.
  induction x as [|a x IH]; intros [|b y] H; try discriminate; [reflexivity|].
  unfold minus_vec, axpy in *. cbn. f_equal; [ring|]. apply IH. now injection H.
Qed.
Lemma axpy_0 : forall x k : list R, length x = length k -> axpy 0 k x = x.
Proof.
  induction x as [|a x IH]; intros [|b k] H; try discriminate; [reflexivity|].
  unfold axpy in *. cbn. f_equal; [ring|]. apply IH. now injection H.
Qed.
Lemma axpy_opp h : forall g x : list R, axpy h (map Ropp g) x = axpy (- h) g x.
Proof.
  induction g as [|a g IH]; intros [|b x]; try reflexivity.
  unfold axpy in *. cbn. f_equal; [ring|]. apply IH.
Qed.
Lemma dot_times_l c : forall a b : list R, dot (times c a) b = c * dot a b.
Proof.
  induction a as [|x a IH]; intros [|y b]; try (unfold dot; cbn; ring).
  change (times c (x :: a)) with (c * x :: times c a). rewrite !dot_cons, IH. ring.
Qed.
Lemma dot_times_r c (a b : list R) : dot a (times c b) = c * dot a b.
Proof. rewrite dot_comm, dot_times_l, dot_comm. reflexivity. Qed.
Lemma dot_pos : forall a : list R, 0 <= dot a a.
Proof. induction a as [|x a IH]; [unfold dot; cbn; lra|]. rewrite dot_cons. assert (H := Rle_0_sqr x). unfold Rsqr in H. lra. Qed.
Lemma dot_dotl : forall a b : list R, dot a b = dotl a b.
Proof. induction a as [|x a IH]; intros [|y b]; try reflexivity. rewrite dot_cons, IH. reflexivity. Qed.
Lemma dot_sum_sq : forall a : list R, dot a a = sum_sq a.
Proof. induction a as [|x a IH]; [reflexivity|]. rewrite dot_cons, IH. reflexivity. Qed.
Lemma cs_dot (a b : list R) : length a = length b -> dot a b ^ 2 <= dot a a * dot b b.
Proof. intros H. rewrite !dot_sum_sq, dot_dotl. assert (C := cauchy_schwarz a b H). lra. Qed.
Lemma minus_len n (a b : list R) : length a = n -> length b = n -> length (minus_vec a b) = n.
Proof. intros Ha Hb. unfold minus_vec. rewrite map_length, combine_length, Ha, Hb. apply Nat.min_id. Qed.
Lemma dot_minus_l' (a b g : list R) : length a = length b -> length g = length a -> dot (minus_vec a b) g = dot a g - dot b g.
Proof. intros H1 H2. rewrite dot_comm, dot_minus_r by auto. now rewrite (dot_comm g a), (dot_comm g b). Qed.

(** the derivative of E along a ray is below the value Lipschitz continuity allows *)
Lemma ray_slope n E G L x d s : smooth_energy n E G L -> length x = n -> length d = n -> 0 <= s ->
  dot (G (axpy s d x)) d - dot (G x) d <= L * s * dot d d.
Proof.
  intros (HL & HG & HLip) Hx Hd Hs.
  assert (Hp : length (axpy s d x) = n) by (apply axpy_len; auto).
  assert (L1 : length (G (axpy s d x)) = n) by (rewrite <- Hp; apply HG; auto).
  assert (L2 : length (G x) = n) by (rewrite <- Hx; apply HG; auto).
  assert (Q := HLip _ _ Hp Hx). unfold sqdist in Q. rewrite minus_axpy in Q by congruence.
  rewrite dot_times_l, dot_times_r in Q.
  assert (C := cs_dot (minus_vec (G (axpy s d x)) (G x)) d ltac:(rewrite (minus_len n); auto)).
  rewrite dot_minus_l' in C by congruence.
  assert (P := dot_pos d). set (u := dot (G (axpy s d x)) d - dot (G x) d) in *.
  set (w := dot (minus_vec (G (axpy s d x)) (G x)) (minus_vec (G (axpy s d x)) (G x))) in *. set (dd := dot d d) in *.
  assert (B : 0 <= L * s * dd) by (apply Rmult_le_pos; [apply Rmult_le_pos|]; auto).
  apply Rnot_lt_le. intros N. assert (B1 : u ^ 2 <= (L * s * dd) ^ 2).
  { eapply Rle_trans; [exact C|]. replace ((L * s * dd) ^ 2) with (L ^ 2 * (s * (s * dd)) * dd) by ring. now apply Rmult_le_compat_r. }
  assert (0 < (u - L * s * dd) * (u + L * s * dd)) by (apply Rmult_lt_0_compat; lra). lra.
Qed.

(** the descent lemma *)
Lemma descent n E G L x d : smooth_energy n E G L -> length x = n -> length d = n ->
  E (axpy 1 d x) <= E x + dot (G x) d + L / 2 * dot d d.
Proof.
  intros HS Hx Hd. assert (HS' := HS). destruct HS' as (HL & HG & _).
  set (p := fun s => E (axpy s d x) - s * dot (G x) d - L / 2 * dot d d * (s * s)).
  set (p' := fun s => dot (G (axpy s d x)) d - dot (G x) d - L / 2 * dot d d * (2 * s)).
  assert (D : p 1 <= p 0).
  { apply (decreasing_of_nonpos p p' 0 1); try lra. intros s Hs. split.
    - unfold p, p'. apply derivable_pt_lim_minus; [apply derivable_pt_lim_minus|].
      + apply (chain_rule n E (fun s => axpy s d x) d s (G (axpy s d x))); auto.
        * intros r. apply axpy_len; auto.
        * intros i Hi. apply derivable_pt_lim_ext with (f := fun r => nth i x 0 + r * nth i d 0).
          { intros r. rewrite (nth_axpy n) by auto. ring. }
          replace (nth i d 0) with (0 + (1 * nth i d 0 + s * 0)) at 1 by ring.
          apply derivable_pt_lim_plus; [apply derivable_pt_lim_const|].
          apply (derivable_pt_lim_mult (fun r => r) (fun _ => nth i d 0)); [apply derivable_pt_lim_id|apply derivable_pt_lim_const].
        * apply HG. apply axpy_len; auto.
      + replace (dot (G x) d) with (1 * dot (G x) d + s * 0) at 1 by ring.
        apply (derivable_pt_lim_mult (fun r => r) (fun _ => dot (G x) d)); [apply derivable_pt_lim_id|apply derivable_pt_lim_const].
      + replace (L / 2 * dot d d * (2 * s)) with (L / 2 * dot d d * (1 * s + s * 1)) by ring.
        apply (derivable_pt_lim_scal (fun r => r * r)). apply (derivable_pt_lim_mult (fun r => r) (fun r => r)); apply derivable_pt_lim_id.
    - unfold p'. assert (R := ray_slope n E G L x d s HS Hx Hd ltac:(lra)). lra. }
  unfold p in D. rewrite (axpy_0 x d) in D by congruence. lra.
Qed.

Lemma gnf_field_gradient n E G L grad_sum t y : smooth_energy n E G L -> gradient_of_sum n E grad_sum -> length y = n ->
  gnf_field grad_sum t y = map Ropp (G y).
Proof.
  intros (_ & HG & _) HS Hy. assert (HB : is_batch 1 n [y]) by (split; [reflexivity|repeat constructor; exact Hy]).
  assert (R := grad_sum_rows n E G grad_sum 1 [y] 0 HG HS HB ltac:(lia)). cbn [nth] in R.
  unfold gnf_field, gnf. rewrite <- R. exact (map_nth (map Ropp) (grad_sum [y]) [] 0).
Qed.

Section Steps.
Variables (n : nat) (E : list R -> R) (G : list R -> list R) (L : R) (grad_sum : list (list R) -> list (list R)).
Hypothesis HS : smooth_energy n E G L.
Hypothesis HGS : gradient_of_sum n E grad_sum.
Let f := gnf_field grad_sum.

Lemma G_len y : length y = n -> length (G y) = n.
Proof. intros Hy. destruct HS as (_ & HG & _). rewrite <- Hy. apply HG. exact Hy. Qed.
Lemma gnf_step t h y : length y = n -> euler_one f t h y = axpy (- h) (G y) y.
Proof. intros Hy. rewrite euler_axpy. unfold f. rewrite (gnf_field_gradient n E G L) by auto. apply axpy_opp. Qed.
Lemma gnf_step_len t h y : length y = n -> length (euler_one f t h y) = n.
Proof. intros Hy. rewrite gnf_step by auto. apply axpy_len; auto. now apply G_len. Qed.

Lemma axpy_scale h (g x : list R) : axpy h g x = axpy 1 (times h g) x.
Proof. revert x. induction g as [|a g IH]; intros [|b x]; try reflexivity. unfold axpy, times in *. cbn. f_equal; [ring|]. apply IH. Qed.

Lemma step_descent t h y : length y = n -> E (euler_one f t h y) <= E y - h * (1 - L * h / 2) * dot (G y) (G y).
Proof.
  intros Hy. rewrite gnf_step by auto. rewrite axpy_scale.
  assert (Lg := G_len y Hy). assert (Lt : length (times (- h) (G y)) = n) by (unfold times; now rewrite map_length).
  assert (D := descent n E G L y (times (- h) (G y)) HS Hy Lt).
  rewrite dot_times_l, !dot_times_r in D. lra.
Qed.

Lemma sqdist_step h y z : length y = n -> length z = n ->
  sqdist (axpy (- h) (G y) y) z = sqdist y z + 2 * h * dot (G y) (minus_vec z y) + h ^ 2 * dot (G y) (G y).
Proof.
  intros Hy Hz. assert (Lg := G_len y Hy). unfold sqdist.
  assert (La : length (axpy (- h) (G y) y) = n) by (apply axpy_len; auto).
  assert (M1 : length (minus_vec (axpy (- h) (G y) y) z) = n) by (apply minus_len; auto).
  assert (M2 : length (minus_vec y z) = n) by (apply minus_len; auto).
  rewrite (dot_minus_r (minus_vec (axpy (- h) (G y) y) z)) by congruence.
  rewrite !(dot_minus_l' (axpy (- h) (G y) y)) by congruence.
  rewrite (dot_minus_r (minus_vec y z)) by congruence. rewrite !(dot_minus_l' y) by congruence.
  rewrite (dot_minus_r (G y)) by congruence.
  rewrite !dot_axpy_l by congruence. rewrite !dot_axpy_r by congruence.
  rewrite (dot_comm y (G y)), (dot_comm z (G y)), (dot_comm z y). ring.
Qed.

Lemma step_convex t h y z : convex_energy n E G -> 0 <= h -> L * h <= 1 -> length y = n -> length z = n ->
  2 * h * (E (euler_one f t h y) - E z) <= sqdist y z - sqdist (euler_one f t h y) z.
Proof.
  intros HC Hh HL Hy Hz. assert (D := step_descent t h y Hy). rewrite gnf_step in * by auto. rewrite sqdist_step by auto.
  assert (C := HC y z Hy Hz). assert (P := dot_pos (G y)).
  set (g := dot (G y) (minus_vec z y)) in *. set (gg := dot (G y) (G y)) in *. set (e' := E (axpy (- h) (G y) y)) in *.
  assert (B : e' <= E y - h / 2 * gg).
  { assert (0 <= h * (1 / 2 - L * h / 2) * gg) by (apply Rmult_le_pos; [apply Rmult_le_pos; lra|exact P]). lra. }
  assert (0 <= 2 * h * (E z - g - h / 2 * gg - e')) by (apply Rmult_le_pos; lra). lra.
Qed.

Lemma traj_step : forall i ts x y y', length x = n -> nth_error (one_step_traj (euler_one f) x ts) i = Some y -> nth_error (one_step_traj (euler_one f) x ts) (S i) = Some y' ->
  length y = n /\ exists t, y' = euler_one f t (nth i (spacings ts) 0) y /\ In (nth i (spacings ts) 0) (spacings ts).
Proof.
  induction i as [|i IH]; intros [|t0 [|t1 ts]] x y y' Hx Hy Hy'; try discriminate.
  - cbn in Hy. injection Hy as <-. split; [exact Hx|]. exists t0.
    change (nth_error (one_step_traj (euler_one f) (euler_one f t0 (t1 - t0) x) (t1 :: ts)) 0 = Some y') in Hy'.
    split; [|now left]. destruct ts; cbn in Hy'; injection Hy' as <-; reflexivity.
  - change (nth_error (one_step_traj (euler_one f) (euler_one f t0 (t1 - t0) x) (t1 :: ts)) i = Some y) in Hy.
    change (nth_error (one_step_traj (euler_one f) (euler_one f t0 (t1 - t0) x) (t1 :: ts)) (S i) = Some y') in Hy'.
    destruct (IH _ _ _ _ (gnf_step_len _ _ _ Hx) Hy Hy') as (Ly & t & Et & Hin). split; [exact Ly|]. exists t. split; [exact Et|]. right. exact Hin.
Qed.

Lemma traj_rate z : convex_energy n E G -> length z = n -> forall i ts x y, length x = n ->
  (forall h, In h (spacings ts) -> 0 <= h /\ L * h <= 1) -> nth_error (one_step_traj (euler_one f) x ts) i = Some y ->
  E y <= E x /\ 2 * (nth i ts 0 - nth 0 ts 0) * (E y - E z) <= sqdist x z - sqdist y z.
Proof.
  intros HC Hz. induction i as [|i IH]; intros [|t0 [|t1 ts]] x y Hx Hh Hy; try discriminate.
  - injection Hy as <-. cbn. lra.
  - injection Hy as <-. cbn. lra.
  - cbn in Hy. destruct i; discriminate.
  - change (nth_error (one_step_traj (euler_one f) (euler_one f t0 (t1 - t0) x) (t1 :: ts)) i = Some y) in Hy.
    destruct (Hh (t1 - t0) (or_introl eq_refl)) as (H0 & H1).
    destruct (IH (t1 :: ts) _ y (gnf_step_len _ _ _ Hx) (fun h Hin => Hh h (or_intror Hin)) Hy) as (I1 & I2).
    assert (S1 := step_convex t0 (t1 - t0) x z HC H0 H1 Hx Hz). assert (S2 := step_descent t0 (t1 - t0) x Hx).
    assert (P := dot_pos (G x)). set (x1 := euler_one f t0 (t1 - t0) x) in *.
    assert (0 <= (t1 - t0) * (1 - L * (t1 - t0) / 2) * dot (G x) (G x)) by (apply Rmult_le_pos; [apply Rmult_le_pos; lra|exact P]).
    split; [lra|]. change (nth (S i) (t0 :: t1 :: ts) 0) with (nth i (t1 :: ts) 0). change (nth 0 (t0 :: t1 :: ts) 0) with t0.
    change (nth 0 (t1 :: ts) 0) with t1 in I2.
    assert (0 <= 2 * (t1 - t0) * (E x1 - E y)) by (apply Rmult_le_pos; lra). lra.
Qed.
End Steps.

(** C172.  An Euler solve of a gradient flow whose gradient has the Lipschitz constant L: a step of length h from y lowers
    the energy by at least h (1 - L h / 2) |grad E(y)|^2.  With 0 <= h and L h <= 2 it never rises. *)
Lemma C172_descent_pf :
  forall fuel n E G L grad_sum x t0 t1 ts atol rtol interp all semi times sol,
  smooth_energy n E G L -> gradient_of_sum n E grad_sum -> List.length x = n ->
  separated (t0 :: t1 :: ts) -> t0 <= t1 ->
  snd (@odeint ROps fuel (gnf_field grad_sum) x (@TTensor ROps (t0 :: t1 :: ts)) (Euler ROps) atol rtol interp all [] semi) = Ok (times, sol) ->
  List.length sol = List.length (t0 :: t1 :: ts) /\
  forall i y y', nth_error sol i = Some y -> nth_error sol (S i) = Some y' ->
  let h := nth i (spacings (t0 :: t1 :: ts)) 0 in
  E y' <= E y - h * (1 - L * h / 2) * dot (G y) (G y) /\ (0 <= h -> L * h <= 2 -> E y' <= E y).
Proof.
  intros fuel n E G L grad_sum x t0 t1 ts atol rtol interp all semi times sol HS HG Hx Hsep H0 Eq.
  assert (C := C01_fixed_trajectory_pf fuel (Euler ROps) (gnf_field grad_sum) (euler_one (gnf_field grad_sum)) euler_log x t0 t1 ts atol rtol interp all semi eq_refl (euler_stepper _) Hsep H0).
  destruct (Ok_pair _ _ _ _ (eq_trans (eq_sym Eq) C)) as [_ ->]. split; [apply traj_length|].
  intros i y y' Hy Hy' h. destruct (traj_step n E G L grad_sum HS HG i _ x y y' Hx Hy Hy') as (Ly & t & -> & _). fold h.
  assert (D := step_descent n E G L grad_sum HS HG t h y Ly). split; [exact D|]. intros Hh Hl. assert (P := dot_pos (G y)).
  assert (0 <= h * (1 - L * h / 2) * dot (G y) (G y)) by (apply Rmult_le_pos; [apply Rmult_le_pos; lra|exact P]). lra.
Qed.

(** C172.  If E is convex and every spacing has 0 <= h and L h <= 1, the energy at time t_i exceeds the energy of any
    state z, so also the minimum, by at most |x - z|^2 / (2 (t_i - t_0)), and no state is farther from z than x is when
    z minimises E. *)
Lemma C172_convex_rate_pf :
  forall fuel n E G L grad_sum x z t0 t1 ts atol rtol interp all semi times sol,
  smooth_energy n E G L -> convex_energy n E G -> gradient_of_sum n E grad_sum -> List.length x = n -> List.length z = n ->
  separated (t0 :: t1 :: ts) -> (forall h, In h (spacings (t0 :: t1 :: ts)) -> 0 <= h /\ L * h <= 1) ->
  snd (@odeint ROps fuel (gnf_field grad_sum) x (@TTensor ROps (t0 :: t1 :: ts)) (Euler ROps) atol rtol interp all [] semi) = Ok (times, sol) ->
  List.length sol = List.length (t0 :: t1 :: ts) /\
  forall i y t, nth_error sol i = Some y -> nth_error (t0 :: t1 :: ts) i = Some t ->
  (t0 < t -> E y - E z <= sqdist x z / (2 * (t - t0))) /\
  (t0 <= t -> (forall w, List.length w = n -> E z <= E w) -> sqdist y z <= sqdist x z).
Proof.
  intros fuel n E G L grad_sum x z t0 t1 ts atol rtol interp all semi times sol HS HC HG Hx Hz Hsep Hh Eq.
  assert (H0 : t0 <= t1) by (generalize (proj1 (Hh (t1 - t0) (or_introl eq_refl))); lra).
  assert (C := C01_fixed_trajectory_pf fuel (Euler ROps) (gnf_field grad_sum) (euler_one (gnf_field grad_sum)) euler_log x t0 t1 ts atol rtol interp all semi eq_refl (euler_stepper _) Hsep H0).
  destruct (Ok_pair _ _ _ _ (eq_trans (eq_sym Eq) C)) as [_ ->]. split; [apply traj_length|].
  intros i y t Hy Ht. destruct (traj_rate n E G L grad_sum HS HG z HC Hz i _ x y Hx Hh Hy) as (_ & R).
  rewrite (nth_error_nth _ _ 0 Ht) in R. change (nth 0 (t0 :: t1 :: ts) 0) with t0 in R. split.
  - intros Hlt. assert (P := dot_pos (minus_vec y z)). fold (sqdist y z) in P.
    apply Rmult_le_reg_l with (2 * (t - t0)); [lra|]. replace (2 * (t - t0) * (sqdist x z / (2 * (t - t0)))) with (sqdist x z) by (field; lra). lra.
  - intros Hle Hmin. assert (Ly : length y = n).
    { assert (A : Forall (fun w => length w = n) (one_step_traj (euler_one (gnf_field grad_sum)) x (t0 :: t1 :: ts))).
      { apply traj_all; [|exact Hx]. intros s h w _ Hw. now apply (gnf_step_len n E G L). }
      exact (proj1 (Forall_forall _ _) A _ (nth_error_In _ _ Hy)). }
    assert (M := Hmin y Ly). assert (0 <= 2 * (t - t0) * (E y - E z)) by (apply Rmult_le_pos; lra). lra.
Qed.

Lemma energy_quadratic n : smooth_energy n (fun y => dot y y / 2) (fun y => y) 1 /\ convex_energy n (fun y => dot y y / 2) (fun y => y) /\
  gradient_of_sum n (fun y => dot y y / 2) (map (fun y => y)).
Proof.
  assert (HG : forall y : list R, length y = n -> gradient (fun y => dot y y / 2) y y) by (intros; apply half_square_gradient).
  split; [|split].
  - split; [lra|]. split; [exact HG|]. intros y z _ _. lra.
  - intros y z Hy Hz. assert (P := dot_pos (minus_vec z y)).
    assert (M : length (minus_vec z y) = n) by (apply minus_len; auto).
    rewrite (dot_minus_r (minus_vec z y)) in P by congruence. rewrite !(dot_minus_l' z) in P by congruence.
    rewrite dot_minus_r by congruence. rewrite (dot_comm z y) in P. lra.
  - now apply gradient_sum_map.
Qed.

(** The limit 2 / L is sharp: for E(y) = y^2 / 2, where L = 1, one step longer than 2 raises the energy. *)
Lemma C172_limit_pf :
  forall fuel x h atol rtol interp all semi,
  x <> 0 -> 2 < h -> separated [0; h] ->
  smooth_energy 1 (fun y => dot y y / 2) (fun y => y) 1 /\
  exists y, snd (@odeint ROps fuel (gnf_field (map (fun y => y))) [x] (@TTensor ROps [0; h]) (Euler ROps) atol rtol interp all [] semi)
    = Ok ([0; h], [[x]; [y]]) /\ dot [x] [x] / 2 < dot [y] [y] / 2.
Proof.
  intros fuel x h atol rtol interp all semi Hx Hh Hsep. split; [apply energy_quadratic|].
  exists (x + h * - x). split.
  - rewrite (C01_fixed_trajectory_pf fuel (Euler ROps) (gnf_field (map (fun y => y))) (euler_one (gnf_field (map (fun y => y)))) euler_log); auto; [|apply (euler_stepper _)|lra].
    cbn [one_step_traj]. rewrite euler_axpy. unfold axpy. cbn. repeat f_equal. ring.
  - unfold dot. cbn. assert (0 < x * x) by nra. assert (0 < h * (h - 2) * (x * x)) by (apply Rmult_lt_0_compat; [apply Rmult_lt_0_compat|]; lra). lra.
Qed.

(** The energy |y|^2 / 2 meets all hypotheses; the Euler states 1, 1/2, 0 on the grid 0, 1/2, 3/2 *)
Lemma C172_ex_pf :
  smooth_energy 1 (fun y => dot y y / 2) (fun y => y) 1 /\ convex_energy 1 (fun y => dot y y / 2) (fun y => y) /\
  gradient_of_sum 1 (fun y => dot y y / 2) (map (fun y => y)) /\ separated [0; 1 / 2; 3 / 2] /\
  (forall h, In h (spacings [0; 1 / 2; 3 / 2]) -> 0 <= h /\ 1 * h <= 1) /\
  snd (@odeint ROps 0 (gnf_field (map (fun y => y))) [1] (@TTensor ROps [0; 1 / 2; 3 / 2]) (Euler ROps) (1 / 10 ^ 3) (1 / 10 ^ 3) false true [] None)
  = Ok ([0; 1 / 2; 3 / 2], [[1]; [1 / 2]; [0]]).
Proof.
  destruct (energy_quadratic 1) as (A & B & C). split; [exact A|]. split; [exact B|]. split; [exact C|].
  assert (S : separated [0; 1 / 2; 3 / 2]).
  { apply (spaced_separated _ (3 / 2) (1 / 2)); [|lra|].
    + intros t [<-|[<-|[<-|[]]]]; rewrite Rabs_right; lra.
    + intros i j a b Hij Ha Hb. destruct i as [|[|[|i]]]; try (destruct i; discriminate);
      destruct j as [|[|[|j]]]; try lia; try (destruct j; discriminate);
      simpl in *; injection Ha as <-; injection Hb as <-; lra. }
  split; [exact S|]. split; [intros h [<-|[<-|[]]]; lra|].
  rewrite (C01_fixed_trajectory_pf 0 (Euler ROps) (gnf_field (map (fun y => y))) (euler_one (gnf_field (map (fun y => y)))) euler_log); auto; [|apply (euler_stepper _)|lra].
  cbn [one_step_traj]. rewrite !euler_axpy. unfold axpy. cbn. replace (3 / 2 - 1 / 2) with 1 by lra. replace (1 + (1 / 2 - 0) * - (1)) with (1 / 2) by lra. replace (1 / 2 + 1 * - (1 / 2)) with 0 by lra. reflexivity.
Qed.
