(** Implicit Euler (torchdyn/numerics/solvers/ode.py:181-205) is stable and accurate for every step size. *)
From Coq Require Import ZArith Reals Lra Lia List Bool Psatz.
From Verif Require Import Num Py Tensor M_Constants M_SolversOde M_Utils M_Interp M_Odeint M_Autograd M_Implicit M_Models.
From Verif Require Import Spec_Ode Spec_Norm Spec_RK Spec_Root Spec_Conv Spec_Inv Spec_Lin Spec_Models.
From Verif Require Import L_Base L_Fixed L_Vec L_Steps L_Steps2 L_Utils L_Fixed2 L_Root L_Models L_Conv Pf_Models Pf_Fixed L_Reach L_Inv Pf_Lin Pf_Diss Pf_Descent Pf_Implicit.
Import ListNotations.
Local Open Scope R_scope.

(** distance of two states *)
Definition distance (y z : list R) : R := euclid (minus_vec y z).

(** (f(t,y) - f(t,z)) . (y - z) <= - mu |y - z|^2, without any bound on the size of f or its slopes *)
Definition one_sided (n : nat) (mu : R) (f : R -> list R -> list R) : Prop :=
  forall t y z, length y = n -> length z = n ->
  dot (minus_vec (f t y) (f t z)) (minus_vec y z) <= - mu * dot (minus_vec y z) (minus_vec y z).

(** The optimiser brings the objective of a step of f, the squared residual of its equation, below eps^2. *)
Definition solves_steps (n : nat) (eps : R) (f : R -> list R -> list R) (minimize : (list R -> R) -> list R -> list R) : Prop :=
  forall t h x, length x = n -> 0 <= h ->
  let objective := @implicit_euler_residual ROps f x t h in
  length (minimize objective x) = n /\ objective (minimize objective x) <= eps ^ 2.

(** sum of g over the first i spacings *)
Fixpoint grid_sum (g : R -> R) (ts : list R) (i : nat) : R :=
  match i, ts with
  | S i', t0 :: ((t1 :: _) as ts') => g (t1 - t0) + grid_sum g ts' i'
  | _, _ => 0
  end.

(** residual of the equation of one step from y to y' *)
Definition defect (f : R -> list R -> list R) (t h : R) (y y' : list R) : list R := minus_vec (minus_vec y' y) (times h (f t y')).

Fixpoint follows (f : R -> list R -> list R) (delta : R -> R) (ts : list R) (ys : list (list R)) : Prop :=
  match ts, ys with
  | t0 :: ((t1 :: _) as ts'), y0 :: ((y1 :: _) as ys') => euclid (defect f t0 (t1 - t0) y0 y1) <= delta (t1 - t0) /\ follows f delta ts' ys'
  | [_], [_] => True
  | _, _ => False
  end.

Lemma euclid_pos v : 0 <= euclid v.
Proof. apply sqrt_pos. Qed.
Lemma euclid_sq v : euclid v * euclid v = dot v v.
Proof. apply sqrt_sqrt, dot_pos. Qed.
Lemma dot_le a b : length a = length b -> Rabs (dot a b) <= euclid a * euclid b.
Proof.
  intros H. apply Rsqr_incr_0_var; [|apply Rmult_le_pos; apply euclid_pos]. rewrite <- Rsqr_abs. unfold Rsqr.
  replace (euclid a * euclid b * (euclid a * euclid b)) with ((euclid a * euclid a) * (euclid b * euclid b)) by ring. rewrite !euclid_sq.
  assert (C := cs_dot a b H). lra.
Qed.
Lemma times_len c (v : list R) : length (times c v) = length v.
Proof. apply map_length. Qed.
Lemma nth_times c (v : list R) j : nth j (times c v) 0 = c * nth j v 0.
Proof. unfold times. assert (Q := map_nth (Rmult c) v 0 j). rewrite Rmult_0_r in Q. exact Q. Qed.
Lemma defect_len n f t h y y' : field_on n f -> length y = n -> length y' = n -> length (defect f t h y y') = n.
Proof. intros Hf Hy Hy'. unfold defect. apply minus_len; [now apply minus_len|]. rewrite times_len. now apply Hf. Qed.

(** one step of two solutions with residuals *)
Lemma step_contract n mu f t h y y' z z' : field_on n f -> one_sided n mu f -> 0 <= h -> length y = n -> length y' = n -> length z = n -> length z' = n ->
  0 <= 1 + mu * h ->
  (1 + mu * h) * distance y' z' <= distance y z + euclid (defect f t h y y') + euclid (defect f t h z z').
Proof.
  intros Hf Ho Hh Hy Hy' Hz Hz' Hq. unfold distance. set (e := minus_vec y' z').
  assert (Le : length e = n) by (apply minus_len; auto). assert (Fy := Hf t y' Hy'). assert (Fz := Hf t z' Hz').
  assert (D1 := defect_len n f t h y y' Hf Hy Hy'). assert (D2 := defect_len n f t h z z' Hf Hz Hz').
  assert (L0 : length (minus_vec y z) = n) by (apply minus_len; auto).
  assert (A1 : dot (defect f t h y y') e = dot y' e - dot y e - h * dot (f t y') e).
  { unfold defect. assert (length (minus_vec y' y) = n) by (apply minus_len; auto).
    rewrite dot_minus_l' by (rewrite ?times_len; congruence). rewrite dot_times_l. rewrite dot_minus_l' by congruence. ring. }
  assert (A2 : dot (defect f t h z z') e = dot z' e - dot z e - h * dot (f t z') e).
  { unfold defect. assert (length (minus_vec z' z) = n) by (apply minus_len; auto).
    rewrite dot_minus_l' by (rewrite ?times_len; congruence). rewrite dot_times_l. rewrite dot_minus_l' by congruence. ring. }
  assert (A3 : dot e e = dot y' e - dot z' e) by (unfold e at 1; rewrite dot_minus_l' by congruence; reflexivity).
  assert (A4 : dot (minus_vec y z) e = dot y e - dot z e) by (rewrite dot_minus_l' by congruence; reflexivity).
  assert (A5 := Ho t y' z' Hy' Hz'). fold e in A5. rewrite dot_minus_l' in A5 by congruence.
  assert (B1 := dot_le (defect f t h y y') e ltac:(congruence)). assert (B2 := dot_le (defect f t h z z') e ltac:(congruence)).
  assert (B0 := dot_le (minus_vec y z) e ltac:(congruence)).
  assert (C0 := Rle_trans _ _ _ (Rle_abs _) B0). assert (C1 := Rle_trans _ _ _ (Rle_abs _) B1).
  assert (C2 : - dot (defect f t h z z') e <= euclid (defect f t h z z') * euclid e) by (rewrite <- Rabs_Ropp in B2; exact (Rle_trans _ _ _ (Rle_abs _) B2)).
  assert (S : (1 + mu * h) * dot e e <= (euclid (minus_vec y z) + euclid (defect f t h y y') + euclid (defect f t h z z')) * euclid e).
  { assert (0 <= h * (- mu * dot e e - (dot (f t y') e - dot (f t z') e))) by (apply Rmult_le_pos; lra). lra. }
  rewrite <- euclid_sq in S. assert (P := euclid_pos e). assert (P0 := euclid_pos (minus_vec y z)).
  assert (P1 := euclid_pos (defect f t h y y')). assert (P2 := euclid_pos (defect f t h z z')).
  destruct (Req_dec (euclid e) 0) as [E0|E0]; [rewrite E0; lra|].
  apply Rmult_le_reg_r with (euclid e); [lra|]. lra.
Qed.

Lemma product_range mu : 0 <= mu -> forall ts i, (forall h, In h (spacings ts) -> 0 <= h) -> 0 <= grid_product (fun h => / (1 + mu * h)) ts i <= 1.
Proof.
  intros Hmu. induction ts as [|a [|b l] IHl]; intros [|i] Hh; try (cbn [grid_product]; lra).
  change (grid_product (fun h => / (1 + mu * h)) (a :: b :: l) (S i)) with (/ (1 + mu * (b - a)) * grid_product (fun h => / (1 + mu * h)) (b :: l) i).
  assert (B0 := Hh (b - a) (or_introl eq_refl)). assert (B1 := IHl i (fun u Hu => Hh u (or_intror Hu))).
  assert (B2 : 0 <= mu * (b - a)) by (apply Rmult_le_pos; lra).
  assert (B3 : 0 < / (1 + mu * (b - a)) <= 1) by (split; [apply Rinv_0_lt_compat; lra|rewrite <- Rinv_1; apply Rinv_le_contravar; lra]).
  split; [apply Rmult_le_pos; lra|]. apply Rle_trans with (1 * 1); [apply Rmult_le_compat; lra|lra].
Qed.

Lemma follow_bound n mu f delta eta : field_on n f -> one_sided n mu f -> 0 <= mu -> (forall h, 0 <= h -> 0 <= delta h /\ 0 <= eta h) ->
  forall i ts ys zs x w y z, (forall h, In h (spacings ts) -> 0 <= h) -> Forall (fun v => length v = n) ys -> Forall (fun v => length v = n) zs ->
  follows f delta ts ys -> follows f eta ts zs -> nth_error ys 0 = Some x -> nth_error zs 0 = Some w -> nth_error ys i = Some y -> nth_error zs i = Some z ->
  distance y z <= grid_product (fun h => / (1 + mu * h)) ts i * distance x w + grid_sum (fun h => delta h + eta h) ts i.
Proof.
  intros Hf Ho Hmu Hde. induction i as [|i IH]; intros ts ys zs x w y z Hh Ly Lz Fy Fz X0 W0 Hy Hz.
  - rewrite X0 in Hy. rewrite W0 in Hz. injection Hy as <-. injection Hz as <-. destruct ts; cbn [grid_product grid_sum]; lra.
  - destruct ts as [|t0 [|t1 ts]]; destruct ys as [|y0 [|y1 ys]]; destruct zs as [|z0 [|z1 zs]]; try contradiction;
      try (cbn in Hy; destruct i; discriminate); try (cbn in Hz; destruct i; discriminate).
    cbn in X0, W0. injection X0 as <-. injection W0 as <-.
    change (euclid (defect f t0 (t1 - t0) y0 y1) <= delta (t1 - t0) /\ follows f delta (t1 :: ts) (y1 :: ys)) in Fy.
    change (euclid (defect f t0 (t1 - t0) z0 z1) <= eta (t1 - t0) /\ follows f eta (t1 :: ts) (z1 :: zs)) in Fz.
    destruct Fy as (Dy & Fy). destruct Fz as (Dz & Fz). assert (Ly0 := Forall_inv Ly). assert (Lz0 := Forall_inv Lz). assert (Ly' := Forall_inv_tail Ly). assert (Lz' := Forall_inv_tail Lz).
    assert (Ly1 := Forall_inv Ly'). assert (Lz1 := Forall_inv Lz'). cbv beta in Ly0, Lz0, Ly1, Lz1.
    assert (H0 := Hh (t1 - t0) (or_introl eq_refl)). set (h := t1 - t0) in *.
    assert (Q : 0 <= mu * h) by (apply Rmult_le_pos; lra).
    specialize (IH (t1 :: ts) (y1 :: ys) (z1 :: zs) y1 z1 y z (fun u Hu => Hh u (or_intror Hu)) Ly' Lz' Fy Fz eq_refl eq_refl Hy Hz).
    change (grid_product (fun h => / (1 + mu * h)) (t0 :: t1 :: ts) (S i)) with (/ (1 + mu * h) * grid_product (fun h => / (1 + mu * h)) (t1 :: ts) i).
    change (grid_sum (fun h => delta h + eta h) (t0 :: t1 :: ts) (S i)) with (delta h + eta h + grid_sum (fun h => delta h + eta h) (t1 :: ts) i).
    assert (St := step_contract n mu f t0 h y0 y1 z0 z1 Hf Ho H0 Ly0 Ly1 Lz0 Lz1 ltac:(lra)).
    set (P := grid_product (fun h => / (1 + mu * h)) (t1 :: ts) i) in *.
    assert (HP : 0 <= P <= 1).
    { unfold P. apply product_range; [exact Hmu|]. intros u Hu. apply Hh. right. exact Hu. }
    set (q := / (1 + mu * h)). assert (Hq : 0 < q <= 1) by (unfold q; split; [apply Rinv_0_lt_compat; lra|rewrite <- Rinv_1; apply Rinv_le_contravar; lra]).
    assert (Hq1 : q * (1 + mu * h) = 1) by (unfold q; field; lra).
    assert (Hb : distance y1 z1 <= q * distance y0 z0 + (delta h + eta h)).
    { apply Rle_trans with (q * ((1 + mu * h) * distance y1 z1)); [rewrite <- Rmult_assoc, Hq1; lra|].
      destruct (Hde h H0). apply Rle_trans with (q * (distance y0 z0 + (delta h + eta h))); [apply Rmult_le_compat_l; lra|].
      assert (q * (delta h + eta h) <= 1 * (delta h + eta h)) by (apply Rmult_le_compat_r; lra). lra. }
    eapply Rle_trans; [exact IH|]. destruct (Hde h H0).
    assert (M1 : P * distance y1 z1 <= P * (q * distance y0 z0 + (delta h + eta h))) by (apply Rmult_le_compat_l; lra).
    assert (M2 : P * (delta h + eta h) <= 1 * (delta h + eta h)) by (apply Rmult_le_compat_r; lra). lra.
Qed.

(** ** The solver *)
Definition implicit_one (f : R -> list R -> list R) (minimize : (list R -> R) -> list R -> list R) (t h : R) (x : list R) : list R :=
  minimize (@implicit_euler_residual ROps f x t h) x.

Lemma minus_vsub : forall a b : list R, minus_vec a b = @vsub ROps a b.
Proof. induction a as [|x a IH]; intros [|y b]; try reflexivity. unfold minus_vec in *. cbn. f_equal. exact (IH b). Qed.
Lemma residual_defect n f x t h y : field_on n f -> length x = n -> length y = n -> @implicit_euler_residual ROps f x t h y = dot (defect f t h x y) (defect f t h x y).
Proof.
  intros Hf Hx Hy. unfold implicit_euler_residual. cbv zeta. rewrite <- (vsum_sq (defect f t h x y)). unfold defect. rewrite !minus_vsub. reflexivity.
Qed.

Lemma implicit_follows n eps f minimize : field_on n f -> 0 <= eps -> solves_steps n eps f minimize ->
  forall ts x, ts <> [] -> length x = n -> (forall h, In h (spacings ts) -> 0 <= h) ->
  Forall (fun v => length v = n) (one_step_traj (implicit_one f minimize) x ts) /\ follows f (fun _ => eps) ts (one_step_traj (implicit_one f minimize) x ts).
Proof.
  intros Hf He Hm. induction ts as [|t0 [|t1 ts] IH]; intros x Hne Hx Hh; [congruence|split; [repeat constructor; exact Hx|exact I]|].
  assert (H0 := Hh (t1 - t0) (or_introl eq_refl)).
  change (one_step_traj (implicit_one f minimize) x (t0 :: t1 :: ts)) with (x :: one_step_traj (implicit_one f minimize) (implicit_one f minimize t0 (t1 - t0) x) (t1 :: ts)).
  destruct (Hm t0 (t1 - t0) x Hx H0) as (Lm & Om). set (x1 := implicit_one f minimize t0 (t1 - t0) x) in *.
  destruct (IH x1 ltac:(discriminate) Lm (fun h Hin => Hh h (or_intror Hin))) as (F1 & F2). split; [now constructor|].
  assert (Hd : exists l, one_step_traj (implicit_one f minimize) x1 (t1 :: ts) = x1 :: l) by (destruct ts; eexists; reflexivity). destruct Hd as (l & El). rewrite El in *.
  split; [|exact F2]. unfold euclid. rewrite <- (sqrt_pow2 eps He). apply sqrt_le_1_alt. 
  rewrite <- (residual_defect n) by auto. exact Om.
Qed.

Lemma implicit_run fuel f minimize x t0 t1 ts atol rtol interp all semi : separated (t0 :: t1 :: ts) -> t0 <= t1 ->
  snd (@odeint ROps fuel f x (@TTensor ROps (t0 :: t1 :: ts)) (@ImplicitEuler ROps minimize) atol rtol interp all [] semi)
  = Ok (t0 :: t1 :: ts, one_step_traj (implicit_one f minimize) x (t0 :: t1 :: ts)).
Proof.
  intros Hs H0. apply (C01_fixed_trajectory_pf fuel (@ImplicitEuler ROps minimize) f (implicit_one f minimize) (fun _ _ _ => [])); auto.
  intros y t dt. exists None, None. reflexivity.
Qed.

Lemma grid_sum_const c : forall i ts, 0 <= c -> grid_sum (fun _ => c) ts i <= INR i * c.
Proof.
  induction i as [|i IH]; intros ts Hc; [destruct ts; simpl; lra|]. rewrite S_INR. assert (P := pos_INR i). assert (0 <= INR i * c) by (apply Rmult_le_pos; lra).
  destruct ts as [|t0 [|t1 ts]]; cbn [grid_sum]; try lra. assert (A := IH (t1 :: ts) Hc). cbn [grid_sum] in A. lra.
Qed.
Lemma head_traj {X} (one : R -> R -> X -> X) x t ts : nth_error (one_step_traj one x (t :: ts)) 0 = Some x.
Proof. destruct ts; reflexivity. Qed.

(** C174.  Two solves with implicit Euler of a field with (f(y) - f(z)).(y - z) <= - mu |y - z|^2, mu >= 0, on any increasing grid,
    however large the steps and however stiff the field: the distance is multiplied by at most 1 / (1 + mu h) in every step, plus what the
    optimiser leaves of the residuals. *)
Lemma C174_contraction_pf :
  forall fuel n mu eps f minimize x x' t0 t1 ts atol rtol interp all semi times sol times' sol',
  field_on n f -> one_sided n mu f -> 0 <= mu -> 0 <= eps -> solves_steps n eps f minimize -> List.length x = n -> List.length x' = n ->
  separated (t0 :: t1 :: ts) -> (forall h, In h (spacings (t0 :: t1 :: ts)) -> 0 <= h) ->
  snd (@odeint ROps fuel f x (@TTensor ROps (t0 :: t1 :: ts)) (@ImplicitEuler ROps minimize) atol rtol interp all [] semi) = Ok (times, sol) ->
  snd (@odeint ROps fuel f x' (@TTensor ROps (t0 :: t1 :: ts)) (@ImplicitEuler ROps minimize) atol rtol interp all [] semi) = Ok (times', sol') ->
  List.length sol = List.length (t0 :: t1 :: ts) /\ List.length sol' = List.length (t0 :: t1 :: ts) /\
  forall i y y', nth_error sol i = Some y -> nth_error sol' i = Some y' ->
  distance y y' <= grid_product (fun h => / (1 + mu * h)) (t0 :: t1 :: ts) i * distance x x' + INR i * (2 * eps).
Proof.
  intros fuel n mu eps f minimize x x' t0 t1 ts atol rtol interp all semi times sol times' sol' Hf Ho Hmu He Hm Hx Hx' Hsep Hh E E'.
  assert (H0 : t0 <= t1) by (generalize (Hh (t1 - t0) (or_introl eq_refl)); lra).
  destruct (Ok_pair _ _ _ _ (eq_trans (eq_sym E) (implicit_run fuel f minimize x t0 t1 ts atol rtol interp all semi Hsep H0))) as [_ ->].
  destruct (Ok_pair _ _ _ _ (eq_trans (eq_sym E') (implicit_run fuel f minimize x' t0 t1 ts atol rtol interp all semi Hsep H0))) as [_ ->].
  split; [apply traj_length|]. split; [apply traj_length|]. intros i y y' Hy Hy'.
  destruct (implicit_follows n eps f minimize Hf He Hm (t0 :: t1 :: ts) x ltac:(discriminate) Hx Hh) as (A1 & A2).
  destruct (implicit_follows n eps f minimize Hf He Hm (t0 :: t1 :: ts) x' ltac:(discriminate) Hx' Hh) as (B1 & B2).
  assert (B := follow_bound n mu f _ _ Hf Ho Hmu (fun _ _ => conj He He) i _ _ _ x x' y y' Hh A1 B1 A2 B2 (head_traj _ _ _ _) (head_traj _ _ _ _) Hy Hy').
  assert (G := grid_sum_const (eps + eps) i (t0 :: t1 :: ts) ltac:(lra)). replace (2 * eps) with (eps + eps) by ring. lra.
Qed.

Lemma follows_map f delta g : forall ts, ts <> [] -> (forall i t t', nth_error ts i = Some t -> nth_error ts (S i) = Some t' -> euclid (defect f t (t' - t) (g t) (g t')) <= delta (t' - t)) ->
  follows f delta ts (map g ts).
Proof.
  induction ts as [|t0 [|t1 ts] IH]; intros Hne H; [congruence|exact I|].
  split; [exact (H 0%nat t0 t1 eq_refl eq_refl)|]. apply IH; [discriminate|]. intros i t t' Ht Ht'. exact (H (S i) t t' Ht Ht').
Qed.

Lemma minus_self : forall v : list R, dot (minus_vec v v) (minus_vec v v) = 0.
Proof. induction v as [|a v IH]; [reflexivity|]. change (minus_vec (a :: v) (a :: v)) with ((a - a) :: minus_vec v v). rewrite dot_cons, IH. ring. Qed.

(** C174.  An equilibrium z attracts every solution, at any step size. *)
Lemma C174_equilibrium_pf :
  forall fuel n mu eps f minimize x z t0 t1 ts atol rtol interp all semi times sol,
  field_on n f -> one_sided n mu f -> 0 <= mu -> 0 <= eps -> solves_steps n eps f minimize -> List.length x = n -> List.length z = n ->
  (forall t j, nth j (f t z) 0 = 0) ->
  separated (t0 :: t1 :: ts) -> (forall h, In h (spacings (t0 :: t1 :: ts)) -> 0 <= h) ->
  snd (@odeint ROps fuel f x (@TTensor ROps (t0 :: t1 :: ts)) (@ImplicitEuler ROps minimize) atol rtol interp all [] semi) = Ok (times, sol) ->
  List.length sol = List.length (t0 :: t1 :: ts) /\
  forall i y, nth_error sol i = Some y ->
  distance y z <= grid_product (fun h => / (1 + mu * h)) (t0 :: t1 :: ts) i * distance x z + INR i * eps.
Proof.
  intros fuel n mu eps f minimize x z t0 t1 ts atol rtol interp all semi times sol Hf Ho Hmu He Hm Hx Hz Hfz Hsep Hh E.
  assert (H0 : t0 <= t1) by (generalize (Hh (t1 - t0) (or_introl eq_refl)); lra).
  destruct (Ok_pair _ _ _ _ (eq_trans (eq_sym E) (implicit_run fuel f minimize x t0 t1 ts atol rtol interp all semi Hsep H0))) as [_ ->].
  split; [apply traj_length|]. intros i y Hy.
  destruct (implicit_follows n eps f minimize Hf He Hm (t0 :: t1 :: ts) x ltac:(discriminate) Hx Hh) as (A1 & A2).
  assert (B1 : Forall (fun v => length v = n) (map (fun _ : R => z) (t0 :: t1 :: ts))) by (apply Forall_forall; intros v Hv; apply in_map_iff in Hv; destruct Hv as (? & <- & _); exact Hz).
  assert (B2 : follows f (fun _ => 0) (t0 :: t1 :: ts) (map (fun _ : R => z) (t0 :: t1 :: ts))).
  { apply follows_map; [discriminate|]. intros k t t' _ _. apply Req_le. unfold euclid. rewrite <- sqrt_0. f_equal.
    assert (Ld := defect_len n f t (t' - t) z z Hf Hz Hz).
    replace (defect f t (t' - t) z z) with (minus_vec z z); [apply minus_self|].
    apply (list_ext n); [apply minus_len; auto|exact Ld|]. intros j Hj. unfold defect. assert (Ft := Hf t z Hz).
    assert (Lz : length (minus_vec z z) = n) by (apply minus_len; auto).
    rewrite (nth_minus j (minus_vec z z)) by (rewrite times_len; congruence). rewrite nth_times, Hfz. ring. }
  destruct (nth_error (map (fun _ : R => z) (t0 :: t1 :: ts)) i) as [w|] eqn:Hw.
  2:{ apply nth_error_None in Hw. rewrite map_length in Hw. assert (N := proj1 (nth_error_Some (one_step_traj (implicit_one f minimize) x (t0 :: t1 :: ts)) i) (fun H => ltac:(discriminate (eq_trans (eq_sym Hy) H)))). rewrite traj_length in N. lia. }
  assert (w = z) as -> by (apply nth_error_In in Hw; apply in_map_iff in Hw; destruct Hw as (? & <- & _); reflexivity).
  assert (B := follow_bound n mu f _ _ Hf Ho Hmu (fun _ _ => conj He (Rle_refl 0)) i _ _ _ x z y z Hh A1 B1 A2 B2 (head_traj _ _ _ _) eq_refl Hy Hw).
  assert (G := grid_sum_const (eps + 0) i (t0 :: t1 :: ts) ltac:(lra)). replace (INR i * eps) with (INR i * (eps + 0)) by ring. lra.
Qed.

(** ** Accuracy *)
Lemma taylor_end u du ddu M a b : a <= b ->
  (forall c, a <= c <= b -> derivable_pt_lim u c (du c)) -> (forall c, a <= c <= b -> derivable_pt_lim du c (ddu c)) -> (forall c, a <= c <= b -> Rabs (ddu c) <= M) ->
  Rabs (u b - u a - (b - a) * du b) <= M / 2 * ((b - a) * (b - a)).
Proof.
  intros Hab H1 H2 H3.
  assert (D : forall g g' c, derivable_pt_lim g (- c) g' -> derivable_pt_lim (fun s => g (- s)) c (- g')).
  { intros g g' c H. replace (- g') with (g' * -1) by ring. apply (derivable_pt_lim_comp Ropp g); [|exact H].
    replace (-1) with (- (1)) by ring. apply (derivable_pt_lim_opp (fun s => s)). apply derivable_pt_lim_id. }
  assert (T := taylor1 (fun s => u (- s)) (fun s => - du (- s)) (fun s => ddu (- s)) M (- b) (- a) ltac:(lra)).
  cbv beta in T. rewrite !Ropp_involutive in T.
  replace (u b - u a - (b - a) * du b) with (- (u a - u b - (- a - - b) * - du b)) by ring. rewrite Rabs_Ropp.
  replace ((b - a) * (b - a)) with ((- a - - b) * (- a - - b)) by ring. apply T.
  - intros c Hc. apply D. apply H1. lra.
  - intros c Hc. replace (ddu (- c)) with (- - ddu (- c)) by ring. apply (derivable_pt_lim_opp (fun s => du (- s))). apply D. apply H2. lra.
  - intros c Hc. apply H3. lra.
Qed.

Lemma euclid_bound (v : list R) B : 0 <= B -> (forall i, (i < length v)%nat -> Rabs (nth i v 0) <= B) -> euclid v <= sqrt (INR (length v)) * B.
Proof.
  intros HB H. assert (S : dot v v <= INR (length v) * (B * B)).
  { induction v as [|a v IH]; [unfold dot; simpl; lra|]. rewrite dot_cons. change (length (a :: v)) with (S (length v)). rewrite S_INR.
    assert (A := H 0%nat ltac:(cbn; lia)). cbn [nth] in A. assert (IH' := IH (fun i Hi => H (S i) ltac:(cbn; lia))).
    assert (a * a <= B * B). { rewrite <- (Rabs_pos_eq (a * a)) by (apply Rle_0_sqr). rewrite Rabs_mult. apply Rmult_le_compat; auto using Rabs_pos. } lra. }
  unfold euclid. apply Rle_trans with (sqrt (INR (length v) * (B * B))); [now apply sqrt_le_1_alt|].
  rewrite sqrt_mult_alt by apply pos_INR. rewrite sqrt_square by exact HB. lra.
Qed.

Lemma grid_sum_quad c H eps : 0 <= c -> 0 <= eps -> forall i ts t, (forall h, In h (spacings ts) -> 0 <= h <= H) -> nth_error ts i = Some t ->
  grid_sum (fun h => eps + c * (h * h)) ts i <= INR i * eps + c * H * (t - nth 0 ts 0).
Proof.
  intros Hc He. induction i as [|i IH]; intros ts t Hh Ht.
  - destruct ts; [discriminate|]. injection Ht as <-. cbn. lra.
  - destruct ts as [|t0 [|t1 ts]]; [discriminate|cbn in Ht; destruct i; discriminate|].
    specialize (IH (t1 :: ts) t (fun h Hin => Hh h (or_intror Hin)) Ht). assert (A := Hh (t1 - t0) (or_introl eq_refl)).
    change (grid_sum (fun h => eps + c * (h * h)) (t0 :: t1 :: ts) (S i)) with (eps + c * ((t1 - t0) * (t1 - t0)) + grid_sum (fun h => eps + c * (h * h)) (t1 :: ts) i).
    rewrite S_INR. cbn [nth] in IH |- *.
    assert (B : c * ((t1 - t0) * (t1 - t0)) <= c * (H * (t1 - t0))) by (apply Rmult_le_compat_l; [exact Hc|]; apply Rmult_le_compat_r; lra).
    lra.
Qed.

(** C174.  First-order accuracy with a constant that does not depend on the stiffness (no Lipschitz constant of f enters): if the true solution has
    second derivatives bounded by M and f depends on time at rate at most K along it, the error at time t is at most
    sqrt n (M / 2 + K) H (t - t0) + i eps, H being the largest step.  (The step evaluates f at the old time, line 190; this is where K enters.) *)
Lemma C174_accuracy_pf :
  forall fuel n mu eps f minimize y ydd M K H t0 t1 ts T atol rtol interp all semi times sol,
  field_on n f -> one_sided n mu f -> 0 <= mu -> 0 <= eps -> solves_steps n eps f minimize -> 0 <= M -> 0 <= K ->
  solves n t0 T f y -> curve_derivative n t0 T (fun t => f t (y t)) ydd -> curve_bound n t0 T M ydd ->
  (forall s t j, t0 <= s <= t -> t <= T -> (j < n)%nat -> Rabs (nth j (f t (y t)) 0 - nth j (f s (y t)) 0) <= K * (t - s)) ->
  separated (t0 :: t1 :: ts) -> increasing (t0 :: t1 :: ts) -> (forall h, In h (spacings (t0 :: t1 :: ts)) -> 0 <= h <= H) -> last (t1 :: ts) t0 <= T ->
  snd (@odeint ROps fuel f (y t0) (@TTensor ROps (t0 :: t1 :: ts)) (@ImplicitEuler ROps minimize) atol rtol interp all [] semi) = Ok (times, sol) ->
  List.length sol = List.length (t0 :: t1 :: ts) /\
  forall i t x, nth_error (t0 :: t1 :: ts) i = Some t -> nth_error sol i = Some x ->
  distance x (y t) <= sqrt (INR n) * (M / 2 + K) * H * (t - t0) + INR i * eps.
Proof.
  intros fuel n mu eps f minimize y ydd M K H t0 t1 ts T atol rtol interp all semi times sol Hf Ho Hmu He Hm HM HK (Ly & Hy) Hdd Hb HT Hsep Hinc Hh Hl E.
  assert (Hh0 : forall h, In h (spacings (t0 :: t1 :: ts)) -> 0 <= h) by (intros h Hin; apply Hh; exact Hin).
  assert (H0 : t0 <= t1) by (generalize (Hh0 (t1 - t0) (or_introl eq_refl)); lra).
  destruct (Ok_pair _ _ _ _ (eq_trans (eq_sym E) (implicit_run fuel f minimize (y t0) t0 t1 ts atol rtol interp all semi Hsep H0))) as [_ ->].
  split; [apply traj_length|]. intros i t x Ht Hx.
  destruct (implicit_follows n eps f minimize Hf He Hm (t0 :: t1 :: ts) (y t0) ltac:(discriminate) (Ly t0) Hh0) as (A1 & A2).
  set (c := sqrt (INR n) * (M / 2 + K)). assert (Hc : 0 <= c) by (apply Rmult_le_pos; [apply sqrt_pos|lra]).
  assert (B1 : Forall (fun v => length v = n) (map y (t0 :: t1 :: ts))) by (apply Forall_forall; intros v Hv; apply in_map_iff in Hv; destruct Hv as (? & <- & _); apply Ly).
  assert (B2 : follows f (fun h => c * (h * h)) (t0 :: t1 :: ts) (map y (t0 :: t1 :: ts))).
  { apply follows_map; [discriminate|]. intros k s s' Hs Hs'.
    assert (S0 : t0 <= s) by (destruct k as [|k]; [injection Hs as <-; lra|left; exact (Hinc 0%nat (S k) t0 s ltac:(lia) eq_refl Hs)]).
    assert (S1 : s < s') by exact (Hinc k (S k) s s' ltac:(lia) Hs Hs').
    assert (S2 : s' <= T) by (eapply Rle_trans; [apply (inc_last t0 t1 ts Hinc); eapply nth_error_In; exact Hs'|exact Hl]).
    assert (Ld := defect_len n f s (s' - s) (y s) (y s') Hf (Ly s) (Ly s')).
    unfold c. rewrite Rmult_assoc. rewrite <- Ld at 1. apply euclid_bound; [apply Rmult_le_pos; [lra|apply Rmult_le_pos; lra]|].
    rewrite Ld. intros j Hj. assert (Lm : length (minus_vec (y s') (y s)) = n) by (apply minus_len; auto). assert (Fs := Hf s (y s') (Ly s')).
    unfold defect. rewrite (nth_minus j (minus_vec (y s') (y s))) by (rewrite times_len; congruence). rewrite nth_minus by now rewrite !Ly. rewrite nth_times.
    assert (TE := taylor_end (fun r => nth j (y r) 0) (fun r => nth j (f r (y r)) 0) (fun r => nth j (ydd r) 0) M s s' ltac:(lra)
      (fun r Hr => Hy j r Hj ltac:(lra)) (fun r Hr => Hdd j r Hj ltac:(lra)) (fun r Hr => Hb j r Hj ltac:(lra))). cbv beta in TE.
    assert (TK := HT s s' j ltac:(lra) S2 Hj).
    replace (nth j (y s') 0 - nth j (y s) 0 - (s' - s) * nth j (f s (y s')) 0) with
      ((nth j (y s') 0 - nth j (y s) 0 - (s' - s) * nth j (f s' (y s')) 0) + (s' - s) * (nth j (f s' (y s')) 0 - nth j (f s (y s')) 0)) by ring.
    eapply Rle_trans; [apply Rabs_triang|]. rewrite (Rabs_mult (s' - s)), (Rabs_pos_eq (s' - s)) by lra.
    assert ((s' - s) * Rabs (nth j (f s' (y s')) 0 - nth j (f s (y s')) 0) <= (s' - s) * (K * (s' - s))) by (apply Rmult_le_compat_l; lra). lra. }
  assert (Hw : nth_error (map y (t0 :: t1 :: ts)) i = Some (y t)) by (now apply map_nth_error).
  assert (B := follow_bound n mu f (fun _ => eps) (fun h => c * (h * h)) Hf Ho Hmu (fun h (_ : 0 <= h) => conj He (Rmult_le_pos _ _ Hc (Rle_0_sqr h))) i _ _ _ (y t0) (y t0) x (y t) Hh0 A1 B1 A2 B2 (head_traj _ _ _ _) eq_refl Hx Hw).
  assert (D0 : distance (y t0) (y t0) = 0) by (unfold distance, euclid; rewrite minus_self; apply sqrt_0). rewrite D0, Rmult_0_r in B.
  assert (G := grid_sum_quad c H eps Hc He i (t0 :: t1 :: ts) t Hh Ht). cbn [nth] in G. fold c.
  eapply Rle_trans; [exact B|]. rewrite Rplus_0_l. eapply Rle_trans; [exact G|]. lra.
Qed.

Lemma traj_consecutive {X} (one : R -> R -> X -> X) : forall i ts x y y', nth_error (one_step_traj one x ts) i = Some y -> nth_error (one_step_traj one x ts) (S i) = Some y' ->
  exists t, y' = one t (nth i (spacings ts) 0) y /\ In (nth i (spacings ts) 0) (spacings ts).
Proof.
  induction i as [|i IH]; intros [|t0 [|t1 ts]] x y y' Hy Hy'; try discriminate.
  - injection Hy as <-. exists t0. change (nth_error (one_step_traj one (one t0 (t1 - t0) x) (t1 :: ts)) 0 = Some y') in Hy'. rewrite head_traj in Hy'. injection Hy' as <-. split; [reflexivity|now left].
  - change (nth_error (one_step_traj one (one t0 (t1 - t0) x) (t1 :: ts)) i = Some y) in Hy. change (nth_error (one_step_traj one (one t0 (t1 - t0) x) (t1 :: ts)) (S i) = Some y') in Hy'.
    destruct (IH (t1 :: ts) _ y y' Hy Hy') as (t & Et & Hin). exists t. split; [exact Et|]. right. exact Hin.
Qed.

(** C172, implicit Euler.  For convex energies every step, of any length h >= 0, lowers the energy by at least h |grad E|^2 at the new state, up to
    eps |grad E|: no smoothness constant and no step limit. *)
Lemma C172_implicit_descent_pf :
  forall fuel n E G grad_sum eps minimize x t0 t1 ts atol rtol interp all semi times sol,
  (forall y, List.length y = n -> gradient E y (G y)) -> gradient_of_sum n E grad_sum -> convex_energy n E G -> 0 <= eps ->
  solves_steps n eps (gnf_field grad_sum) minimize -> List.length x = n ->
  separated (t0 :: t1 :: ts) -> (forall h, In h (spacings (t0 :: t1 :: ts)) -> 0 <= h) ->
  snd (@odeint ROps fuel (gnf_field grad_sum) x (@TTensor ROps (t0 :: t1 :: ts)) (@ImplicitEuler ROps minimize) atol rtol interp all [] semi) = Ok (times, sol) ->
  List.length sol = List.length (t0 :: t1 :: ts) /\
  forall i y y', nth_error sol i = Some y -> nth_error sol (S i) = Some y' ->
  E y' + nth i (spacings (t0 :: t1 :: ts)) 0 * dot (G y') (G y') <= E y + eps * euclid (G y').
Proof.
  intros fuel n E G grad_sum eps minimize x t0 t1 ts atol rtol interp all semi tt sol HG HS HC He Hm Hx Hsep Hh Eq.
  assert (H0 : t0 <= t1) by (generalize (Hh (t1 - t0) (or_introl eq_refl)); lra).
  set (f := gnf_field grad_sum) in *.
  assert (Fld : forall t y, length y = n -> f t y = map Ropp (G y)).
  { intros t y Hy. assert (HB : is_batch 1 n [y]) by (split; [reflexivity|repeat constructor; exact Hy]).
    assert (Rw := grad_sum_rows n E G grad_sum 1 [y] 0 HG HS HB ltac:(lia)). cbn [nth] in Rw.
    unfold f, gnf_field, gnf. rewrite <- Rw. exact (map_nth (map Ropp) (grad_sum [y]) [] 0). }
  assert (LG : forall y, length y = n -> length (G y) = n) by (intros y Hy; rewrite <- Hy; apply HG; exact Hy).
  assert (Hf : field_on n f) by (intros t y Hy; rewrite Fld, map_length by exact Hy; now apply LG).
  destruct (Ok_pair _ _ _ _ (eq_trans (eq_sym Eq) (implicit_run fuel f minimize x t0 t1 ts atol rtol interp all semi Hsep H0))) as [_ ->].
  split; [apply traj_length|]. intros i y y' Hy Hy'.
  destruct (implicit_follows n eps f minimize Hf He Hm (t0 :: t1 :: ts) x ltac:(discriminate) Hx Hh) as (A1 & _).
  assert (Ly := proj1 (Forall_forall _ _) A1 _ (nth_error_In _ _ Hy)). cbv beta in Ly.
  destruct (traj_consecutive _ i _ x y y' Hy Hy') as (t & Et & Hin). set (h := nth i (spacings (t0 :: t1 :: ts)) 0) in *.
  destruct (Hm t h y Ly (Hh h Hin)) as (Ly' & Om). change (minimize (@implicit_euler_residual ROps f y t h) y) with (implicit_one f minimize t h y) in Ly', Om. rewrite <- Et in Ly', Om.
  rewrite (residual_defect n) in Om by auto.
  assert (Ed : euclid (defect f t h y y') <= eps) by (unfold euclid; rewrite <- (sqrt_pow2 eps He); now apply sqrt_le_1_alt).
  assert (Lg := LG y' Ly'). assert (Ld := defect_len n f t h y y' Hf Ly Ly').
  assert (B := dot_le (G y') (defect f t h y y') ltac:(congruence)).
  assert (D : dot (G y') (defect f t h y y') = - dot (G y') (minus_vec y y') + h * dot (G y') (G y')).
  { unfold defect. assert (length (minus_vec y' y) = n) by (apply minus_len; auto).
    rewrite dot_minus_r by (rewrite ?times_len, ?Fld, ?map_length by exact Ly'; congruence). rewrite dot_times_r. rewrite Fld by exact Ly'. rewrite dot_opp_r.
    rewrite !dot_minus_r by congruence. ring. }
  assert (C := HC y' y Ly' Ly). assert (P := euclid_pos (G y')).
  assert (Q : dot (G y') (defect f t h y y') <= euclid (G y') * eps).
  { eapply Rle_trans; [apply Rle_abs|]. eapply Rle_trans; [exact B|]. now apply Rmult_le_compat_l. }
  rewrite D in Q. lra.
Qed.

Lemma stiff_minimizer l : 0 <= l -> solves_steps 1 0 (fun _ => map (Rmult (- l))) parabola.
Proof.
  intros Hl t h x Hx Hh. cbv zeta. destruct x as [|a [|]]; try discriminate. set (r := @implicit_euler_residual ROps _ _ _ _).
  assert (E : forall y, r [y] = (y - a - h * (- l * y)) * (y - a - h * (- l * y))).
  { intros y. unfold r, implicit_euler_residual, vsum, vmul, vsub, vscale. cbn [map map2 fold_left]. rops. qlit. lra. }
  assert (P : 0 <= h * l) by now apply Rmult_le_pos.
  assert (Z : parabola r [a] = [a / (1 + h * l)]).
  { apply (proj2 C153_ex_pf r ((1 + h * l) * (1 + h * l)) (- (2 * a * (1 + h * l))) (a * a)).
    - intros y. rewrite E. ring.
    - intros H. apply Rmult_integral in H. lra.
    - intros y. rewrite E. apply Rle_0_sqr.
    - rewrite E. field. lra. }
  rewrite Z. split; [reflexivity|]. rewrite E. apply Req_le. field. lra.
Qed.

(** The stiff equation y' = - 10^6 y meets all hypotheses with mu = 10^6, eps = 0 and an optimiser that finds the minimum of a parabola; on the
    grid 0, 1, 3 the Euler method multiplies the state by -999999 and -1999999. *)
Lemma C174_ex_pf :
  let f := fun (_ : R) => map (Rmult (- 10 ^ 6)) in
  field_on 1 f /\ one_sided 1 (10 ^ 6) f /\ solves_steps 1 0 f parabola /\ (forall t j, nth j (f t [0]) 0 = 0) /\ separated [0; 1; 3] /\
  (forall h, In h (spacings [0; 1; 3]) -> 0 <= h <= 2) /\ solves 1 0 3 f (fun t => [exp (- 10 ^ 6 * t)]) /\
  snd (@odeint ROps 0 f [1] (@TTensor ROps [0; 1; 3]) (Euler ROps) (1 / 10 ^ 3) (1 / 10 ^ 3) false true [] None)
  = Ok ([0; 1; 3], [[1]; [- 999999]; [- 999999 * - 1999999]]).
Proof.
  intros f. split; [intros t x Hx; unfold f; rewrite map_length; exact Hx|]. split; [|split; [|split; [|split; [|split; [|split]]]]].
  - intros t y z Hy Hz. destruct y as [|a [|]]; try discriminate. destruct z as [|b [|]]; try discriminate. unfold f, dot, minus_vec. cbn. lra.
  - apply stiff_minimizer. lra.
  - intros t j. unfold f. destruct j as [|[|j]]; cbn; lra.
  - apply (spaced_separated _ 3 1); [|lra|].
    + intros t [<-|[<-|[<-|[]]]]; rewrite Rabs_right; lra.
    + intros i j a b Hij Ha Hb. destruct i as [|[|[|i]]]; try (destruct i; discriminate);
      destruct j as [|[|[|j]]]; try lia; try (destruct j; discriminate);
      simpl in *; injection Ha as <-; injection Hb as <-; lra.
  - intros h [<-|[<-|[]]]; lra.
  - split; [reflexivity|]. intros i t Hi _. destruct i as [|i]; [|lia]. unfold f. cbn [nth map].
    replace (- 10 ^ 6 * exp (- 10 ^ 6 * t)) with (exp (- 10 ^ 6 * t) * (- 10 ^ 6 * 1)) by ring.
    apply (derivable_pt_lim_comp (fun s => - 10 ^ 6 * s) exp); [|apply derivable_pt_lim_exp]. apply (derivable_pt_lim_scal (fun s => s)). apply derivable_pt_lim_id.
  - rewrite (C01_fixed_trajectory_pf 0 (Euler ROps) f (euler_one f) euler_log); auto; [|apply (euler_stepper _)| |lra].
    + cbn [one_step_traj]. rewrite !euler_axpy. unfold axpy, f. cbn [map combine fst snd].
      replace (1 + (1 - 0) * (- 10 ^ 6 * 1)) with (- 999999) by lra. replace (-999999 + (3 - 1) * (- 10 ^ 6 * -999999)) with (- 999999 * - 1999999) by lra. reflexivity.
    + apply (spaced_separated _ 3 1); [|lra|].
      * intros t [<-|[<-|[<-|[]]]]; rewrite Rabs_right; lra.
      * intros i j a b Hij Ha Hb. destruct i as [|[|[|i]]]; try (destruct i; discriminate);
        destruct j as [|[|[|j]]]; try lia; try (destruct j; discriminate);
        simpl in *; injection Ha as <-; injection Hb as <-; lra.
Qed.

(** |y|^2 / 2 in one unknown meets the hypotheses of the implicit descent. *)
Lemma C172_implicit_ex_pf :
  (forall y, List.length y = 1%nat -> gradient (fun y => dot y y / 2) y y) /\ gradient_of_sum 1 (fun y => dot y y / 2) (map (fun y => y)) /\
  convex_energy 1 (fun y => dot y y / 2) (fun y => y) /\ solves_steps 1 0 (gnf_field (map (fun y => y))) parabola.
Proof.
  destruct (energy_quadratic 1) as (_ & B & C). split; [intros; apply half_square_gradient|]. split; [exact C|]. split; [exact B|].
  intros t h x Hx Hh. assert (S := stiff_minimizer 1 ltac:(lra) t h x Hx Hh). cbv zeta in S |- *.
  assert (E : forall y : list R, length y = 1%nat -> @implicit_euler_residual ROps (gnf_field (map (fun y => y))) x t h y = @implicit_euler_residual ROps (fun _ => map (Rmult (- (1)))) x t h y).
  { intros y Hy. destruct y as [|a [|]]; try discriminate. destruct x as [|b [|]]; try discriminate.
    unfold implicit_euler_residual, gnf_field, vsum, vmul, vsub, vscale. cbn [gnf map map2 fold_left nth]. rops. qlit. lra. }
  assert (P : parabola (@implicit_euler_residual ROps (gnf_field (map (fun y => y))) x t h) x = parabola (@implicit_euler_residual ROps (fun _ => map (Rmult (- (1)))) x t h) x)
    by (unfold parabola; rewrite !E by reflexivity; reflexivity).
  destruct S as (S1 & S2). refine (conj _ _); [exact (eq_trans (f_equal (@length R) P) S1)|].
  eapply Rle_trans; [|exact S2]. apply Req_le. refine (eq_trans (f_equal _ P) _). apply E. exact S1.
Qed.
