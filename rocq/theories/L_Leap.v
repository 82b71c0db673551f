(** Lemmas about the asynchronous leapfrog method. *)
From Coq Require Import ZArith QArith Reals Lra Lia List Bool.
From Verif Require Import Num Py Tensor M_SolversOde M_Odeint Spec_Ode Spec_RK Spec_Conv Spec_Leap.
From Verif Require Import L_Base L_Fixed L_Vec L_Steps L_Steps2 L_Fixed2 L_Jagged L_Conv L_Sens.
Import ListNotations.
Local Open Scope R_scope.

(** ** The step of the model *)
Lemma axpy_vec a (k x : list R) : axpy a k x = @vadd ROps x (@vscale ROps a k).
Proof.
  revert k. induction x as [|x0 x IH]; intros [|k0 k]; try reflexivity.
  change (axpy a (k0 :: k) (x0 :: x)) with ((x0 + a * k0) :: axpy a k x). rewrite IH. reflexivity.
Qed.

Lemma nth_axpy' n a (k x : list R) i : length k = n -> length x = n -> (i < n)%nat -> nth i (axpy a k x) 0 = nth i x 0 + a * nth i k 0.
Proof. intros Hk Hx Hi. rewrite axpy_vec, (nth_vadd _ _ i n), nth_vscale by (rewrite ?vscale_len; auto). reflexivity. Qed.

Lemma nth_map_lin (c : R) (g : list R) i : nth i (map (Rmult c) g) 0 = c * nth i g 0.
Proof. rewrite <- (Rmult_0_r c) at 1. apply (map_nth (Rmult c)). Qed.
Lemma nth_map_opp (g : list R) i : nth i (map Ropp g) 0 = - nth i g 0.
Proof. rewrite <- Ropp_0 at 1. apply (map_nth Ropp). Qed.

Definition pair_on (n : nat) (p : list R * list R) : Prop := length (fst p) = n /\ length (snd p) = n.

Lemma leap_on n f t h p : field_on n f -> pair_on n p -> pair_on n (leap f t h p).
Proof.
  intros Hf [Hx Hv]. assert (Hm : length (axpy (h / 2) (snd p) (fst p)) = n) by (now apply axpy_len).
  split; unfold leap; cbn [fst snd]; apply axpy_len; auto. rewrite map_length. now apply Hf.
Qed.

Definition alf_one f t h (y : list R) : list R := match snd (@alf_step ROps false f y t h None) with Ok (Ret3 _ z _) => z | _ => [] end.
Definition alf_log f t h (y : list R) := fst (@alf_step ROps false f y t h None).
Lemma alf_stepper f : fixed_stepper (s_step (AsynchronousLeapfrog ROps false)) f (alf_one f) (alf_log f).
Proof. intros x t dt. exists None, None. reflexivity. Qed.

Lemma alf_one_leap n f t h p : field_on n f -> pair_on n p -> alf_one f t h (join p) = join (leap f t h p).
Proof.
  intros Hf [Hx Hv]. destruct p as [x v]. cbn [fst snd] in *. unfold alf_one, join. cbn [fst snd].
  rewrite (alf_value false n) by auto. cbv zeta. unfold leap. cbn [fst snd].
  replace (t + / 2 * h) with (t + h / 2) by lra. replace (/ 2 * h) with (h / 2) by lra.
  rewrite <- !axpy_vec. set (xm := axpy (h / 2) v x). assert (Lm : length xm = n) by (now apply axpy_len).
  set (g := f (t + h / 2) xm). assert (Lg : length g = n) by (now apply Hf).
  assert (Ev : @vadd ROps (@vscale ROps 2 (@vsub ROps g v)) v = axpy (-1) v (map (Rmult 2) g)).
  { apply (list_ext n).
    - apply vadd_len; auto. rewrite vscale_len. now apply vsub_len.
    - apply axpy_len; auto. now rewrite map_length.
    - intros i Hi. rewrite (nth_axpy' n) by (rewrite ?map_length; auto).
      rewrite nth_map_lin. vnth n. rops. lra. }
  rewrite Ev. f_equal. apply (list_ext n).
  - apply axpy_len; auto. apply axpy_len; auto. now rewrite map_length.
  - now apply axpy_len.
  - intros i Hi. assert (L1 : length (map (Rmult 2) g) = n) by (now rewrite map_length).
    rewrite (nth_axpy' n) by (auto; apply axpy_len; auto). unfold xm. rewrite !(nth_axpy' n) by auto.
    rewrite nth_map_lin. lra.
Qed.

Lemma alf_traj n f ts : forall p, field_on n f -> pair_on n p ->
  one_step_traj (alf_one f) (join p) ts = map join (one_step_traj (leap f) p ts).
Proof.
  induction ts as [|t0 [|t1 ts] IH]; intros p Hf Hp; try reflexivity.
  rewrite !traj_cons. cbn [map]. rewrite (alf_one_leap n) by auto. f_equal. apply IH; auto. now apply leap_on.
Qed.

(** ** Reversed time *)
Lemma flip_flip p : flip (flip p) = p.
Proof. destruct p as [x v]. unfold flip. cbn [fst snd]. f_equal. rewrite map_map. rewrite <- (map_id v) at 2. apply map_ext. intros; lra. Qed.
Lemma flip_on n p : pair_on n p -> pair_on n (flip p).
Proof. intros [Hx Hv]. split; unfold flip; cbn [fst snd]; auto. now rewrite map_length. Qed.

Lemma axpy_opp a (k x : list R) : axpy a (map Ropp k) x = axpy (- a) k x.
Proof.
  revert k. induction x as [|x0 x IH]; intros [|k0 k]; try reflexivity.
  change (axpy a (map Ropp (k0 :: k)) (x0 :: x)) with ((x0 + a * - k0) :: axpy a (map Ropp k) x).
  change (axpy (- a) (k0 :: k) (x0 :: x)) with ((x0 + - a * k0) :: axpy (- a) k x). rewrite IH. f_equal. lra.
Qed.

Lemma leap_neg n f t h p : field_on n f -> pair_on n p ->
  leap (@neg_field ROps f) (- t) (- h) (flip p) = flip (leap f t h p).
Proof.
  intros Hf [Hx Hv]. destruct p as [x v]. cbn [fst snd] in *. unfold leap, flip. cbn [fst snd].
  rewrite axpy_opp. replace (- (- h / 2)) with (h / 2) by lra. unfold neg_field. rops.
  replace (- (- t + - h / 2)) with (t + h / 2) by lra.
  set (g := f (t + h / 2) (axpy (h / 2) v x)).
  assert (Lg : length g = n) by (apply Hf; now apply axpy_len).
  change (@vopp ROps g) with (map Ropp g). rewrite axpy_opp. replace (- - h) with h by lra. f_equal.
  apply (list_ext n).
  - rewrite axpy_opp. apply axpy_len; auto. rewrite !map_length. auto.
  - rewrite map_length. apply axpy_len; auto. now rewrite map_length.
  - intros i Hi. rewrite axpy_opp, (nth_axpy' n), nth_map_opp, (nth_axpy' n), !nth_map_lin, nth_map_opp by (rewrite ?map_length; auto). lra.
Qed.

Lemma leap_traj_neg n f ts : forall p, field_on n f -> pair_on n p ->
  one_step_traj (leap (@neg_field ROps f)) (flip p) (map Ropp ts) = map flip (one_step_traj (leap f) p ts).
Proof.
  induction ts as [|t0 [|t1 ts] IH]; intros p Hf Hp; try reflexivity.
  change (map Ropp (t0 :: t1 :: ts)) with (- t0 :: - t1 :: map Ropp ts). rewrite !traj_cons. cbn [map]. f_equal.
  replace (- t1 - - t0) with (- (t1 - t0)) by lra. rewrite (leap_neg n) by auto.
  apply IH; auto. now apply leap_on.
Qed.

(** stepping back from the end of a step *)
Lemma leap_back n f t h p : field_on n f -> pair_on n p -> leap f (t + h) (- h) (leap f t h p) = p.
Proof.
  intros Hf [Hx Hv]. destruct p as [x v]. cbn [fst snd] in *. unfold leap at 2. cbn [fst snd].
  set (xm := axpy (h / 2) v x). assert (Lm : length xm = n) by (now apply axpy_len).
  set (g := f (t + h / 2) xm). assert (Lg : length g = n) by (now apply Hf).
  assert (L2 : length (map (Rmult 2) g) = n) by (now rewrite map_length).
  unfold leap. cbn [fst snd].
  assert (Em : axpy (- h / 2) (axpy (-1) v (map (Rmult 2) g)) (axpy h g x) = xm).
  { apply (list_ext n); auto.
    - apply axpy_len; now apply axpy_len.
    - intros i Hi. unfold xm. rewrite !(nth_axpy' n) by (auto; now apply axpy_len). rewrite nth_map_lin. lra. }
  rewrite Em. replace (t + h + - h / 2) with (t + h / 2) by lra. fold g. f_equal.
  - apply (list_ext n); auto.
    + apply axpy_len; auto. now apply axpy_len.
    + intros i Hi. rewrite !(nth_axpy' n) by (auto; now apply axpy_len). lra.
  - apply (list_ext n); auto.
    + apply axpy_len; auto. now apply axpy_len.
    + intros i Hi. rewrite !(nth_axpy' n) by (auto; now apply axpy_len). rewrite nth_map_lin. lra.
Qed.

(** ** Error of one step *)
Lemma second_difference du ddu d3u M a h : 0 <= h ->
  (forall c, a <= c <= a + h -> derivable_pt_lim du c (ddu c)) ->
  (forall c, a <= c <= a + h -> derivable_pt_lim ddu c (d3u c)) ->
  (forall c, a <= c <= a + h -> Rabs (d3u c) <= M) ->
  Rabs (du (a + h) + du a - 2 * du (a + h / 2)) <= M / 4 * (h * h).
Proof.
  intros Hh H2 H3 H4. set (m := a + h / 2).
  assert (D2 : forall s, 0 <= s <= h / 2 -> Rabs (ddu (m + s) - ddu (m - s)) <= 2 * M * s).
  { intros s Hs. pose proof (diff_bound ddu d3u (fun s => M * s + 0) (fun _ => M) (m - s) (m + s) ltac:(lra)) as B.
    replace (2 * M * s) with (M * (m + s) + 0 - (M * (m - s) + 0)) by lra. apply B.
    - intros c Hc. apply H3. unfold m in *. lra.
    - intros c _. apply dlim_lin.
    - intros c Hc. apply H4. unfold m in *. lra. }
  pose proof (diff_bound (plus_fct (fun s => du (m + s)) (fun s => du (m - s))) (fun s => ddu (m + s) + - ddu (m - s))
      (fun s => (2 * M) * ((s - 0) * (s - 0)) / 2) (fun c => (2 * M) * (c - 0)) 0 (h / 2) ltac:(lra)) as B.
  replace (du (a + h) + du a - 2 * du m) with
    ((plus_fct (fun s => du (m + s)) (fun s => du (m - s))) (h / 2) - (plus_fct (fun s => du (m + s)) (fun s => du (m - s))) 0).
  2:{ unfold plus_fct. rewrite Rplus_0_r, Rminus_0_r. unfold m at 1 2. replace (a + h / 2 + h / 2) with (a + h) by lra.
      replace (a + h / 2 - h / 2) with a by lra. lra. }
  replace (M / 4 * (h * h)) with ((2 * M) * ((h / 2 - 0) * (h / 2 - 0)) / 2 - (2 * M) * ((0 - 0) * (0 - 0)) / 2) by lra.
  apply B.
  - intros c Hc. apply derivable_pt_lim_plus; [apply dlim_shift|apply dlim_refl]; apply H2; unfold m in *; lra.
  - intros c _. apply dlim_pow2.
  - intros c Hc. specialize (D2 c ltac:(lra)). unfold Rminus in D2 at 1. rewrite Rminus_0_r. exact D2.
Qed.

Section Error.
Variables (n : nat) (f : R -> list R -> list R) (L : R) (t0 T : R) (y : R -> list R).
Hypothesis Hf : field_on n f.
Hypothesis HL : 0 <= L.
Hypothesis Hlip : lipschitz n L f.
Hypothesis Hsol : solves n t0 T f y.
Variables (y2 y3 : R -> list R) (M2 M3 : R).
Hypothesis Hy2 : curve_derivative n t0 T (fun t => f t (y t)) y2.
Hypothesis HM2 : 0 <= M2.
Hypothesis Hb2 : curve_bound n t0 T M2 y2.
Hypothesis Hy3 : curve_derivative n t0 T y2 y3.
Hypothesis HM3 : 0 <= M3.
Hypothesis Hb3 : curve_bound n t0 T M3 y3.

(** [e]: error of the position, [d]: step size times the error of the velocity *)
Lemma leap_error t h p e d : t0 <= t -> 0 < h -> t + h <= T -> pair_on n p ->
  near n e (fst p) (y t) -> near n (d / h) (snd p) (f t (y t)) ->
  let q := leap f t h p in
  near n (e + h * L * (e + d / 2) + (L * M2 / 8 + M3 / 24) * (h * h * h)) (fst q) (y (t + h)) /\
  near n ((d + h * L * (2 * e + d) + (L * M2 / 4 + M3 / 4) * (h * h * h)) / h) (snd q) (f (t + h) (y (t + h))).
Proof.
  intros Ht Hh HT [Hx Hv] He Hd q. destruct p as [x v]. cbn [fst snd] in *. destruct Hsol as [Hl Hder].
  unfold leap in q. cbn [fst snd] in q. set (xm := axpy (h / 2) v x) in q.
  assert (Lm : length xm = n) by (now apply axpy_len).
  set (g := f (t + h / 2) xm) in q. assert (Lg : length g = n) by (now apply Hf).
  assert (L2 : length (map (Rmult 2) g) = n) by (now rewrite map_length).
  set (E := e + d / 2 + M2 / 8 * (h * h)).
  assert (Hm : near n E xm (y (t + h / 2))).
  { intros i Hi. specialize (He i Hi). specialize (Hd i Hi). unfold xm. rewrite (nth_axpy' n) by auto.
    pose proof (taylor1 (fun s => nth i (y s) 0) (fun s => nth i (f s (y s)) 0) (fun s => nth i (y2 s) 0) M2 t (t + h / 2) ltac:(lra)) as B.
    cbv beta in B. specialize (B ltac:(intros c Hc; apply Hder; auto; lra) ltac:(intros c Hc; apply Hy2; auto; lra)
      ltac:(intros c Hc; apply Hb2; auto; lra)).
    replace (t + h / 2 - t) with (h / 2) in B by lra.
    replace (nth i x 0 + h / 2 * nth i v 0 - nth i (y (t + h / 2)) 0) with
      ((nth i x 0 - nth i (y t) 0) + h / 2 * (nth i v 0 - nth i (f t (y t)) 0)
       - (nth i (y (t + h / 2)) 0 - nth i (y t) 0 - h / 2 * nth i (f t (y t)) 0)) by lra.
    set (A1 := nth i x 0 - nth i (y t) 0) in *. set (A2 := nth i v 0 - nth i (f t (y t)) 0) in *.
    set (A3 := nth i (y (t + h / 2)) 0 - nth i (y t) 0 - h / 2 * nth i (f t (y t)) 0) in *.
    assert (H2 : Rabs (h / 2 * A2) <= d / 2).
    { rewrite Rabs_mult, (Rabs_right (h / 2)) by lra. apply Rle_trans with (h / 2 * (d / h)); [apply Rmult_le_compat_l; lra|].
      right. field. lra. }
    unfold E. apply Rabs_le_inv in He, H2, B. apply Rabs_le. lra. }
  pose proof (Hlip (t + h / 2) _ _ _ Lm (Hl _) Hm) as Hg. fold g in Hg.
  assert (Hpos : forall z, 0 <= z -> 0 <= h * z) by (intros; apply Rmult_le_pos; lra).
  unfold q. cbn [fst snd]. split; intros i Hi; specialize (He i Hi); specialize (Hd i Hi); specialize (Hg i Hi).
  - rewrite (nth_axpy' n) by auto.
    pose proof (midpoint_rule (fun s => nth i (y s) 0) (fun s => nth i (f s (y s)) 0) (fun s => nth i (y2 s) 0)
      (fun s => nth i (y3 s) 0) M3 t h ltac:(lra)) as B. cbv beta in B.
    specialize (B ltac:(intros c Hc; apply Hder; auto; lra) ltac:(intros c Hc; apply Hy2; auto; lra)
      ltac:(intros c Hc; apply Hy3; auto; lra) ltac:(intros c Hc; apply Hb3; auto; lra)).
    set (k := nth i (f (t + h / 2) (y (t + h / 2))) 0) in *. set (gi := nth i g 0) in *.
    assert (Hk : Rabs (h * (gi - k)) <= h * (L * E)).
    { rewrite Rabs_mult, (Rabs_right h) by lra. apply Rmult_le_compat_l; lra. }
    replace (nth i x 0 + h * gi - nth i (y (t + h)) 0) with
      ((nth i x 0 - nth i (y t) 0) + h * (gi - k) - (nth i (y (t + h)) 0 - nth i (y t) 0 - h * k)) by lra.
    apply Rabs_le_inv in He, Hk, B. unfold E in Hk. apply Rabs_le. lra.
  - rewrite (nth_axpy' n), nth_map_lin by auto.
    pose proof (second_difference (fun s => nth i (f s (y s)) 0) (fun s => nth i (y2 s) 0)
      (fun s => nth i (y3 s) 0) M3 t h ltac:(lra)) as B. cbv beta in B.
    specialize (B ltac:(intros c Hc; apply Hy2; auto; lra)
      ltac:(intros c Hc; apply Hy3; auto; lra) ltac:(intros c Hc; apply Hb3; auto; lra)).
    set (k := nth i (f (t + h / 2) (y (t + h / 2))) 0) in *. set (gi := nth i g 0) in *.
    set (a := nth i (f t (y t)) 0) in *. set (b := nth i (f (t + h) (y (t + h))) 0) in *.
    replace ((d + h * L * (2 * e + d) + (L * M2 / 4 + M3 / 4) * (h * h * h)) / h) with
      (d / h + 2 * (L * E) + M3 / 4 * (h * h)) by (unfold E; field; lra).
    replace (2 * gi + -1 * nth i v 0 - b) with (2 * (gi - k) - (nth i v 0 - a) - (b + a - 2 * k)) by lra.
    apply Rabs_le_inv in Hd, Hg, B. apply Rabs_le. lra.
Qed.

(** weighted error 2e + d *)
Definition lbound (w0 h t : R) : R := exp (2 * L * (t - t0)) * (w0 + (t - t0) * ((L * M2 / 2 + M3 / 3) * (h * h))).

Lemma lbound_step w0 h t : 0 <= w0 -> t0 <= t -> 0 < h ->
  (1 + 2 * h * L) * lbound w0 h t + (L * M2 / 2 + M3 / 3) * (h * h * h) <= lbound w0 h (t + h).
Proof.
  intros Hw Ht Hh. unfold lbound. set (C := (L * M2 / 2 + M3 / 3) * (h * h)).
  assert (HC : 0 <= C).
  { unfold C. apply Rmult_le_pos; [|apply Rle_0_sqr]. assert (0 <= L * M2) by (now apply Rmult_le_pos). lra. }
  replace ((L * M2 / 2 + M3 / 3) * (h * h * h)) with (h * C) by (unfold C; ring).
  replace (2 * L * (t + h - t0)) with (2 * h * L + 2 * L * (t - t0)) by ring. rewrite exp_plus.
  assert (HhL : 0 <= 2 * h * L) by (repeat apply Rmult_le_pos; lra).
  pose proof (exp_ge1 (2 * h * L)) as H1. pose proof (exp_ge1 (2 * L * (t - t0))) as H2.
  assert (H3 : 0 <= 2 * L * (t - t0)) by (repeat apply Rmult_le_pos; lra).
  set (E1 := exp (2 * h * L)) in *. set (E2 := exp (2 * L * (t - t0))) in *.
  set (W := w0 + (t - t0) * C). assert (HW : 0 <= W) by (unfold W; assert (0 <= (t - t0) * C) by (apply Rmult_le_pos; lra); lra).
  replace (w0 + (t + h - t0) * C) with (W + h * C) by (unfold W; ring).
  assert (HhC : 0 <= h * C) by (apply Rmult_le_pos; lra).
  assert (A1 : (1 + 2 * h * L) * (E2 * W) <= E1 * (E2 * W)) by (apply Rmult_le_compat_r; [apply Rmult_le_pos; lra|lra]).
  assert (A2 : 1 * (h * C) <= (E1 * E2) * (h * C)).
  { apply Rmult_le_compat_r; auto. replace 1 with (1 * 1) by lra. apply Rmult_le_compat; lra. }
  lra.
Qed.

(** the invariant: errors of position and velocity with 2 e + d below the bound *)
Definition leap_ok (w0 h t : R) (p : list R * list R) : Prop :=
  pair_on n p /\ exists e d, 0 <= e /\ 0 <= d /\ 2 * e + d <= lbound w0 h t /\
    near n e (fst p) (y t) /\ near n (d / h) (snd p) (f t (y t)).

Lemma leap_ok_step w0 h t p : 0 <= w0 -> t0 <= t -> 0 < h -> t + h <= T -> leap_ok w0 h t p -> leap_ok w0 h (t + h) (leap f t h p).
Proof.
  intros Hw Ht Hh HT (Hp & e & d & He & Hd & Hb & H1 & H2).
  destruct (leap_error t h p e d Ht Hh HT Hp H1 H2) as [N1 N2].
  split; [now apply leap_on|]. eexists. eexists. split; [|split; [|split; [|split; [exact N1|exact N2]]]].
  - assert (0 <= h * L * (e + d / 2)) by (apply Rmult_le_pos; [apply Rmult_le_pos; lra|lra]).
    assert (0 <= L * M2) by (now apply Rmult_le_pos).
    assert (0 <= (L * M2 / 8 + M3 / 24) * (h * h * h)) by (apply Rmult_le_pos; [lra|apply Rmult_le_pos; [apply Rle_0_sqr|lra]]). lra.
  - assert (0 <= h * L * (2 * e + d)) by (apply Rmult_le_pos; [apply Rmult_le_pos; lra|lra]).
    assert (0 <= L * M2) by (now apply Rmult_le_pos).
    assert (0 <= (L * M2 / 4 + M3 / 4) * (h * h * h)) by (apply Rmult_le_pos; [lra|apply Rmult_le_pos; [apply Rle_0_sqr|lra]]). lra.
  - eapply Rle_trans; [|apply lbound_step; auto]. 
    assert ((1 + 2 * h * L) * (2 * e + d) <= (1 + 2 * h * L) * lbound w0 h t).
    { apply Rmult_le_compat_l; [|lra]. assert (0 <= h * L) by (apply Rmult_le_pos; lra). lra. }
    lra.
Qed.

Lemma leap_traj_ok w0 h ts : forall t p, 0 <= w0 -> 0 < h -> t0 <= t -> leap_ok w0 h t p ->
  equal_steps h (t :: ts) -> (forall a, In a (t :: ts) -> a <= T) ->
  forall k a q, nth_error (t :: ts) k = Some a -> nth_error (one_step_traj (leap f) p (t :: ts)) k = Some q -> t0 <= a /\ leap_ok w0 h a q.
Proof.
  induction ts as [|t1 ts IH]; intros t p Hw Hh Ht Hp He HT k a q Ha Hq.
  - destruct k as [|[|]]; try discriminate. injection Ha as <-. injection Hq as <-. auto.
  - rewrite traj_cons in Hq. destruct k as [|k].
    + injection Ha as <-. injection Hq as <-. auto.
    + cbn [nth_error] in Ha, Hq. assert (Eh : t1 - t = h) by (apply (He 0%nat); reflexivity).
      assert (E1 : t1 = t + h) by lra. assert (HT1 : t1 <= T) by (apply HT; right; now left).
      rewrite Eh in Hq. apply (IH t1 (leap f t h p)) with (k := k); auto; try lra.
      * rewrite E1. apply leap_ok_step; auto. lra.
      * intros i a' b' H1 H2. apply (He (S i)); auto.
      * intros a' Ha'. apply HT. now right.
Qed.
End Error.
