(** One-step convergence: consistency and stability give an error bound. *)
From Coq Require Import ZArith QArith Reals Lra Lia List Bool.
From Verif Require Import Num Py Tensor M_SolversOde Spec_Ode Spec_RK Spec_Conv L_Base L_Fixed L_Vec L_Steps L_Jagged.
Import ListNotations.
Local Open Scope R_scope.

Lemma Rabs_le_inv a b : Rabs a <= b -> - b <= a <= b.
Proof. unfold Rabs. destruct (Rcase_abs a); lra. Qed.

(** ** A differential inequality: |phi'| <= psi' and equal starts. *)
Lemma diff_bound phi dphi psi dpsi a b : a <= b ->
  (forall c, a <= c <= b -> derivable_pt_lim phi c (dphi c)) ->
  (forall c, a <= c <= b -> derivable_pt_lim psi c (dpsi c)) ->
  (forall c, a < c < b -> Rabs (dphi c) <= dpsi c) ->
  Rabs (phi b - phi a) <= psi b - psi a.
Proof.
  intros Hab H1 H2 H3. destruct (Rle_lt_or_eq_dec a b Hab) as [Hlt| ->].
  2:{ unfold Rminus. rewrite !Rplus_opp_r, Rabs_R0. lra. }
  assert (Hp : phi b - phi a <= psi b - psi a).
  { destruct (MVT_cor2 (psi - phi)%F (fun c => dpsi c - dphi c) a b Hlt) as (c & E & Hc).
    - intros c Hc. apply derivable_pt_lim_minus; auto.
    - unfold minus_fct in E. specialize (H3 c Hc). apply Rabs_le_inv in H3.
      assert (0 <= (dpsi c - dphi c) * (b - a)) by (apply Rmult_le_pos; lra). lra. }
  assert (Hm : -(phi b - phi a) <= psi b - psi a).
  { destruct (MVT_cor2 (psi + phi)%F (fun c => dpsi c + dphi c) a b Hlt) as (c & E & Hc).
    - intros c Hc. apply derivable_pt_lim_plus; auto.
    - unfold plus_fct in E. specialize (H3 c Hc). apply Rabs_le_inv in H3.
      assert (0 <= (dpsi c + dphi c) * (b - a)) by (apply Rmult_le_pos; lra). lra. }
  apply Rabs_le. lra.
Qed.

Lemma dlim_ext f g x l l' : (forall y, f y = g y) -> l = l' -> derivable_pt_lim f x l -> derivable_pt_lim g x l'.
Proof. intros H <- Hf e He. destruct (Hf e He) as (d & Hd). exists d. intros h Hh Hh2. rewrite <- !H. now apply Hd. Qed.

Lemma dlim_pow2 M a c : derivable_pt_lim (fun s => M * ((s - a) * (s - a)) / 2) c (M * (c - a)).
Proof.
  assert (D : derivable_pt_lim (fun s => s - a) c 1).
  { replace 1 with (1 - 0) by lra. apply (derivable_pt_lim_minus id (fct_cte a)); [apply derivable_pt_lim_id|apply derivable_pt_lim_const]. }
  pose proof (derivable_pt_lim_mult _ _ c _ _ D D) as D2.
  pose proof (derivable_pt_lim_scal _ (M / 2) c _ D2) as D3.
  eapply dlim_ext; [| |exact D3]; [intros y; unfold mult_real_fct, mult_fct; lra|lra].
Qed.
Lemma dlim_pow3 M a c : derivable_pt_lim (fun s => M * ((s - a) * (s - a) * (s - a)) / 3) c (M * ((c - a) * (c - a))).
Proof.
  assert (D : derivable_pt_lim (fun s => s - a) c 1).
  { replace 1 with (1 - 0) by lra. apply (derivable_pt_lim_minus id (fct_cte a)); [apply derivable_pt_lim_id|apply derivable_pt_lim_const]. }
  pose proof (derivable_pt_lim_mult _ _ c _ _ D D) as D2.
  pose proof (derivable_pt_lim_mult _ _ c _ _ D2 D) as D3.
  pose proof (derivable_pt_lim_scal _ (M / 3) c _ D3) as D4.
  eapply dlim_ext; [| |exact D4]; [intros y; unfold mult_real_fct, mult_fct; lra|unfold mult_fct; field].
Qed.
Lemma dlim_lin k m c : derivable_pt_lim (fun s => k * s + m) c k.
Proof.
  pose proof (derivable_pt_lim_scal id k c 1 (derivable_pt_lim_id c)) as D1.
  pose proof (derivable_pt_lim_plus _ (fct_cte m) c _ _ D1 (derivable_pt_lim_const m c)) as D2.
  eapply dlim_ext; [| |exact D2]; [intros y; unfold mult_real_fct, plus_fct, fct_cte, id; lra|lra].
Qed.

(** First-order Taylor bound *)
Lemma taylor1 u du ddu M a b : a <= b ->
  (forall c, a <= c <= b -> derivable_pt_lim u c (du c)) ->
  (forall c, a <= c <= b -> derivable_pt_lim du c (ddu c)) ->
  (forall c, a <= c <= b -> Rabs (ddu c) <= M) ->
  Rabs (u b - u a - (b - a) * du a) <= M / 2 * ((b - a) * (b - a)).
Proof.
  intros Hab H1 H2 H3.
  assert (Hd : forall c, a <= c <= b -> Rabs (du c - du a) <= M * (c - a)).
  { intros c Hc. pose proof (diff_bound du ddu (fun s => M * s + 0) (fun _ => M) a c (proj1 Hc)) as B.
    replace (M * (c - a)) with (M * c + 0 - (M * a + 0)) by lra. apply B.
    - intros e He. apply H2. lra.
    - intros e _. apply dlim_lin.
    - intros e He. apply H3. lra. }
  pose proof (diff_bound (minus_fct u (fun s => du a * s + 0)) (fun c => du c - du a)
    (fun s => M * ((s - a) * (s - a)) / 2) (fun c => M * (c - a)) a b Hab) as B.
  replace (u b - u a - (b - a) * du a) with ((minus_fct u (fun s => du a * s + 0)) b - (minus_fct u (fun s => du a * s + 0)) a)
    by (unfold minus_fct; lra).
  replace (M / 2 * ((b - a) * (b - a))) with (M * ((b - a) * (b - a)) / 2 - M * ((a - a) * (a - a)) / 2) by lra.
  apply B.
  - intros c Hc. apply derivable_pt_lim_minus; [now apply H1|apply dlim_lin].
  - intros c _. apply dlim_pow2.
  - intros c Hc. apply Hd. lra.
Qed.

(** Composition with m + s and m - s *)
Lemma dlim_shift u m s l : derivable_pt_lim u (m + s) l -> derivable_pt_lim (fun s => u (m + s)) s l.
Proof.
  intros H. pose proof (derivable_pt_lim_comp (fun s => 1 * s + m) u s 1 l (dlim_lin 1 m s)) as C.
  cbv beta in C. replace (1 * s + m) with (m + s) in C by lra. specialize (C H).
  eapply dlim_ext; [| |exact C]; [intros y; unfold comp; f_equal; lra|lra].
Qed.
Lemma dlim_refl u m s l : derivable_pt_lim u (m - s) l -> derivable_pt_lim (fun s => u (m - s)) s (- l).
Proof.
  intros H. pose proof (derivable_pt_lim_comp (fun s => (-1) * s + m) u s (-1) l (dlim_lin (-1) m s)) as C.
  cbv beta in C. replace (-1 * s + m) with (m - s) in C by lra. specialize (C H).
  eapply dlim_ext; [| |exact C]; [intros y; unfold comp; f_equal; lra|lra].
Qed.

(** Midpoint rule *)
Lemma midpoint_rule u du ddu d3u M a h : 0 <= h ->
  (forall c, a <= c <= a + h -> derivable_pt_lim u c (du c)) ->
  (forall c, a <= c <= a + h -> derivable_pt_lim du c (ddu c)) ->
  (forall c, a <= c <= a + h -> derivable_pt_lim ddu c (d3u c)) ->
  (forall c, a <= c <= a + h -> Rabs (d3u c) <= M) ->
  Rabs (u (a + h) - u a - h * du (a + h / 2)) <= M / 24 * (h * h * h).
Proof.
  intros Hh H1 H2 H3 H4. set (m := a + h / 2).
  assert (D2 : forall s, 0 <= s <= h / 2 -> Rabs (ddu (m + s) - ddu (m - s)) <= 2 * M * s).
  { intros s Hs. pose proof (diff_bound ddu d3u (fun s => M * s + 0) (fun _ => M) (m - s) (m + s) ltac:(lra)) as B.
    replace (2 * M * s) with (M * (m + s) + 0 - (M * (m - s) + 0)) by lra. apply B.
    - intros c Hc. apply H3. unfold m in *. lra.
    - intros c _. apply dlim_lin.
    - intros c Hc. apply H4. unfold m in *. lra. }
  assert (D1 : forall s, 0 <= s <= h / 2 -> Rabs (du (m + s) + du (m - s) - 2 * du m) <= M * (s * s)).
  { intros s Hs.
    pose proof (diff_bound (plus_fct (fun s => du (m + s)) (fun s => du (m - s))) (fun s => ddu (m + s) + - ddu (m - s))
      (fun s => (2 * M) * ((s - 0) * (s - 0)) / 2) (fun c => (2 * M) * (c - 0)) 0 s (proj1 Hs)) as B.
    replace (du (m + s) + du (m - s) - 2 * du m) with
      ((plus_fct (fun s => du (m + s)) (fun s => du (m - s))) s - (plus_fct (fun s => du (m + s)) (fun s => du (m - s))) 0).
    2:{ unfold plus_fct. rewrite Rplus_0_r, Rminus_0_r. lra. }
    replace (M * (s * s)) with ((2 * M) * ((s - 0) * (s - 0)) / 2 - (2 * M) * ((0 - 0) * (0 - 0)) / 2) by lra.
    apply B.
    - intros c Hc. apply derivable_pt_lim_plus; [apply dlim_shift|apply dlim_refl]; apply H2; unfold m in *; lra.
    - intros c _. apply dlim_pow2.
    - intros c Hc. specialize (D2 c ltac:(lra)). unfold Rminus in D2 at 1. rewrite Rminus_0_r. exact D2. }
  pose proof (diff_bound (minus_fct (minus_fct (fun s => u (m + s)) (fun s => u (m - s))) (fun s => 2 * du m * s + 0))
    (fun s => du (m + s) - - du (m - s) - 2 * du m)
    (fun s => M * ((s - 0) * (s - 0) * (s - 0)) / 3) (fun c => M * ((c - 0) * (c - 0))) 0 (h / 2) ltac:(lra)) as B.
  match type of B with _ -> _ -> _ -> Rabs ?l <= ?r =>
    replace (u (a + h) - u a - h * du m) with l; [replace (M / 24 * (h * h * h)) with r; [apply B|field]|] end.
  - intros c Hc. apply derivable_pt_lim_minus; [|apply dlim_lin].
    apply derivable_pt_lim_minus; [apply dlim_shift|apply dlim_refl]; apply H1; unfold m in *; lra.
  - intros c _. apply dlim_pow3.
  - intros c Hc. specialize (D1 c ltac:(lra)). rewrite Rminus_0_r.
    replace (du (m + c) - - du (m - c) - 2 * du m) with (du (m + c) + du (m - c) - 2 * du m) by lra. exact D1.
  - unfold minus_fct. replace (m + h / 2) with (a + h) by (unfold m; lra). replace (m - h / 2) with a by (unfold m; lra).
    replace (m + 0) with m by lra. replace (m - 0) with m by lra. lra.
Qed.

(** ** From local to global error *)
Lemma exp_ge1 x : 1 + x <= exp x.
Proof. destruct (Req_dec x 0) as [->|H]; [rewrite exp_0; lra|]. left. now apply exp_ineq1. Qed.

Section OneStep.
Variables (n : nat) (one : R -> R -> list R -> list R) (y : R -> list R) (Lam C t0 T : R).
Hypothesis one_len : forall t h x, length x = n -> length (one t h x) = n.
Hypothesis HC : 0 <= C.
Hypothesis HLam : 0 <= Lam.
(** stability *)
Hypothesis stable : forall t h x z D, t0 <= t -> 0 < h -> t + h <= T -> length x = n -> length z = n -> 0 <= D -> near n D x z ->
  near n ((1 + h * Lam) * D) (one t h x) (one t h z).
(** consistency *)
Hypothesis y_len : forall t, length (y t) = n.
Variable eps : R.      (* C * eps * h bounds the local error *)
Hypothesis Heps : 0 <= eps.
Variable ok : R -> Prop.     (* admissible step sizes *)
Hypothesis local : forall t h, t0 <= t -> 0 < h -> t + h <= T -> ok h -> near n (C * (h * eps)) (one t h (y t)) (y (t + h)).

Lemma near_trans D E x z w : near n D x z -> near n E z w -> near n (D + E) x w.
Proof.
  intros H1 H2 i Hi. specialize (H1 i Hi). specialize (H2 i Hi).
  replace (nth i x 0 - nth i w 0) with ((nth i x 0 - nth i z 0) + (nth i z 0 - nth i w 0)) by lra.
  eapply Rle_trans; [apply Rabs_triang|]. lra.
Qed.
Lemma near_le D E x z : D <= E -> near n D x z -> near n E x z.
Proof. intros H H1 i Hi. specialize (H1 i Hi). lra. Qed.

Definition ebound (t : R) : R := exp (Lam * (t - t0)) * (t - t0) * C * eps.

Lemma ebound_pos t : t0 <= t -> 0 <= ebound t.
Proof. intros H. unfold ebound. repeat apply Rmult_le_pos; try lra. left. apply exp_pos. Qed.

Lemma one_step_bound t h x : t0 <= t -> 0 < h -> t + h <= T -> ok h -> length x = n ->
  near n (ebound t) x (y t) -> near n (ebound (t + h)) (one t h x) (y (t + h)).
Proof.
  intros Ht Hh HT Hok Hx Hn.
  pose proof (stable t h x (y t) _ Ht Hh HT Hx (y_len t) (ebound_pos t Ht) Hn) as S1.
  pose proof (local t h Ht Hh HT Hok) as S2.
  eapply near_le; [|exact (near_trans _ _ _ _ _ S1 S2)].
  unfold ebound. replace (Lam * (t + h - t0)) with (h * Lam + Lam * (t - t0)) by lra. rewrite exp_plus.
  assert (He1 : 1 + h * Lam <= exp (h * Lam)) by apply exp_ge1.
  set (E1 := exp (h * Lam)) in *. 
  assert (HhL : 0 <= h * Lam) by (apply Rmult_le_pos; lra).
  assert (HE2 : 1 <= exp (Lam * (t - t0))).
  { eapply Rle_trans; [|apply exp_ge1]. assert (0 <= Lam * (t - t0)) by (apply Rmult_le_pos; lra). lra. }
  set (E2 := exp (Lam * (t - t0))) in *.
  assert (Hce : 0 <= C * eps) by (apply Rmult_le_pos; lra).
  assert (A1 : (1 + h * Lam) * (E2 * (t - t0) * C * eps) <= E1 * (E2 * (t - t0) * C * eps)).
  { apply Rmult_le_compat_r; [|exact He1]. 
    replace (E2 * (t - t0) * C * eps) with (E2 * (t - t0) * (C * eps)) by lra. repeat apply Rmult_le_pos; lra. }
  assert (A2 : C * (h * eps) <= E1 * E2 * (h * (C * eps))).
  { replace (C * (h * eps)) with (1 * (h * (C * eps))) by lra. apply Rmult_le_compat_r; [apply Rmult_le_pos; lra|].
    replace 1 with (1 * 1) by lra. apply Rmult_le_compat; lra. }
  replace (E1 * E2 * (t + h - t0) * C * eps) with (E1 * (E2 * (t - t0) * C * eps) + E1 * E2 * (h * (C * eps))) by lra.
  lra.
Qed.

Lemma traj_bound ts : forall t x, t0 <= t -> length x = n -> near n (ebound t) x (y t) ->
  increasing (t :: ts) -> (forall i a b, nth_error (t :: ts) i = Some a -> nth_error (t :: ts) (S i) = Some b -> ok (b - a)) ->
  (forall a, In a (t :: ts) -> a <= T) ->
  forall k a xk, nth_error (t :: ts) k = Some a -> nth_error (one_step_traj one x (t :: ts)) k = Some xk ->
    near n (ebound a) xk (y a).
Proof.
  induction ts as [|t1 ts IH]; intros t x Ht Hx Hn Hinc Hok HT k a xk Ha Hk.
  - destruct k as [|[|]]; try discriminate. injection Ha as <-. injection Hk as <-. exact Hn.
  - rewrite traj_cons in Hk. destruct k as [|k].
    + injection Ha as <-. injection Hk as <-. exact Hn.
    + cbn [nth_error] in Ha, Hk.
      assert (Hlt : t < t1) by (apply (Hinc 0%nat 1%nat t t1); auto).
      apply (IH t1 (one t (t1 - t) x)) with (k := k); auto; try lra.
      * pose proof (one_step_bound t (t1 - t) x Ht ltac:(lra)) as B. replace (t + (t1 - t)) with t1 in B by lra.
        apply B; auto. { apply HT. right; now left. } apply (Hok 0%nat); reflexivity.
      * intros i j a' b' Hij H1 H2. apply (Hinc (S i) (S j)); auto. lia.
      * intros i a' b' H1 H2. apply (Hok (S i)); auto.
      * intros a' Ha'. apply HT. now right.
Qed.
End OneStep.

Lemma inc_last t0 t1 ts : increasing (t0 :: t1 :: ts) -> forall a, In a (t0 :: t1 :: ts) -> a <= last (t1 :: ts) t0.
Proof.
  intros Hinc a Ha. change (last (t1 :: ts) t0) with (last (t0 :: t1 :: ts) t0).
  apply In_nth_error in Ha. destruct Ha as (i & Hi).
  set (l := t0 :: t1 :: ts) in *.
  destruct (exists_last (l := l) ltac:(discriminate)) as (l' & b & E). rewrite E, last_last.
  rewrite E in Hinc, Hi. clearbody l. clear E.
  destruct (Nat.lt_ge_cases i (length l')) as [Hlt|Hge].
  - left. apply (Hinc i (length l')); auto. rewrite nth_error_app2, Nat.sub_diag by lia. reflexivity.
  - rewrite nth_error_app2 in Hi by lia. destruct (i - length l')%nat as [|[|]]; try discriminate. injection Hi as <-. lra.
Qed.

(** ** Euler and midpoint *)
Lemma nth_vadd (x z : list R) i n : length x = n -> length z = n -> (i < n)%nat ->
  @nth R i (@vadd ROps x z) 0 = nth i x 0 + nth i z 0.
Proof. intros Hx Hz Hi. unfold vadd. apply (map2_nth Rplus x z i 0 0 0); lia. Qed.
Lemma nth_vscale (c : R) (x : list R) i : @nth R i (@vscale ROps c x) 0 = c * nth i x 0.
Proof. unfold vscale. rewrite <- (Rmult_0_r c) at 1. apply (map_nth (Rmult c)). Qed.
Lemma vscale_len c (x : rvec) : length (@vscale ROps c x) = length x.
Proof. apply map_length. Qed.
Lemma vadd_len n (x z : rvec) : length x = n -> length z = n -> length (@vadd ROps x z) = n.
Proof. apply map2_length_eq. Qed.

Section Schemes.
Variables (n : nat) (f : R -> list R -> list R) (L : R) (t0 T : R) (y : R -> list R).
Hypothesis Hf : field_on n f.
Hypothesis HL : 0 <= L.
Hypothesis Hlip : lipschitz n L f.
Hypothesis Hsol : solves n t0 T f y.

Lemma near_step h x z D u v E : length x = n -> length z = n -> length u = n -> length v = n -> 0 <= h ->
  near n D x z -> near n E u v -> near n (D + h * E) (@vadd ROps x (@vscale ROps h u)) (@vadd ROps z (@vscale ROps h v)).
Proof.
  intros Hx Hz Hu Hv Hh H1 H2 i Hi. rewrite !(nth_vadd _ _ i n), !nth_vscale by (rewrite ?vscale_len; auto).
  specialize (H1 i Hi). specialize (H2 i Hi).
  replace (nth i x 0 + h * nth i u 0 - (nth i z 0 + h * nth i v 0)) with
    ((nth i x 0 - nth i z 0) + h * (nth i u 0 - nth i v 0)) by lra.
  eapply Rle_trans; [apply Rabs_triang|]. rewrite Rabs_mult, (Rabs_right h) by lra.
  apply Rplus_le_compat; auto. apply Rmult_le_compat_l; auto.
Qed.

Lemma euler_len t h x : length x = n -> length (euler_one f t h x) = n.
Proof. intros Hx. apply vadd_len; auto. rewrite vscale_len. auto. Qed.

Lemma euler_stable t h x z D : 0 < h -> length x = n -> length z = n -> near n D x z ->
  near n ((1 + h * L) * D) (euler_one f t h x) (euler_one f t h z).
Proof.
  intros Hh Hx Hz Hn. replace ((1 + h * L) * D) with (D + h * (L * D)) by lra.
  apply near_step; auto. lra.
Qed.

Variables (y2 y3 : R -> list R) (M2 M3 : R).
Hypothesis Hy2 : curve_derivative n t0 T (fun t => f t (y t)) y2.
Hypothesis HM2 : curve_bound n t0 T M2 y2.

Lemma euler_local t h : t0 <= t -> 0 < h -> t + h <= T ->
  near n (M2 / 2 * (h * h)) (euler_one f t h (y t)) (y (t + h)).
Proof.
  intros Ht Hh HT i Hi. destruct Hsol as [Hl Hd].
  unfold euler_one. rewrite (nth_vadd _ _ i n), nth_vscale by (rewrite ?vscale_len; auto).
  pose proof (taylor1 (fun s => nth i (y s) 0) (fun s => nth i (f s (y s)) 0) (fun s => nth i (y2 s) 0) M2 t (t + h) ltac:(lra)) as B.
  replace (t + h - t) with h in B by lra. rewrite Rabs_minus_sym.
  replace (nth i (y (t + h)) 0 - (nth i (y t) 0 + h * nth i (f t (y t)) 0)) with
    (nth i (y (t + h)) 0 - nth i (y t) 0 - h * nth i (f t (y t)) 0) by lra.
  apply B; intros c Hc; [apply Hd|apply Hy2|apply HM2]; auto; lra.
Qed.

Lemma midpoint_arg_len t h x : length x = n -> length (midpoint_arg f t h x) = n.
Proof. intros Hx. unfold midpoint_arg. apply vadd_len; auto. rewrite !vscale_len. auto. Qed.
Lemma midpoint_len t h x : length x = n -> length (midpoint_one f t h x) = n.
Proof. intros Hx. apply vadd_len; auto. rewrite vscale_len. apply Hf. now apply midpoint_arg_len. Qed.

Lemma midpoint_stable t h x z D : t0 <= t -> 0 < h -> t + h <= T -> length x = n -> length z = n -> 0 <= D -> near n D x z ->
  near n ((1 + h * (L + (T - t0) * (L * L) / 2)) * D) (midpoint_one f t h x) (midpoint_one f t h z).
Proof.
  intros Ht Hh HT Hx Hz HD Hn.
  assert (Ha : near n (D + /2 * h * (L * D)) (midpoint_arg f t h x) (midpoint_arg f t h z)).
  { unfold midpoint_arg. apply near_step; auto. lra. }
  pose proof (near_step h x z D (f (t + /2 * h) (midpoint_arg f t h x)) (f (t + /2 * h) (midpoint_arg f t h z))
    (L * (D + /2 * h * (L * D))) Hx Hz (Hf _ _ (midpoint_arg_len t h x Hx)) (Hf _ _ (midpoint_arg_len t h z Hz)) ltac:(lra) Hn
    (Hlip _ _ _ _ (midpoint_arg_len t h x Hx) (midpoint_arg_len t h z Hz) Ha)) as B.
  eapply near_le; [|exact B].
  assert (HLL : 0 <= L * L * D) by (repeat apply Rmult_le_pos; auto).
  assert (h * (h * (L * L * D)) <= h * ((T - t0) * (L * L * D))).
  { apply Rmult_le_compat_l; [lra|]. apply Rmult_le_compat_r; lra. }
  lra.
Qed.

Hypothesis Hy3 : curve_derivative n t0 T y2 y3.
Hypothesis HM3 : curve_bound n t0 T M3 y3.

Lemma midpoint_local t h : t0 <= t -> 0 < h -> t + h <= T ->
  near n ((L * M2 / 8 + M3 / 24) * (h * h * h)) (midpoint_one f t h (y t)) (y (t + h)).
Proof.
  intros Ht Hh HT. destruct Hsol as [Hl Hd].
  assert (Ha : near n (M2 / 2 * (h / 2 * (h / 2))) (midpoint_arg f t h (y t)) (y (t + h / 2))).
  { pose proof (euler_local t (h / 2) Ht ltac:(lra) ltac:(lra)) as B. unfold euler_one in B. unfold midpoint_arg.
    replace (/ 2 * h) with (h / 2) by lra. exact B. }
  pose proof (Hlip (t + / 2 * h) _ _ _ (midpoint_arg_len t h _ (Hl t)) (Hl _) Ha) as Hb.
  intros i Hi. specialize (Hb i Hi).
  unfold midpoint_one. rewrite (nth_vadd _ _ i n), nth_vscale by (rewrite ?vscale_len; auto; apply Hf, midpoint_arg_len; auto).
  pose proof (midpoint_rule (fun s => nth i (y s) 0) (fun s => nth i (f s (y s)) 0) (fun s => nth i (y2 s) 0)
    (fun s => nth i (y3 s) 0) M3 t h ltac:(lra)) as B. cbv beta in B.
  specialize (B ltac:(intros c Hc; apply Hd; auto; lra) ltac:(intros c Hc; apply Hy2; auto; lra)
    ltac:(intros c Hc; apply Hy3; auto; lra) ltac:(intros c Hc; apply HM3; auto; lra)).
  replace (t + h / 2) with (t + / 2 * h) in * by lra.
  set (k1 := nth i (f (t + / 2 * h) (midpoint_arg f t h (y t))) 0) in *.
  set (k2 := nth i (f (t + / 2 * h) (y (t + / 2 * h))) 0) in *.
  apply Rabs_le_inv in B. apply Rabs_le_inv in Hb. apply Rabs_le.
  assert (Hk : - (h * (L * (M2 / 2 * (h / 2 * (h / 2))))) <= h * (k1 - k2) <= h * (L * (M2 / 2 * (h / 2 * (h / 2))))).
  { split; [rewrite Ropp_mult_distr_r|]; apply Rmult_le_compat_l; lra. }
  lra.
Qed.
End Schemes.
