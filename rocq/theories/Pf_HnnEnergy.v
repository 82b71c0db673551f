(** The energy of a Hamiltonian network (torchdyn/models/energy.py:65-80) along the solutions odeint returns. *)
From Coq Require Import ZArith QArith Qreals Reals Lra Lia List Bool Psatz.
From Verif Require Import Num Py Tensor M_Constants M_SolversOde M_Utils M_Interp M_Odeint M_Models.
From Verif Require Import Spec_Ode Spec_Trees Spec_RK Spec_Root Spec_Conv Spec_Inv Spec_Lin Spec_Order Spec_Models.
From Verif Require Import Spec_Norm Spec_Adaptive L_Interp L_Adaptive L_Run L_Adaptive2 L_Adaptive3 L_Adaptive4 Pf_Adaptive.
From Verif Require Import L_Base L_Fixed L_Vec L_Steps L_Tables L_Steps2 L_Utils L_Fixed2 L_Root L_Models L_Conv Pf_Models Pf_Fixed L_Reach L_Inv L_Order L_Order2 Pf_Lin Pf_Diss Pf_Conv Pf_Order Pf_Descent.
Import ListNotations.
Local Open Scope R_scope.

(** the field of an HNN for a batch of one row *)
Definition hnn_field (grad_sum : list (list R) -> list (list R)) (t : R) (y : list R) : list R :=
  nth 0 (@hnn ROps grad_sum [y]) [].

(** G is the gradient of the energy E, grad_sum that of the sum over a batch *)
Definition energy_gradient (n : nat) (E : list R -> R) (G : list R -> list R) (grad_sum : list (list R) -> list (list R)) : Prop :=
  (forall x, length x = n -> gradient E x (G x)) /\ gradient_of_sum n E grad_sum.

Section Field.
Variables (m : nat) (E : list R -> R) (G : list R -> list R) (grad_sum : list (list R) -> list (list R)).
Hypothesis HE : energy_gradient (2 * m) E G grad_sum.
Notation n := (2 * m)%nat.

Lemma hG_len y : length y = n -> length (G y) = n.
Proof. intros Hy. rewrite <- Hy. apply (proj1 HE). exact Hy. Qed.

Lemma hnn_field_row t y : length y = n -> hnn_field grad_sum t y = skipn m (G y) ++ map Ropp (firstn m (G y)).
Proof.
  intros Hy. destruct HE as (HG & HS). assert (HB : is_batch 1 n [y]) by (split; [reflexivity|repeat constructor; exact Hy]).
  assert (Rw := grad_sum_rows n E G grad_sum 1 [y] 0 HG HS HB ltac:(lia)). cbn [nth] in Rw.
  destruct (HS 1%nat [y] HB) as ((HL & _) & _).
  unfold hnn_field. rewrite (hnn_row m grad_sum 1 [y] 0 HB ltac:(lia) ltac:(rewrite HL; lia)). now rewrite Rw.
Qed.

Lemma hnn_field_on : field_on n (hnn_field grad_sum).
Proof. intros t y Hy. rewrite hnn_field_row by exact Hy. rewrite app_length, map_length, skipn_length, firstn_length, hG_len by exact Hy. lia. Qed.

Lemma hnn_autonomous : autonomous (hnn_field grad_sum).
Proof. intros t s x. reflexivity. Qed.

(** the entries of the gradient are those of the field, up to order and sign *)
Lemma gradient_entry i : (i < n)%nat -> exists j c, (j < n)%nat /\ (c = 1 \/ c = -1) /\ forall t y, length y = n -> nth i (G y) 0 = c * nth j (hnn_field grad_sum t y) 0.
Proof.
  intros Hi. destruct (Nat.lt_ge_cases i m) as [Hm|Hm].
  - exists (m + i)%nat, (-1). split; [lia|]. split; [now right|]. intros t y Hy. rewrite hnn_field_row by exact Hy. assert (Lg := hG_len y Hy).
    assert (Ls : length (skipn m (G y)) = m) by (rewrite skipn_length; lia).
    rewrite app_nth2 by lia. rewrite Ls. replace (m + i - m)%nat with i by lia.
    assert (Q := map_nth Ropp (firstn m (G y)) 0 i). rewrite Ropp_0 in Q. rewrite Q. rewrite <- (firstn_skipn m (G y)) at 1.
    rewrite app_nth1 by (rewrite firstn_length; lia). lra.
  - exists (i - m)%nat, 1. split; [lia|]. split; [now left|]. intros t y Hy. rewrite hnn_field_row by exact Hy. assert (Lg := hG_len y Hy).
    assert (Ls : length (skipn m (G y)) = m) by (rewrite skipn_length; lia).
    rewrite app_nth1 by lia. rewrite <- (firstn_skipn m (G y)) at 1.
    rewrite app_nth2 by (rewrite firstn_length; lia). rewrite firstn_length, Nat.min_l by lia. lra.
Qed.

Lemma asum_le (g : list R) B : (forall i, (i < length g)%nat -> Rabs (nth i g 0) <= B) -> fold_right Rplus 0 (map Rabs g) <= INR (length g) * B.
Proof.
  induction g as [|a g IH]; intros H; [simpl; lra|]. change (length (a :: g)) with (S (length g)). rewrite S_INR. cbn [map fold_right].
  assert (A := H 0%nat ltac:(cbn; lia)). cbn [nth] in A. assert (IH' := IH (fun i Hi => H (S i) ltac:(cbn; lia))). lra.
Qed.

Lemma dot_abs : forall (g v : list R) d, 0 <= d -> (forall i, (i < length g)%nat -> Rabs (nth i v 0) <= d) -> Rabs (dot g v) <= fold_right Rplus 0 (map Rabs g) * d.
Proof.
  induction g as [|a g IH]; intros [|c v] d Hd Hb.
  - unfold dot. cbn. rewrite Rabs_R0. lra.
  - unfold dot. cbn. rewrite Rabs_R0. lra.
  - unfold dot at 1. cbn [combine map fold_right]. rewrite Rabs_R0. assert (IH' := IH [] d Hd ltac:(intros i _; destruct i; cbn; rewrite Rabs_R0; exact Hd)).
    assert (A := Rabs_pos (dot g [])). assert (P := Rmult_le_pos _ _ (Rabs_pos a) Hd). lra.
  - rewrite dot_cons. eapply Rle_trans; [apply Rabs_triang|]. rewrite Rabs_mult. cbn [map fold_right].
    assert (H1 := Hb 0%nat ltac:(cbn; lia)). cbn [nth] in H1. assert (IH' := IH v d Hd (fun i Hi => Hb (S i) ltac:(cbn; lia))).
    assert (Rabs a * Rabs c <= Rabs a * d) by (apply Rmult_le_compat_l; [apply Rabs_pos|exact H1]). lra.
Qed.

(** the energy of two states at most D apart, one of them on a curve with bounded slope *)
Lemma energy_near L M D t x z : 0 <= L -> lipschitz n L (hnn_field grad_sum) -> length x = n -> length z = n -> 0 <= D -> near n D x z ->
  (forall i, (i < n)%nat -> Rabs (nth i (hnn_field grad_sum t z) 0) <= M) -> Rabs (E x - E z) <= INR n * (M + L * D) * D.
Proof.
  intros HL Hlip Hx Hz HD Hn HM. destruct HE as (HG & _).
  set (d := minus_vec x z). assert (Hd : length d = n) by (apply minus_len; auto).
  assert (Dd : forall i, (i < n)%nat -> Rabs (nth i d 0) <= D) by (intros i Hi; unfold d; rewrite nth_minus by congruence; now apply Hn).
  assert (La : forall s, length (axpy s d z) = n) by (intros s; apply axpy_len; auto).
  destruct (MVT_cor2 (fun s => E (axpy s d z)) (fun s => dot (G (axpy s d z)) d) 0 1 ltac:(lra)) as (c & Hc & Hr).
  { intros s Hs. apply (chain_rule n E (fun s => axpy s d z) d s (G (axpy s d z))); auto.
    intros i Hi. apply (derivable_pt_lim_ext' (fun r => nth i z 0 + r * nth i d 0)).
    { intros r. rewrite (nth_axpy n) by auto. ring. }
    replace (nth i d 0) with (0 + (1 * nth i d 0 + s * 0)) at 1 by ring.
    apply derivable_pt_lim_plus; [apply derivable_pt_lim_const|].
    apply (derivable_pt_lim_mult (fun r => r) (fun _ => nth i d 0)); [apply derivable_pt_lim_id|apply derivable_pt_lim_const]. }
  cbv beta in Hc. replace (axpy 1 d z) with x in Hc by (symmetry; apply axpy_minus; congruence). rewrite (axpy_0 z d) in Hc by congruence.
  rewrite Hc. rewrite Rmult_minus_distr_l, Rmult_1_r, Rmult_0_r, Rminus_0_r.
  assert (Lg := hG_len _ (La c)).
  eapply Rle_trans; [apply (dot_abs (G (axpy c d z)) d D HD); intros i Hi; apply Dd; rewrite Lg in Hi; exact Hi|].
  apply Rmult_le_compat_r; [exact HD|]. rewrite <- Lg. apply asum_le. intros i Hi. rewrite Lg in Hi.
  destruct (gradient_entry i Hi) as (j & e & Hj & He & Eq). rewrite (Eq t _ (La c)).
  assert (N : near n D (axpy c d z) z).
  { intros k Hk. rewrite (nth_axpy n) by auto. replace (nth k z 0 + c * nth k d 0 - nth k z 0) with (c * nth k d 0) by ring.
    rewrite Rabs_mult, (Rabs_right c) by lra. assert (A := Dd k Hk). assert (P := Rabs_pos (nth k d 0)).
    apply Rle_trans with (1 * Rabs (nth k d 0)); [apply Rmult_le_compat_r; lra|lra]. }
  assert (N' := Hlip t _ _ D (La c) Hz N j Hj). assert (B := HM j Hj).
  rewrite Rabs_mult. replace (Rabs e) with 1 by (destruct He as [-> | ->]; [rewrite Rabs_R1|rewrite Rabs_left]; lra). rewrite Rmult_1_l.
  replace (nth j (hnn_field grad_sum t (axpy c d z)) 0) with ((nth j (hnn_field grad_sum t (axpy c d z)) 0 - nth j (hnn_field grad_sum t z) 0) + nth j (hnn_field grad_sum t z) 0) by ring.
  eapply Rle_trans; [apply Rabs_triang|]. lra.
Qed.

(** the true solution keeps its energy, and its slope is bounded *)
Lemma true_energy t0 T p y yd J K M t : smooth_solution n t0 T p (hnn_field grad_sum) y yd J K M -> t0 <= t <= T -> E (y t) = E (y t0).
Proof.
  intros (Hy & H0 & H1 & Hd & _) Ht. destruct HE as (HG & HS).
  assert (B : batch_solves 1 n t0 T (@hnn ROps grad_sum) (fun t => [y t])).
  { split; [intros s; split; [reflexivity|repeat constructor; apply Hy]|]. intros r Hr. destruct r as [|r]; [|lia]. intros i s Hi Hs.
    apply (derivable_pt_lim_ext' (fun s => nth i (yd 0%nat s) 0)); [intros u; now rewrite H0|].
    change (nth 0 (@hnn ROps grad_sum [y s]) []) with (hnn_field grad_sum s (y s)). rewrite <- H1 by exact Hs. apply (Hd 0%nat); auto; lia. }
  exact (C55_hnn_pf 1 m E G grad_sum (fun t => [y t]) t0 T HG HS B 0%nat t ltac:(lia) Ht).
Qed.
Lemma true_slope t0 T p y yd J K M t : smooth_solution n t0 T p (hnn_field grad_sum) y yd J K M -> t0 <= t <= T ->
  forall i, (i < n)%nat -> Rabs (nth i (hnn_field grad_sum t (y t)) 0) <= M.
Proof. intros (Hy & H0 & H1 & Hd & HB & _) Ht i Hi. rewrite <- H1 by exact Ht. apply (HB 1%nat); auto; lia. Qed.

Lemma energy_drift L t0 T p y yd J K M t x D : 0 <= L -> lipschitz n L (hnn_field grad_sum) -> smooth_solution n t0 T p (hnn_field grad_sum) y yd J K M ->
  t0 <= t <= T -> length x = n -> 0 <= D -> near n D x (y t) -> Rabs (E x - E (y t0)) <= INR n * (M + L * D) * D.
Proof.
  intros HL Hlip Hs Ht Hx HD Hn. rewrite <- (true_energy t0 T p y yd J K M t Hs Ht).
  apply (energy_near L M D t); auto; [apply Hs|]. exact (true_slope t0 T p y yd J K M t Hs Ht).
Qed.
End Field.

Lemma inc_head t0 t1 ts k tk : increasing (t0 :: t1 :: ts) -> nth_error (t0 :: t1 :: ts) k = Some tk -> t0 <= tk.
Proof. intros Hi Hk. destruct k as [|k]; [injection Hk as <-; lra|]. left. exact (Hi 0%nat (S k) t0 tk ltac:(lia) eq_refl Hk). Qed.

Lemma drift_le N M L D D1 W : 0 <= N -> 0 <= M -> 0 <= L -> 0 <= D <= D1 -> D <= W -> N * (M + L * D) * D <= N * (M + L * D1) * W.
Proof.
  intros HN HM HL (HD & H1) HW. assert (L * D <= L * D1) by (apply Rmult_le_compat_l; lra). assert (0 <= L * D) by (apply Rmult_le_pos; lra).
  apply Rmult_le_compat; [apply Rmult_le_pos; lra|exact HD|apply Rmult_le_compat_l; lra|exact HW].
Qed.

(** C173.  The energy along a fixed-step solution of a Hamiltonian network stays within C (t - t0) H^p of the initial one, p being
    the order of the solver (RungeKutta4 included, because the field has no explicit time) and H <= 1 the largest step. *)
Lemma C173_energy_order_pf :
  forall s rows b p m E G grad_sum L y yd J K M t0 T, energy_gradient (2 * m) E G grad_sum ->
  classical_order s rows b p (hnn_field grad_sum) -> 0 <= L -> lipschitz (2 * m) L (hnn_field grad_sum) -> t0 <= T -> 0 <= M -> 0 <= K ->
  smooth_solution (2 * m) t0 T p (hnn_field grad_sum) y yd J K M ->
  exists C, 0 <= C /\ forall H t1 ts fuel atol rtol interp all semi times sol,
    increasing (t0 :: t1 :: ts) -> separated (t0 :: t1 :: ts) -> 0 <= H <= 1 -> steps_at_most H (t0 :: t1 :: ts) -> last (t1 :: ts) t0 <= T ->
    snd (@odeint ROps fuel (hnn_field grad_sum) (y t0) (@TTensor ROps (t0 :: t1 :: ts)) s atol rtol interp all [] semi) = Ok (times, sol) ->
    List.length sol = List.length times /\
    forall k tk xk, nth_error times k = Some tk -> nth_error sol k = Some xk -> Rabs (E xk - E (y t0)) <= C * (tk - t0) * H ^ p.
Proof.
  intros s rows b p m E G grad_sum L y yd J K M t0 T HE Ho HL Hlip HT HM HK Hs.
  assert (Hf := hnn_field_on m E G grad_sum HE).
  destruct (C103_order_partial_pf s rows b p (2 * m) (hnn_field grad_sum) L y yd J K M t0 T Ho Hf HL Hlip HT HM HK Hs) as (C & HC & Hall).
  set (D1 := C * (T - t0)). exists (INR (2 * m) * (M + L * D1) * C).
  assert (HD1 : 0 <= D1) by (apply Rmult_le_pos; lra). assert (HN := pos_INR (2 * m)).
  assert (HW : 0 <= INR (2 * m) * (M + L * D1)) by (apply Rmult_le_pos; [exact HN|]; assert (0 <= L * D1) by (apply Rmult_le_pos; lra); lra).
  split; [apply Rmult_le_pos; auto|].
  intros H t1 ts fuel atol rtol interp all semi times sol Hinc Hsep HH Hst Hl Eq.
  destruct (Hall H t1 ts Hinc Hst Hl) as (Hsol & Hnear). cbv zeta in Hsol, Hnear.
  destruct (Ok_pair _ _ _ _ (eq_trans (eq_sym Eq) (Hsol fuel atol rtol interp all semi Hsep))) as [-> ->].
  split; [apply traj_length|]. intros k tk xk Hk Hx. specialize (Hnear k tk xk Hk Hx).
  assert (A0 := inc_head t0 t1 ts k tk Hinc Hk).
  assert (A1 : tk <= T) by (eapply Rle_trans; [apply (inc_last t0 t1 ts Hinc); eapply nth_error_In; exact Hk|exact Hl]).
  assert (Hp : 0 <= H ^ p) by (apply pow_le; lra).
  assert (Hp1 : H ^ p <= 1) by (rewrite <- (pow1 p); apply pow_incr; lra).
  assert (HD : 0 <= C * (tk - t0) * H ^ p) by (apply Rmult_le_pos; [apply Rmult_le_pos; lra|exact Hp]).
  assert (HDD : C * (tk - t0) * H ^ p <= D1).
  { apply Rle_trans with (C * (tk - t0) * 1); [apply Rmult_le_compat_l; [apply Rmult_le_pos; lra|exact Hp1]|]. rewrite Rmult_1_r. apply Rmult_le_compat_l; lra. }
  assert (Lx : length xk = (2 * m)%nat).
  { destruct (order_tableau s rows b p (hnn_field grad_sum) (2 * m) Ho Hf) as (_ & HEs & _).
    assert (A : Forall (fun w => length w = (2 * m)%nat) (one_step_traj (erk_step rows b (hnn_field grad_sum)) (y t0) (t0 :: t1 :: ts))).
    { apply traj_all; [|apply Hs]. intros t h w _ Hw. now apply erk_step_len. }
    exact (proj1 (Forall_forall _ _) A _ (nth_error_In _ _ Hx)). }
  eapply Rle_trans; [apply (energy_drift m E G grad_sum HE L t0 T p y yd J K M tk xk _ HL Hlip Hs (conj A0 A1) Lx HD Hnear)|].
  replace (INR (2 * m) * (M + L * D1) * C * (tk - t0) * H ^ p) with (INR (2 * m) * (M + L * D1) * (C * (tk - t0) * H ^ p)) by ring.
  apply drift_le; auto; lra.
Qed.

(** C173, dopri5: within C H^5, H being the largest distance between the returned times. *)
Lemma C173_energy_dopri5_pf :
  forall m E G grad_sum L y yd J K M t0 T, energy_gradient (2 * m) E G grad_sum ->
  0 <= L -> lipschitz (2 * m) L (hnn_field grad_sum) -> t0 <= T -> 0 <= M -> 0 <= K ->
  smooth_solution (2 * m) t0 T 5 (hnn_field grad_sum) y yd J K M ->
  exists C, 0 <= C /\ forall H t1 ts fuel atol rtol all save_at semi times sol,
    increasing (t0 :: t1 :: ts) -> last (t1 :: ts) t0 <= T -> 0 <= H <= 1 ->
    snd (@odeint ROps fuel (hnn_field grad_sum) (y t0) (@TTensor ROps (t0 :: t1 :: ts)) (DormandPrince45 ROps) atol rtol false all save_at semi) = Ok (times, sol) ->
    steps_at_most H times ->
    List.length sol = List.length times /\
    forall k tk xk, nth_error times k = Some tk -> nth_error sol k = Some xk ->
      Rabs (E xk - E (y t0)) <= C * H ^ 5.
Proof.
  intros m E G grad_sum L y yd J K M t0 T HE HL Hlip HT HM HK Hs.
  assert (Hf := hnn_field_on m E G grad_sum HE).
  destruct (C104_dopri5_order_pf (2 * m) (hnn_field grad_sum) L y yd J K M t0 T Hf HL Hlip HT HM HK Hs) as (C & HC & Hall).
  exists (INR (2 * m) * (M + L * C) * C). assert (HN := pos_INR (2 * m)).
  assert (HW : 0 <= INR (2 * m) * (M + L * C)) by (apply Rmult_le_pos; [exact HN|]; assert (0 <= L * C) by (apply Rmult_le_pos; lra); lra).
  split; [apply Rmult_le_pos; auto|].
  intros H t1 ts fuel atol rtol all save_at semi times sol Hinc Hl HH Eq Hst.
  destruct (Hall H t1 ts fuel atol rtol all save_at semi times sol Hinc Hl Eq Hst) as (Hlen & Hnear).
  split; [exact Hlen|]. intros k tk xk Hk Hx. specialize (Hnear k tk xk Hk Hx).
  assert (Hlast := inc_last t0 t1 ts Hinc). apply increasing_sorted in Hinc.
  assert (HP : builtin_pair (DormandPrince45 ROps) (to_R_rows q_dopri5) (to_R qb5_dopri5) (to_R qb4_dopri5)) by (left; auto).
  assert (Ly : length (y t0) = (2 * m)%nat) by apply Hs.
  destruct (odeint_run (DormandPrince45 ROps) _ _ (to_R qb4_dopri5) (builtin_embedded _ _ _ _ HP) (2 * m) _ Hf _ _ _ _ _ _ _ _ _ _ _ _ _ Hinc Ly Eq)
    as (times' & sol' & Et & Ex & Hrun). subst times sol.
  assert (Ht : t0 <= tk <= T).
  { destruct k as [|k]; [injection Hk as <-; lra|]. cbn [nth_error] in Hk. pose proof (nth_error_In _ _ Hk) as Hin.
    split; [left; apply (run_after _ _ _ _ _ Hrun); auto|]. eapply Rle_trans; [|exact Hl]. apply (run_le _ _ _ _ _ Hrun t0); auto. now inversion Hinc. }
  assert (Lx : length xk = (2 * m)%nat).
  { destruct (run_reached (to_R_rows q_dopri5) (to_R qb5_dopri5) (hnn_field grad_sum) t0 (y t0) (pair_accepts (to_R_rows q_dopri5) (to_R qb5_dopri5) (to_R qb4_dopri5) (hnn_field grad_sum) atol rtol semi) _ _ _ _ _ _ ltac:(intros u h w w' [E0 _]; exact E0) Hrun k tk xk Hk Hx) as [Hr|(Hi & _)]; [|discriminate Hi].
    exact (reached_len _ _ _ _ _ _ _ _ Hf Ly Hr). }
  assert (Hp : 0 <= H ^ 5) by (apply pow_le; lra). assert (Hp1 : H ^ 5 <= 1) by (rewrite <- (pow1 5); apply pow_incr; lra).
  assert (HD : 0 <= C * H ^ 5) by (apply Rmult_le_pos; auto).
  assert (HDD : C * H ^ 5 <= C) by (rewrite <- (Rmult_1_r C) at 2; now apply Rmult_le_compat_l).
  eapply Rle_trans; [apply (energy_drift m E G grad_sum HE L t0 T 5 y yd J K M tk xk _ HL Hlip Hs Ht Lx HD Hnear)|].
  rewrite (Rmult_assoc (INR (2 * m) * (M + L * C))). apply drift_le; auto; lra.
Qed.

Lemma oscillator_gradient : energy_gradient (2 * 1) (fun x => dot x x / 2) (fun x => x) (map (fun x => x)).
Proof. assert (HG : forall x, length x = (2 * 1)%nat -> gradient (fun x => dot x x / 2) x x) by (intros; apply half_square_gradient). split; [exact HG|now apply gradient_sum_map]. Qed.

Lemma oscillator_step t h q p : euler_one (hnn_field (map (fun x => x))) t h [q; p] = [q + h * p; p + h * - q].
Proof. rewrite euler_axpy. reflexivity. Qed.

Lemma oscillator_traj : forall i ts q p y y', nth_error (one_step_traj (euler_one (hnn_field (map (fun x => x)))) [q; p] ts) i = Some y ->
  nth_error (one_step_traj (euler_one (hnn_field (map (fun x => x)))) [q; p] ts) (S i) = Some y' ->
  dot y' y' / 2 = (1 + nth i (spacings ts) 0 ^ 2) * (dot y y / 2).
Proof.
  induction i as [|i IH]; intros [|t0 [|t1 ts]] q p y y' Hy Hy'; try discriminate.
  - injection Hy as <-.
    change (nth_error (one_step_traj (euler_one (hnn_field (map (fun x => x)))) (euler_one (hnn_field (map (fun x => x))) t0 (t1 - t0) [q; p]) (t1 :: ts)) 0 = Some y') in Hy'.
    rewrite oscillator_step in Hy'. assert (Q : y' = [q + (t1 - t0) * p; p + (t1 - t0) * - q]) by (destruct ts; injection Hy' as <-; reflexivity).
    rewrite Q. unfold dot. cbn. field.
  - change (nth_error (one_step_traj (euler_one (hnn_field (map (fun x => x)))) (euler_one (hnn_field (map (fun x => x))) t0 (t1 - t0) [q; p]) (t1 :: ts)) i = Some y) in Hy.
    change (nth_error (one_step_traj (euler_one (hnn_field (map (fun x => x)))) (euler_one (hnn_field (map (fun x => x))) t0 (t1 - t0) [q; p]) (t1 :: ts)) (S i) = Some y') in Hy'.
    rewrite oscillator_step in Hy, Hy'. exact (IH (t1 :: ts) _ _ y y' Hy Hy').
Qed.

(** Not conserved exactly: every Euler step of length h multiplies the energy (q^2 + p^2) / 2 of the oscillator by 1 + h^2. *)
Lemma C173_euler_growth_pf :
  forall fuel q p t0 t1 ts atol rtol interp all semi times sol,
  separated (t0 :: t1 :: ts) -> t0 <= t1 ->
  snd (@odeint ROps fuel (hnn_field (map (fun x => x))) [q; p] (@TTensor ROps (t0 :: t1 :: ts)) (Euler ROps) atol rtol interp all [] semi) = Ok (times, sol) ->
  List.length sol = List.length (t0 :: t1 :: ts) /\
  forall i y y', nth_error sol i = Some y -> nth_error sol (S i) = Some y' ->
  dot y' y' / 2 = (1 + nth i (spacings (t0 :: t1 :: ts)) 0 ^ 2) * (dot y y / 2).
Proof.
  intros fuel q p t0 t1 ts atol rtol interp all semi times sol Hsep H0 Eq.
  set (f := hnn_field (map (fun x => x))) in *.
  assert (C := C01_fixed_trajectory_pf fuel (Euler ROps) f (euler_one f) euler_log [q; p] t0 t1 ts atol rtol interp all semi eq_refl (euler_stepper _) Hsep H0).
  destruct (Ok_pair _ _ _ _ (eq_trans (eq_sym Eq) C)) as [_ ->]. split; [apply traj_length|].
  intros i y y'. apply oscillator_traj.
Qed.

(** The oscillator, its field and the solution (cos t, - sin t) on [[0, 1]] meet the hypotheses for every order. *)
Lemma C173_ex_pf :
  energy_gradient (2 * 1) (fun x => dot x x / 2) (fun x => x) (map (fun x => x)) /\
  lipschitz (2 * 1) 1 (hnn_field (map (fun x => x))) /\
  (forall p, smooth_solution (2 * 1) 0 1 p (hnn_field (map (fun x => x))) (fun t => [cos t; - sin t])
    (fun m t => [cos (t + INR m * (PI / 2)); - sin (t + INR m * (PI / 2))])
    (fun m _ i j => match m, i, j with 0%nat, 0%nat, 1%nat => 1 | 0%nat, 1%nat, 0%nat => -1 | _, _, _ => 0 end) 0 1) /\
  classical_order (RungeKutta4 ROps) (to_R_rows q_rk4_code) (to_R qb_rk4) 4 (hnn_field (map (fun x => x))).
Proof.
  split; [exact oscillator_gradient|]. split; [|split].
  - intros t x z D Hx Hz Hn. destruct x as [|a [|b [|]]]; try discriminate. destruct z as [|c [|d [|]]]; try discriminate.
    assert (N0 := Hn 0%nat ltac:(lia)). assert (N1 := Hn 1%nat ltac:(lia)). cbn [nth] in N0, N1.
    intros i Hi. destruct i as [|[|i]]; [| |lia]; cbn.
    + lra.
    + replace (- a - - c) with (- (a - c)) by ring. rewrite Rabs_Ropp. lra.
  - intros p. split; [reflexivity|]. split; [intros t; simpl (INR 0); now rewrite Rmult_0_l, Rplus_0_r|]. split; [|split; [|split; [|split; [|split]]]].
    + intros t _. change (INR 1) with 1. rewrite Rmult_1_l. rewrite (Rplus_comm t (PI / 2)). rewrite <- cos_sin. replace (cos (PI / 2 + t)) with (- sin t) by (rewrite sin_cos; ring). reflexivity.
    + intros m _ i t Hi _. assert (A : t + INR (S m) * (PI / 2) = PI / 2 + (t + INR m * (PI / 2))) by (rewrite S_INR; ring). rewrite A.
      set (u := t + INR m * (PI / 2)).
      assert (DS : derivable_pt_lim (fun s => s + INR m * (PI / 2)) t 1).
      { replace 1 with (1 + 0) by ring. apply derivable_pt_lim_plus; [apply derivable_pt_lim_id|apply derivable_pt_lim_const]. }
      destruct i as [|[|i]]; [| |lia]; cbn [nth].
      * replace (cos (PI / 2 + u)) with (- sin u * 1) by (rewrite sin_cos; ring).
        apply (derivable_pt_lim_comp (fun s => s + INR m * (PI / 2)) cos); [exact DS|apply derivable_pt_lim_cos].
      * rewrite <- cos_sin. replace (- cos u) with (- (cos u * 1)) by ring. apply (derivable_pt_lim_opp (fun s => sin (s + INR m * (PI / 2)))).
        apply (derivable_pt_lim_comp (fun s => s + INR m * (PI / 2)) sin); [exact DS|apply derivable_pt_lim_sin].
    + intros m _ i t Hi _. destruct i as [|[|i]]; [| |lia]; cbn [nth]; [|rewrite Rabs_Ropp]; apply Rabs_le; [apply COS_bound|apply SIN_bound].
    + intros m i j t _ Hi Hj _. destruct m as [|m]; destruct i as [|[|i]]; destruct j as [|[|j]]; try lia; apply derivable_pt_lim_const.
    + intros m i j t _ Hi Hj _. destruct m as [|m]; destruct i as [|[|i]]; destruct j as [|[|j]]; try lia; unfold Rabs; destruct (Rcase_abs _); lra.
    + intros t x D _ Hx _ i Hi. destruct x as [|a [|b [|]]]; try discriminate. destruct i as [|[|i]]; [| |lia]; cbn; match goal with |- Rabs ?e <= _ => replace e with 0 by ring end; rewrite Rabs_R0; lra.
  - right. right. repeat split.
Qed.
