(** Norm, step size controller and initial step size. *)
From Coq Require Import ZArith QArith Qreals Reals Lra Lia List Bool.
From Verif Require Import Num Py Tensor M_Utils Spec_Norm L_Base L_Vec.
Import ListNotations.
Local Open Scope R_scope.

Lemma vsum_from0 (l : rvec) : forall a, fold_left Rplus l a = a + fold_left Rplus l 0.
Proof. induction l as [|b l IH]; intros a; simpl; [ring|]. rewrite IH, (IH (0 + b)). ring. Qed.

Lemma hairer_rms (l : rvec) : @hairer_norm ROps l = rms l.
Proof.
  unfold hairer_norm, rms, vmean. rewrite nnat_INR, map_length. rops. f_equal. f_equal.
  unfold vsum. rops. rewrite Q2R_0'. induction l as [|a l IH]; simpl; auto.
  rewrite vsum_from0, IH. rewrite <- Rabs_mult. pose proof (Rle_0_sqr a) as H. unfold Rsqr in H.
  rewrite Rabs_right by lra. ring.
Qed.

Lemma sum_sq_nn l : 0 <= sum_sq l.
Proof. induction l as [|a l IH]; simpl; [lra|]. pose proof (Rle_0_sqr a). unfold Rsqr in *. lra. Qed.

Lemma INR_len_pos {A} (l : list A) : l <> [] -> 0 < INR (length l).
Proof. destruct l; [congruence|]. intros _. apply lt_0_INR. simpl; lia. Qed.

Lemma mean_nn l : 0 <= sum_sq l / INR (length l).
Proof.
  destruct l as [|a l]; [simpl; unfold Rdiv; lra|].
  apply Rmult_le_pos; [apply sum_sq_nn|]. left. apply Rinv_0_lt_compat. now apply INR_len_pos.
Qed.

Lemma rms_nonneg l : 0 <= rms l.
Proof. apply sqrt_pos. Qed.

Lemma sum_sq_0 l : sum_sq l = 0 <-> forall a, In a l -> a = 0.
Proof.
  induction l as [|a l IH]; simpl.
  - split; auto. intros _ a [].
  - pose proof (sum_sq_nn l). pose proof (Rle_0_sqr a). unfold Rsqr in *. split.
    + intros H1. assert (a = 0) by nra. assert (sum_sq l = 0) by lra.
      intros b [<-|Hb]; auto. now apply IH.
    + intros H1. assert (a = 0) by auto. subst a. assert (sum_sq l = 0) as ->; [|lra]. apply IH; auto.
Qed.

Lemma rms_zero l : rms l = 0 <-> forall a, In a l -> a = 0.
Proof.
  rewrite <- sum_sq_0. destruct l as [|a l].
  { unfold rms. simpl. unfold Rdiv. rewrite Rmult_0_l, sqrt_0. tauto. }
  pose proof (INR_len_pos (a :: l) ltac:(discriminate)) as Hn. unfold rms.
  split; intros H.
  - apply sqrt_eq_0 in H; [|apply mean_nn]. unfold Rdiv in H. apply Rmult_integral in H.
    destruct H as [H|H]; auto. pose proof (Rinv_0_lt_compat _ Hn). lra.
  - rewrite H. unfold Rdiv. now rewrite Rmult_0_l, sqrt_0.
Qed.

Lemma sum_sq_scale c l : sum_sq (map (Rmult c) l) = c * c * sum_sq l.
Proof. induction l as [|a l IH]; simpl; [ring|]. rewrite IH. ring. Qed.

Lemma rms_scale c l : rms (map (Rmult c) l) = Rabs c * rms l.
Proof.
  unfold rms. rewrite sum_sq_scale, map_length.
  replace (c * c * sum_sq l / INR (length l)) with ((c * c) * (sum_sq l / INR (length l))) by (unfold Rdiv; ring).
  rewrite sqrt_mult_alt by (apply Rle_0_sqr). change (c * c) with (Rsqr c). now rewrite sqrt_Rsqr_abs.
Qed.

(** Cauchy-Schwarz *)
Fixpoint dotl (a b : list R) : R :=
  match a, b with x :: a', y :: b' => x * y + dotl a' b' | _, _ => 0 end.

Lemma cauchy_schwarz a : forall b, length a = length b -> dotl a b * dotl a b <= sum_sq a * sum_sq b.
Proof.
  induction a as [|x a IH]; intros [|y b] H; simpl in *; try discriminate; [lra|].
  injection H as H. specialize (IH b H).
  pose proof (sum_sq_nn a). pose proof (sum_sq_nn b).
  set (d := dotl a b) in *. set (A := sum_sq a) in *. set (B := sum_sq b) in *.
  (* (xy + d)^2 <= (x^2+A)(y^2+B)  <=  2xyd <= x^2 B + y^2 A *)
  enough (2 * (x * y) * d <= x * x * B + y * y * A) by nra.
  (* |d| <= sqrt A sqrt B *)
  pose proof (sqrt_sqrt A ltac:(auto)) as HA. pose proof (sqrt_sqrt B ltac:(auto)) as HB.
  pose proof (sqrt_pos A). pose proof (sqrt_pos B).
  set (ra := sqrt A) in *. set (rb := sqrt B) in *.
  assert (Hd : Rabs d <= ra * rb).
  { apply Rsqr_incr_0_var; [|nra]. rewrite <- Rsqr_abs. unfold Rsqr. rewrite <- HA, <- HB in IH. nra. }
  assert (Hxy : 2 * (x * y) * d <= 2 * (Rabs x * Rabs y) * (ra * rb)).
  { apply Rle_trans with (Rabs (2 * (x * y) * d)); [apply Rle_abs|].
    rewrite !Rabs_mult. rewrite (Rabs_right 2) by lra.
    apply Rmult_le_compat_l; auto. pose proof (Rabs_pos x). pose proof (Rabs_pos y). nra. }
  apply Rle_trans with (1 := Hxy). rewrite <- HA, <- HB.
  assert (Ex : x * x = Rabs x * Rabs x) by (rewrite <- Rabs_mult, Rabs_right; auto; nra).
  assert (Ey : y * y = Rabs y * Rabs y) by (rewrite <- Rabs_mult, Rabs_right; auto; nra).
  rewrite Ex, Ey. pose proof (Rle_0_sqr (Rabs x * rb - Rabs y * ra)) as Hs. unfold Rsqr in Hs. nra.
Qed.

Lemma sum_sq_plus a : forall b, length a = length b ->
  sum_sq (plus_list a b) = sum_sq a + 2 * dotl a b + sum_sq b.
Proof.
  unfold plus_list. induction a as [|x a IH]; intros [|y b] H; simpl in *; try discriminate; [lra|].
  rewrite IH by lia. ring.
Qed.

Lemma rms_triangle a b : length a = length b -> rms (plus_list a b) <= rms a + rms b.
Proof.
  intros H. destruct a as [|x a0].
  { destruct b; [|discriminate]. unfold rms, plus_list. simpl. unfold Rdiv. rewrite Rmult_0_l, sqrt_0. lra. }
  set (a := x :: a0) in *.
  assert (Ha : 0 < INR (length a)) by (apply INR_len_pos; discriminate).
  assert (Hpl : length (plus_list a b) = length a).
  { unfold plus_list. rewrite map_length, combine_length, <- H. apply Nat.min_id. }
  apply Rsqr_incr_0_var; [|pose proof (rms_nonneg a); pose proof (rms_nonneg b); lra].
  unfold rms at 1. rewrite Rsqr_sqrt by apply mean_nn. rewrite Hpl.
  rewrite sum_sq_plus by auto.
  unfold Rsqr. set (n := INR (length a)) in *.
  assert (Ea : rms a * rms a = sum_sq a / n) by (apply sqrt_sqrt, mean_nn).
  assert (Eb : rms b * rms b = sum_sq b / n).
  { unfold n. rewrite H. apply sqrt_sqrt, mean_nn. }
  assert (Hd : dotl a b / n <= rms a * rms b).
  { apply Rle_trans with (Rabs (dotl a b / n)); [apply Rle_abs|].
    apply Rsqr_incr_0_var; [|apply Rmult_le_pos; apply rms_nonneg].
    rewrite <- Rsqr_abs. unfold Rsqr.
    replace (rms a * rms b * (rms a * rms b)) with ((rms a * rms a) * (rms b * rms b)) by ring.
    rewrite Ea, Eb. pose proof (cauchy_schwarz a b H).
    replace (dotl a b / n * (dotl a b / n)) with (dotl a b * dotl a b * (/ n * / n)) by (unfold Rdiv; ring).
    replace (sum_sq a / n * (sum_sq b / n)) with (sum_sq a * sum_sq b * (/ n * / n)) by (unfold Rdiv; ring).
    apply Rmult_le_compat_r; auto. pose proof (Rinv_0_lt_compat _ Ha). nra. }
  replace ((rms a + rms b) * (rms a + rms b)) with (rms a * rms a + 2 * (rms a * rms b) + rms b * rms b) by ring.
  rewrite Ea, Eb. replace ((sum_sq a + 2 * dotl a b + sum_sq b) / n)
    with (sum_sq a / n + 2 * (dotl a b / n) + sum_sq b / n) by (unfold Rdiv; ring). lra.
Qed.

Lemma sum_sq_bound M l : 0 <= M -> (forall a, In a l -> Rabs a <= M) -> sum_sq l <= INR (length l) * (M * M).
Proof.
  intros HM. induction l as [|a l IH]; intros H; [simpl; lra|].
  cbn [length sum_sq]. rewrite S_INR. assert (Ha : Rabs a <= M) by (apply H; now left).
  assert (sum_sq l <= INR (length l) * (M * M)) by (apply IH; intros; apply H; now right).
  assert (a * a = Rabs a * Rabs a) by (rewrite <- Rabs_mult, Rabs_right; auto; nra).
  pose proof (Rabs_pos a). nra.
Qed.

Lemma rms_le_max M l : 0 <= M -> (forall a, In a l -> Rabs a <= M) -> rms l <= M.
Proof.
  intros HM H. destruct l as [|x l0].
  { unfold rms. simpl. unfold Rdiv. rewrite Rmult_0_l, sqrt_0. auto. }
  set (l := x :: l0) in *. assert (Hn : 0 < INR (length l)) by (apply INR_len_pos; discriminate).
  rewrite <- (sqrt_square M HM). apply sqrt_le_1_alt.
  apply Rmult_le_reg_r with (INR (length l)); auto. unfold Rdiv. rewrite Rmult_assoc, Rinv_l by lra.
  rewrite Rmult_1_r, Rmult_comm. apply sum_sq_bound; auto.
Qed.

Lemma in_sum_sq a l : In a l -> a * a <= sum_sq l.
Proof.
  induction l as [|b l IH]; intros []; simpl.
  - subst. pose proof (sum_sq_nn l). lra.
  - specialize (IH H). pose proof (Rle_0_sqr b). unfold Rsqr in *. lra.
Qed.

Lemma entry_le_rms a l : In a l -> Rabs a <= sqrt (INR (length l)) * rms l.
Proof.
  intros H. assert (Hn : 0 < INR (length l)) by (apply INR_len_pos; destruct l; [destruct H|discriminate]).
  unfold rms. rewrite <- sqrt_mult_alt by lra.
  replace (INR (length l) * (sum_sq l / INR (length l))) with (sum_sq l) by (field; lra).
  rewrite <- sqrt_Rsqr_abs. apply sqrt_le_1_alt. apply in_sum_sq; auto.
Qed.

(** ** Step size controller *)
Definition factor_of (ratio safety mn mx : R) (order : nat) : R :=
  if Reqb ratio 0 then mx
  else Rmin mx (Rmax (safety / Rpw ratio (1 / INR order)) (if Rltb ratio 1 then 1 else mn)).

Lemma adapt_factor dt ratio safety mn mx order :
  @adapt_step ROps dt ratio safety mn mx order = dt * factor_of ratio safety mn mx order.
Proof.
  unfold adapt_step, factor_of. rewrite nnat_INR. rops. rewrite Q2R_0', Q2R_1'.
  destruct (Reqb ratio 0); auto.
Qed.

Lemma Rpw_pos r e : 0 < r -> Rpw r e = Rpower r e.
Proof. intros H. unfold Rpw. destruct (Req_EM_T r 0); [lra|reflexivity]. Qed.
Lemma Rpower_gt0 r e : 0 < Rpower r e.
Proof. apply exp_pos. Qed.
Lemma Rpower_ge1 r e : 1 <= r -> 0 <= e -> 1 <= Rpower r e.
Proof.
  intros Hr He. rewrite <- (Rpower_O r) by lra. destruct (Req_dec r 1) as [->|Hne].
  - unfold Rpower. rewrite ln_1, !Rmult_0_r. lra.
  - destruct He as [He|<-]; [|lra]. left. apply Rpower_lt; lra.
Qed.

Lemma inv_order_nn order : 0 <= 1 / INR order.
Proof.
  destruct order as [|o]; [simpl; unfold Rdiv; rewrite Rinv_0; lra|].
  unfold Rdiv. rewrite Rmult_1_l. left. apply Rinv_0_lt_compat, lt_0_INR. lia.
Qed.

Section Controller.
Context (safety mn mx : R) (order : nat).
Hypothesis Hmn : 0 < mn <= 1.
Hypothesis Hmx : 1 <= mx.
Hypothesis Hs : 0 < safety < 1.

Lemma factor_range r : 0 <= r -> mn <= factor_of r safety mn mx order <= mx.
Proof.
  intros Hr. unfold factor_of. destruct (Reqb_spec r 0); [lra|].
  split; [|apply Rmin_l].
  apply Rmin_glb; [lra|]. destruct (Rltb r 1).
  - apply Rle_trans with 1; [lra|apply Rmax_r].
  - apply Rmax_r.
Qed.
Lemma factor_pos r : 0 <= r -> 0 < factor_of r safety mn mx order.
Proof. intros Hr. pose proof (factor_range r Hr). lra. Qed.
Lemma factor_grow r : 0 <= r < 1 -> 1 <= factor_of r safety mn mx order.
Proof.
  intros Hr. unfold factor_of. destruct (Reqb_spec r 0); [lra|].
  apply Rmin_glb; [lra|]. rewrite (proj2 (Rltb_true r 1)) by lra. apply Rmax_r.
Qed.
Lemma factor_shrink r : 1 <= r -> factor_of r safety mn mx order <= Rmax safety mn.
Proof.
  intros Hr. unfold factor_of. destruct (Reqb_spec r 0); [lra|].
  rewrite (proj2 (Rltb_false r 1)) by lra.
  apply Rle_trans with (1 := Rmin_r _ _). apply Rmax_lub; [|apply Rmax_r].
  apply Rle_trans with safety; [|apply Rmax_l].
  rewrite Rpw_pos by lra. pose proof (Rpower_ge1 r (1 / INR order) Hr (inv_order_nn _)) as Hp.
  apply Rmult_le_reg_r with (Rpower r (1 / INR order)); [lra|].
  unfold Rdiv at 1. rewrite Rmult_assoc, Rinv_l by lra. nra.
Qed.

Hypothesis Hsm : mn <= safety.
Lemma factor_mono r r' : 0 <= r <= r' ->
  factor_of r' safety mn mx order <= factor_of r safety mn mx order.
Proof.
  intros [Hr Hrr]. destruct (Req_dec r 0) as [->|Hr0].
  { unfold factor_of at 2. rewrite (proj2 (Reqb_true 0 0)) by auto. apply factor_range; auto. }
  destruct (Rlt_dec r 1) as [H1|H1]; destruct (Rlt_dec r' 1) as [H2|H2].
  - unfold factor_of. rewrite (proj2 (Reqb_false r 0)), (proj2 (Reqb_false r' 0)) by lra.
    rewrite (proj2 (Rltb_true r 1)), (proj2 (Rltb_true r' 1)) by lra.
    apply Rle_min_compat_l. apply Rle_max_compat_r. rewrite !Rpw_pos by lra.
    unfold Rdiv. apply Rmult_le_compat_l; [lra|]. apply Rinv_le_contravar; [apply Rpower_gt0|].
    apply Rle_Rpower_l; [apply inv_order_nn|lra].
  - apply Rle_trans with (Rmax safety mn); [apply factor_shrink; lra|].
    apply Rle_trans with 1; [apply Rmax_lub; lra|]. apply factor_grow; lra.
  - lra.
  - unfold factor_of. rewrite (proj2 (Reqb_false r 0)), (proj2 (Reqb_false r' 0)) by lra.
    rewrite (proj2 (Rltb_false r 1)), (proj2 (Rltb_false r' 1)) by lra.
    apply Rle_min_compat_l. apply Rle_max_compat_r. rewrite !Rpw_pos by lra.
    unfold Rdiv. apply Rmult_le_compat_l; [lra|]. apply Rinv_le_contravar; [apply Rpower_gt0|].
    apply Rle_Rpower_l; [apply inv_order_nn|lra].
Qed.
End Controller.

(** ** Initial step *)
Definition weighted (scale : rvec) (x : rvec) : rvec := map2 Rdiv x scale.

Lemma init_step_value f (f0 x0 : rvec) t0 order atol rtol :
  exists h lg, @init_step ROps f f0 x0 t0 order atol rtol = ([lg], Ok h) /\
  let scale := map (fun a => atol + Rabs a * rtol) x0 in
  let d0 := rms (map2 Rdiv x0 scale) in
  let d1 := rms (map2 Rdiv f0 scale) in
  0 < h /\ (h <= 1 / 10000 \/ (1 / 100000 <= d0 /\ 1 / 100000 <= d1 /\ h <= d0 / d1)).
Proof.
  unfold init_step. cbv zeta. unfold vdiv. rewrite !hairer_rms. rops.
  set (scale := map (fun a => atol + Rabs a * rtol) x0).
  set (d0 := rms (map2 Rdiv x0 scale)). set (d1 := rms (map2 Rdiv f0 scale)).
  set (h0 := if Rltb d0 (Q2R (1 # 100000)) || Rltb d1 (Q2R (1 # 100000)) then Q2R (1 # 1000000) else Q2R (1 # 100) * d0 / d1).
  assert (Hh0 : 0 < h0 /\ (100 * h0 <= 1 / 10000 \/ (1 / 100000 <= d0 /\ 1 / 100000 <= d1 /\ 100 * h0 <= d0 / d1))).
  { unfold h0. qlit. destruct (Rltb_spec d0 (1 / 100000)) as [H|H]; simpl; [split; [lra|left; lra]|].
    destruct (Rltb_spec d1 (1 / 100000)) as [H'|H']; simpl; [split; [lra|left; lra]|].
    assert (0 < / d1) by (apply Rinv_0_lt_compat; lra). split.
    - unfold Rdiv. apply Rmult_lt_0_compat; lra.
    - right. repeat split; auto. unfold Rdiv. right. field. lra. }
  unfold call. rewrite mbind_Ok. cbn [fst snd mret app].
  match goal with |- context [Rleb (?a / h0) _] => set (d2 := a / h0) end.
  eexists. eexists. split; [reflexivity|].
  destruct Hh0 as [Hp Hb]. qlit.
  assert (Hd1 : 0 <= d1) by apply rms_nonneg.
  assert (Hh1 : 0 < (if Rleb d1 (1 / 1000000000000000) && Rleb d2 (1 / 1000000000000000)
      then Rmax (1 / 1000000) (h0 * (1 / 1000))
      else Rpw (1 / 100 / @pymax ROps d1 d2) (1 / 1 / @nnat ROps (order + 1)))).
  { destruct (Rleb_spec d1 (1 / 1000000000000000)) as [H|H]; simpl;
      [destruct (Rleb_spec d2 (1 / 1000000000000000)) as [H'|H']; simpl|].
    - apply Rlt_le_trans with (1 / 1000000); [lra|apply Rmax_l].
    - rewrite Rpw_pos; [apply Rpower_gt0|]. unfold pymax. rops.
      destruct (Rltb_spec d1 d2); [|lra]. apply Rdiv_lt_0_compat; lra.
    - rewrite Rpw_pos; [apply Rpower_gt0|]. unfold pymax. rops.
      destruct (Rltb_spec d1 d2); apply Rdiv_lt_0_compat; lra. }
  split.
  - apply Rmin_glb_lt; auto. lra.
  - match goal with |- (Rmin ?a ?b <= _ \/ _) => pose proof (Rmin_l a b) end.
    destruct Hb as [Hb|(Hb1 & Hb2 & Hb)]; [left; lra|right; repeat split; auto; lra].
Qed.
