(** Order of the dense output of dopri5. *)
From Coq Require Import ZArith QArith Qreals Reals Lra Lia List Bool Sorted Factorial.
From Verif Require Import Num Py Tensor M_Constants M_SolversOde M_Utils M_Interp M_Odeint.
From Verif Require Import Spec_Ode Spec_Trees Spec_RK Spec_Norm Spec_Adaptive Spec_Conv Spec_Inv Spec_Order.
From Verif Require Import L_Base L_Fixed L_Vec L_Steps L_Tables L_Steps2 L_Interp L_Utils L_Fixed2 L_Adaptive L_Run.
From Verif Require Import L_Adaptive2 L_Adaptive3 L_Adaptive4 L_Conv Pf_Fixed Pf_Adaptive L_Reach L_Inv L_Order L_Order2 L_Sens Pf_Conv Pf_Order.
Import ListNotations.
Local Open Scope R_scope.
Local Notation length := List.length.

(** ** The quartic *)
Lemma quartic_perturbed h f0 f1 x0 x1 xm g0 g1 z0 z1 zm th df0 df1 dx0 dx1 dxm : 0 <= h -> 0 <= th <= 1 ->
  Rabs (f0 - g0) <= df0 -> Rabs (f1 - g1) <= df1 -> Rabs (x0 - z0) <= dx0 -> Rabs (x1 - z1) <= dx1 -> Rabs (xm - zm) <= dxm ->
  Rabs (quartic_interp h f0 f1 x0 x1 xm th - quartic_interp h g0 g1 z0 z1 zm th) <= 12 * (h * df0) + 6 * (h * df1) + 38 * dx0 + 27 * dx1 + 64 * dxm.
Proof.
  intros Hh Ht H1 H2 H3 H4 H5.
  assert (B : forall m, 0 <= th ^ m <= 1).
  { intros m. split; [apply pow_le; lra|]. rewrite <- (pow1 m). apply pow_incr; lra. }
  pose proof (B 1%nat) as B1. rewrite pow_1 in B1. pose proof (B 2%nat) as B2. pose proof (B 3%nat) as B3. pose proof (B 4%nat) as B4. clear B.
  unfold quartic_interp. set (a := th ^ 2) in *. set (b := th ^ 3) in *. set (c := th ^ 4) in *.
  match goal with |- Rabs ?u <= _ => replace u with
    (((((th - 4 * a + 5 * b - 2 * c) * (h * (f0 - g0)) + (a - 3 * b + 2 * c) * (h * (f1 - g1)))
     + (1 - 11 * a + 18 * b - 8 * c) * (x0 - z0)) + (- 5 * a + 14 * b - 8 * c) * (x1 - z1)) + (16 * a - 32 * b + 16 * c) * (xm - zm)) by ring end.
  assert (P : forall k u v d, - k <= u <= k -> Rabs v <= d -> Rabs (u * v) <= k * d).
  { intros k u v d Hu Hv. rewrite Rabs_mult. apply Rmult_le_compat; auto using Rabs_pos. apply Rabs_le. lra. }
  assert (Q : forall v d, Rabs v <= d -> Rabs (h * v) <= h * d).
  { intros v d Hv. rewrite Rabs_mult, (Rabs_right h) by lra. now apply Rmult_le_compat_l. }
  repeat (eapply Rle_trans; [apply Rabs_triang|]; apply Rplus_le_compat); apply P; auto; lra.
Qed.

Lemma quartic_taylor (u : nat -> R -> R) M a h th : 0 <= h -> 0 <= th <= 1 -> 0 <= M ->
  (forall m c, (m <= 4)%nat -> a <= c <= a + h -> derivable_pt_lim (u m) c (u (S m) c)) ->
  (forall c, a <= c <= a + h -> Rabs (u 5%nat c) <= M) ->
  Rabs (quartic_interp h (u 1%nat a) (u 1%nat (a + h)) (u 0%nat a) (u 0%nat (a + h)) (u 0%nat (a + / 2 * h)) th - u 0%nat (a + th * h)) <= 3 * (M * h ^ 5).
Proof.
  intros Hh Ht HM Hd HB.
  assert (T0 : forall k, 0 <= k <= 1 -> Rabs (u 0%nat (a + k * h) - (u 0%nat a + k * h * u 1%nat a + (k * h) ^ 2 / 2 * u 2%nat a + (k * h) ^ 3 / 6 * u 3%nat a + (k * h) ^ 4 / 24 * u 4%nat a)) <= M * h ^ 5 / 120).
  { intros k Hk. assert (Hkh : 0 <= k * h <= h).
    { split; [apply Rmult_le_pos; lra|]. rewrite <- (Rmult_1_l h) at 2. apply Rmult_le_compat_r; lra. }
    pose proof (taylor_n u M a (a + k * h) 4 ltac:(lra)) as T. replace (a + k * h - a) with (k * h) in T by ring.
    assert (T' := T ltac:(intros; apply Hd; [lia|lra]) ltac:(intros; apply HB; lra)). clear T.
    assert (E : (k * h) ^ 5 <= h ^ 5) by (apply pow_incr; lra).
    assert (M * (k * h) ^ 5 <= M * h ^ 5) by now apply Rmult_le_compat_l.
    cbn [psum] in T'. change (fact 0) with 1%nat in T'. change (fact 1) with 1%nat in T'. change (fact 2) with 2%nat in T'. change (fact 3) with 6%nat in T'. change (fact 4) with 24%nat in T'. change (fact 5) with 120%nat in T'.
    rewrite !INR_IZR_INZ in T'. cbn [Z.of_nat Pos.of_succ_nat Pos.succ] in T'.
    eapply Rle_trans; [right|eapply Rle_trans; [exact T'|lra]]. f_equal. cbn [pow]. field. }
  assert (T1 : Rabs (u 1%nat (a + h) - (u 1%nat a + h * u 2%nat a + h ^ 2 / 2 * u 3%nat a + h ^ 3 / 6 * u 4%nat a)) <= M * h ^ 4 / 24).
  { pose proof (taylor_n (fun m => u (S m)) M a (a + h) 3 ltac:(lra)) as T. replace (a + h - a) with h in T by ring.
    assert (T' := T ltac:(intros; apply Hd; [lia|lra]) ltac:(intros; apply HB; lra)). clear T.
    cbn [psum] in T'. change (fact 0) with 1%nat in T'. change (fact 1) with 1%nat in T'. change (fact 2) with 2%nat in T'. change (fact 3) with 6%nat in T'. change (fact 4) with 24%nat in T'.
    rewrite !INR_IZR_INZ in T'. cbn [Z.of_nat Pos.of_succ_nat Pos.succ] in T'.
    eapply Rle_trans; [right|eapply Rle_trans; [exact T'|lra]]. f_equal. cbn [pow]. field. }
  pose proof (T0 th Ht) as Tt. pose proof (T0 1 ltac:(lra)) as Te. pose proof (T0 (/ 2) ltac:(lra)) as Tm. rewrite Rmult_1_l in Te.
  set (Q := fun k => u 0%nat a + k * h * u 1%nat a + (k * h) ^ 2 / 2 * u 2%nat a + (k * h) ^ 3 / 6 * u 3%nat a + (k * h) ^ 4 / 24 * u 4%nat a).
  change (Rabs (u 0%nat (a + th * h) - Q th) <= M * h ^ 5 / 120) in Tt.
  change (Rabs (u 0%nat (a + / 2 * h) - Q (/ 2)) <= M * h ^ 5 / 120) in Tm.
  set (q1 := u 0%nat a + h * u 1%nat a + h ^ 2 / 2 * u 2%nat a + h ^ 3 / 6 * u 3%nat a + h ^ 4 / 24 * u 4%nat a) in Te.
  set (d1 := u 1%nat a + h * u 2%nat a + h ^ 2 / 2 * u 3%nat a + h ^ 3 / 6 * u 4%nat a) in T1.
  assert (E : quartic_interp h (u 1%nat a) d1 (u 0%nat a) q1 (Q (/ 2)) th = Q th).
  { unfold quartic_interp, Q, q1, d1. field. }
  pose proof (quartic_perturbed h (u 1%nat a) (u 1%nat (a + h)) (u 0%nat a) (u 0%nat (a + h)) (u 0%nat (a + / 2 * h))
    (u 1%nat a) d1 (u 0%nat a) q1 (Q (/ 2)) th 0 (M * h ^ 4 / 24) 0 (M * h ^ 5 / 120) (M * h ^ 5 / 120) Hh Ht) as P.
  rewrite E in P. assert (Z : forall v, Rabs (v - v) <= 0) by (intros; rewrite Rminus_diag_eq, Rabs_R0 by reflexivity; lra).
  specialize (P (Z _) T1 (Z _) Te Tm).
  match goal with |- Rabs ?g <= _ => match type of P with Rabs ?v <= _ => replace g with (v - (u 0%nat (a + th * h) - Q th)) by ring end end.
  eapply Rle_trans; [apply Rabs_triang|]. rewrite Rabs_Ropp.
  replace (h * (M * h ^ 4 / 24)) with (M * h ^ 5 / 24) in P by (cbn [pow]; field).
  assert (0 <= M * h ^ 5) by (apply Rmult_le_pos; auto; apply pow_le; lra). lra.
Qed.

(** ** One step *)
Definition qbm_dopri5 : list Q :=
  [6025192743 # 60171106304; 0; 51252292925 # 130801643196; -2691868925 # 90256659456;
   187940372067 # 3189068634112; -1776094331 # 39487288512; 11237099 # 470086768]%Q.
Lemma check_mid : point_check 5 5 (1 # 2) q_dopri5 qbm_dopri5 = true.
Proof. vm_compute. reflexivity. Qed.
Definition dec_err : R := / 10 ^ 16.
Lemma mid_weights : Forall2 (fun m q => Rabs (m - Q2R q) <= dec_err) (construct_4th ROps) qbm_dopri5.
Proof.
  unfold construct_4th, qbm_dopri5, dec_err. repeat (apply Forall2_cons; [|]); try apply Forall2_nil; cbn [nQ ROps]; unfold Q2R; cbn [Qnum Qden]; apply Rabs_le; split; lra.
Qed.

Lemma dopri5_nodes : Forall (fun r : R * list R => 0 <= fst r <= 1) (to_R_rows q_dopri5).
Proof. unfold to_R_rows, q_dopri5. repeat (apply Forall_cons; [cbn [map fst snd]; unfold Q2R; cbn [Qnum Qden]; lra|]). apply Forall_nil. Qed.

(** size of the stages when the field is at most V at the start of the step *)
Lemma stages_bound n f L V H rows t h x : field_on n f -> 0 <= L -> lipschitz n L f -> 0 <= V -> 0 <= h <= H -> length x = n ->
  Forall (fun r : R * list R => 0 <= fst r <= 1) rows ->
  (forall s i, t <= s <= t + h -> (i < n)%nat -> Rabs (nth i (f s x) 0) <= V) ->
  pairs_near n (map (Rmult V) (stage_leak L H rows)) (erk_stages rows f t h x) (map (fun _ => repeat 0 n) rows).
Proof.
  intros Hf HL Hlip HV Hh Hx Hc HB. induction rows as [|r rows IH] using rev_ind; [constructor|].
  apply Forall_app in Hc. destruct Hc as [Hc Hr]. inversion Hr as [|? ? Hr1 _]; subst. specialize (IH Hc).
  rewrite stages_snoc. unfold stage_leak in *. rewrite stagewise_snoc, !map_app. apply pn_snoc; auto. cbn [map].
  set (K := stagewise (fun g r => 1 + L * H * abs_sum (snd r) g) rows) in *. set (ks := erk_stages rows f t h x) in *.
  assert (Lk : forall k, In k ks -> length k = length x) by now apply erk_stages_len.
  assert (Lz : forall k, In k (map (fun _ : R * list R => repeat 0 (length x)) rows) -> length k = length x).
  { intros k Hk. apply in_map_iff in Hk. destruct Hk as (? & <- & _). apply repeat_length. }
  assert (Z : near (length x) 0 x x) by (intros i _; rewrite Rminus_diag_eq, Rabs_R0 by reflexivity; lra).
  pose proof (comb_near (length x) _ _ _ 0 x x h (snd r) IH Z ltac:(lra) eq_refl eq_refl Lk Lz) as B.
  assert (HA : abs_sum (snd r) (map (Rmult V) K) = V * abs_sum (snd r) K).
  { generalize (snd r) as w, K as g. induction w as [|a w IHw]; intros [|u g]; cbn [abs_sum map]; try ring. rewrite IHw. ring. }
  rewrite HA in B.
  assert (PK : 0 <= abs_sum (snd r) K) by (apply abs_sum_pos, (stage_leak_pos L HL H rows); lra).
  assert (B' : near (length x) (h * (V * abs_sum (snd r) K)) (comb x h (snd r) ks) x).
  { intros i Hi. specialize (B i Hi). rewrite Rplus_0_l in B. rewrite (nth_comb (length x) i x h (snd r) (map _ rows)) in B by auto.
    replace (wsum i (snd r) (map (fun _ : R * list R => repeat 0 (length x)) rows)) with 0 in B; [rewrite Rmult_0_r, Rplus_0_r in B; exact B|].
    generalize (snd r) as w, rows as l. clear. induction w as [|a w IH]; intros [|q l]; cbn [map wsum]; auto.
    rewrite <- IH. rewrite nth_repeat. ring. }
  assert (Ls : length (comb x h (snd r) ks) = length x) by now apply comb_len.
  pose proof (Hlip (t + fst r * h) _ _ _ Ls eq_refl B') as B2.
  intros i Hi. rewrite nth_repeat, Rminus_0_r. specialize (B2 i Hi).
  assert (Hs : t <= t + fst r * h <= t + h).
  { assert (0 <= fst r * h <= h); [|lra]. split; [apply Rmult_le_pos; lra|]. rewrite <- (Rmult_1_l h) at 2. apply Rmult_le_compat_r; lra. }
  specialize (HB (t + fst r * h) i Hs Hi). fold ks.
  match goal with |- Rabs ?a <= _ => match type of B2 with Rabs (?u - ?v) <= _ => replace a with ((u - v) + v) by ring end end.
  eapply Rle_trans; [apply Rabs_triang|].
  assert (h * (V * abs_sum (snd r) K) <= H * (V * abs_sum (snd r) K)) by (apply Rmult_le_compat_r; [now apply Rmult_le_pos|lra]).
  assert (L * (h * (V * abs_sum (snd r) K)) <= L * (H * (V * abs_sum (snd r) K))) by now apply Rmult_le_compat_l.
  replace (V * (1 + L * H * abs_sum (snd r) K)) with (L * (H * (V * abs_sum (snd r) K)) + V) by ring. lra.
Qed.

Lemma wsum_weights n e i : forall gs ks ls, pairs_near n gs ks ls -> (i < n)%nat -> 0 <= e -> Forall (fun l => nth i l 0 = 0) ls ->
  forall b bm, Forall2 (fun m q => Rabs (m - Q2R q) <= e) bm b ->
  Rabs (wsum i bm ks - wsum i (to_R b) ks) <= e * abs_sum (map (fun _ => 1) bm) gs.
Proof.
  intros gs ks ls HP Hi He. induction HP as [|g gs k ks l ls Hg HP IH]; intros HZ b bm Hb.
  - destruct Hb; cbn [wsum to_R map abs_sum]; rewrite Rminus_diag_eq, Rabs_R0 by reflexivity; lra.
  - inversion HZ as [|? ? Z1 Z2]; subst. specialize (IH Z2). destruct Hb as [|m q bm b Hm Hb]; cbn [wsum to_R map abs_sum].
    + rewrite Rminus_diag_eq, Rabs_R0 by reflexivity; lra.
    + specialize (IH b bm Hb). specialize (Hg i Hi). rewrite Z1, Rminus_0_r in Hg. rewrite Rabs_R1, Rmult_1_l. unfold to_R in IH.
      match goal with |- Rabs ?a <= _ => match type of IH with Rabs ?u <= _ => replace a with ((m - Q2R q) * nth i k 0 + u) by (unfold to_R; ring) end end.
      eapply Rle_trans; [apply Rabs_triang|]. rewrite Rabs_mult.
      assert (Rabs (m - Q2R q) * Rabs (nth i k 0) <= e * g) by (apply Rmult_le_compat; auto using Rabs_pos). lra.
Qed.

(** effect of the decimals on the mid-point state *)
Lemma weights_effect n f L V H e rows b bm t h x : field_on n f -> 0 <= L -> lipschitz n L f -> 0 <= V -> 0 <= e -> 0 <= h <= H -> length x = n ->
  Forall (fun r : R * list R => 0 <= fst r <= 1) rows ->
  (forall s i, t <= s <= t + h -> (i < n)%nat -> Rabs (nth i (f s x) 0) <= V) ->
  Forall2 (fun m q => Rabs (m - Q2R q) <= e) bm b ->
  near n (h * (e * (V * leak L H rows (map (fun _ => 1) bm)))) (erk_step rows bm f t h x) (erk_step rows (to_R b) f t h x).
Proof.
  intros Hf HL Hlip HV He Hh Hx Hc HB Hb i Hi.
  pose proof (stages_bound n f L V H rows t h x Hf HL Hlip HV Hh Hx Hc HB) as P.
  pose proof (wsum_weights n e i _ _ _ P Hi He) as W.
  assert (W' := W ltac:(apply Forall_forall; intros l Hl; apply in_map_iff in Hl; destruct Hl as (? & <- & _); apply nth_repeat) b bm Hb). clear W.
  unfold erk_step. rewrite !(nth_comb n) by (auto; now apply erk_stages_len).
  match goal with |- Rabs ?a <= _ => match type of W' with Rabs ?u <= _ => replace a with (h * u) by ring end end.
  rewrite Rabs_mult, (Rabs_right h) by lra. apply Rmult_le_compat_l; [lra|]. eapply Rle_trans; [exact W'|]. right. f_equal. unfold leak.
  generalize (map (fun _ : R => 1) bm) as w, (stage_leak L H rows) as g. induction w as [|a w IHw]; intros [|u g]; cbn [abs_sum map]; try ring. rewrite IHw. ring.
Qed.

Lemma dense_near n f L y yd J K M t0 T :
  field_on n f -> 0 <= L -> lipschitz n L f -> t0 <= T -> 0 <= M -> 0 <= K -> smooth_solution n t0 T 5 f y yd J K M ->
  exists A B, 0 <= A /\ 0 <= B /\ forall t h x D s, t0 <= t -> 0 < h -> t + h <= T -> length x = n -> 0 <= D -> near n D x (y t) -> t < s < t + h ->
    near n (A * D + B * h ^ 5 + digits_effect L M (T - t0) * h) (pair_dense (to_R_rows q_dopri5) (to_R qb5_dopri5) (construct_4th ROps) f t h x s) (y s).
Proof.
  intros Hf HL Hlip HT HM HK Hs.
  destruct (local_near n 5 f y yd J K M t0 T q_dopri5 qb5_dopri5 ltac:(lia) Hf HT HM HK Hs check_dopri5) as (C1 & HC1 & Hloc).
  destruct (point_error n 5 f y yd J K M t0 T (T - t0) ltac:(lia) Hf ltac:(lra) HM HK Hs 5 (1 # 2) q_dopri5 qbm_dopri5 check_mid) as (C2 & HC2 & Hmid).
  assert (He : 0 <= dec_err) by (unfold dec_err; left; apply Rinv_0_lt_compat, pow_lt; lra).
  set (rows := to_R_rows q_dopri5) in *. set (b := to_R qb5_dopri5) in *. set (bm := construct_4th ROps) in *.
  set (G1 := growth L (T - t0) rows b). set (Gm := growth L (T - t0) rows bm). set (Hm := T - t0) in *.
  assert (HHm : 0 <= Hm) by (unfold Hm; lra).
  assert (HG1 : 0 <= G1) by (apply growth_pos; auto). assert (HGm : 0 <= Gm) by (apply growth_pos; auto).
  assert (Hy : forall t, length (y t) = n) by (destruct Hs as (Hy & _); exact Hy).
  set (a1 := 1 + Hm * G1). set (am := 1 + Hm * Gm). set (W := 6 * (Hm * L) + 27).
  assert (Ha1 : 0 <= a1) by (unfold a1; pose proof (Rmult_le_pos _ _ HHm HG1); lra). assert (Ham : 0 <= am) by (unfold am; pose proof (Rmult_le_pos _ _ HHm HGm); lra).
  assert (HHL : 0 <= Hm * L) by now apply Rmult_le_pos.
  assert (HW : 0 <= W) by (unfold W; lra).
  exists (12 * (Hm * L) + W * a1 + 38 + 64 * am), (W * (C1 * Hm) + 64 * C2 + 3 * M).
  split; [pose proof (Rmult_le_pos _ _ HW Ha1); lra|]. split; [pose proof (Rmult_le_pos _ _ HW (Rmult_le_pos _ _ HC1 HHm)); lra|].
  intros t h x D s Ht Hh HTh Hx HD Hn Hsx.
  assert (HhH : h <= Hm) by (unfold Hm; lra).
  set (w := h ^ 5). assert (Hw : 0 <= w) by (apply pow_le; lra).
  set (g := h * (dec_err * (M * (1 + L * Hm) * leak L Hm rows (map (fun _ => 1) bm)))).
  assert (Hg : 0 <= g).
  { assert (0 <= leak L Hm rows (map (fun _ => 1) bm)) by (apply leak_pos; auto). assert (0 <= L * Hm) by now apply Rmult_le_pos.
    unfold g. repeat apply Rmult_le_pos; lra. }
  assert (N1 : near n (a1 * D + C1 * Hm * w) (erk_step rows b f t h x) (y (t + h))).
  { pose proof (stable_step n f L rows b Hm t0 T Hf HL Hlip t h x (y t) D Ht Hh HTh HhH Hx (Hy t) HD Hn) as S1.
    eapply near_le; [|exact (near_trans _ _ _ _ _ _ S1 (Hloc t h Ht Hh HTh))]. fold G1.
    assert (h * G1 * D <= Hm * G1 * D) by (apply Rmult_le_compat_r; auto; apply Rmult_le_compat_r; auto).
    assert (C1 * (h * w) <= C1 * (Hm * w)) by (apply Rmult_le_compat_l; auto; now apply Rmult_le_compat_r).
    change (h ^ 6) with (h * w). unfold a1. lra. }
  assert (Nm : near n (am * D + C2 * w + g) (erk_step rows bm f t h x) (y (t + / 2 * h))).
  { pose proof (stable_step n f L rows bm Hm t0 T Hf HL Hlip t h x (y t) D Ht Hh HTh HhH Hx (Hy t) HD Hn) as S1. fold Gm in S1.
    assert (S2 : near n g (erk_step rows bm f t h (y t)) (erk_step rows (to_R qbm_dopri5) f t h (y t))).
    { apply weights_effect; auto; try lra; [apply Rmult_le_pos; lra|exact dopri5_nodes| |exact mid_weights].
      intros s' i Hs' Hi. destruct Hs as (_ & Y0 & Y1 & YD & YB & _).
      pose proof (YB 1%nat ltac:(lia) i s' Hi ltac:(lra)) as B1. rewrite (Y1 s') in B1 by lra.
      assert (B2 : near n (M * Hm) (y t) (y s')).
      { intros j Hj. pose proof (taylor_n (fun m c => nth j (yd m c) 0) M t s' 0 ltac:(lra)) as Tn.
        assert (Tn' := Tn ltac:(intros m c Hmm Hc; apply YD; auto; lra || lia) ltac:(intros c Hc; apply (YB 1%nat); auto; lra || lia)). clear Tn.
        cbn [psum] in Tn'. change (fact 0) with 1%nat in Tn'. change (fact 1) with 1%nat in Tn'. rewrite !Y0 in Tn'. cbn [INR] in Tn'.
        replace (nth j (y s') 0 - (0 + (s' - t) ^ 0 / 1 * nth j (y t) 0)) with (- (nth j (y t) 0 - nth j (y s') 0)) in Tn' by (cbn [pow]; field).
        rewrite Rabs_Ropp in Tn'. eapply Rle_trans; [exact Tn'|]. apply Rmult_le_compat_l; auto. cbn [pow]. lra. }
      pose proof (Hlip s' _ _ _ (Hy t) (Hy s') B2 i Hi) as B3.
      replace (nth i (f s' (y t)) 0) with ((nth i (f s' (y t)) 0 - nth i (f s' (y s')) 0) + nth i (f s' (y s')) 0) by ring.
      eapply Rle_trans; [apply Rabs_triang|]. replace (M * (1 + L * Hm)) with (L * (M * Hm) + M) by ring. lra. }
    assert (S3 : near n (C2 * w) (erk_step rows (to_R qbm_dopri5) f t h (y t)) (y (t + / 2 * h))).
    { intros i Hi. specialize (Hmid t h i ltac:(unfold dom; fold Hm; lra) Hi). replace (Q2R (1 # 2)) with (/ 2) in Hmid by (unfold Q2R; simpl; lra). exact Hmid. }
    eapply near_le; [|exact (near_trans _ _ _ _ _ _ S1 (near_trans _ _ _ _ _ _ S2 S3))].
    assert (h * Gm * D <= Hm * Gm * D) by (apply Rmult_le_compat_r; auto; apply Rmult_le_compat_r; auto). unfold am. lra. }
  set (x1 := erk_step rows b f t h x) in *. set (xm := erk_step rows bm f t h x) in *.
  assert (Lx1 : length x1 = n) by (apply (erk_step_len n); auto).
  assert (Nf0 := Hlip t x (y t) D Hx (Hy t) Hn). assert (Nf1 := Hlip (t + h) x1 (y (t + h)) _ Lx1 (Hy _) N1).
  intros i Hi. unfold pair_dense. fold x1 xm. rewrite Hx.
  match goal with |- Rabs (nth i (map ?g (seq 0 n)) 0 - _) <= _ => rewrite (nth_indep _ 0 (g 0%nat)) by (now rewrite map_length, seq_length); rewrite (map_nth g), seq_nth by auto end.
  cbn [plus].
  set (th := (s - t) / h). assert (Eth : th * h = s - t) by (unfold th; field; lra).
  assert (Hth : 0 <= th <= 1).
  { split; [unfold th; apply Rmult_le_pos; [lra|left; now apply Rinv_0_lt_compat]|]. apply Rmult_le_reg_r with h; auto. rewrite Eth. lra. }
  specialize (N1 i Hi). specialize (Nm i Hi). specialize (Nf0 i Hi). specialize (Nf1 i Hi). specialize (Hn i Hi).
  destruct Hs as (_ & Y0 & Y1 & YD & YB & _).
  pose proof (quartic_taylor (fun m c => nth i (yd m c) 0) M t h th ltac:(lra) Hth HM) as Q2.
  assert (Q2' := Q2 ltac:(intros m c Hmm Hc; apply YD; auto; lra || lia) ltac:(intros c Hc; apply (YB 5%nat); auto; lra || lia)). clear Q2. cbv beta in Q2'.
  rewrite (Y1 t), (Y1 (t + h)), !Y0, Eth in Q2' by lra. replace (t + (s - t)) with s in Q2' by ring.
  pose proof (quartic_perturbed h _ _ _ _ _ _ _ _ _ _ th _ _ _ _ _ ltac:(lra) Hth Nf0 Nf1 Hn N1 Nm) as Q1.
  match goal with |- Rabs ?g <= _ => match type of Q1 with Rabs ?u <= _ => match type of Q2' with Rabs ?v <= _ => replace g with (u + v) by ring end end end.
  eapply Rle_trans; [apply Rabs_triang|]. eapply Rle_trans; [apply Rplus_le_compat; [exact Q1|exact Q2']|].
  assert (0 <= L * D) by now apply Rmult_le_pos.
  set (E1 := a1 * D + C1 * Hm * w). assert (HE1 : 0 <= E1) by (unfold E1; pose proof (Rmult_le_pos _ _ Ha1 HD); assert (0 <= C1 * Hm * w) by (apply Rmult_le_pos; auto; now apply Rmult_le_pos); lra).
  assert (0 <= L * E1) by now apply Rmult_le_pos.
  assert (h * (L * D) <= Hm * (L * D)) by (apply Rmult_le_compat_r; lra). assert (h * (L * E1) <= Hm * (L * E1)) by (apply Rmult_le_compat_r; lra).
  apply Rle_trans with (12 * (Hm * (L * D)) + 6 * (Hm * (L * E1)) + 38 * D + 27 * E1 + 64 * (am * D + C2 * w + g) + 3 * (M * w)); [fold w; lra|].
  assert (64 * g <= digits_effect L M Hm * h); [|unfold E1, W; lra].
  unfold g, digits_effect, dec_err. fold rows. change (map (fun _ : num ROps => 1) bm) with (repeat 1 7).
  set (q := M * (1 + L * Hm) * leak L Hm rows (repeat 1 7)). assert (Hq : 0 <= q).
  { assert (0 <= leak L Hm rows (repeat 1 7)) by (apply leak_pos; auto). assert (0 <= L * Hm) by now apply Rmult_le_pos.
    unfold q. repeat apply Rmult_le_pos; lra. }
  assert (0 <= q * h) by (apply Rmult_le_pos; lra).
  replace (q / 10 ^ 14 * h) with (100 * (q * h) / 10 ^ 16) by (field; apply pow_nonzero; lra).
  replace (64 * (h * (/ 10 ^ 16 * q))) with (64 * (q * h) / 10 ^ 16) by (field; apply pow_nonzero; lra).
  apply Rmult_le_compat_r; [left; apply Rinv_0_lt_compat, pow_lt; lra|lra].
Qed.

(** ** Runs and their step ends *)
Lemma last_cons_def {A} (a : A) l d d' : last (a :: l) d = last (a :: l) d'.
Proof. revert a; induction l as [|b l IH]; intros a; [reflexivity|]. exact (IH b). Qed.
Lemma last_app_ne {A} (l r : list A) d d' : r <> [] -> last (l ++ r) d = last r d'.
Proof.
  intros Hr. destruct r as [|a r]; [congruence|]. induction l as [|b l IH]; [apply last_cons_def|].
  cbn [app]. rewrite <- IH. destruct (l ++ a :: r) eqn:E; [destruct l; discriminate|]. reflexivity.
Qed.
Lemma last_cons {A} (a : A) l d : last (a :: l) d = last l a.
Proof. destruct l as [|b l]; [reflexivity|]. cbn [last]. apply (last_cons_def b l d a). Qed.

Lemma run_path (acc : R -> R -> list R -> list R -> Prop) dn interp all T : forall t x req times xs,
  run acc dn interp all t x req times xs -> (forall s, In s req -> s <= T) ->
  exists ends x2, path acc t x ends (last req t) x2 /\
    (all = true -> incl ends times) /\ (forall s, In s times -> In s ends \/ In s req) /\
    forall (Inv Q : R -> list R -> Prop) H, Inv t x -> steps_at_most H (t :: ends) ->
      (forall t h x x', 0 < h -> h <= H -> t + h <= T -> acc t h x x' -> Inv t x ->
         Inv (t + h) x' /\ Q (t + h) x' /\ forall s, t < s < t + h -> Q s (dn t h x s)) ->
      forall k c z, nth_error times k = Some c -> nth_error xs k = Some z -> Q c z.
Proof.
  intros t x req times xs Hrun.
  induction Hrun as [t x|t h x x' crossed hit req times xs Hh Ha Hcr Hin Hreq Hne Hrun IH]; intros HT.
  - exists [], x. split; [constructor|]. split; [intros _ a []|]. split; [intros s []|]. intros Inv Q H _ _ _ [|k] c z Hc; discriminate.
  - destruct IH as (ends & x2 & Hp & Hall & Hti & HQ).
    { intros s Hs. apply HT. apply in_or_app. right. apply in_or_app. now right. }
    exists ((t + h) :: ends), x2.
    assert (El : last (crossed ++ (if hit then [t + h] else []) ++ req) t = last req (t + h)).
    { destruct req as [|r0 req].
      - destruct Hne as [->|]; [|congruence]. rewrite app_nil_r. rewrite (last_app_ne crossed [t + h] t t) by discriminate. reflexivity.
      - rewrite app_assoc. now apply last_app_ne. }
    assert (HthT : t + h <= T).
    { destruct Hne as [->|Hne]; [apply HT, in_or_app; right; now left|]. destruct req as [|r0 req]; [congruence|].
      specialize (Hreq r0 (or_introl eq_refl)). assert (r0 <= T); [|lra]. apply HT. apply in_or_app. right. apply in_or_app. right. now left. }
    rewrite El. split; [econstructor; eauto|]. split.
    { intros Eall. specialize (Hall Eall). subst all. rewrite orb_true_r. intros a [<-|Ha']; apply in_or_app; right; [now left|right; now apply Hall]. }
    split.
    { intros s Hs. apply in_app_or in Hs. destruct Hs as [Hs|Hs]; [right; apply in_or_app; now left|]. apply in_app_or in Hs. destruct Hs as [Hs|Hs].
      - destruct (hit || all)%bool; [|destruct Hs]. destruct Hs as [<-|[]]. left. now left.
      - destruct (Hti s Hs) as [Hs'|Hs']; [left; now right|right]. apply in_or_app. right. apply in_or_app. now right. }
    intros Inv Q H HI Hst Hstep k c z Hc Hz.
    assert (HhH : h <= H) by (pose proof (Hst 0%nat t (t + h) eq_refl eq_refl); lra).
    destruct (Hstep t h x x' Hh HhH HthT Ha HI) as (HI' & HQ' & HQd).
    assert (Hst' : steps_at_most H ((t + h) :: ends)) by (intros i a d H1 H2; apply (Hst (S i)); auto).
    specialize (HQ Inv Q H HI' Hst' Hstep).
    destruct (Nat.lt_ge_cases k (length crossed)) as [Hk|Hk].
    + rewrite nth_error_app1 in Hc by auto. rewrite nth_error_app1 in Hz by (now rewrite map_length).
      rewrite nth_error_map, Hc in Hz. injection Hz as <-. apply HQd, Hcr. eapply nth_error_In; eauto.
    + rewrite nth_error_app2 in Hc by auto. rewrite nth_error_app2, map_length in Hz by (now rewrite map_length).
      destruct (hit || all)%bool; [|now apply (HQ (k - length crossed)%nat)].
      destruct (k - length crossed)%nat as [|k'].
      * injection Hc as <-. injection Hz as <-. exact HQ'.
      * now apply (HQ k').
Qed.

(** C112.  The dense output of dopri5 keeps the order of the method: all states returned with the
    interpolator, inside steps and at their ends, are within C H^5 + d H of the solution, H the largest accepted
    step.  The second term, with the explicit constant d = [digits_effect] of the order of 10^-14, is the effect
    of the mid-point weights being written with 16 digits.
    With return_all_eval the step ends are among the returned times. *)
Lemma C112_dense_order_pf :
  forall n f L y yd J K M t0 T,
  field_on n f -> 0 <= L -> lipschitz n L f -> t0 <= T -> 0 <= M -> 0 <= K -> smooth_solution n t0 T 5 f y yd J K M ->
  exists C, 0 <= C /\ forall t1 ts fuel atol rtol all save_at semi times sol,
    increasing (t0 :: t1 :: ts) -> last (t1 :: ts) t0 <= T ->
    snd (@odeint ROps fuel f (y t0) (@TTensor ROps (t0 :: t1 :: ts)) (DormandPrince45 ROps) atol rtol true all save_at semi) = Ok (times, sol) ->
    List.length sol = List.length times /\
    exists ends xT,
      path (pair_accepts (to_R_rows q_dopri5) (to_R qb5_dopri5) (to_R qb4_dopri5) f atol rtol semi) t0 (y t0) ends (last (t1 :: ts) t0) xT /\
      (all = true -> incl ends times) /\ (forall s, In s times -> In s (t0 :: ends) \/ In s (t1 :: ts)) /\
      forall H, steps_at_most H (t0 :: ends) ->
      forall k tk xk, nth_error times k = Some tk -> nth_error sol k = Some xk -> near n (C * H ^ 5 + digits_effect L M (T - t0) * H) xk (y tk).
Proof.
  intros n f L y yd J K M t0 T Hf HL Hlip HT HM HK Hs.
  destruct (local_near n 5 f y yd J K M t0 T q_dopri5 qb5_dopri5 ltac:(lia) Hf HT HM HK Hs check_dopri5) as (C & HC & Hloc).
  destruct (dense_near n f L y yd J K M t0 T Hf HL Hlip HT HM HK Hs) as (A & B & HA & HB & Hd).
  set (rows := to_R_rows q_dopri5) in *. set (b := to_R qb5_dopri5) in *. set (Lam := growth L (T - t0) rows b).
  assert (HLam : 0 <= Lam) by (apply growth_pos; auto; lra).
  assert (Hy : forall t, length (y t) = n) by (destruct Hs as (Hy & _); exact Hy).
  set (C0 := exp (Lam * (T - t0)) * (T - t0) * C). assert (HC0 : 0 <= C0) by (repeat apply Rmult_le_pos; auto; try lra; left; apply exp_pos).
  exists (C0 + A * C0 + B). split; [pose proof (Rmult_le_pos _ _ HA HC0); lra|].
  intros t1 ts fuel atol rtol all save_at semi times sol Hinc HlT Hr.
  assert (Hlt : t0 < t1) by (apply (Hinc 0%nat 1%nat); auto).
  pose proof (inc_last t0 t1 ts Hinc) as Hlast.
  apply increasing_sorted in Hinc.
  assert (HP : builtin_pair (DormandPrince45 ROps) rows b (to_R qb4_dopri5)) by (left; auto).
  destruct (odeint_run (DormandPrince45 ROps) rows b (to_R qb4_dopri5) (builtin_embedded _ _ _ _ HP) n f Hf _ _ _ _ _ _ _ _ _ _ _ _ _ Hinc (Hy t0) Hr)
    as (times' & sol' & -> & -> & Hrun).
  split; [cbn [length]; f_equal; exact (run_lengths _ _ _ _ _ Hrun)|].
  assert (Hreq : forall s, In s (t1 :: ts) -> s <= T) by (intros s Hs'; eapply Rle_trans; [apply Hlast; now right|auto]).
  destruct (run_path _ _ _ _ T _ _ _ _ _ Hrun Hreq) as (ends & x2 & Hp & Hall & Hti & HQ).
  exists ends, x2. split; [exact Hp|]. split; [intros Ea a Ha; right; now apply Hall|]. split.
  { intros s [<-|Hs']; [left; now left|]. destruct (Hti s Hs'); [left; now right|now right]. }
  intros H Hst.
  assert (H0 : 0 < H).
  { inversion Hp as [|t h x x' ends' t2 x2' Hh Ha Hp']; subst.
    - exfalso. match goal with X : t0 = last (t1 :: ts) t0 |- _ => pose proof (Hlast t1 ltac:(right; now left)); lra end.
    - pose proof (Hst 0%nat t0 (t0 + h) eq_refl eq_refl). lra. }
  assert (HH5 : 0 <= H ^ 5) by (apply pow_le; lra).
  set (w := H ^ 5) in *.
  assert (Hdg : 0 <= digits_effect L M (T - t0)).
  { unfold digits_effect. assert (0 <= leak L (T - t0) (to_R_rows q_dopri5) (repeat 1 7)) by (apply leak_pos; auto; lra).
    assert (0 <= L * (T - t0)) by (apply Rmult_le_pos; lra).
    apply Rmult_le_pos; [apply Rmult_le_pos; auto; apply Rmult_le_pos; lra|left; apply Rinv_0_lt_compat, pow_lt; lra]. }
  assert (HdH : 0 <= digits_effect L M (T - t0) * H) by (apply Rmult_le_pos; lra).
  assert (Heb : forall t, t0 <= t <= T -> 0 <= ebound Lam C t0 (H ^ 5) t <= C0 * w).
  { intros t Ht. split; [apply ebound_pos; auto; lra|]. 
    unfold ebound, C0. apply Rmult_le_compat_r; auto. apply Rmult_le_compat_r; auto.
    apply Rmult_le_compat; try lra; [left; apply exp_pos|].
    destruct (Rle_lt_or_eq_dec (Lam * (t - t0)) (Lam * (T - t0))) as [Hl| ->]; [apply Rmult_le_compat_l; lra|left; now apply exp_increasing|lra]. }
  clearbody C0.
  assert (Hcw : 0 <= A * C0 * w) by (apply Rmult_le_pos; [now apply Rmult_le_pos|auto]).
  assert (HBw : 0 <= B * w) by (apply Rmult_le_pos; auto).
  assert (HC0w : 0 <= C0 * w) by (apply Rmult_le_pos; auto).
  assert (Hb0 : near n (ebound Lam C t0 (H ^ 5) t0) (y t0) (y t0)).
  { intros i Hi. unfold ebound. rewrite !Rminus_diag_eq, Rabs_R0 by reflexivity. lra. }
  specialize (HQ (fun t x => t0 <= t /\ length x = n /\ near n (ebound Lam C t0 (H ^ 5) t) x (y t)) (fun t x => near n ((C0 + A * C0 + B) * w + digits_effect L M (T - t0) * H) x (y t)) H).
  assert (HQ' := HQ ltac:(split; [lra|split; auto]) Hst). clear HQ.
  intros k tk xk Hk Hx. destruct k as [|k].
  { injection Hk as <-. injection Hx as <-. eapply near_le; [|exact Hb0]. pose proof (Heb t0 ltac:(lra)). lra. }
  cbn [nth_error] in Hk, Hx. revert k tk xk Hk Hx. apply HQ'. clear HQ'.
  intros t h x x' Hh HhH HTh [Ea _] (Ht & Hx & Hn). subst x'.
  assert (Hn' : near n (ebound Lam C t0 (H ^ 5) (t + h)) (erk_step rows b f t h x) (y (t + h))).
  { refine (one_step_bound n (erk_step rows b f) y Lam C t0 T HC HLam _ Hy (H ^ 5) HH5 (fun h => h <= H) _ t h x Ht Hh HTh HhH Hx Hn).
    { intros t' h' x' z D Ht' Hh' HTh' Hx' Hz HD Hnn. apply (stable_step n f L rows b (T - t0) t0 T); auto. lra. }
    { intros t' h' Ht' Hh' HTh' Hok. eapply near_le; [|apply Hloc; auto]. apply Rmult_le_compat_l; auto. apply pow_split; lra. } }
  split; [split; [lra|split; [now apply (erk_step_len n)|exact Hn']]|]. split.
  { eapply near_le; [|exact Hn']. pose proof (Heb (t + h) ltac:(lra)). lra. }
  intros s Hs'. pose proof (Heb t ltac:(lra)) as [He1 He2].
  eapply near_le; [|exact (Hd t h x _ s Ht Hh HTh Hx He1 Hn Hs')].
  assert (A * ebound Lam C t0 (H ^ 5) t <= A * (C0 * w)) by now apply Rmult_le_compat_l.
  assert (h ^ 5 <= w) by (apply pow_incr; lra).
  assert (digits_effect L M (T - t0) * h <= digits_effect L M (T - t0) * H) by (apply Rmult_le_compat_l; auto).
  assert (B * h ^ 5 <= B * w) by (apply Rmult_le_compat_l; auto). lra.
Qed.

(** y' = y on [[0, 1]] meets the hypotheses of C112. *)
Lemma C112_dense_order_ex_pf :
  let f := fun (_ : R) (x : list R) => x in
  field_on 1 f /\ lipschitz 1 1 f /\
  smooth_solution 1 0 1 5 f (fun t => [exp t]) (fun _ t => [exp t]) (fun m _ _ _ => match m with O => 1 | _ => 0 end) 0 (exp 1).
Proof. intros f. destruct (proj1 C103_ex_pf 5%nat) as (H1 & H2 & _ & H3). auto. Qed.
