(** Perturbation bounds for explicit Runge-Kutta methods. *)
From Coq Require Import ZArith QArith Reals Lra Lia List Bool.
From Verif Require Import Num Py Tensor Spec_Ode Spec_Trees Spec_RK Spec_Conv Spec_Order.
From Verif Require Import L_Base L_Vec L_Steps L_Tables L_Steps2 L_Sens L_Conv.
Import ListNotations.
Local Open Scope R_scope.
Local Notation length := List.length.

Lemma stagewise_snoc step rows r : stagewise step (rows ++ [r]) = stagewise step rows ++ [step (stagewise step rows) r].
Proof. unfold stagewise. rewrite fold_left_app. reflexivity. Qed.
Lemma stagewise_len step rows : length (stagewise step rows) = length rows.
Proof. induction rows as [|r rows IH] using rev_ind; [reflexivity|]. rewrite stagewise_snoc, !app_length, IH. reflexivity. Qed.

Lemma abs_sum_snoc w a g u : length w = length g -> abs_sum (w ++ [a]) (g ++ [u]) = abs_sum w g + Rabs a * u.
Proof. revert g; induction w as [|c w IH]; intros [|v g] H; simpl in *; try discriminate; [lra|]. rewrite IH by lia. lra. Qed.
Lemma abs_sum_pos w g : Forall (Rle 0) g -> 0 <= abs_sum w g.
Proof.
  intros H. revert w; induction H as [|u g Hu H IH]; intros [|a w]; simpl; try lra.
  specialize (IH w). assert (0 <= Rabs a * u) by (apply Rmult_le_pos; auto; apply Rabs_pos). lra.
Qed.
Lemma abs_sum_le w g g' : Forall2 Rle g g' -> abs_sum w g <= abs_sum w g'.
Proof.
  intros H. revert w; induction H as [|u u' g g' Hu H IH]; intros [|a w]; simpl; try lra.
  specialize (IH w). assert (Rabs a * u <= Rabs a * u') by (apply Rmult_le_compat_l; auto; apply Rabs_pos). lra.
Qed.
Lemma abs_sum_lin w g g' c d : length g = length g' ->
  abs_sum w (map (fun p => c * fst p + d * snd p) (combine g g')) = c * abs_sum w g + d * abs_sum w g'.
Proof.
  revert w g'; induction g as [|u g IH]; intros [|a w] [|u' g'] H; simpl in *; try discriminate; try lra.
  rewrite IH by lia. lra.
Qed.

(** vectors pairwise within the given distances *)
Inductive pairs_near (n : nat) : list R -> list (list R) -> list (list R) -> Prop :=
| pn_nil : pairs_near n [] [] []
| pn_cons g gs k ks l ls : near n g k l -> pairs_near n gs ks ls -> pairs_near n (g :: gs) (k :: ks) (l :: ls).

Lemma pn_snoc n gs ks ls g k l : pairs_near n gs ks ls -> near n g k l -> pairs_near n (gs ++ [g]) (ks ++ [k]) (ls ++ [l]).
Proof. induction 1 as [|? ? ? ? ? ? ? ? IH]; intros Hn; simpl; constructor; auto. constructor. Qed.

Lemma wsum_near n gs ks ls i : pairs_near n gs ks ls -> (i < n)%nat -> forall w, Rabs (wsum i w ks - wsum i w ls) <= abs_sum w gs.
Proof.
  intros H Hi. induction H as [|g gs k ks l ls Hg H IH]; intros [|a w]; simpl; try (rewrite Rminus_diag_eq, Rabs_R0 by reflexivity; lra).
  specialize (IH w). specialize (Hg i Hi).
  replace (a * nth i k 0 + wsum i w ks - (a * nth i l 0 + wsum i w ls)) with
    (a * (nth i k 0 - nth i l 0) + (wsum i w ks - wsum i w ls)) by ring.
  eapply Rle_trans; [apply Rabs_triang|]. rewrite Rabs_mult. apply Rplus_le_compat; auto.
  apply Rmult_le_compat_l; auto. apply Rabs_pos.
Qed.

Lemma comb_near n gs ks ls D x z h w : pairs_near n gs ks ls -> near n D x z -> 0 <= h ->
  length x = n -> length z = n -> (forall k, In k ks -> length k = n) -> (forall k, In k ls -> length k = n) ->
  near n (D + h * abs_sum w gs) (comb x h w ks) (comb z h w ls).
Proof.
  intros Hp Hn Hh Hx Hz Hk Hl i Hi. rewrite !(nth_comb n) by auto.
  pose proof (wsum_near n gs ks ls i Hp Hi w) as B. specialize (Hn i Hi).
  replace (nth i x 0 + h * wsum i w ks - (nth i z 0 + h * wsum i w ls)) with
    ((nth i x 0 - nth i z 0) + h * (wsum i w ks - wsum i w ls)) by ring.
  eapply Rle_trans; [apply Rabs_triang|]. rewrite Rabs_mult, (Rabs_right h) by lra.
  apply Rplus_le_compat; auto. now apply Rmult_le_compat_l.
Qed.

Section Perturb.
Variables (n : nat) (f g : R -> list R -> list R) (L eps : R).
Hypothesis Hf : field_on n f.
Hypothesis Hg : field_on n g.
Hypothesis HL : 0 <= L.
Hypothesis Heps : 0 <= eps.
Hypothesis Hlip : lipschitz n L f.
Hypothesis Hfg : field_near n eps f g.

Lemma stage_growth_pos H rows : 0 <= H -> Forall (Rle 0) (stage_growth L H rows).
Proof.
  intros HH. induction rows as [|r rows IH] using rev_ind; [constructor|].
  unfold stage_growth in *. rewrite stagewise_snoc. apply Forall_app. split; auto. constructor; [|constructor].
  apply Rmult_le_pos; auto. pose proof (abs_sum_pos (snd r) _ IH). assert (0 <= H * abs_sum (snd r) (stagewise (fun g r => L * (1 + H * abs_sum (snd r) g)) rows)) by (apply Rmult_le_pos; auto). lra.
Qed.
Lemma stage_leak_pos H rows : 0 <= H -> Forall (Rle 0) (stage_leak L H rows).
Proof.
  intros HH. induction rows as [|r rows IH] using rev_ind; [constructor|].
  unfold stage_leak in *. rewrite stagewise_snoc. apply Forall_app. split; auto. constructor; [|constructor].
  pose proof (abs_sum_pos (snd r) _ IH) as P.
  assert (0 <= L * H * abs_sum (snd r) (stagewise (fun g r => 1 + L * H * abs_sum (snd r) g) rows)) by (apply Rmult_le_pos; auto; now apply Rmult_le_pos). lra.
Qed.
Lemma growth_pos H rows b : 0 <= H -> 0 <= growth L H rows b.
Proof. intros. now apply abs_sum_pos, stage_growth_pos. Qed.
Lemma leak_pos H rows b : 0 <= H -> 0 <= leak L H rows b.
Proof. intros. now apply abs_sum_pos, stage_leak_pos. Qed.

Definition gaps (H D : R) rows : list R :=
  map (fun p => D * fst p + eps * snd p) (combine (stage_growth L H rows) (stage_leak L H rows)).

Lemma pn_weaken gs gs' ks ls : pairs_near n gs ks ls -> Forall2 Rle gs gs' -> pairs_near n gs' ks ls.
Proof.
  intros H. revert gs'. induction H as [|g' gs k ks l ls Hg' H IH]; intros gs' HF; inversion HF; subst; constructor; auto.
  eapply near_le; eauto.
Qed.

Lemma stages_near H rows t h x z D : 0 <= h <= H -> 0 <= D -> length x = n -> length z = n -> near n D x z ->
  pairs_near n (gaps H D rows) (erk_stages rows f t h x) (erk_stages rows g t h z).
Proof.
  intros Hh HD Hx Hz Hn. induction rows as [|r rows IH] using rev_ind; [constructor|].
  rewrite !stages_snoc. unfold gaps in *. unfold stage_growth, stage_leak in *. rewrite !stagewise_snoc.
  set (G := stagewise (fun g r => L * (1 + H * abs_sum (snd r) g)) rows) in *.
  set (K := stagewise (fun g r => 1 + L * H * abs_sum (snd r) g) rows) in *.
  assert (LGK : length G = length K) by (unfold G, K; now rewrite !stagewise_len).
  assert (E : combine (G ++ [L * (1 + H * abs_sum (snd r) G)]) (K ++ [1 + L * H * abs_sum (snd r) K]) =
     combine G K ++ [(L * (1 + H * abs_sum (snd r) G), 1 + L * H * abs_sum (snd r) K)]).
  { revert LGK. generalize (L * (1 + H * abs_sum (snd r) G)) (1 + L * H * abs_sum (snd r) K). generalize G, K. clear.
    induction G as [|a G IH]; intros [|b K] u v Hl; simpl in *; try discriminate; auto. f_equal. apply IH. lia. }
  rewrite E, map_app. apply pn_snoc; auto. cbn [map fst snd].
  assert (Lf : forall k, In k (erk_stages rows f t h x) -> length k = n) by now apply erk_stages_len.
  assert (Lg : forall k, In k (erk_stages rows g t h z) -> length k = n) by now apply erk_stages_len.
  set (u := comb x h (snd r) (erk_stages rows f t h x)). set (v := comb z h (snd r) (erk_stages rows g t h z)).
  assert (Lu : length u = n) by now apply comb_len. assert (Lv : length v = n) by now apply comb_len.
  assert (B : near n (D + h * abs_sum (snd r) (map (fun p => D * fst p + eps * snd p) (combine G K))) u v)
    by (apply comb_near; auto; lra).
  rewrite abs_sum_lin in B by auto.
  assert (B' : near n (L * (D + h * (D * abs_sum (snd r) G + eps * abs_sum (snd r) K)) + eps) (f (t + fst r * h) u) (g (t + fst r * h) v)).
  { apply (near_trans n _ _ _ (f (t + fst r * h) v)); [now apply Hlip|now apply Hfg]. }
  eapply near_le; [|exact B'].
  assert (PG : 0 <= abs_sum (snd r) G) by (apply abs_sum_pos; apply stage_growth_pos; lra).
  assert (PK : 0 <= abs_sum (snd r) K) by (apply abs_sum_pos; apply stage_leak_pos; lra).
  set (P := abs_sum (snd r) G) in *. set (Q := abs_sum (snd r) K) in *.
  assert (h * (D * P + eps * Q) <= H * (D * P + eps * Q)).
  { apply Rmult_le_compat_r; [|lra]. assert (0 <= D * P) by now apply Rmult_le_pos. assert (0 <= eps * Q) by now apply Rmult_le_pos. lra. }
  replace (D * (L * (1 + H * P)) + eps * (1 + L * H * Q)) with (L * (D + H * (D * P + eps * Q)) + eps) by ring.
  apply Rplus_le_compat_r. apply Rmult_le_compat_l; auto. lra.
Qed.

Lemma step_near H rows b t h x z D : 0 <= h <= H -> 0 <= D -> length x = n -> length z = n -> near n D x z ->
  near n ((1 + h * growth L H rows b) * D + h * leak L H rows b * eps) (erk_step rows b f t h x) (erk_step rows b g t h z).
Proof.
  intros Hh HD Hx Hz Hn. pose proof (stages_near H rows t h x z D Hh HD Hx Hz Hn) as S.
  unfold erk_step. eapply near_le; [|apply comb_near; [exact S|exact Hn|lra|auto|auto|now apply erk_stages_len|now apply erk_stages_len]].
  unfold gaps. rewrite abs_sum_lin by (unfold stage_growth, stage_leak; now rewrite !stagewise_len).
  unfold growth, leak. right. ring.
Qed.

(** along a grid, steps of size at most H in absolute value would need a signed version: here increasing *)
Variables (rows : list (R * list R)) (b : list R) (H : R).
Hypothesis HH : 0 <= H.
Definition pbound (D t0 t : R) : R := exp (growth L H rows b * (t - t0)) * (D + (t - t0) * leak L H rows b * eps).

Lemma pbound_pos D t0 t : 0 <= D -> t0 <= t -> 0 <= pbound D t0 t.
Proof.
  intros HD Ht. unfold pbound. apply Rmult_le_pos; [left; apply exp_pos|].
  assert (0 <= (t - t0) * leak L H rows b * eps) by (repeat apply Rmult_le_pos; try lra; now apply leak_pos). lra.
Qed.

Lemma pbound_step D t0 t h : 0 <= D -> t0 <= t -> 0 <= h ->
  (1 + h * growth L H rows b) * pbound D t0 t + h * leak L H rows b * eps <= pbound D t0 (t + h).
Proof.
  intros HD Ht Hh. unfold pbound. set (Lam := growth L H rows b). set (K := leak L H rows b).
  assert (HLam : 0 <= Lam) by now apply growth_pos. assert (HK : 0 <= K) by now apply leak_pos.
  replace (Lam * (t + h - t0)) with (h * Lam + Lam * (t - t0)) by ring. rewrite exp_plus.
  assert (E1 : 1 + h * Lam <= exp (h * Lam)) by apply exp_ge1.
  assert (HhL : 0 <= h * Lam) by now apply Rmult_le_pos.
  assert (E2 : 1 <= exp (Lam * (t - t0))).
  { eapply Rle_trans; [|apply exp_ge1]. assert (0 <= Lam * (t - t0)) by (apply Rmult_le_pos; lra). lra. }
  set (e1 := exp (h * Lam)) in *. set (e2 := exp (Lam * (t - t0))) in *.
  assert (HKe : 0 <= K * eps) by now apply Rmult_le_pos.
  assert (P : 0 <= e2 * (D + (t - t0) * K * eps)).
  { apply Rmult_le_pos; [lra|]. rewrite Rmult_assoc. assert (0 <= (t - t0) * (K * eps)) by (apply Rmult_le_pos; lra). lra. }
  assert (A1 : (1 + h * Lam) * (e2 * (D + (t - t0) * K * eps)) <= e1 * (e2 * (D + (t - t0) * K * eps))) by (apply Rmult_le_compat_r; auto).
  assert (A2 : 1 * (h * (K * eps)) <= e1 * e2 * (h * (K * eps))).
  { apply Rmult_le_compat_r; [apply Rmult_le_pos; lra|]. rewrite <- (Rmult_1_r 1). apply Rmult_le_compat; lra. }
  replace (e1 * e2 * (D + (t + h - t0) * K * eps)) with (e1 * (e2 * (D + (t - t0) * K * eps)) + e1 * e2 * (h * (K * eps))) by ring.
  replace (h * K * eps) with (1 * (h * (K * eps))) by ring. lra.
Qed.

Lemma traj_near D t0 : 0 <= D -> forall ts t x z, t0 <= t -> length x = n -> length z = n -> near n (pbound D t0 t) x z ->
  increasing (t :: ts) -> steps_at_most H (t :: ts) ->
  forall k a xk zk, nth_error (t :: ts) k = Some a -> nth_error (one_step_traj (erk_step rows b f) x (t :: ts)) k = Some xk ->
    nth_error (one_step_traj (erk_step rows b g) z (t :: ts)) k = Some zk -> near n (pbound D t0 a) xk zk.
Proof.
  intros HD. induction ts as [|t1 ts IH]; intros t x z Ht Hx Hz Hn Hinc Hst k a xk zk Ha Hk Hl.
  - destruct k as [|[|]]; try discriminate. injection Ha as <-. injection Hk as <-. injection Hl as <-. exact Hn.
  - rewrite L_Jagged.traj_cons in Hk, Hl. destruct k as [|k].
    + injection Ha as <-. injection Hk as <-. injection Hl as <-. exact Hn.
    + cbn [nth_error] in Ha, Hk, Hl.
      assert (Hlt : t < t1) by (apply (Hinc 0%nat 1%nat t t1); auto).
      assert (HhH : t1 - t <= H) by (apply (Hst 0%nat); reflexivity).
      apply (IH t1 (erk_step rows b f t (t1 - t) x) (erk_step rows b g t (t1 - t) z)) with (k := k); auto; try lra.
      * now apply erk_step_len.
      * now apply erk_step_len.
      * eapply near_le; [|apply (step_near H); [|apply (pbound_pos D t0 t HD Ht)|auto|auto|exact Hn]]; [|lra].
        pose proof (pbound_step D t0 t (t1 - t) HD Ht ltac:(lra)) as B. replace (t + (t1 - t)) with t1 in B by ring. exact B.
      * intros i j a' b' Hij H1 H2. apply (Hinc (S i) (S j)); auto. lia.
      * intros i a' b' H1 H2. apply (Hst (S i)); auto.
Qed.
End Perturb.
