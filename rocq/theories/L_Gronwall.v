(** Solutions of a Lipschitz differential equation separate at most exponentially. *)
From Coq Require Import Reals Lra Lia List Factorial.
From Verif Require Import Num Py Tensor Spec_Conv L_Conv L_Order2.
Import ListNotations.
Local Open Scope R_scope.
Local Notation length := List.length.

Lemma dlim_cont u c l : derivable_pt_lim u c l -> continuity_pt u c.
Proof. intros H. apply derivable_continuous_pt. now exists l. Qed.
Lemma curve_bounded (u du : R -> R) a b : a <= b ->
  (forall c, a <= c <= b -> derivable_pt_lim u c (du c)) -> exists M, 0 <= M /\ forall c, a <= c <= b -> Rabs (u c) <= M.
Proof.
  intros Hab Hd.
  destruct (continuity_ab_maj u a b Hab) as [p [Hp _]]; [intros c Hc; apply (dlim_cont u c (du c)); auto|].
  destruct (continuity_ab_min u a b Hab) as [q [Hq _]]; [intros c Hc; apply (dlim_cont u c (du c)); auto|].
  exists (Rmax (Rabs (u p)) (Rabs (u q))). split.
  - eapply Rle_trans; [apply Rabs_pos|apply Rmax_l].
  - intros c Hc. specialize (Hp c Hc). specialize (Hq c Hc). apply Rabs_le.
    pose proof (Rle_abs (u p)). pose proof (Rle_abs (- u q)). rewrite Rabs_Ropp in H0.
    pose proof (Rmax_l (Rabs (u p)) (Rabs (u q))). pose proof (Rmax_r (Rabs (u p)) (Rabs (u q))). lra.
Qed.
Lemma curves_bounded n (y z dy dz : R -> list R) a b : a <= b -> curve_derivative n a b y dy -> curve_derivative n a b z dz ->
  exists M, 0 <= M /\ forall c, a <= c <= b -> near n M (y c) (z c).
Proof.
  intros Hab Hy Hz. unfold curve_derivative, near in *. revert Hy Hz. generalize n as N. induction N as [|N IH]; intros Hy Hz.
  - exists 0. split; [lra|]. intros c _ i Hi. lia.
  - destruct IH as (M & HM & HB); [intros; apply Hy; auto|intros; apply Hz; auto|].
    destruct (curve_bounded (fun s => nth N (y s) 0 - nth N (z s) 0) (fun s => nth N (dy s) 0 - nth N (dz s) 0) a b Hab) as (M' & HM' & HB').
    { intros c Hc. apply (derivable_pt_lim_minus (fun s => nth N (y s) 0) (fun s => nth N (z s) 0)); auto. }
    exists (Rmax M M'). split; [eapply Rle_trans; [exact HM|apply Rmax_l]|].
    intros c Hc i Hi. destruct (Nat.eq_dec i N) as [->|].
    + eapply Rle_trans; [apply HB'; auto|apply Rmax_r].
    + eapply Rle_trans; [apply HB; auto; lia|apply Rmax_l].
Qed.

Lemma dlim_exp_lin D L a c : derivable_pt_lim (fun s => D * exp (L * (s - a))) c (D * L * exp (L * (c - a))).
Proof.
  assert (D1 : derivable_pt_lim (fun s => L * (s - a)) c L).
  { refine (dlim_ext (fun s => L * s + - L * a) _ c L L _ eq_refl (dlim_lin L (- L * a) c)). intros s. ring. }
  pose proof (derivable_pt_lim_comp _ exp c _ _ D1 (derivable_pt_lim_exp _)) as D2.
  pose proof (derivable_pt_lim_scal _ D c _ D2) as D3.
  eapply dlim_ext; [| |exact D3]; [intros; reflexivity|ring].
Qed.

Section Gronwall.
Variables (n : nat) (f : R -> list R -> list R) (L a b D : R) (y z : R -> list R).
Hypotheses (HL : 0 <= L) (Hlip : lipschitz n L f) (Hy : solves n a b f y) (Hz : solves n a b f z)
  (HD : near n D (y a) (z a)).

Lemma picard M : 0 <= M -> (forall c, a <= c <= b -> near n M (y c) (z c)) -> forall k c, a <= c <= b ->
  near n (D * exp (L * (c - a)) + M * L ^ k * ((c - a) ^ k / INR (fact k))) (y c) (z c).
Proof.
  intros HM HB. destruct (Nat.eq_dec n 0) as [E0|Hn0]; [intros k c _ i Hi; lia|].
  assert (HD0 : 0 <= D) by (eapply Rle_trans; [apply Rabs_pos|apply (HD 0%nat); lia]).
  induction k as [|k IH]; intros c Hc.
  - eapply near_le; [|apply HB; auto]. simpl. assert (0 <= D * exp (L * (c - a))) by (apply Rmult_le_pos; [auto|left; apply exp_pos]).
    replace (M * 1 * (1 / 1)) with M by field. lra.
  - intros i Hi.
    pose proof (diff_bound (fun s => nth i (y s) 0 - nth i (z s) 0) (fun s => nth i (f s (y s)) 0 - nth i (f s (z s)) 0)
      (fun s => D * exp (L * (s - a)) + M * L ^ S k * ((s - a) ^ S k / INR (fact (S k))))
      (fun s => D * L * exp (L * (s - a)) + M * L ^ S k * ((s - a) ^ k / INR (fact k))) a c (proj1 Hc)) as B.
    destruct Hy as [Hyl Hyd], Hz as [Hzl Hzd].
    lapply B; clear B.
    2:{ intros s Hs. apply (derivable_pt_lim_minus (fun s => nth i (y s) 0) (fun s => nth i (z s) 0)); [apply Hyd|apply Hzd]; auto; lra. }
    intros B. lapply B; clear B.
    2:{ intros s Hs. apply (derivable_pt_lim_plus (fun s => D * exp (L * (s - a))) (fun s => M * L ^ S k * ((s - a) ^ S k / INR (fact (S k))))).
        - apply dlim_exp_lin.
        - apply (derivable_pt_lim_scal (fun s => (s - a) ^ S k / INR (fact (S k))) (M * L ^ S k)). apply dlim_pow. }
    intros B. lapply B; clear B.
    2:{ intros s Hs. specialize (IH s ltac:(lra)). pose proof (Hlip s _ _ _ (Hyl s) (Hzl s) IH i Hi) as Q.
        eapply Rle_trans; [exact Q|]. right. simpl. ring. }
    intros B. cbv beta in B.
    replace ((a - a) ^ S k) with 0 in B by (rewrite Rminus_diag_eq by reflexivity; simpl; ring).
    replace (L * (a - a)) with 0 in B by ring. rewrite exp_0 in B.
    replace (M * L ^ S k * (0 / INR (fact (S k)))) with 0 in B by (unfold Rdiv; ring).
    pose proof (HD i Hi) as H0.
    replace (nth i (y c) 0 - nth i (z c) 0) with
      ((nth i (y c) 0 - nth i (z c) 0 - (nth i (y a) 0 - nth i (z a) 0)) + (nth i (y a) 0 - nth i (z a) 0)) by ring.
    eapply Rle_trans; [apply Rabs_triang|]. lra.
Qed.

Lemma gronwall c : a <= c <= b -> near n (D * exp (L * (c - a))) (y c) (z c).
Proof.
  intros Hc. destruct (curves_bounded n y z _ _ a b ltac:(lra) (proj2 Hy) (proj2 Hz)) as (M & HM & HB).
  intros i Hi. apply le_epsilon. intros eps Heps.
  destruct (cv_speed_pow_fact (L * (c - a)) (eps / (M + 1))) as [N HN]; [apply Rdiv_lt_0_compat; lra|].
  specialize (HN N (le_n _)). unfold R_dist in HN. rewrite Rminus_0_r in HN.
  eapply Rle_trans; [apply (picard M HM HB N c Hc i Hi)|]. apply Rplus_le_compat_l.
  replace (M * L ^ N * ((c - a) ^ N / INR (fact N))) with (M * ((L * (c - a)) ^ N / INR (fact N))) by (rewrite Rpow_mult_distr; unfold Rdiv; ring).
  eapply Rle_trans; [apply Rle_abs|]. rewrite Rabs_mult, (Rabs_right M) by lra.
  apply Rle_trans with (M * (eps / (M + 1))); [apply Rmult_le_compat_l; lra|].
  apply Rmult_le_reg_r with (M + 1); [lra|]. replace (M * (eps / (M + 1)) * (M + 1)) with (M * eps) by (field; lra). nra.
Qed.
End Gronwall.
