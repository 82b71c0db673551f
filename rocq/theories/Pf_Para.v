(** Proofs: rate of convergence of parareal. *)
From Coq Require Import ZArith QArith Qreals Reals Lra Lia List Bool.
From Verif Require Import Num Py Tensor M_SolversOde M_Odeint M_MS Spec_Ode Spec_Conv Spec_MS.
From Verif Require Import L_Base L_Fixed L_Fixed2 L_Vec L_Steps L_Steps2 L_Conv L_MS Pf_Fixed Pf_MS.
Import ListNotations.
Local Open Scope R_scope.

Section Rate.
Variables (n : nat) (coarse fine : list R -> list R) (beta delta E : R) (b0 : list R).
Hypotheses (Hbeta : 1 <= beta) (Hdelta : 0 <= delta) (HE : 0 <= E).
Hypotheses (Kc : forall b, length b = n -> length (coarse b) = n) (Kf : forall b, length b = n -> length (fine b) = n) (Hb0 : length b0 = n).
Hypotheses (Lc : forall x y D, length x = n -> length y = n -> near n D x y -> near n (beta * D) (coarse x) (coarse y))
  (Ld : forall x y D, length x = n -> length y = n -> near n D x y ->
     near n (delta * D) (sub_list (fine x) (coarse x)) (sub_list (fine y) (coarse y))).

Definition rate (k m : nat) : R := INR (binomial m k) * delta ^ k * beta ^ (m - k) * E.
Definition good (k : nat) (B : list (list R)) : Prop :=
  forall m b, nth_error B m = Some b -> length b = n /\ near n (rate k m) b (sequential fine b0 m).

Lemma binomial_0 m : binomial m 0 = 1%nat. Proof. destruct m; reflexivity. Qed.
Lemma binomial_lt : forall m k, (m < k)%nat -> binomial m k = 0%nat.
Proof. induction m as [|m IH]; intros [|k] H; try lia; cbn; auto. rewrite !IH; lia. Qed.
Lemma sub_len a b : length a = n -> length b = n -> length (sub_list a b) = n.
Proof. intros H1 H2. unfold sub_list. rewrite map_length, combine_length, H1, H2. apply Nat.min_id. Qed.
Lemma add_len a b : length a = n -> length b = n -> length (add_list a b) = n.
Proof. intros H1 H2. unfold add_list. rewrite map_length, combine_length, H1, H2. apply Nat.min_id. Qed.
Lemma sub_nth a b i : length a = n -> length b = n -> (i < n)%nat -> nth i (sub_list a b) 0 = nth i a 0 - nth i b 0.
Proof.
  intros H1 H2 Hi. unfold sub_list. rewrite (nth_indep _ 0 (fst (0, 0) - snd (0, 0))) by (rewrite map_length, combine_length; lia).
  rewrite (map_nth (fun p => fst p - snd p)), combine_nth by lia. reflexivity.
Qed.
Lemma add_nth a b i : length a = n -> length b = n -> (i < n)%nat -> nth i (add_list a b) 0 = nth i a 0 + nth i b 0.
Proof.
  intros H1 H2 Hi. unfold add_list. rewrite (nth_indep _ 0 (fst (0, 0) + snd (0, 0))) by (rewrite map_length, combine_length; lia).
  rewrite (map_nth (fun p => fst p + snd p)), combine_nth by lia. reflexivity.
Qed.
Lemma seq_length_n m : length (sequential fine b0 m) = n.
Proof. induction m; cbn; auto. Qed.

Lemma rate_pos k m : 0 <= rate k m.
Proof.
  unfold rate. repeat apply Rmult_le_pos; auto using pos_INR; apply pow_le; lra.
Qed.
Lemma rate_step k m : beta * rate (S k) m + delta * rate k m <= rate (S k) (S m).
Proof.
  unfold rate. cbn [binomial Nat.sub]. rewrite plus_INR.
  destruct (Nat.lt_ge_cases m k) as [H|H].
  - rewrite !(binomial_lt m) by lia. cbn [INR]. lra.
  - destruct (Nat.eq_dec m k) as [->|Hne].
    + rewrite (binomial_lt k (S k)) by lia. cbn [INR pow]. lra.
    + replace (m - k)%nat with (S (m - S k)) by lia. cbn [pow]. right. ring.
Qed.

Lemma pass_good k B B' : good k B -> parareal_pass coarse fine (S k) B B' ->
  (forall m b, (m <= k)%nat -> nth_error B m = Some b -> b = sequential fine b0 m) -> good (S k) B'.
Proof.
  intros HG (HL & Hkeep & Hrow) Hex.
  intros m. induction m as [|m IH]; intros b Hb.
  - rewrite Hkeep in Hb by lia. rewrite (Hex 0%nat b) by (auto; lia). split; [apply seq_length_n|].
    intros i Hi. rewrite Rminus_diag_eq, Rabs_R0 by reflexivity. apply rate_pos.
  - destruct (Nat.lt_ge_cases (S m) (S k)) as [Hlt|Hge].
    + rewrite Hkeep in Hb by lia. rewrite (Hex (S m) b) by (auto; lia). split; [apply seq_length_n|].
      intros i Hi. rewrite Rminus_diag_eq, Rabs_R0 by reflexivity. apply rate_pos.
    + assert (Hm : (S m < length B')%nat) by (apply nth_error_Some; congruence).
      destruct (nth_error B' m) as [a|] eqn:Ea; [|apply nth_error_None in Ea; lia].
      destruct (nth_error B m) as [o|] eqn:Eo; [|apply nth_error_None in Eo; lia].
      rewrite (Hrow m a o) in Hb by (auto; lia). injection Hb as <-.
      destruct (IH a eq_refl) as [La Na]. destruct (HG m o Eo) as [Lo No].
      split; [apply add_len; [apply sub_len|]; auto|].
      pose proof (Lc a _ _ La (seq_length_n m) Na) as N1. pose proof (Ld o _ _ Lo (seq_length_n m) No) as N2.
      pose proof (seq_length_n m) as Ls. cbn [sequential]. set (s := sequential fine b0 m) in *.
      intros i Hi. specialize (N1 i Hi). specialize (N2 i Hi).
      rewrite !sub_nth in N2 by auto. rewrite add_nth, sub_nth by (auto; apply sub_len; auto).
      replace (nth i (coarse a) 0 - nth i (coarse o) 0 + nth i (fine o) 0 - nth i (fine s) 0)
        with ((nth i (coarse a) 0 - nth i (coarse s) 0) + ((nth i (fine o) 0 - nth i (coarse o) 0) - (nth i (fine s) 0 - nth i (coarse s) 0))) by ring.
      eapply Rle_trans; [apply Rabs_triang|]. eapply Rle_trans; [|apply rate_step]. lra.
Qed.

Lemma passes_good : forall k i B B', good i B -> parareal_passes coarse fine k (S i) B B' ->
  (forall m b, (m <= i)%nat -> nth_error B m = Some b -> b = sequential fine b0 m) -> good (k + i) B'.
Proof.
  induction k as [|k IH]; intros i B B' HG HP Hex; cbn [parareal_passes Nat.add] in *; [subst; auto|].
  destruct HP as (B1 & H1 & H2). replace (S (k + i)) with (k + S i)%nat by lia. apply (IH (S i) B1 B'); auto.
  - eapply pass_good; eauto.
  - destruct H1 as (HL & Hkeep & Hrow). intros m b Hm Hb.
    destruct (Nat.lt_ge_cases m (S i)) as [Hlt|Hge].
    + rewrite Hkeep in Hb by lia. apply Hex; auto. lia.
    + assert (m = S i) by lia. subst m.
      assert (HmB : (S i < length B1)%nat) by (apply nth_error_Some; congruence).
      destruct (nth_error B i) as [o|] eqn:Eo; [|apply nth_error_None in Eo; lia].
      assert (Ea : nth_error B1 i = Some o) by (rewrite Hkeep by lia; exact Eo).
      rewrite (Hrow i o o) in Hb by (auto; lia). injection Hb as <-.
      rewrite (Hex i o) by (auto; lia). cbn [sequential]. pose proof (seq_length_n i) as Ls. set (s := sequential fine b0 i) in *.
      apply (nth_ext _ _ 0 0); [rewrite add_len, Kf; auto; apply sub_len; auto|].
      intros j Hj. rewrite add_len in Hj by (auto; apply sub_len; auto). rewrite add_nth, sub_nth by (auto; apply sub_len; auto). ring.
Qed.
End Rate.

(** C109.  Rate of parareal (mszero).  If the coarse flow over one interval has Lipschitz constant beta >= 1, the
    difference of the fine and the coarse flow has Lipschitz constant delta, and the initial guess is within E of
    the sequential fine solution, then after maxiter + 1 passes row m is within
    binomial(m, maxiter + 1) delta^(maxiter + 1) beta^(m - maxiter - 1) E of it. *)
Lemma C109_parareal_rate_pf :
  forall coarse fine f oc lc off lf n t0 t1 ts B fine_steps maxiter b0 beta delta E,
  fixed_stepper (s_step coarse) f oc lc -> fixed_stepper (s_step fine) f off lf ->
  keeps_length n oc -> keeps_length n off -> (2 <= fine_steps)%nat -> separated (@linspace0 ROps (t1 - t0) fine_steps) ->
  length B = length (t0 :: t1 :: ts) -> (forall b, In b B -> length b = n) -> nth_error B 0 = Some b0 ->
  (-1 <= maxiter < Z.of_nat (length (t0 :: t1 :: ts)))%Z ->
  let sub := @linspace0 ROps (t1 - t0) fine_steps in
  let G := flow oc sub in let F := flow off sub in
  1 <= beta -> 0 <= delta -> 0 <= E ->
  (forall x y D, length x = n -> length y = n -> near n D x y -> near n (beta * D) (G x) (G y)) ->
  (forall x y D, length x = n -> length y = n -> near n D x y -> near n (delta * D) (sub_list (F x) (G x)) (sub_list (F y) (G y))) ->
  (forall m b, nth_error B m = Some b -> near n E b (sequential F b0 m)) ->
  let k := Z.to_nat (maxiter + 1) in
  exists B', @mszero_root_solve ROps coarse fine f (t0 :: t1 :: ts) B fine_steps maxiter = Ok B' /\ length B' = length B /\
    forall m b, nth_error B' m = Some b ->
      near n (INR (binomial m k) * delta ^ k * beta ^ (m - k) * E) b (sequential F b0 m).
Proof.
  intros coarse fine f oc lc off lf n t0 t1 ts B fine_steps maxiter b0 beta delta E Hc Hf Kc Kf H2 Hs HB Hr H0 Hm sub G F
    Hbeta Hdelta HE LG LD Hguess k.
  destruct (C30_parareal_exact_partial_pf coarse fine f oc lc off lf n t0 t1 ts B fine_steps maxiter b0 Hc Hf Kc Kf H2 Hs HB Hr H0 Hm)
    as (B' & EB & LB & HP & _). fold sub in HP. fold G in HP. fold F in HP. fold k in HP.
  exists B'. split; [exact EB|]. split; [exact LB|].
  assert (Hsl : (2 <= length sub)%nat) by (unfold sub; rewrite linspace0_len; auto).
  assert (KG : forall b, length b = n -> length (G b) = n) by (intros b Hb; apply flow_len; auto; apply (Nat.le_trans _ 2); [lia|exact Hsl]).
  assert (KF : forall b, length b = n -> length (F b) = n) by (intros b Hb; apply flow_len; auto; apply (Nat.le_trans _ 2); [lia|exact Hsl]).
  assert (Lb0 : length b0 = n) by (apply Hr; eapply nth_error_In; eauto).
  pose proof (passes_good n G F beta delta E b0 Hbeta Hdelta HE KG KF Lb0 LG LD k 0 B B') as P.
  rewrite Nat.add_0_r in P. intros m b Hb. apply (P) in Hb; [exact (proj2 Hb)| |exact HP|].
  - intros m' b' Hb'. split; [apply Hr; eapply nth_error_In; eauto|]. intros i Hi.
    eapply Rle_trans; [apply (Hguess m' b' Hb' i Hi)|]. unfold rate. rewrite binomial_0, Nat.sub_0_r. cbn [INR pow].
    pose proof (pow_R1_Rle beta m' Hbeta) as Pb. rewrite !Rmult_1_l. rewrite <- (Rmult_1_l E) at 1. apply Rmult_le_compat_r; lra.
  - intros m' b' Hm' Hb'. assert (m' = 0)%nat by lia. subst m'. rewrite H0 in Hb'. injection Hb' as <-. reflexivity.
Qed.

(** C109: x' = -x/2 with Euler as coarse and the midpoint rule as fine method, one step per interval of length 1,
    three intervals: beta = 1, delta = 1/8, and the guess 8, 4, 2, 1 is within 2 of the fine solution from 8 *)
Definition half_decay : R -> rvec -> rvec := fun _ x => map (fun a => - a / 2) x.
Lemma C109_ex_pf :
  let f := half_decay in
  let sub := @linspace0 ROps (1 - 0) 2 in
  let G := flow (euler_one f) sub in let F := flow (midpoint_one f) sub in
  fixed_stepper (s_step (Euler ROps)) f (euler_one f) euler_log /\ fixed_stepper (s_step (Midpoint ROps)) f (midpoint_one f) (midpoint_log f) /\
  keeps_length 1 (euler_one f) /\ keeps_length 1 (midpoint_one f) /\ separated sub /\
  (forall a, G [a] = [a / 2] /\ F [a] = [5 / 8 * a]) /\
  (forall x y D, length x = 1%nat -> length y = 1%nat -> near 1 D x y -> near 1 (1 * D) (G x) (G y)) /\
  (forall x y D, length x = 1%nat -> length y = 1%nat -> near 1 D x y ->
     near 1 (1 / 8 * D) (sub_list (F x) (G x)) (sub_list (F y) (G y))) /\
  (forall m b, nth_error [[8]; [4]; [2]; [1]] m = Some b -> near 1 2 b (sequential F [8] m)).
Proof.
  cbv zeta. set (sub := @linspace0 ROps (1 - 0) 2).
  assert (Es : sub = [0; 1]) by (unfold sub; rewrite sub2; repeat f_equal; ring).
  assert (EG : forall a, flow (euler_one half_decay) sub [a] = [a / 2]).
  { intros a. rewrite Es. unfold flow. cbn [one_step_traj last]. unfold euler_one, half_decay, vadd, vscale. cbn [map map2]. rops. f_equal. field. }
  assert (EF : forall a, flow (midpoint_one half_decay) sub [a] = [5 / 8 * a]).
  { intros a. rewrite Es. unfold flow. cbn [one_step_traj last]. unfold midpoint_one, midpoint_arg, half_decay, vadd, vscale. cbn [map map2]. rops. f_equal. field. }
  split; [apply euler_stepper|]. split; [apply midpoint_stepper|].
  split; [|split; [|split; [|split; [|split; [|split]]]]].
  - intros t h x Hx. unfold euler_one. apply vadd_len; auto. rewrite vscale_len. unfold half_decay. now rewrite map_length.
  - intros t h x Hx. unfold midpoint_one. apply vadd_len; auto. rewrite vscale_len. unfold half_decay at 1. rewrite map_length. unfold midpoint_arg.
    apply vadd_len; auto. rewrite vscale_len. unfold half_decay. now rewrite map_length.
  - apply sub2_sep. lra.
  - intros a. split; [apply EG|apply EF].
  - intros [|x [|]] [|y [|]] D Hx Hy H i Hi; try discriminate. assert (i = 0)%nat by lia. subst i. specialize (H 0%nat Hi). rewrite !EG. cbn in *.
    replace (x / 2 - y / 2) with (/ 2 * (x - y)) by field. rewrite Rabs_mult, (Rabs_right (/ 2)) by lra. pose proof (Rabs_pos (x - y)). lra.
  - intros [|x [|]] [|y [|]] D Hx Hy H i Hi; try discriminate. assert (i = 0)%nat by lia. subst i. specialize (H 0%nat Hi). rewrite !EG, !EF. cbn in *.
    replace (5 / 8 * x - x / 2 - (5 / 8 * y - y / 2)) with (1 / 8 * (x - y)) by field. rewrite Rabs_mult, (Rabs_right (1 / 8)) by lra. lra.
  - intros m b Hb i Hi. assert (i = 0)%nat by lia. subst i.
    destruct m as [|[|[|[|m]]]]; cbn in Hb; try (destruct m; discriminate); injection Hb as <-; cbn [sequential]; rewrite ?EF; cbn [nth]; apply Rabs_le; lra.
Qed.
