(** Every state returned by a built-in ODE solver is reached by steps of its tableau, or is dense
    output of such a step. *)
From Coq Require Import ZArith QArith Qreals Reals Lra Lia List Bool Sorted.
From Verif Require Import Num Py Tensor M_Constants M_SolversOde M_Utils M_Interp M_Odeint.
From Verif Require Import Spec_Ode Spec_Trees Spec_RK Spec_Norm Spec_Adaptive Spec_Inv.
From Verif Require Import L_Base L_Fixed L_Vec L_Steps L_Tables L_Steps2 L_Interp L_Utils L_Fixed2 L_Adaptive L_Run.
From Verif Require Import L_Adaptive2 L_Adaptive3 L_Adaptive4 Pf_Fixed Pf_Adaptive.
Import ListNotations.
Local Open Scope R_scope.

(** The solvers of odeint that are explicit Runge-Kutta methods, with their tableaux *)
Definition builtin_fixed (s : solver ROps (vec ROps)) (rows : list (R * list R)) (b : list R) : Prop :=
  (s = Euler ROps /\ rows = to_R_rows q_euler /\ b = to_R qb_euler) \/
  (s = Midpoint ROps /\ rows = to_R_rows q_midpoint /\ b = to_R qb_midpoint) \/
  (s = RungeKutta4 ROps /\ rows = to_R_rows q_rk4_code /\ b = to_R qb_rk4).
Definition builtin_method (s : solver ROps (vec ROps)) (rows : list (R * list R)) (b : list R) : Prop :=
  builtin_fixed s rows b \/ exists bh, builtin_pair s rows b bh.

Lemma builtin_fixed_erk s rows b : builtin_fixed s rows b -> erk_solver s rows b.
Proof.
  intros [(-> & -> & ->)|[(-> & -> & ->)|(-> & -> & ->)]];
    [apply C05_euler_pf|apply C05_midpoint_pf|apply C05_rk4_pf].
Qed.

(** Outputs *)
Definition output (s : solver ROps (vec ROps)) (interp : bool) rows b f t0 x (t : R) (y : list R) : Prop :=
  reached rows b f t0 x t y \/
  (s = DormandPrince45 ROps /\ interp = true /\
   exists t1 h y1, reached rows b f t0 x t1 y1 /\ h <> 0 /\ y = pair_dense rows b (construct_4th ROps) f t1 h y1 t).

Lemma reached_len rows b f t0 x n t y : field_on n f -> length x = n -> reached rows b f t0 x t y -> length y = n.
Proof. intros Hf Hx. induction 1; auto. now apply erk_step_len. Qed.

Lemma traj_reached rows b f t0 x : forall ts t y, reached rows b f t0 x t y ->
  forall i c z, nth_error (t :: ts) i = Some c -> nth_error (one_step_traj (erk_step rows b f) y (t :: ts)) i = Some z ->
  reached rows b f t0 x c z.
Proof.
  induction ts as [|t1 ts IH]; intros t y Hr i c z Hc Hz.
  - destruct i as [|i]; [|destruct i; discriminate]. injection Hc as <-. injection Hz as <-. auto.
  - rewrite (traj_hd (erk_step rows b f) y t (t1 :: ts)) in Hz. destruct i as [|i].
    + injection Hc as <-. injection Hz as <-. auto.
    + refine (IH t1 (erk_step rows b f t (t1 - t) y) _ i c z Hc Hz).
      replace t1 with (t + (t1 - t)) at 1 by ring. now constructor.
Qed.

Lemma traj_in {X} one (x : X) ts z : In z (one_step_traj one x ts) ->
  exists i c, nth_error ts i = Some c /\ nth_error (one_step_traj one x ts) i = Some z.
Proof.
  intros H. destruct (In_nth_error _ _ H) as [i Hi]. exists i.
  assert (L : (i < length ts)%nat).
  { rewrite <- (traj_length one x ts). apply nth_error_Some. congruence. }
  destruct (nth_error ts i) eqn:E; [eauto|]. apply nth_error_None in E. lia.
Qed.

Lemma select_in {X} sv ts (xs : list X) z : In z (select sv ts xs) -> In z xs.
Proof.
  revert xs; induction ts as [|a ts IH]; intros [|x xs] H; simpl in *; try contradiction.
  destruct (Nat.eqb (@isclose_count ROps a sv) 0); simpl in H.
  - right; auto.
  - destruct H as [->|H]; auto.
Qed.

Lemma mono_opp ts : decreasing ts -> increasing (map Ropp ts).
Proof.
  intros Hdec i j u v Hij Hu Hv. rewrite nth_error_map in Hu, Hv.
  destruct (nth_error ts i) as [u'|] eqn:Eu; [|discriminate].
  destruct (nth_error ts j) as [v'|] eqn:Ev; [|discriminate].
  injection Hu as <-. injection Hv as <-. pose proof (Hdec i j u' v' Hij Eu Ev). lra.
Qed.

(** fixed-step *)
Lemma fixed_sol fuel s rows b n f x t0 t1 ts atol rtol interp all save_at semi times sol :
  erk_solver s rows b -> field_on n f -> length x = n ->
  snd (@odeint ROps fuel f x (@TTensor ROps (t0 :: t1 :: ts)) s atol rtol interp all save_at semi) = Ok (times, sol) ->
  (forall z, In z sol -> In z (one_step_traj (erk_step rows b f) x (t0 :: t1 :: ts))) /\
  (save_at = [] -> sol = one_step_traj (erk_step rows b f) x (t0 :: t1 :: ts) /\
     (t0 <= t1 -> times = t0 :: t1 :: ts) /\ (t1 < t0 -> times = map Ropp (t0 :: t1 :: ts))).
Proof.
  intros [Hfix Hs] Hf Hx Hr.
  assert (G : forall g l, field_on n g -> (2 <= length l)%nat ->
     one_step_traj (erk_step rows b g) x l = one_step_traj (erk_step rows b f) x (t0 :: t1 :: ts) ->
     snd (@fixed_odeint ROps (vec ROps) g x l (s_step s) save_at) = Ok (times, sol) ->
     (forall z, In z sol -> In z (one_step_traj (erk_step rows b f) x (t0 :: t1 :: ts))) /\
     (save_at = [] -> sol = one_step_traj (erk_step rows b f) x (t0 :: t1 :: ts) /\ times = l)).
  { intros g l Hg Hl E Hr'. destruct (Hs n g Hg) as (one & lg & Hst & Hone).
    destruct (fixed_odeint_full g (s_step s) one lg Hst x l save_at) as (Ha & _ & Hc).
    set (sv := match save_at with [] => l | _ => save_at end) in *.
    assert (Hsep : separated sv).
    { destruct (Classical_Prop.classic (separated sv)) as [H|H]; auto. pose proof (eq_trans (eq_sym Hr') (f_equal snd (Ha H))) as Hbad. discriminate. }
    specialize (Hc Hsep Hl). apply (f_equal snd) in Hc. cbn [snd] in Hc. pose proof (eq_trans (eq_sym Hc) Hr') as Hr2. clear Ha Hc Hr'.
    assert (Et : one_step_traj one x l = one_step_traj (erk_step rows b f) x (t0 :: t1 :: ts)).
    { rewrite <- E. apply (one_step_traj_ext (erk_step rows b g) one (fun y => length y = n)); auto.
      intros t h y Hy. now apply erk_step_len. }
    assert (Hr3 : match @select (list R) sv l (one_step_traj one x l) with [] => Err IndexError | _ =>
       Ok (sv, @select (list R) sv l (one_step_traj one x l)) end = Ok (times, sol)) by exact Hr2.
    clear Hr2. rename Hr3 into Hr2. rewrite Et in Hr2.
    assert (Es : sol = select sv l (one_step_traj (erk_step rows b f) x (t0 :: t1 :: ts)) /\ times = sv).
    { destruct (select sv l (one_step_traj (erk_step rows b f) x (t0 :: t1 :: ts))); [discriminate|].
      injection Hr2 as <- <-. auto. }
    destruct Es as [-> ->].
    split; [intros z; apply select_in|]. intros ->. split; auto. subst sv. cbv iota. 
    apply select_all; auto. rewrite <- Et. symmetry. apply traj_length. }
  destruct (Rlt_le_dec t1 t0) as [Hlt|Hle].
  - pose proof (eq_trans (eq_sym (f_equal snd (odeint_fixed_dec fuel s atol rtol interp all semi Hfix f x t0 t1 ts save_at Hlt))) Hr) as Hr'.
    destruct (G (@neg_field ROps f) (map Ropp (t0 :: t1 :: ts))) as [H1 H2]; auto.
    + now apply neg_field_on.
    + simpl; lia.
    + apply (traj_neg (erk_step rows b f) _ (fun y => length y = n)); auto.
      * intros t h y _. apply erk_step_neg.
      * intros t h y Hy. now apply erk_step_len.
    + split; auto. intros E. destruct (H2 E) as [-> ->]. split; auto. split; auto. intros; lra.
  - pose proof (eq_trans (eq_sym (f_equal snd (odeint_fixed_inc fuel s atol rtol interp all semi Hfix f x t0 t1 ts save_at Hle))) Hr) as Hr'.
    destruct (G f (t0 :: t1 :: ts)) as [H1 H2]; auto.
    + simpl; lia.
    + split; auto. intros E. destruct (H2 E) as [-> ->]. split; auto. split; auto. intros; lra.
Qed.

(** adaptive *)
Lemma chain_reached rows b f t0 x (acc : R -> R -> list R -> list R -> Prop) : (forall t h y y', acc t h y y' -> y' = erk_step rows b f t h y) ->
  forall ta ya tb yb, chain acc ta ya tb yb -> reached rows b f t0 x ta ya -> reached rows b f t0 x tb yb.
Proof. intros Ha ta ya tb yb H. induction H as [|t h y y' t2 y2 Hh Hc H IH]; auto. intros Hr. apply IH. rewrite (Ha _ _ _ _ Hc). now constructor. Qed.

Lemma run_reached rows b f t0 x (acc : R -> R -> list R -> list R -> Prop) dn ip all req times xs :
  (forall t h y y', acc t h y y' -> y' = erk_step rows b f t h y) ->
  run acc dn ip all t0 x req times xs ->
  forall i c z, nth_error (t0 :: times) i = Some c -> nth_error (x :: xs) i = Some z ->
  reached rows b f t0 x c z \/
  (ip = true /\ exists t1 h y1, reached rows b f t0 x t1 y1 /\ h <> 0 /\ z = dn t1 h y1 c).
Proof.
  intros Ha Hrun i c z Hc Hz. destruct i as [|i].
  - injection Hc as <-. injection Hz as <-. left. constructor.
  - cbn [nth_error] in *.
    destruct (run_outputs _ _ _ _ _ Hrun t0 x ltac:(apply chain_nil) i c z Hc Hz)
      as [H|(Hi & t1 & y1 & h & y2 & Hch & _ & Hh & Hd)].
    + left. eapply chain_reached; eauto. constructor.
    + right. split; auto. exists t1, h, y1. split; [eapply chain_reached; eauto; constructor|]. split; auto. lra.
Qed.

Lemma reached_neg rows b f t0 x t y : reached rows b (@neg_field ROps f) (- t0) x t y -> reached rows b f t0 x (- t) y.
Proof.
  induction 1 as [|t h y Hr IH].
  - rewrite Ropp_involutive. constructor.
  - replace t with (- - t) at 2 by ring. rewrite erk_step_neg.
    replace (- (t + h)) with (- t + - h) by ring. now constructor.
Qed.

Lemma dense_neg rows b bm n f t h y c : field_on n f -> length y = n -> h <> 0 ->
  pair_dense rows b bm (@neg_field ROps f) t h y c = pair_dense rows b bm f (- t) (- h) y (- c).
Proof.
  intros Hf Hy Hh. unfold pair_dense. apply map_ext_in. intros i Hi. apply in_seq in Hi.
  assert (Hi' : (i < n)%nat) by lia. clear Hi.
  assert (Es : forall w, erk_step rows w (@neg_field ROps f) t h y = erk_step rows w f (- t) (- h) y).
  { intros w. replace t with (- - t) at 1 by ring. apply erk_step_neg. }
  rewrite !Es.
  assert (En : forall u v, length v = n -> nth i (@neg_field ROps f u v) 0 = - nth i (f (- u) v) 0).
  { intros u v Hv. unfold neg_field. apply (nth_vopp n i Hi'). now apply Hf. }
  rewrite !En by (auto; apply erk_step_len; auto).
  replace (- (t + h)) with (- t + - h) by ring.
  replace ((- c - - t) / - h) with ((c - t) / h) by (field; auto).
  unfold quartic_interp. ring.
Qed.

Lemma adaptive_output fuel s rows b bh n f x t0 t1 ts atol rtol interp all save_at semi times sol :
  builtin_pair s rows b bh -> field_on n f -> length x = n -> monotone (t0 :: t1 :: ts) ->
  snd (@odeint ROps fuel f x (@TTensor ROps (t0 :: t1 :: ts)) s atol rtol interp all save_at semi) = Ok (times, sol) ->
  length sol = length times /\
  forall i c z, nth_error times i = Some c -> nth_error sol i = Some z ->
  output s interp rows b f t0 x (if Rlt_dec t1 t0 then - c else c) z.
Proof.
  intros HP Hf Hx Hm Hr.
  assert (Hdp : forall ip, interp_on s interp = ip -> ip = true -> s = DormandPrince45 ROps /\ interp = true).
  { intros ip Hip ->. destruct HP as [(-> & _)|(-> & _)]; unfold interp_on in Hip.
    - split; auto. destruct interp; auto; discriminate.
    - destruct interp; discriminate. }
  destruct Hm as [Hinc|Hdec].
  - assert (Hlt : t0 < t1) by (apply (Hinc 0%nat 1%nat); auto).
    destruct (Rlt_dec t1 t0) as [H|_]; [lra|].
    apply increasing_sorted in Hinc.
    destruct (odeint_run s rows b bh (builtin_embedded _ _ _ _ HP) n f Hf _ _ _ _ _ _ _ _ _ _ _ _ _ Hinc Hx Hr)
      as (times' & sol' & -> & -> & Hrun).
    split; [cbn [length]; f_equal; exact (run_lengths _ _ _ _ _ Hrun)|].
    intros i c z Hc Hz.
    destruct (run_reached rows b f t0 x (pair_accepts rows b bh f atol rtol semi) _ _ _ _ _ _ ltac:(intros ? ? ? ? [E _]; exact E) Hrun i c z Hc Hz) as [H|(Hi & H)].
    + now left.
    + right. destruct (Hdp _ eq_refl Hi) as [-> ->]. auto.
  - assert (Hlt : t1 < t0) by (apply (Hdec 0%nat 1%nat); auto).
    destruct (Rlt_dec t1 t0) as [_|H]; [|lra].
    destruct (C20_reversed_run_partial_pf fuel s rows b bh n f x t0 t1 ts atol rtol interp all save_at semi times sol HP Hf Hx Hdec Hr)
      as (times' & sol' & -> & -> & Hrun).
    split; [cbn [length]; f_equal; exact (run_lengths _ _ _ _ _ Hrun)|].
    intros i c z Hc Hz. change (reversed f) with (@neg_field ROps f) in Hrun.
    destruct (run_reached rows b (@neg_field ROps f) (- t0) x (pair_accepts rows b bh (@neg_field ROps f) atol rtol semi) _ _ _ _ _ _ ltac:(intros ? ? ? ? [E _]; exact E) Hrun i c z Hc Hz)
      as [H|(Hi & u & h & y1 & Hr1 & Hh & Hd)].
    + left. now apply reached_neg.
    + right. destruct (Hdp _ eq_refl Hi) as [-> ->]. split; auto. split; auto.
      exists (- u), (- h), y1. split; [now apply reached_neg|]. split; [lra|].
      rewrite Hd. apply (dense_neg rows b _ n); auto. eapply (reached_len rows b (@neg_field ROps f) (- t0) x n); eauto.
      now apply neg_field_on.
Qed.

(** all solvers *)
Lemma odeint_output fuel s rows b n f x ts atol rtol interp all save_at semi times sol :
  builtin_method s rows b -> field_on n f -> length x = n -> monotone ts -> (2 <= length ts)%nat ->
  snd (@odeint ROps fuel f x (@TTensor ROps ts) s atol rtol interp all save_at semi) = Ok (times, sol) ->
  forall z, In z sol -> exists t0 t, output s interp rows b f t0 x t z.
Proof.
  intros HM Hf Hx Hm Hl Hr z Hz. destruct ts as [|t0 [|t1 ts]]; simpl in Hl; try lia.
  destruct HM as [HM|[bh HP]].
  - destruct (fixed_sol fuel s rows b n f x t0 t1 ts atol rtol interp all save_at semi times sol (builtin_fixed_erk _ _ _ HM) Hf Hx Hr) as [H _].
    destruct (traj_in _ _ _ _ (H z Hz)) as (i & c & Hc & Hi).
    exists t0, c. left. eapply traj_reached; eauto. constructor.
  - destruct (adaptive_output fuel s rows b bh n f x t0 t1 ts atol rtol interp all save_at semi times sol HP Hf Hx Hm Hr) as [HL H].
    destruct (In_nth_error _ _ Hz) as [i Hi]. destruct (nth_error times i) as [c|] eqn:Ec.
    + exists t0. eexists. eapply H; eauto.
    + apply nth_error_None in Ec. assert (i < length sol)%nat by (apply nth_error_Some; congruence). lia.
Qed.

Lemma odeint_output_inc fuel s rows b n f x t0 ts atol rtol interp all semi times sol :
  builtin_method s rows b -> field_on n f -> length x = n -> increasing (t0 :: ts) -> (1 <= length ts)%nat ->
  snd (@odeint ROps fuel f x (@TTensor ROps (t0 :: ts)) s atol rtol interp all [] semi) = Ok (times, sol) ->
  length sol = length times /\
  forall i c z, nth_error times i = Some c -> nth_error sol i = Some z -> output s interp rows b f t0 x c z.
Proof.
  intros HM Hf Hx Hm Hl Hr. destruct ts as [|t1 ts]; simpl in Hl; try lia.
  assert (Hlt : t0 < t1) by (apply (Hm 0%nat 1%nat); auto).
  destruct HM as [HM|[bh HP]].
  - destruct (fixed_sol fuel s rows b n f x t0 t1 ts atol rtol interp all [] semi times sol (builtin_fixed_erk _ _ _ HM) Hf Hx Hr) as [_ H].
    destruct (H eq_refl) as (-> & Ht & _). rewrite (Ht ltac:(lra)). split; [apply traj_length|].
    intros i c z Hc Hz. left. eapply traj_reached; eauto. constructor.
  - destruct (adaptive_output fuel s rows b bh n f x t0 t1 ts atol rtol interp all [] semi times sol HP Hf Hx (or_introl Hm) Hr) as [HL H].
    split; auto. intros i c z Hc Hz. specialize (H i c z Hc Hz). destruct (Rlt_dec t1 t0); [lra|]. exact H.
Qed.
