(** Consequences of the description of the fixed-step routine. *)
From Coq Require Import ZArith QArith Qreals Reals Lra Lia List Bool.
From Verif Require Import Num Py Tensor M_Constants M_SolversOde M_Utils M_Interp M_Odeint.
From Verif Require Import Spec_Ode Spec_Trees Spec_RK L_Base L_Fixed L_Vec L_Steps.
Import ListNotations.
Local Open Scope R_scope.

Lemma select_all {X} (sv ts : list R) (xs : list X) :
  (forall t, In t ts -> In t sv) -> length ts = length xs -> select sv ts xs = xs.
Proof.
  revert xs; induction ts as [|t ts IH]; destruct xs as [|x xs]; simpl; intros Hin Hl; try discriminate; auto.
  destruct (Nat.eqb_spec (@isclose_count ROps t sv) 0) as [E|E].
  - exfalso. rewrite isclose_count_zero in E. apply (E t); [apply Hin; now left|apply close_to_refl].
  - f_equal. apply IH; auto.
Qed.

Lemma select_pick {X} (mask : list bool) (ts : list R) (xs : list X) :
  separated ts -> length mask = length ts -> length xs = length ts ->
  select (pick mask ts) ts xs = pick mask xs.
Proof.
  assert (G : forall pre mask ts (xs : list X) sv, separated (pre ++ ts) ->
    length mask = length ts -> length xs = length ts ->
    (forall s, In s sv -> In s pre \/ In s (pick mask ts)) ->
    (forall s, In s (pick mask ts) -> In s sv) ->
    select sv ts xs = pick mask xs).
  { clear. intros pre mask ts; revert pre mask. induction ts as [|t ts IH]; intros pre mask xs sv Hs Hm Hx H1 H2.
    - destruct mask, xs; try discriminate; reflexivity.
    - destruct mask as [|b mask]; [discriminate|]. destruct xs as [|x xs]; [discriminate|].
      simpl in Hm, Hx. injection Hm as Hm. injection Hx as Hx.
      assert (Hs' : separated ((pre ++ [t]) ++ ts)) by (rewrite <- app_assoc; exact Hs).
      cbn [select pick].
      assert (Hpick : forall s, In s (pick mask ts) -> In s ts).
      { clear. revert mask. induction ts as [|u ts IH]; intros [|[] mask] s; simpl; auto; try tauto.
        - intros [<-|H]; eauto.
        - intros H; eauto. }
      destruct b; cbn [pick] in *.
      + destruct (Nat.eqb_spec (@isclose_count ROps t sv) 0) as [E|E].
        { exfalso. rewrite isclose_count_zero in E. apply (E t); [|apply close_to_refl]. apply H2; now left. }
        f_equal. apply (IH (pre ++ [t])); auto.
        * intros s Hsv. destruct (H1 s Hsv) as [Hp|[<-|Hp]]; auto; left; apply in_or_app; [left; auto|right; now left].
        * intros s Hp. apply H2. now right.
      + destruct (Nat.eqb_spec (@isclose_count ROps t sv) 0) as [E|E].
        * apply (IH (pre ++ [t])); auto.
          intros s Hsv. destruct (H1 s Hsv) as [Hp|Hp]; auto; left; apply in_or_app; left; auto.
        * exfalso. apply isclose_count_pos in E. destruct E as [s [Hsv Hc]].
          assert (Ht : nth_error (pre ++ t :: ts) (length pre) = Some t)
            by (rewrite nth_error_app2, Nat.sub_diag by lia; reflexivity).
          destruct (H1 s Hsv) as [Hp|Hp].
          -- apply In_nth_error in Hp. destruct Hp as [i Hi].
             assert (Hlt : (i < length pre)%nat) by (apply nth_error_Some; congruence).
             refine (Hs (length pre) i t s _ Ht _ Hc); [lia|]. rewrite nth_error_app1 by lia. exact Hi.
          -- apply Hpick, In_nth_error in Hp. destruct Hp as [i Hi].
             refine (Hs (length pre) (length pre + S i)%nat t s _ Ht _ Hc); [lia|].
             rewrite nth_error_app2 by lia. replace (length pre + S i - length pre)%nat with (S i) by lia. exact Hi. }
  intros Hs Hm Hx. apply (G [] mask ts xs (pick mask ts)); auto.
Qed.

Lemma pick_nth_error {A} (mask : list bool) (l : list A) i a :
  nth_error (pick mask l) i = Some a -> exists j, (i <= j)%nat /\ nth_error l j = Some a.
Proof.
  revert mask i; induction l as [|x l IH]; intros [|[] mask] i; simpl; intros H; try (destruct i; discriminate).
  - destruct i as [|i]; simpl in H.
    + exists 0%nat; auto.
    + apply IH in H. destruct H as [j [Hj H]]. exists (S j); split; [lia|auto].
  - apply IH in H. destruct H as [j [Hj H]]. exists (S j); split; [lia|auto].
Qed.

Lemma separated_tl a l : separated (a :: l) -> separated l.
Proof. intros H i j x y Hij Hx Hy. apply (H (S i) (S j)); auto. Qed.

Lemma separated_pick mask ts : separated ts -> separated (pick mask ts).
Proof.
  revert mask; induction ts as [|t ts IH]; intros [|[] mask] H; simpl;
    try (intros i j x y _ Hx; destruct i; discriminate).
  2: { apply IH; now apply separated_tl in H. }
  pose proof (IH mask (separated_tl _ _ H)) as IHm.
  intros [|i] [|j] x y Hij Hx Hy; simpl in Hx, Hy.
  - congruence.
  - injection Hx as <-. destruct (pick_nth_error mask ts j y Hy) as [k [Hk Hy']].
    apply (H 0%nat (S k)); auto.
  - injection Hy as <-. destruct (pick_nth_error mask ts i x Hx) as [k [Hk Hx']].
    apply (H (S k) 0%nat); auto.
  - apply (IHm i j); auto.
Qed.

Lemma pick_length {A} mask (l : list A) m (l' : list m) : length l = length l' ->
  length (pick mask l) = length (pick mask l').
Proof.
  revert mask l'; induction l as [|x l IH]; intros [|[] mask] [|y l']; simpl; intros H; auto; try discriminate.
Qed.

(** ** Separation from spacing *)
Lemma close_to_sym_bound a b M : Rabs a <= M -> Rabs b <= M ->
  close_to a b -> Rabs (a - b) <= 1 / 100000000 + 1 / 100000 * M.
Proof. unfold close_to. intros. lra. Qed.

Lemma spaced_separated (l : list R) (M g : R) :
  (forall t, In t l -> Rabs t <= M) ->
  1 / 100000000 + 1 / 100000 * M < g ->
  (forall i j a b, (i < j)%nat -> nth_error l i = Some a -> nth_error l j = Some b -> a + g <= b) ->
  separated l.
Proof.
  intros HM Hg H i j a b Hij Ha Hb Hc.
  assert (HMp : 0 <= M) by (apply Rle_trans with (Rabs a); [apply Rabs_pos|eapply HM, nth_error_In; eauto]).
  apply (close_to_sym_bound a b M) in Hc; [|eapply HM, nth_error_In; eauto|eapply HM, nth_error_In; eauto].
  destruct (Nat.lt_total i j) as [Hlt|[Heq|Hgt]]; [|contradiction|].
  - specialize (H i j a b Hlt Ha Hb). rewrite Rabs_left1 in Hc by lra. lra.
  - specialize (H j i b a Hgt Hb Ha). rewrite Rabs_right in Hc by lra. lra.
Qed.

(** ** odeint for fixed-step solvers *)
Section OdeintFixed.
Context (fuel : nat) (s : solver ROps (vec ROps)) (atol rtol : R) (interp all : bool) (semi : option nat).
Hypothesis Hfixed : s_fixed s = true.

Lemma odeint_fixed_inc f x t0 t1 ts (sv : list R) : t0 <= t1 ->
  @odeint ROps fuel f x (@TTensor ROps (t0 :: t1 :: ts)) s atol rtol interp all sv semi =
  @fixed_odeint ROps (vec ROps) f x (t0 :: t1 :: ts) (s_step s) sv.
Proof.
  intros H. unfold odeint, prep_time. cbn [ts_list pyget nth_error rbind].
  rops. rewrite (proj2 (Rltb_false t1 t0)) by lra. unfold mlift. rewrite mbind_Ok.
  cbn [app]. rewrite Hfixed. match goal with |- (_, snd ?a) = _ => now destruct a end.
Qed.
Lemma odeint_fixed_dec f x t0 t1 ts (sv : list R) : t1 < t0 ->
  @odeint ROps fuel f x (@TTensor ROps (t0 :: t1 :: ts)) s atol rtol interp all sv semi =
  @fixed_odeint ROps (vec ROps) (@neg_field ROps f) x (map Ropp (t0 :: t1 :: ts)) (s_step s) sv.
Proof.
  intros H. unfold odeint, prep_time. cbn [ts_list pyget nth_error rbind].
  rops. rewrite (proj2 (Rltb_true t1 t0)) by lra. unfold mlift. rewrite mbind_Ok.
  cbn [app]. rewrite Hfixed.
  match goal with |- (_, snd ?a) = _ => now destruct a end.
Qed.

Lemma fixed_default f one lg x ts : fixed_stepper (s_step s) f one lg ->
  (2 <= length ts)%nat -> separated ts ->
  @fixed_odeint ROps (vec ROps) f x ts (s_step s) [] = (traj_log one lg x ts, Ok (ts, one_step_traj one x ts)).
Proof.
  intros Hst Hlen Hsep.
  destruct (fixed_odeint_full f (s_step s) one lg Hst x ts []) as (_ & _ & H).
  specialize (H Hsep Hlen). etransitivity; [exact H|]. clear H. rops.
  rewrite select_all by (auto; symmetry; apply traj_length).
  destruct ts as [|a [|b ts]]; simpl in Hlen; try lia. reflexivity.
Qed.

Lemma fixed_save f one lg x ts mask : fixed_stepper (s_step s) f one lg ->
  (2 <= length ts)%nat -> separated ts -> length mask = length ts -> pick mask ts <> [] ->
  @fixed_odeint ROps (vec ROps) f x ts (s_step s) (pick mask ts) =
  (traj_log one lg x ts, Ok (pick mask ts, pick mask (one_step_traj one x ts))).
Proof.
  intros Hst Hlen Hsep Hm Hne.
  destruct (fixed_odeint_full f (s_step s) one lg Hst x ts (pick mask ts)) as (_ & _ & H).
  assert (E : match pick mask ts with [] => ts | _ => pick mask ts end = pick mask ts)
    by (destruct (pick mask ts); congruence).
  rewrite E in H. specialize (H (separated_pick _ _ Hsep) Hlen). etransitivity; [exact H|]. clear H.
  rewrite select_pick by (auto; apply traj_length).
  assert (L : length (pick mask (one_step_traj one x ts)) = length (pick mask ts)).
  { apply pick_length. apply traj_length. }
  destruct (pick mask (one_step_traj one x ts)) eqn:Ep; auto.
  destruct (pick mask ts); [congruence|discriminate].
Qed.
End OdeintFixed.

(** ** Semigroup *)
Lemma last_traj_app {X} one (x : X) pre t d :
  exists xs xm, one_step_traj one x (pre ++ [t]) = xs ++ [xm] /\
    last (one_step_traj one x (pre ++ [t])) d = xm /\
    forall post, one_step_traj one x (pre ++ t :: post) = xs ++ one_step_traj one xm (t :: post).
Proof.
  revert x; induction pre as [|p pre IH]; intros x.
  - exists [], x. repeat split; auto.
  - destruct pre as [|p1 pre].
    + simpl app in *. specialize (IH (one p (t - p) x)). destruct IH as (xs & xm & E & El & Ep).
      exists (x :: xs), xm. simpl in *.
      destruct xs as [|y xs]; [|destruct xs; discriminate]. simpl in *. injection E as E.
      subst xm. repeat split; auto.
    + specialize (IH (one p (p1 - p) x)). destruct IH as (xs & xm & E & El & Ep).
      exists (x :: xs), xm.
      assert (Hc : forall l, one_step_traj one x ((p :: p1 :: pre) ++ l) =
         x :: one_step_traj one (one p (p1 - p) x) ((p1 :: pre) ++ l)) by reflexivity.
      rewrite !Hc, E. repeat split.
      * simpl. destruct (xs ++ [xm]) eqn:Ex; [destruct xs; discriminate|]. rewrite <- Ex. apply last_last.
      * intros post. rewrite Hc, Ep. reflexivity.
Qed.

(** ** Log length *)
Lemma traj_log_length {X} (one : R -> R -> X -> X) lg n x ts :
  (forall t dt x, length (lg t dt x) = n) -> ts <> [] ->
  length (traj_log one lg x ts) = (n * (length ts - 1))%nat.
Proof.
  intros H. revert x; induction ts as [|t [|t1 ts] IH]; intros x Hne; [congruence|simpl; lia|].
  change (traj_log one lg x (t :: t1 :: ts)) with
    (lg t (t1 - t) x ++ traj_log one lg (one t (t1 - t) x) (t1 :: ts)).
  rewrite app_length, H, IH by discriminate. cbn [length].
  replace (S (S (length ts)) - 1)%nat with (S (length ts)) by lia.
  replace (S (length ts) - 1)%nat with (length ts) by lia. lia.
Qed.

(** ** Reversed time *)
Lemma comb_opp x h w ks : comb x h w (map (@vopp ROps) ks) = comb x (- h) w ks.
Proof.
  unfold comb. revert x w; induction ks as [|k ks IH]; intros x [|w0 w]; cbn [map combine fold_left]; auto.
  cbn [fst snd]. rewrite IH. f_equal. unfold axpy, vopp. rops.
  clear. revert k; induction x as [|a x IHx]; intros [|b k]; simpl; auto. f_equal; [ring|apply IHx].
Qed.

Lemma erk_stages_neg rows f t h x :
  erk_stages rows (@neg_field ROps f) (- t) h x = map (@vopp ROps) (erk_stages rows f t (- h) x).
Proof.
  unfold erk_stages.
  assert (G : forall rows acc,
    fold_left (fun ks r => ks ++ [@neg_field ROps f (- t + fst r * h) (comb x h (snd r) ks)]) rows (map (@vopp ROps) acc) =
    map (@vopp ROps) (fold_left (fun ks r => ks ++ [f (t + fst r * - h) (comb x (- h) (snd r) ks)]) rows acc)).
  { clear rows. induction rows as [|r rows IH]; intros acc; cbn [fold_left]; auto.
    rewrite <- IH. apply f_equal. rewrite map_app. apply f_equal. cbn [map].
    unfold neg_field. rops. rewrite comb_opp.
    replace (- (- t + fst r * h)) with (t + fst r * - h) by ring. reflexivity. }
  apply (G rows []).
Qed.

Lemma erk_step_neg rows b f t h x :
  erk_step rows b (@neg_field ROps f) (- t) h x = erk_step rows b f t (- h) x.
Proof. unfold erk_step. now rewrite erk_stages_neg, comb_opp. Qed.

Lemma traj_neg {X} (one one' : R -> R -> X -> X) (P : X -> Prop) x ts :
  (forall t h x, P x -> one' (- t) h x = one t (- h) x) -> (forall t h x, P x -> P (one t h x)) -> P x ->
  one_step_traj one' x (map Ropp ts) = one_step_traj one x ts.
Proof.
  intros H HP. revert x; induction ts as [|t [|t1 ts] IH]; intros x Hx; auto.
  assert (E1 : one_step_traj one' x (map Ropp (t :: t1 :: ts)) =
    x :: one_step_traj one' (one' (- t) (- t1 - - t) x) (map Ropp (t1 :: ts))) by reflexivity.
  assert (E2 : one_step_traj one x (t :: t1 :: ts) =
    x :: one_step_traj one (one t (t1 - t) x) (t1 :: ts)) by reflexivity.
  rewrite E1, E2. f_equal. rewrite H by auto. replace (- (- t1 - - t)) with (t1 - t) by ring. apply IH. now apply HP.
Qed.

Lemma one_step_traj_ext {X} (one one' : R -> R -> X -> X) (P : X -> Prop) x ts :
  (forall t h x, P x -> one' t h x = one t h x) -> (forall t h x, P x -> P (one t h x)) -> P x ->
  one_step_traj one' x ts = one_step_traj one x ts.
Proof.
  intros H HP. revert x; induction ts as [|t [|t1 ts] IH]; intros x Hx; auto.
  assert (E2 : forall o, one_step_traj o x (t :: t1 :: ts) =
    x :: one_step_traj o (o t (t1 - t) x) (t1 :: ts)) by reflexivity.
  rewrite !E2. f_equal. rewrite H by auto. apply IH. now apply HP.
Qed.

Lemma separated_opp l : separated l <-> separated (map Ropp l).
Proof.
  assert (H : forall l, separated l -> separated (map Ropp l)).
  { clear. intros l H i j a b Hij Ha Hb Hc.
    rewrite nth_error_map in Ha, Hb.
    destruct (nth_error l i) as [a'|] eqn:Ea; [|discriminate].
    destruct (nth_error l j) as [b'|] eqn:Eb; [|discriminate].
    injection Ha as <-. injection Hb as <-.
    apply (H i j a' b' Hij Ea Eb). unfold close_to in *.
    replace (- a' - - b') with (- (a' - b')) in Hc by ring. now rewrite !Rabs_Ropp in Hc. }
  split; auto. intros Hs. apply H in Hs. rewrite map_map in Hs.
  erewrite map_ext, map_id in Hs; [exact Hs|]. intros; cbv beta; ring.
Qed.
