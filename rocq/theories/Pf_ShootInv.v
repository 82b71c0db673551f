(** Proofs of the property about linear invariants and equilibria in multiple shooting. *)
From Coq Require Import ZArith QArith Qreals Reals Lra Lia List Bool Sorted.
From Verif Require Import Num Py Tensor M_SolversOde M_Odeint M_MS Spec_Ode Spec_MS Spec_RK Spec_Inv Spec_Trees.
From Verif Require Import L_Base L_Fixed L_Fixed2 L_Vec L_Steps L_Steps2 L_Jagged L_Conv L_Reach L_Inv L_MS Pf_Fixed.
From Verif Require Pf_Inv.
From Verif Require Import Pf_MS.
Import ListNotations.
Local Notation length := List.length.
Local Open Scope R_scope.

Section Q.
Variable Q : list R -> Prop.
Hypothesis Haff : forall a b c, Q a -> Q b -> Q c -> Q (add_list (sub_list a b) c).
Lemma passes_Q (G F : list R -> list R) : (forall b, Q b -> Q (G b)) -> (forall b, Q b -> Q (F b)) ->
  forall k i B B', (1 <= i)%nat -> parareal_passes G F k i B B' -> (forall b, In b B -> Q b) -> forall b, In b B' -> Q b.
Proof.
  intros HG HF. induction k as [|k IH]; intros i B B' Hi HP HB; cbn [parareal_passes] in HP; [now subst|].
  destruct HP as (B1 & (L & Hk & Hs) & HP). apply (IH (S i) B1 B'); [lia|exact HP|].
  assert (X : forall m b, nth_error B1 m = Some b -> Q b).
  { induction m as [|m IHm]; intros b Hb.
    - rewrite Hk in Hb by lia. apply HB. eapply nth_error_In; eauto.
    - destruct (Nat.lt_ge_cases (S m) i) as [Hlt|Hge].
      + rewrite Hk in Hb by lia. apply HB. eapply nth_error_In; eauto.
      + assert (Hl : (S m < length B)%nat). { rewrite <- L. apply nth_error_Some. now rewrite Hb. }
        destruct (nth_error B m) as [old|] eqn:Eo; [|apply nth_error_None in Eo; lia].
        destruct (nth_error B1 m) as [a|] eqn:Ea; [|apply nth_error_None in Ea; lia].
        rewrite (Hs m a old Hge Hl Ea Eo) in Hb. injection Hb as <-. specialize (IHm a eq_refl).
        assert (Q old) by (apply HB; eapply nth_error_In; eauto). auto. }
  intros b Hb. apply In_nth_error in Hb. destruct Hb as (m & Hb). eauto.
Qed.
Lemma traj_Q (one : R -> R -> list R -> list R) : (forall t h b, Q b -> Q (one t h b)) -> forall ts x, Q x -> forall b, In b (one_step_traj one x ts) -> Q b.
Proof.
  intros H. induction ts as [|t0 ts IH]; intros x Hx b Hb; [destruct Hb|]. destruct ts as [|t1 ts].
  - destruct Hb as [<-|[]]; auto.
  - rewrite (traj_cons one x t0 t1 ts) in Hb. destruct Hb as [<-|Hb]; auto. apply (IH (one t0 (t1 - t0) x)); auto.
Qed.
Lemma flow_Q (one : R -> R -> list R -> list R) sub : (forall t h b, Q b -> Q (one t h b)) -> (2 <= length sub)%nat -> forall b, Q b -> Q (flow one sub b).
Proof.
  intros H Hl b Hb. apply (traj_Q one H sub b Hb). unfold flow.
  assert (Hne : one_step_traj one b sub <> []). { intros E. pose proof (traj_length one b sub) as E'. change (vec ROps) with (list R) in *. rewrite E in E'. cbn in E'. change (num ROps) with R in *. lia. }
  destruct (exists_last Hne) as (l & a & ->). rewrite last_last. apply in_or_app. right. now left.
Qed.
End Q.

Lemma inner_aff w : forall a b c, length a = length c -> length b = length c -> inner w (add_list (sub_list a b) c) = inner w a - inner w b + inner w c.
Proof.
  unfold add_list, sub_list. induction w as [|u w IH]; intros a b c Ha Hb; [cbn; ring|].
  destruct c as [|z c], a as [|x a], b as [|y b]; try discriminate; [cbn; ring|]. cbn [combine map fst snd inner]. rewrite IH by (cbn in *; lia). ring.
Qed.
Lemma aff_same (x : list R) : add_list (sub_list x x) x = x.
Proof. apply (sub_add_cancel (length x)); auto. Qed.

(** Parareal without initial guess, euler, midpoint or rk4 as coarse and fine method, every field, state and number of passes: every quantity w . y
    with w . f = 0 has in all returned states its value at the initial state, and from an equilibrium all returned states are the equilibrium. *)
Lemma C195_parareal_partial_pf :
  forall fuel coarse fine rc bc rf bf n f x t0 t1 ts fine_steps maxiter, builtin_fixed coarse rc bc -> builtin_fixed fine rf bf -> field_on n f -> length x = n ->
  (2 <= fine_steps)%nat -> separated (@linspace0 ROps (t1 - t0) fine_steps) -> separated (t0 :: t1 :: ts) -> t0 <= t1 -> (maxiter < Z.of_nat (length (t0 :: t1 :: ts)))%Z ->
  exists B, @odeint_mszero ROps fuel f x (t0 :: t1 :: ts) coarse fine None fine_steps maxiter = Ok (t0 :: t1 :: ts, B) /\ (length B = length (t0 :: t1 :: ts))%nat /\
    (forall w, (forall t y, length y = n -> inner w (f t y) = 0) -> forall y, In y B -> inner w y = inner w x) /\
    ((forall t, f t x = repeat 0 n) -> forall y, In y B -> y = x).
Proof.
  intros fuel coarse fine rc bc rf bf n f x t0 t1 ts fine_steps maxiter Hc Hf Hn Hx H2 Hs Hsep Hle Hm.
  destruct (builtin_fixed_erk _ _ _ Hc) as (Fc & Ec). destruct (Ec n f Hn) as (oc & lc & Sc & Oc).
  destruct (builtin_fixed_erk _ _ _ Hf) as (Ff & Ef). destruct (Ef n f Hn) as (off & lf & Sf & Of).
  assert (Kc : keeps_length n oc). { intros t h y Hy. rewrite Oc by exact Hy. now apply erk_step_len. }
  assert (Kf : keeps_length n off). { intros t h y Hy. rewrite Of by exact Hy. now apply erk_step_len. }
  set (sub := @linspace0 ROps (t1 - t0) fine_steps) in *. assert (Hsl : (2 <= length sub)%nat) by (unfold sub; rewrite linspace0_len; exact H2).
  unfold odeint_mszero, ms_first_guess.
  rewrite (C01_fixed_trajectory_pf fuel coarse f oc lc x t0 t1 ts _ _ false false None Fc Sc Hsep Hle). cbn [rmap rbind snd].
  set (B := one_step_traj oc x (t0 :: t1 :: ts)).
  destruct (ms_zero_general coarse fine f oc lc off lf n t0 t1 ts B fine_steps maxiter Sc Sf Kc Kf H2 Hs (traj_length _ _ _) (traj_rows n oc (t0 :: t1 :: ts) Kc x Hx)) as [H _].
  destruct (H Hm) as (B' & E & L & R' & P). fold sub in P. rbx E. exists B'. split; [reflexivity|]. split; [exact (eq_trans L (traj_length _ _ _))|].
  assert (GEN : forall Q : list R -> Prop, Q x -> (forall a b c, Q a -> Q b -> Q c -> Q (add_list (sub_list a b) c)) ->
     (forall t h b, Q b -> Q (oc t h b)) -> (forall t h b, Q b -> Q (off t h b)) -> forall y, In y B' -> Q y).
  { intros Q Qx Qa Q1 Q2. apply (passes_Q Q Qa (flow oc sub) (flow off sub)) with (k := Z.to_nat (maxiter + 1)) (i := 1%nat) (B := B); auto.
    - apply flow_Q; auto.
    - apply flow_Q; auto.
    - apply traj_Q; auto. }
  split.
  - intros w Hw. assert (X : forall y, In y B' -> length y = n /\ inner w y = inner w x).
    { apply GEN; auto.
      - intros a b c (La & Ia) (Lb & Ib) (Lc' & Ic). split; [apply (add_len n); [apply (sub_len n)|]; auto|]. rewrite (inner_aff w a b c (eq_trans La (eq_sym Lc')) (eq_trans Lb (eq_sym Lc'))). lra.
      - intros t h b (Lb & Ib). split; [now apply Kc|]. rewrite Oc by exact Lb. now rewrite (inner_step0 w n).
      - intros t h b (Lb & Ib). split; [now apply Kf|]. rewrite Of by exact Lb. now rewrite (inner_step0 w n). }
    intros y Hy. now apply X.
  - intros He. apply (GEN (fun y => y = x)); auto.
    + intros a b c -> -> ->. apply aff_same.
    + intros t h b ->. rewrite Oc by exact Hx. now apply (Pf_Inv.erk_step_equilibrium n).
    + intros t h b ->. rewrite Of by exact Hx. now apply (Pf_Inv.erk_step_equilibrium n).
Qed.

(** The backward variant breaks linear invariants: for x' = y, y' = 0, whose y is constant, and a guess with y = 0 in all rows, one pass returns a
    state with y = -1. The products with the Jacobian are the true gradients of the fine flow. *)
Lemma C195_msbackward_refuted_pf :
  let F := flow (euler_one shear) (@linspace0 ROps (1 - 0) 2) in
  (forall sub b v w, length b = 2%nat -> length v = 2%nat -> length w = 2%nat -> dot (shear_vjp sub b v) w = dot v (sub_list (F (add_list b w)) (F b))) /\
  (forall t y, length y = 2%nat -> inner [0; 1] (shear t y) = 0) /\
  exists fuel, @odeint_msbackward ROps fuel shear [0; 0] [0; 1; 2] eul eul shear_vjp (Some [[0; 0]; [1; 0]; [0; 0]]) 2 0 = Ok ([0; 1; 2], [[0; 0]; [0; 0]; [0; -1]]).
Proof.
  cbv zeta. split; [|split].
  { intros sub b v w Hb Hv Hw. destruct b as [|b1 [|b2 [|? ?]]]; try discriminate.
    destruct v as [|v1 [|v2 [|? ?]]]; try discriminate. destruct w as [|w1 [|w2 [|? ?]]]; try discriminate.
    unfold add_list. cbn [combine map fst snd]. rewrite !shear_flow. cbn. ring. }
  { intros t y Hy. destruct y as [|a [|b [|? ?]]]; try discriminate. cbn. ring. }
  exists 0%nat. unfold odeint_msbackward, ms_first_guess. cbn [rbind].
  destruct (C58_first_pass_partial_pf eul shear (euler_one shear) euler_log shear_vjp 2 0 1 [2] [[0; 0]; [1; 0]; [0; 0]] [0; 0] 2)
    as (B' & E & L & H0 & HS);
    auto; try (apply euler_stepper); try apply shear_keeps; try (apply sub2_sep; lra).
  { intros sub b v _ Hv. destruct v as [|p [|q [|r v]]]; try discriminate. reflexivity. }
  { intros b Hb. cbn in Hb. intuition subst; reflexivity. }
  rbx E.
  assert (H1 := HS 0%nat [0; 0] [0; 0] ltac:(cbn; lia) H0 eq_refl). rewrite shear_flow in H1.
  assert (E1 : add_list [0 + 0; 0] (shear_vjp (@linspace0 ROps (1 - 0) 2) [0; 0] (sub_list [0; 0] [0; 0])) = [0; 0])
    by (cbn; repeat f_equal; lra). rewrite E1 in H1.
  assert (H2 := HS 1%nat [0; 0] [1; 0] ltac:(cbn; lia) H1 eq_refl). rewrite shear_flow in H2.
  assert (E2 : add_list [1 + 0; 0] (shear_vjp (@linspace0 ROps (1 - 0) 2) [1; 0] (sub_list [0; 0] [1; 0])) = [0; -1])
    by (cbn; repeat f_equal; lra). rewrite E2 in H2.
  destruct B' as [|a [|b [|c [|d l]]]]; try discriminate. cbn in H0, H1, H2. injection H0 as ->. injection H1 as ->. injection H2 as ->. reflexivity.
Qed.

(** The hypotheses are met: x' = y, y' = 0 with Euler as coarse and rk4 as fine method. *)
Lemma C195_ex_pf :
  builtin_fixed (Euler ROps) (to_R_rows q_euler) (to_R qb_euler) /\ builtin_fixed (RungeKutta4 ROps) (to_R_rows q_rk4_code) (to_R qb_rk4) /\
  (forall t y, length y = 2%nat -> length (shear t y) = 2%nat) /\ (forall t y, length y = 2%nat -> inner [0; 1] (shear t y) = 0) /\
  separated (@linspace0 ROps (1 - 0) 2) /\ (0 < 3)%Z.
Proof.
  split; [left; auto|]. split; [right; right; auto|]. split; [|split; [|split]].
  - intros t y Hy. destruct y as [|a [|b [|? ?]]]; try discriminate. reflexivity.
  - intros t y Hy. destruct y as [|a [|b [|? ?]]]; try discriminate. cbn. ring.
  - apply sub2_sep. lra.
  - lia.
Qed.
