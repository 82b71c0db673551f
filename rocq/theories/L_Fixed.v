(** Lemmas on the fixed-step integration routine. *)
From Coq Require Import ZArith QArith Qreals Reals Lra Lia List Bool.
From Verif Require Import Num Py Tensor M_Constants M_SolversOde M_Utils M_Interp M_Odeint.
From Verif Require Import Spec_Ode L_Base.
Import ListNotations.
Local Open Scope R_scope.

Lemma isclose_R (a b : R) : @isclose ROps a b = true <-> close_to a b.
Proof.
  unfold isclose, close_to. rops. qlit. rewrite orb_true_iff, Reqb_true, Rleb_true.
  split.
  - intros [->|H].
    + unfold Rminus. rewrite Rplus_opp_r, Rabs_R0. pose proof (Rabs_pos b). lra.
    + lra.
  - intros H; right; lra.
Qed.

Lemma close_to_refl a : close_to a a.
Proof. unfold close_to. replace (a - a) with 0 by ring. rewrite Rabs_R0. pose proof (Rabs_pos a). lra. Qed.

Lemma isclose_count_pos t l :
  @isclose_count ROps t l <> 0%nat <-> exists s, In s l /\ close_to t s.
Proof.
  unfold isclose_count.
  split.
  - intros H. destruct (existsb (@isclose ROps t) l) eqn:E.
    + apply existsb_exists in E. destruct E as [s [Hs Hc]]. exists s. split; auto. now apply isclose_R.
    + exfalso; apply H. apply count_true_0. intros b Hb. apply in_map_iff in Hb.
      destruct Hb as [s [<- Hs]]. destruct (@isclose ROps t s) eqn:E'; auto.
      assert (existsb (@isclose ROps t) l = true); [|congruence].
      apply existsb_exists; eauto.
  - intros [s [Hs Hc]] H. rewrite count_true_0 in H.
    assert (@isclose ROps t s = false); [apply H, in_map, Hs|].
    apply isclose_R in Hc. congruence.
Qed.

Lemma isclose_count_zero t l :
  @isclose_count ROps t l = 0%nat <-> forall s, In s l -> ~ close_to t s.
Proof.
  split.
  - intros H s Hs Hc. apply (proj2 (isclose_count_pos t l)); eauto.
  - intros H. destruct (Nat.eq_dec (@isclose_count ROps t l) 0) as [E|E]; auto.
    apply isclose_count_pos in E. destruct E as [s [Hs Hc]]. exfalso; eapply H; eauto.
Qed.

(** The assertion of the fixed-step routine accepts exactly the separated lists. *)
Lemma assertion_separated (l : list R) :
  forallb (fun t => Nat.eqb (@isclose_count ROps t l) 1) l = true <-> separated l.
Proof.
  rewrite forallb_forall. unfold separated.
  split.
  - intros H i j a b Hij Ha Hb Hc.
    assert (Hin : In a l) by (eapply nth_error_In; eauto).
    specialize (H a Hin). apply Nat.eqb_eq in H.
    (* two indices are close to a: i and j *)
    assert (Hgen : forall (l : list R) i j, i <> j ->
       nth_error l i = Some a -> nth_error l j = Some b -> (2 <= @isclose_count ROps a l)%nat).
    { clear - Hc. induction l as [|c l IH]; intros i j Hij Ha Hb.
      - destruct i; discriminate.
      - unfold isclose_count in *. simpl map. rewrite count_true_cons.
        assert (Hone : forall x k, close_to a x -> nth_error l k = Some x ->
                   (1 <= count_true (map (@isclose ROps a) l))%nat).
        { intros x k Hx Hk. destruct (Nat.eq_dec (count_true (map (@isclose ROps a) l)) 0) as [E|E]; [|lia].
          rewrite count_true_0 in E. assert (@isclose ROps a x = false).
          { apply E, in_map. eapply nth_error_In; eauto. }
          apply isclose_R in Hx. congruence. }
        destruct i as [|i], j as [|j]; simpl in Ha, Hb.
        + congruence.
        + inversion Ha; subst c. rewrite (proj2 (isclose_R a a) (close_to_refl a)).
          specialize (Hone b j Hc Hb). cbv iota. rops. lia.
        + inversion Hb; subst c. rewrite (proj2 (isclose_R a b) Hc).
          specialize (Hone a i (close_to_refl a) Ha). cbv iota. rops. lia.
        + specialize (IH i j). assert (i <> j) by congruence. specialize (IH H Ha Hb). rops. lia. }
    specialize (Hgen l i j Hij Ha Hb). lia.
  - intros H a Ha. apply Nat.eqb_eq.
    apply In_nth_error in Ha. destruct Ha as [i Hi].
    assert (Hgen : forall (l1 : list R) k, nth_error l1 k = Some a ->
       (forall j b, j <> k -> nth_error l1 j = Some b -> ~ close_to a b) ->
       @isclose_count ROps a l1 = 1%nat).
    { clear. induction l1 as [|c l1 IH]; intros k Hk Hn.
      - destruct k; discriminate.
      - unfold isclose_count in *. simpl map. rewrite count_true_cons. destruct k as [|k]; simpl in Hk.
        + inversion Hk; subst c. rewrite (proj2 (isclose_R a a) (close_to_refl a)).
          assert (count_true (map (@isclose ROps a) l1) = 0%nat) as Hz; [|rops; rewrite Hz; reflexivity].
          apply count_true_0. intros b Hb. apply in_map_iff in Hb.
          destruct Hb as [s [<- Hs]]. apply In_nth_error in Hs. destruct Hs as [j Hj].
          destruct (@isclose ROps a s) eqn:E; auto. apply isclose_R in E.
          exfalso. apply (Hn (S j) s); auto.
        + assert (@isclose ROps a c = false) as ->.
          { destruct (@isclose ROps a c) eqn:E; auto. apply isclose_R in E.
            exfalso. apply (Hn 0%nat c); auto. }
          simpl. apply (IH k Hk). intros j b Hj Hb. apply (Hn (S j)); auto. }
    apply (Hgen l i Hi). intros j b Hj Hb. exact (H i j a b (not_eq_sym Hj) Hi Hb).
Qed.

(** ** Semantics of a fixed-step stepper *)

Definition fixed_stepper {X} (step : @step_fun ROps X) (f : R -> X -> X)
  (one : R -> R -> X -> X) (lg : R -> R -> X -> list (R * X)) : Prop :=
  forall x t dt, exists fn e, step f x t dt None = (lg t dt x, Ok (Ret3 fn (one t dt x) e)).

(** Log of the calls along a grid *)
Fixpoint traj_log {X} (one : R -> R -> X -> X) (lg : R -> R -> X -> list (R * X))
  (x : X) (ts : list R) : list (R * X) :=
  match ts with
  | [] => []
  | t0 :: rest =>
      match rest with
      | [] => []
      | t1 :: _ => lg t0 (t1 - t0) x ++ traj_log one lg (one t0 (t1 - t0) x) rest
      end
  end.

(** Computable selection *)
Fixpoint select {X} (save_at : list R) (ts : list R) (xs : list X) : list X :=
  match ts, xs with
  | t :: ts', x :: xs' =>
      if Nat.eqb (@isclose_count ROps t save_at) 0 then select save_at ts' xs'
      else x :: select save_at ts' xs'
  | _, _ => []
  end.

Lemma select_selected {X} save_at ts (xs : list X) :
  length ts = length xs -> selected save_at ts xs (select save_at ts xs).
Proof.
  revert xs; induction ts as [|t ts IH]; destruct xs as [|x xs]; simpl; intros H; try discriminate.
  - constructor.
  - destruct (Nat.eqb_spec (@isclose_count ROps t save_at) 0) as [E|E].
    + apply sel_skip; auto. now apply isclose_count_zero.
    + apply sel_take; auto. now apply isclose_count_pos.
Qed.

Lemma selected_det {X} save_at ts (xs out out' : list X) :
  selected save_at ts xs out -> selected save_at ts xs out' -> out = out'.
Proof.
  intros H; revert out'.
  induction H as [|t ts x xs out Hex H IH|t ts x xs out Hno H IH]; intros out' H'.
  - inversion H'; auto.
  - inversion H' as [|? ? ? ? ? _ H''|? ? ? ? ? Hno H'']; subst.
    + f_equal; auto.
    + destruct Hex as [s [Hs Hc]]. exfalso; eapply Hno; eauto.
  - inversion H' as [|? ? ? ? ? Hex H''|? ? ? ? ? _ H'']; subst; auto.
    destruct Hex as [s [Hs Hc]]. exfalso; eapply Hno; eauto.
Qed.

Lemma traj_length {X} one (x : X) ts : length (one_step_traj one x ts) = length ts.
Proof.
  revert x; induction ts as [|t [|t1 ts] IH]; intros x; auto.
  simpl in *. f_equal. apply IH.
Qed.

Lemma traj_hd {X} one (x : X) t ts : one_step_traj one x (t :: ts) =
  x :: match ts with [] => [] | t1 :: _ => one_step_traj one (one t (t1 - t) x) ts end.
Proof. destruct ts; reflexivity. Qed.

Section Fixed.
Context {X : Type} (f : R -> X -> X) (step : @step_fun ROps X)
        (one : R -> R -> X -> X) (lg : R -> R -> X -> list (R * X)).
Hypothesis Hstep : fixed_stepper step f one lg.

Lemma fixed_loop_spec save_at : forall rest pre t x sol dt,
  (forall t1 rest', rest = t1 :: rest' -> dt = t1 - t) ->
  @fixed_loop ROps X f step (pre ++ t :: rest) save_at (length rest) (S (length pre)) x t dt sol
  = (traj_log one lg x (t :: rest),
     Ok (sol ++ select save_at rest (tl (one_step_traj one x (t :: rest))))).
Proof.
  induction rest as [|t1 rest IH]; intros pre t x sol dt Hdt.
  - simpl. now rewrite app_nil_r.
  - cbn [length fixed_loop].
    pose proof (Hdt t1 rest eq_refl) as ->.
    destruct (Hstep x t (t1 - t)) as (fn & e & Es). rewrite Es.
    rewrite mbind_Ok.
    set (x1 := one t (t1 - t) x).
    rops. replace (t + (t1 - t)) with t1 by ring.
    set (sol' := if Nat.eqb (@isclose_count ROps t1 save_at) 0 then sol else sol ++ [x1]).
    assert (Hsol : sol' ++ select save_at rest (tl (one_step_traj one x1 (t1 :: rest)))
            = sol ++ select save_at (t1 :: rest) (tl (one_step_traj one x (t :: t1 :: rest)))).
    { subst sol'. rewrite (traj_hd one x). cbn [tl]. fold x1. rewrite (traj_hd one x1 t1 rest).
      cbn [select tl].
      destruct (Nat.eqb (@isclose_count ROps t1 save_at) 0); auto.
      now rewrite <- app_assoc. }
    assert (Hlen : length (pre ++ t :: t1 :: rest) = (length pre + S (S (length rest)))%nat)
      by (rewrite app_length; reflexivity).
    assert (Hcond : forall d, fixed_loop (K:=ROps) f step (pre ++ t :: t1 :: rest) save_at (length rest)
              (S (length pre) + 1) x1 t1 d sol' = fixed_loop (K:=ROps) f step ((pre ++ [t]) ++ t1 :: rest) save_at (length rest)
              (S (length (pre ++ [t]))) x1 t1 d sol').
    { intros d. rewrite <- app_assoc. simpl app. f_equal. rewrite app_length; simpl; lia. }
    assert (Hfin : forall d, (forall t2 rest', rest = t2 :: rest' -> d = t2 - t1) ->
       ([] ++ fst (fixed_loop (K:=ROps) f step (pre ++ t :: t1 :: rest) save_at (length rest) (S (length pre) + 1) x1 t1 d sol'),
        snd (fixed_loop (K:=ROps) f step (pre ++ t :: t1 :: rest) save_at (length rest) (S (length pre) + 1) x1 t1 d sol'))
       = (traj_log one lg x1 (t1 :: rest),
          Ok (sol ++ select save_at (t1 :: rest) (tl (one_step_traj one x (t :: t1 :: rest)))))).
    { intros d Hd. rewrite Hcond, (IH (pre ++ [t]) t1 x1 sol' d Hd). cbn [fst snd app]. now rewrite Hsol. }
    destruct (Nat.ltb_spec (S (length pre)) (length (pre ++ t :: t1 :: rest) - 1)) as [Hlt|Hge].
    + destruct rest as [|t2 rest]; [rewrite Hlen in Hlt; simpl in Hlt; lia|].
      assert (Hget : pyget (pre ++ t :: t1 :: t2 :: rest) (S (length pre) + 1) = Ok t2).
      { apply nth_error_pyget. rewrite nth_error_app2 by lia.
        replace (S (length pre) + 1 - length pre)%nat with 2%nat by lia. reflexivity. }
      rewrite Hget. unfold mlift, mret. rewrite !mbind_Ok.
      cbn [app fst snd] in *. rops.
      assert (Hd : forall t2' rest', t2 :: rest = t2' :: rest' -> t2 - t1 = t2' - t1)
        by (intros ? ? [= -> _]; reflexivity).
      specialize (Hfin _ Hd). rewrite mbind_Ok. cbn [app] in Hfin.
      apply pair_equal_spec in Hfin. destruct Hfin as [Ha Hb].
      change (traj_log one lg x (t :: t1 :: t2 :: rest))
          with (lg t (t1 - t) x ++ traj_log one lg x1 (t1 :: t2 :: rest)).
      apply pair_equal_spec; split; [apply f_equal; exact Ha | exact Hb].
    + assert (rest = []) as -> by (rewrite Hlen in Hge; destruct rest; auto; simpl in Hge; lia).
      unfold mret. rewrite mbind_Ok. cbn [app fst snd].
      assert (Hd : forall t2' rest', @nil R = t2' :: rest' -> t1 - t = t2' - t1)
        by (intros ? ? [=]).
      specialize (Hfin _ Hd). cbn [app] in Hfin.
      apply pair_equal_spec in Hfin. destruct Hfin as [Ha Hb].
      change (traj_log one lg x [t; t1]) with (lg t (t1 - t) x ++ traj_log one lg x1 [t1]).
      apply pair_equal_spec; split; [apply f_equal; exact Ha | exact Hb].
Qed.

(** Complete functional description of the fixed-step routine. *)
Lemma fixed_odeint_full x t_span save_at :
  let sv := match save_at with [] => t_span | _ => save_at end in
  let sol := select sv t_span (one_step_traj one x t_span) in
  (~ separated sv ->
     @fixed_odeint ROps X f x t_span step save_at = ([], Err AssertionError)) /\
  (separated sv -> (length t_span < 2)%nat ->
     @fixed_odeint ROps X f x t_span step save_at = ([], Err IndexError)) /\
  (separated sv -> (2 <= length t_span)%nat ->
     @fixed_odeint ROps X f x t_span step save_at
     = (traj_log one lg x t_span,
        match sol with [] => Err IndexError | _ => Ok (sv, sol) end)).
Proof.
  intros sv sol. unfold fixed_odeint. cbv zeta. rops. fold sv.
  pose proof (assertion_separated sv) as HA.
  rops. set (chk := forallb (fun t : R => Nat.eqb (@isclose_count ROps t sv) 1) sv) in *.

  split; [|split].
  - intros Hns. destruct chk; [exfalso; apply Hns, HA; reflexivity|]. reflexivity.
  - intros Hs Hlen. apply HA in Hs. rewrite Hs. simpl negb. cbv iota.
    destruct t_span as [|a [|b l]]; simpl in Hlen; try lia; reflexivity.
  - intros Hs Hlen. apply HA in Hs. rewrite Hs. simpl negb. cbv iota.
    destruct t_span as [|a [|b l]]; simpl in Hlen; try lia.

    rewrite (pylast_last (a :: b :: l) 0) by discriminate.
    unfold pyget; cbn [nth_error]. unfold mlift. rewrite !mbind_Ok. cbn [fst snd app].
    set (sol0 := if Nat.eqb (@isclose_count ROps a sv) 0 then [] else [x]).
    pose proof (fixed_loop_spec sv (b :: l) [] a x sol0 (b - a)) as HL.
    cbn [app length] in HL. cbn [length].
    replace (S (S (length l)) - 1)%nat with (S (length l)) by lia.
    rops. rewrite HL by (intros t1 r [= -> _]; reflexivity).
    rewrite mbind_Ok.
    assert (Hsol : sol0 ++ select sv (b :: l) (tl (one_step_traj one x (a :: b :: l))) = sol).
    { unfold sol, sol0. rewrite (traj_hd one x a (b :: l)). cbn [tl].
      change (select sv (a :: b :: l) (x :: one_step_traj one (one a (b - a) x) (b :: l)))
       with (if Nat.eqb (@isclose_count ROps a sv) 0 then select sv (b::l) (one_step_traj one (one a (b - a) x) (b :: l))
             else x :: select sv (b::l) (one_step_traj one (one a (b - a) x) (b :: l))).
      destruct (Nat.eqb (@isclose_count ROps a sv) 0); reflexivity. }
    rewrite Hsol. destruct sol; cbn [fst snd mraise mret]; rewrite app_nil_r; reflexivity.
Qed.

End Fixed.
