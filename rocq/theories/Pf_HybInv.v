(** Proofs of the property about linear invariants and equilibria of hybrid solves. *)
From Coq Require Import ZArith QArith Qreals Reals Lra Lia List Bool Sorted.
From Verif Require Import Num Py Tensor M_Constants M_SolversOde M_Utils M_Odeint.
From Verif Require Import Spec_Ode Spec_RK Spec_Adaptive Spec_Hybrid Spec_Inv.
From Verif Require Import L_Base L_Fixed L_Vec L_Steps2 L_Adaptive2 L_Reach L_Inv L_Hybrid L_Hybrid2.
From Verif Require Pf_Inv.
From Verif Require Import Pf_Hybrid.
Import ListNotations.
Local Notation length := List.length.
Local Open Scope R_scope.

Section Run.
Variables (X : Type) (flow : R -> R -> X -> X) (acc : R -> R -> X -> Prop) (cbs : list ((R -> X -> bool) * (R -> X -> X))).
Variable D : X -> Prop.
Hypothesis HD : forall t h x, D x -> D (flow t h x).
Hypothesis HJ : forall cb t x, In cb cbs -> D x -> D (snd cb t x).
Variable m : X -> R.
Hypothesis Hm : forall t h x, D x -> m (flow t h x) = m x.
Lemma quiet_keeps t x t' x' : quiet flow cbs t x t' x' -> D x -> D x' /\ m x' = m x.
Proof.
  intros H. induction H as [|t d x t2 x2 Hd Hf H IH]; intros Hx; auto. destruct IH as (I1 & I2); auto. split; auto. rewrite I2. now apply Hm.
Qed.
Lemma located_in t x t' x' d cb : located flow cbs t x t' x' d cb -> In cb cbs.
Proof. intros (_ & b & a & -> & _). apply in_or_app. right. now left. Qed.

Lemma run_changes P t x out : hrun flow acc cbs P t x out -> D x ->
  forall i ta ya tb yb, nth_error ((t, x) :: out) i = Some (ta, ya) -> nth_error ((t, x) :: out) (S i) = Some (tb, yb) ->
  m yb = m ya \/ (tb = ta /\ exists cb, In cb cbs /\ yb = snd cb ta ya).
Proof.
  intros H. induction H as [t x|t h x out Hq Ha H IH|t h x t' x' d cb out Hf Hl HP H IH]; intros Hx i ta ya tb yb E1 E2.
  - destruct i as [|[|i]]; cbn in E2; discriminate.
  - destruct i as [|i].
    + cbn in E1, E2. injection E1 as <- <-. injection E2 as <- <-. left. now apply Hm.
    + apply (IH (HD t h x Hx) i); auto.
  - destruct Hl as (Hl1 & Hl2) eqn:El. destruct (quiet_keeps _ _ _ _ Hl1 Hx) as (Hx' & Mx'). pose proof (located_in _ _ _ _ _ _ Hl) as Hin.
    destruct i as [|[|i]].
    + cbn in E1, E2. injection E1 as <- <-. injection E2 as <- <-. now left.
    + cbn in E1, E2. injection E1 as <- <-. injection E2 as <- <-. right. split; [reflexivity|]. now exists cb.
    + apply (IH (HJ cb t' x' Hin Hx') i); auto.
Qed.
Lemma run_keeps P t x out : hrun flow acc cbs P t x out -> D x -> forall y, In y (x :: map snd out) -> D y.
Proof.
  intros H. induction H as [t x|t h x out Hq Ha H IH|t h x t' x' d cb out Hf Hl HP H IH]; intros Hx y Hy.
  - destruct Hy as [<-|[]]; auto.
  - destruct Hy as [<-|Hy]; auto.
  - pose proof Hl as (Hl1 & Hl2). destruct (quiet_keeps _ _ _ _ Hl1 Hx) as (Hx' & Mx'). pose proof (located_in _ _ _ _ _ _ Hl) as Hin.
    cbn [map snd] in Hy. destruct Hy as [<-|[<-|Hy]]; auto.
Qed.
End Run.

(** A quantity w . y with w . f = 0 changes in a hybrid solve only at jumps: two consecutive outputs have the same value of w . y, or they are at the
    same time and the second is the jump of a callback applied to the first. If moreover the jumps keep w . y, so does the whole solve. *)
Lemma C197_invariant_pf :
  forall fuel s rows b bh n f w x t0 t1 ts j_span cbs atol rtol etol jump_first semi times sol,
  builtin_pair s rows b bh -> field_on n f -> length x = n -> 0 <= etol ->
  (forall cb t y, In cb cbs -> length y = n -> length (snd cb t y) = n) ->
  (forall t y, length y = n -> inner w (f t y) = 0) ->
  snd (@odeint_hybrid ROps fuel f x (t0 :: t1 :: ts) j_span s (mkcbs cbs) atol rtol etol jump_first semi) = Ok (times, sol) ->
  (length times = length sol)%nat /\
  (forall i ta ya tb yb, nth_error times i = Some ta -> nth_error times (S i) = Some tb -> nth_error sol i = Some ya -> nth_error sol (S i) = Some yb ->
    inner w yb = inner w ya \/ (tb = ta /\ exists cb, In cb cbs /\ yb = snd cb ta ya)) /\
  ((forall cb t y, In cb cbs -> length y = n -> inner w (snd cb t y) = inner w y) -> forall y, In y sol -> inner w y = inner w x).
Proof.
  intros fuel s rows b bh n f w x t0 t1 ts j_span cbs atol rtol etol jf semi times sol HB Hf Hx He Hj Hw Hr.
  destruct (C34_event_outputs_pf fuel s rows b bh n f x t0 t1 ts j_span cbs atol rtol etol jf semi times sol HB Hf Hx He Hj Hr) as (x0 & jn & out & Hst & -> & -> & Hrun).
  assert (Hx0 : length x0 = n /\ ((forall cb t y, In cb cbs -> length y = n -> inner w (snd cb t y) = inner w y) -> inner w x0 = inner w x)).
  { destruct Hst as [(cb & _ & (be & af & Ec & _) & -> & _)|(_ & -> & _)]; [|auto].
    assert (Hin : In cb cbs) by (rewrite Ec; apply in_or_app; right; now left). split; [now apply Hj|]. intros H. now apply H. }
  destruct Hx0 as (Lx0 & Wx0). split; [cbn; now rewrite !map_length|]. split.
  - intros i ta ya tb yb A1 A2 B1 B2.
    assert (G : forall k a y, nth_error (t0 :: map fst out) k = Some a -> nth_error (x0 :: map snd out) k = Some y -> nth_error ((t0, x0) :: out) k = Some (a, y)).
    { intros k a y G1 G2. change (t0 :: map fst out) with (map fst ((t0, x0) :: out)) in G1. change (x0 :: map snd out) with (map snd ((t0, x0) :: out)) in G2.
      rewrite nth_error_map in G1, G2. destruct (nth_error ((t0, x0) :: out) k) as [[p q]|]; cbn in G1, G2; [|discriminate]. now injection G1 as <-; injection G2 as <-. }
    apply (run_changes _ _ _ cbs (fun y : list R => length y = n) (fun t h y Hy => erk_step_len n rows b f t h y Hf Hy) Hj (inner w)
      (fun t h y Hy => inner_step0 w n rows b f t h y Hf Hy Hw) _ t0 x0 out Hrun Lx0 i); auto.
  - intros Hjw. specialize (Wx0 Hjw).
    assert (X : forall y, In y (x0 :: map snd out) -> length y = n /\ inner w y = inner w x); [|intros y Hy; now apply X].
    eapply (run_keeps _ _ _ cbs (fun y : list R => length y = n /\ inner w y = inner w x)) with (m := fun _ => 0) (5 := conj Lx0 Wx0) (4 := Hrun).
    + intros t h y (Hy1 & Hy2). split; [now apply erk_step_len|]. now rewrite (inner_step0 w n).
    + intros cb t y Hin (Hy1 & Hy2). split; [now apply Hj|]. now rewrite Hjw.
    + reflexivity.
Qed.

(** From an equilibrium of the field that no jump moves, every output of a hybrid solve is the equilibrium. *)
Lemma C197_equilibrium_pf :
  forall fuel s rows b bh n f x t0 t1 ts j_span cbs atol rtol etol jump_first semi times sol,
  builtin_pair s rows b bh -> field_on n f -> length x = n -> 0 <= etol ->
  (forall cb t y, In cb cbs -> length y = n -> length (snd cb t y) = n) ->
  (forall t, f t x = repeat 0 n) -> (forall cb t, In cb cbs -> snd cb t x = x) ->
  snd (@odeint_hybrid ROps fuel f x (t0 :: t1 :: ts) j_span s (mkcbs cbs) atol rtol etol jump_first semi) = Ok (times, sol) ->
  forall y, In y sol -> y = x.
Proof.
  intros fuel s rows b bh n f x t0 t1 ts j_span cbs atol rtol etol jf semi times sol HB Hf Hx He Hj H0 Hjx Hr.
  destruct (C34_event_outputs_pf fuel s rows b bh n f x t0 t1 ts j_span cbs atol rtol etol jf semi times sol HB Hf Hx He Hj Hr) as (x0 & jn & out & Hst & -> & -> & Hrun).
  assert (Hx0 : x0 = x).
  { destruct Hst as [(cb & _ & (be & af & Ec & _) & -> & _)|(_ & -> & _)]; [|auto].
    apply Hjx. rewrite Ec. apply in_or_app. right. now left. }
  eapply (run_keeps _ _ _ cbs (fun y : list R => y = x)) with (m := fun _ => 0) (5 := Hx0) (4 := Hrun).
  - intros t h y ->. now apply (Pf_Inv.erk_step_equilibrium n).
  - intros cb t y Hin ->. now apply Hjx.
  - reflexivity.
Qed.

(** The hypotheses are met: a flow from the first to the second of two tanks, whose contents are swapped when the first one is nearly empty. *)
Lemma C197_ex_pf :
  let f := fun (_ : R) (y : list R) => match y with [a; c] => [- a; a] | _ => y end in
  let cbs := [(fun (_ : R) (y : list R) => Rleb (hd 0 y) (1 / 10), fun (_ : R) (y : list R) => rev y)] in
  builtin_pair (DormandPrince45 ROps) (to_R_rows q_dopri5) (to_R qb5_dopri5) (to_R qb4_dopri5) /\ field_on 2 f /\
  (forall cb t y, In cb cbs -> length y = 2%nat -> length (snd cb t y) = 2%nat) /\ (forall t y, length y = 2%nat -> inner [1; 1] (f t y) = 0) /\
  (forall cb t y, In cb cbs -> length y = 2%nat -> inner [1; 1] (snd cb t y) = inner [1; 1] y) /\ (exists cb, In cb cbs /\ fst cb 0 [1 / 20; 1] = true).
Proof.
  cbv zeta. split; [left; auto|]. split; [|split; [|split; [|split]]].
  - intros t y Hy. destruct y as [|a [|c [|? ?]]]; try discriminate. reflexivity.
  - intros cb t y [<-|[]] Hy. cbn [snd]. now rewrite rev_length.
  - intros t y Hy. destruct y as [|a [|c [|? ?]]]; try discriminate. cbn. ring.
  - intros cb t y [<-|[]] Hy. destruct y as [|a [|c [|? ?]]]; try discriminate. cbn. ring.
  - eexists. split; [now left|]. cbn. apply Rleb_true. lra.
Qed.
