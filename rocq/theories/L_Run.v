(** Consequences of the specification [run]. *)
From Coq Require Import Reals Lra Lia List Bool Sorted.
From Verif Require Import Spec_Ode Spec_RK Spec_Norm Spec_Adaptive L_Base L_Adaptive.
Import ListNotations.
Local Open Scope R_scope.

Section R.
Context {X : Type} {acc : R -> R -> X -> X -> Prop} {dense : R -> R -> X -> R -> X} {interp all : bool}.
Notation runX := (run acc dense interp all).

Lemma run_times t x req times xs : runX t x req times xs -> all = false -> times = req.
Proof.
  induction 1; intros Ha; auto. rewrite (IHrun Ha), Ha, orb_false_r. reflexivity.
Qed.

Lemma run_lengths t x req times xs : runX t x req times xs -> length xs = length times.
Proof.
  induction 1; auto. rewrite !app_length, map_length, IHrun. destruct (hit || all); reflexivity.
Qed.

Lemma run_after t x req times xs : runX t x req times xs -> forall s, In s times -> t < s.
Proof.
  induction 1 as [|t h x x' crossed hit req times xs Hh Hacc Hcr Hint Hreq Hend Hrun IH]; intros s Hs; [destruct Hs|].
  apply in_app_or in Hs. destruct Hs as [Hs|Hs]; [now apply Hcr in Hs|].
  apply in_app_or in Hs. destruct Hs as [Hs|Hs].
  - destruct (hit || all); [destruct Hs as [<-|[]]|destruct Hs]; lra.
  - specialize (IH s Hs). lra.
Qed.

Lemma run_req_in t x req times xs : runX t x req times xs -> forall s, In s req -> In s times.
Proof.
  induction 1 as [|t h x x' crossed hit req times xs Hh Hacc Hcr Hint Hreq Hend Hrun IH]; intros s Hs; [destruct Hs|].
  apply in_app_or in Hs. apply in_or_app. destruct Hs as [Hs|Hs]; [now left|right].
  apply in_app_or in Hs. apply in_or_app. destruct Hs as [Hs|Hs]; [left|right; auto].
  destruct hit; [exact Hs|destruct Hs].
Qed.

Lemma sorted_app l1 l2 : StronglySorted Rlt l1 -> StronglySorted Rlt l2 ->
  (forall a b, In a l1 -> In b l2 -> a < b) -> StronglySorted Rlt (l1 ++ l2).
Proof.
  induction 1 as [|a l Hs IH Hf]; intros H2 H; auto. simpl. constructor.
  - apply IH; auto. intros; apply H; auto. now right.
  - apply Forall_app. split; auto. apply Forall_forall. intros b Hb. apply H; auto. now left.
Qed.

Lemma sorted_app_inv l1 l2 : StronglySorted Rlt (l1 ++ l2) ->
  StronglySorted Rlt l1 /\ forall a b, In a l1 -> In b l2 -> a < b.
Proof.
  induction l1 as [|a l IH]; intros H.
  - split; [constructor|]. intros ? ? [].
  - simpl in H. inversion H as [|? ? H1 H2]; subst. destruct (IH H1) as [IH1 IH2].
    rewrite Forall_app in H2. destruct H2 as [H2 H3]. rewrite Forall_forall in H3. split.
    + constructor; auto.
    + intros x y [<-|Hx] Hy; auto.
Qed.

Lemma run_sorted t x req times xs : runX t x req times xs -> StronglySorted Rlt req ->
  StronglySorted Rlt times.
Proof.
  induction 1 as [|t h x x' crossed hit req times xs Hh Hacc Hcr Hint Hreq Hend Hrun IH]; intros Hs; [constructor|].
  assert (Hs2 : StronglySorted Rlt req).
  { apply sorted_app_r in Hs. now apply sorted_app_r in Hs. }
  apply sorted_app.
  - apply sorted_app_inv in Hs. apply Hs.
  - apply sorted_app; auto.
    + destruct (hit || all); repeat constructor.
    + intros a b Ha Hb. destruct (hit || all); [destruct Ha as [<-|[]]|destruct Ha].
      exact (run_after _ _ _ _ _ Hrun b Hb).
  - intros a b Ha Hb. apply Hcr in Ha. apply in_app_or in Hb. destruct Hb as [Hb|Hb].
    + destruct (hit || all); [destruct Hb as [<-|[]]|destruct Hb]. lra.
    + pose proof (run_after _ _ _ _ _ Hrun b Hb). lra.
Qed.

Lemma last_in_app {A} (l1 l2 : list A) d : l2 <> [] -> last (l1 ++ l2) d = last l2 d.
Proof.
  intros H. induction l1 as [|a l IH]; auto. simpl. rewrite IH.
  destruct (l ++ l2) eqn:E; auto. apply app_eq_nil in E. destruct E; contradiction.
Qed.

(** The last output time is the last requested time, provided the steps end there. *)
Lemma run_last t x req times xs : runX t x req times xs -> forall d, req <> [] ->
  StronglySorted Rlt req -> (forall c, In c times -> c <= last req d) -> last times d = last req d.
Proof.
  intros Hr d Hne Hs Hle.
  assert (Hin : In (last req d) times).
  { apply (run_req_in _ _ _ _ _ Hr). destruct (exists_last Hne) as (l & a & ->).
    rewrite last_last. apply in_or_app. right. now left. }
  pose proof (run_sorted _ _ _ _ _ Hr Hs) as Hst.
  assert (Hnt : times <> []) by (intros ->; destruct Hin).
  destruct (exists_last Hnt) as (l & a & ->). rewrite last_last.
  assert (Ha : a <= last req d) by (apply Hle; apply in_or_app; right; now left).
  apply in_app_or in Hin. destruct Hin as [Hin|[<-|[]]]; auto.
  apply sorted_app_inv in Hst. destruct Hst as [_ Hst]. specialize (Hst _ a Hin (or_introl eq_refl)). lra.
Qed.

Lemma run_nil t x times xs : runX t x [] times xs -> times = [] /\ xs = [].
Proof.
  intros H. remember (@nil R) as rq eqn:E. destruct H as [|t h x x' crossed hit req times xs Hh Hacc Hcr Hint Hreq Hend Hrun]; auto.
  apply app_eq_nil in E. destruct E as [_ E]. apply app_eq_nil in E. destruct E as [E ->].
  destruct hit; [discriminate|]. destruct Hend; congruence.
Qed.

Lemma run_le t x req times xs : runX t x req times xs -> forall d,
  StronglySorted Rlt req -> forall c, In c times -> c <= last req d.
Proof.
  induction 1 as [|t h x x' crossed hit req times xs Hh Hacc Hcr Hint Hreq Hend Hrun IH]; intros d Hs c Hc.
  - destruct Hc.
  - assert (Hs2 : StronglySorted Rlt req) by (apply sorted_app_r in Hs; now apply sorted_app_r in Hs).
    assert (Hth : t + h <= last (crossed ++ (if hit then [t + h] else []) ++ req) d).
    { destruct req as [|r0 req'].
      - destruct Hend as [->|]; [|congruence]. rewrite app_nil_r, last_last. lra.
      - rewrite app_assoc, last_in_app by discriminate.
        assert (In (last (r0 :: req') d) (r0 :: req')).
        { destruct (@exists_last _ (r0 :: req') ltac:(discriminate)) as (l & a & E). rewrite E, last_last.
          apply in_or_app. right. now left. }
        specialize (Hreq _ H). lra. }
    apply in_app_or in Hc. destruct Hc as [Hc|Hc]; [apply Hcr in Hc; lra|].
    apply in_app_or in Hc. destruct Hc as [Hc|Hc].
    + destruct (hit || all); [destruct Hc as [<-|[]]|destruct Hc]. auto.
    + destruct req as [|r0 req'].
      * apply run_nil in Hrun. destruct Hrun as [-> _]. destruct Hc.
      * rewrite app_assoc, last_in_app by discriminate. now apply IH.
Qed.

Lemma chain_app t x t1 x1 t2 x2 : chain acc t x t1 x1 -> chain acc t1 x1 t2 x2 -> chain acc t x t2 x2.
Proof. induction 1; auto. intros. econstructor; eauto. Qed.

(** Without dense output every output is reached from the previous one by accepted steps. *)
Lemma run_chain t x req times xs : runX t x req times xs -> interp = false ->
  forall tb xb, chain acc tb xb t x ->
  forall i ta xa tc xc, nth_error (tb :: times) i = Some ta -> nth_error (xb :: xs) i = Some xa ->
    nth_error times i = Some tc -> nth_error xs i = Some xc -> chain acc ta xa tc xc.
Proof.
  induction 1 as [|t h x x' crossed hit req times xs Hh Hacc Hcr Hint Hreq Hend Hrun IH];
    intros Hi tb xb Hch i ta xa tc xc H1 H2 H3 H4.
  - destruct i; discriminate.
  - rewrite (Hint Hi) in *. cbn [app map] in *.
    assert (Hch' : chain acc tb xb (t + h) x').
    { eapply chain_app; [exact Hch|]. econstructor; eauto. apply chain_nil. }
    destruct (hit || all).
    + cbn [app] in *. destruct i as [|i].
      * injection H1 as <-. injection H2 as <-. injection H3 as <-. injection H4 as <-. exact Hch'.
      * cbn [nth_error] in *. apply (IH Hi (t + h) x' (chain_nil _ _) i); auto.
    + cbn [app] in *. apply (IH Hi tb xb Hch' i); auto.
Qed.

(** A chain of positive steps from t to t2 stays between them. *)
Lemma chain_le t x t2 x2 : chain acc t x t2 x2 -> t <= t2.
Proof. induction 1; lra. Qed.

(** The underlying chain of accepted steps: it ends at the last requested time, and without dense
    output every requested time is the end of a step. *)
Lemma run_path t x req times xs : runX t x req times xs -> StronglySorted Rlt req ->
  exists ends x2, path acc t x ends (last req t) x2 /\ StronglySorted Rlt ends /\
    (forall c, In c ends -> t < c <= last req t) /\
    (interp = false -> forall c, In c req -> In c ends) /\
    (forall c, In c times -> In c ends \/ In c req) /\
    (forall c, In c ends -> all = true -> In c times).
Proof.
  induction 1 as [|t h x x' crossed hit req times xs Hh Hacc Hcr Hint Hreq Hend Hrun IH]; intros Hs.
  - exists [], x. split; [constructor|]. split; [constructor|]. repeat split; intros; simpl in *; contradiction.
  - assert (Hs2 : StronglySorted Rlt req) by (apply sorted_app_r in Hs; now apply sorted_app_r in Hs).
    destruct (IH Hs2) as (ends & x2 & P & S1 & B & I1 & I2 & I3).
    assert (EL : last (crossed ++ (if hit then [t + h] else []) ++ req) t = last req (t + h)).
    { destruct req as [|r0 req'].
      - destruct Hend as [->|]; [|congruence]. rewrite app_nil_r, last_last. reflexivity.
      - rewrite app_assoc, last_in_app by discriminate. clear. revert r0; induction req'; auto.
        intros r0. cbn [last] in *. destruct req'; auto. }
    assert (Hle : t + h <= last req (t + h)).
    { destruct req as [|r0 req']; [simpl; lra|]. left. apply Hreq.
      destruct (@exists_last _ (r0 :: req') ltac:(discriminate)) as (l & a & E). rewrite E, last_last.
      apply in_or_app. right. now left. }
    exists ((t + h) :: ends), x2. rewrite EL. split; [econstructor; eauto|].
    split. { constructor; auto. apply Forall_forall. intros c Hc. apply B in Hc. lra. }
    split. { intros c [<-|Hc]; [lra|]. apply B in Hc. lra. }
    split. { intros Hi c Hc. rewrite (Hint Hi) in Hc. cbn [app] in Hc. apply in_app_or in Hc.
      destruct Hc as [Hc|Hc]; [|right; auto]. destruct hit; destruct Hc; [now left|contradiction]. }
    split. { intros c Hc. apply in_app_or in Hc. destruct Hc as [Hc|Hc]; [right; apply in_or_app; auto|].
      apply in_app_or in Hc. destruct Hc as [Hc|Hc].
      - left. destruct (hit || all); destruct Hc; [now left|contradiction].
      - destruct (I2 c Hc); [left; now right|]. right. apply in_or_app. right. apply in_or_app. auto. }
    intros c [<-|Hc] Ha.
    + rewrite Ha, orb_true_r. apply in_or_app. right. now left.
    + apply in_or_app. right. apply in_or_app. right. auto.
Qed.

(** Every output is a state of the chain or dense output inside one of its steps. *)
Lemma run_outputs t x req times xs : runX t x req times xs ->
  forall tb xb, chain acc tb xb t x ->
  forall i tc xc, nth_error times i = Some tc -> nth_error xs i = Some xc ->
  chain acc tb xb tc xc \/
  (interp = true /\ exists t1 x1 h x2, chain acc tb xb t1 x1 /\ acc t1 h x1 x2 /\ t1 < tc < t1 + h /\ xc = dense t1 h x1 tc).
Proof.
  induction 1 as [|t h x x' crossed hit req times xs Hh Hacc Hcr Hint Hreq Hend Hrun IH];
    intros tb xb Hch i tc xc H3 H4.
  - destruct i; discriminate.
  - assert (Hch' : chain acc tb xb (t + h) x').
    { eapply chain_app; [exact Hch|]. econstructor; eauto. apply chain_nil. }
    destruct (Nat.lt_ge_cases i (length crossed)) as [Hi|Hi].
    + rewrite nth_error_app1 in H3 by auto. rewrite nth_error_app1 in H4 by (rewrite map_length; auto).
      right. split. { destruct interp; auto. rewrite Hint in Hi by auto. simpl in Hi. lia. }
      exists t, x, h, x'. repeat split; auto; try (apply Hcr; eapply nth_error_In; eauto).
      rewrite nth_error_map, H3 in H4. now injection H4.
    + rewrite nth_error_app2 in H3 by auto. rewrite nth_error_app2 in H4 by (rewrite map_length; auto).
      rewrite map_length in H4. set (j := (i - length crossed)%nat) in *. clearbody j.
      destruct (hit || all).
      * cbn [app] in *. destruct j as [|j].
        -- injection H3 as <-. injection H4 as <-. now left.
        -- cbn [nth_error] in *. apply (IH tb xb Hch' j); auto.
      * cbn [app] in *. apply (IH tb xb Hch' j); auto.
Qed.

End R.
