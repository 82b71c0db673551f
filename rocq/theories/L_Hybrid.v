(** odeint_hybrid over the reals. *)
From Coq Require Import ZArith QArith Qreals Reals Lra Lia List Bool Sorted.
From Verif Require Import Num Py Tensor M_Constants M_SolversOde M_Utils M_Interp M_Odeint.
From Verif Require Import Spec_Ode Spec_Trees Spec_RK Spec_Norm Spec_Adaptive Spec_Hybrid.
From Verif Require Import L_Base L_Fixed L_Vec L_Steps L_Tables L_Steps2 L_Interp L_Utils L_Fixed2 L_Adaptive L_Run L_Adaptive2 L_Nan.
Import ListNotations.
Local Open Scope R_scope.

Notation cbk := ((R -> rvec -> bool) * (R -> rvec -> rvec))%type.
Definition mkcbs (cbs : list cbk) : list (@callback ROps) :=
  map (fun c : cbk => @MkCb ROps (@fst (R -> rvec -> bool) (R -> rvec -> rvec) c) (@snd (R -> rvec -> bool) (R -> rvec -> rvec) c)) cbs.

Lemma erk7_none tab f x t h :
  snd (@erk7_step ROps tab f x t h None) = snd (@erk7_step ROps tab f x t h (Some (f t x))).
Proof. reflexivity. Qed.

Lemma builtin_none s rows b bh f x t h : builtin_pair s rows b bh ->
  snd (s_step s f x t h None) = snd (s_step s f x t h (Some (f t x))).
Proof. intros [(-> & _)|(-> & _)]; apply erk7_none. Qed.

Lemma flags_len cbs t x : length (@event_flags ROps (mkcbs cbs) t x) = length cbs.
Proof. unfold event_flags, mkcbs. now rewrite !map_length. Qed.

Lemma triggered_any {A} (fl : list bool) : forall l : list A, length fl = length l ->
  triggered fl (map (fun _ => false) l) = true <-> In true fl.
Proof.
  unfold triggered. induction fl as [|b fl IH]; intros [|a l] H; try discriminate; cbn [map map2].
  - split; [discriminate|intros []].
  - rewrite Nat.ltb_lt. rewrite count_true_cons. specialize (IH l ltac:(now injection H)).
    rewrite Nat.ltb_lt in IH. destruct b; cbn [xorb andb negb]; split.
    + intros _. now left.
    + intros _. lia.
    + intros K. right. now apply IH.
    + intros [K|K]; [discriminate|]. now apply IH.
Qed.
Lemma fires_flags cbs t x : In true (@event_flags ROps (mkcbs cbs) t x) <-> fires cbs t x.
Proof.
  unfold event_flags, mkcbs. rewrite map_map. rewrite in_map_iff. unfold fires. cbn [check_event].
  split; intros (c & H1 & H2); exists c; auto.
Qed.
Lemma triggered_flags cbs t x :
  triggered (@event_flags ROps (mkcbs cbs) t x) (map (fun _ => false) (mkcbs cbs)) = true <-> fires cbs t x.
Proof.
  rewrite triggered_any by (unfold event_flags; now rewrite map_length). apply fires_flags.
Qed.
Lemma triggered_flags_f cbs t x :
  triggered (@event_flags ROps (mkcbs cbs) t x) (map (fun _ => false) (mkcbs cbs)) = false <-> ~ fires cbs t x.
Proof. rewrite <- triggered_flags. destruct (triggered _ _); split; congruence. Qed.

Lemma first_firing cbs t x i : first_true (@event_flags ROps (mkcbs cbs) t x) = Ok i ->
  exists cb, lowest_firing cbs t x cb /\ pyget (mkcbs cbs) i = Ok (@MkCb ROps (fst cb) (snd cb)).
Proof.
  unfold first_true, pyget, event_flags.
  enough (K : forall i0 i, first_true_from i0 (map (fun cb => check_event cb t x) (mkcbs cbs)) = Some i ->
     exists k cb, i = (i0 + k)%nat /\ lowest_firing cbs t x cb /\ nth_error cbs k = Some cb).
  { destruct (first_true_from 0 _) eqn:E; [|discriminate]. intros [= <-].
    apply K in E. destruct E as (k & cb & -> & H1 & H2). exists cb. split; auto.
    cbn [Nat.add]. unfold mkcbs. now rewrite (map_nth_error _ k cbs H2). }
  clear i. induction cbs as [|c cbs IH]; intros i0 i; cbn [mkcbs map first_true_from]; [discriminate|].
  cbn [check_event]. destruct (fst c t x) eqn:E.
  - intros [= <-]. exists 0%nat, c. split; [lia|]. split; auto. exists [], cbs. repeat split; auto. intros ? [].
  - intros H. apply IH in H. destruct H as (k & cb & -> & (bf & af & -> & H1 & H2) & H3).
    exists (S k), cb. split; [lia|]. split; auto. exists (c :: bf), af. repeat split; auto.
    intros c' [<-|Hin]; auto.
Qed.
Lemma first_firing_ok cbs t x : fires cbs t x -> exists i, first_true (@event_flags ROps (mkcbs cbs) t x) = Ok i.
Proof.
  intros H. unfold first_true. destruct (first_true_from 0 _) eqn:E; [eauto|]. exfalso.
  destruct H as (cb & Hin & Hc).
  enough (K : forall i0, first_true_from i0 (@event_flags ROps (mkcbs cbs) t x) <> None) by (eapply K; eauto).
  clear E. unfold event_flags, mkcbs. induction cbs as [|c cbs IH]; [destruct Hin|].
  intros i0. cbn [map first_true_from check_event]. destruct (fst c t x) eqn:E; [discriminate|].
  destruct Hin as [->|Hin]; [congruence|]. now apply IH.
Qed.
Lemma first_firing_fires {X} (cbs : list ((R -> X -> bool) * (R -> X -> X))) t x cb : lowest_firing cbs t x cb -> fires cbs t x.
Proof. intros (bf & af & -> & H & _). exists cb. split; auto. apply in_or_app. right. now left. Qed.

Lemma quiet_snoc {X} (flow : R -> R -> X -> X) cbs t x t' x' d : quiet flow cbs t x t' x' -> 0 < d ->
  ~ fires cbs (t' + d) (flow t' d x') -> quiet flow cbs t x (t' + d) (flow t' d x').
Proof.
  induction 1 as [t x|t d0 x t2 x2 H1 H2 H3 IH]; intros Hd Hn.
  - apply (quiet_cons t d x); auto. apply quiet_nil.
  - apply (quiet_cons t d0 x); auto.
Qed.
Lemma quiet_le {X} (flow : R -> R -> X -> X) cbs t x t' x' : quiet flow cbs t x t' x' -> t <= t'.
Proof. induction 1; lra. Qed.

Fixpoint tri (k : nat) : nat := match k with O => O | S k' => (S k' + tri k')%nat end.
Lemma tri_mono j k : (j <= k)%nat -> (tri j <= tri k)%nat.
Proof. induction 1; simpl; lia. Qed.

Lemma half_pow h i : h / 2 ^ S i = h / 2 ^ i / 2.
Proof. simpl. field. apply pow_nonzero. lra. Qed.
Lemma half_pos h i : 0 < h -> 0 < h / 2 ^ i.
Proof. intros. apply Rdiv_lt_0_compat; auto. apply pow_lt. lra. Qed.
Lemma half_mono h i j : 0 < h -> (i <= j)%nat -> h / 2 ^ j <= h / 2 ^ i.
Proof.
  intros Hh. induction 1; [lra|]. rewrite half_pow. pose proof (half_pos h m Hh). lra.
Qed.

Section Bisect.
Variables (f : R -> rvec -> rvec) (s : solver ROps (vec ROps)) (n : nat).
Variables (flow err : R -> R -> rvec -> rvec) (stg : R -> R -> rvec -> list rvec).
Hypothesis Hstep : forall x t h k, length x = n -> (k = None \/ k = Some (f t x)) ->
  snd (s_step s f x t h k) =
  Ok (Ret4 (f (t + h) (flow t h x)) (flow t h x) (err t h x) (stg t h x)).
Hypothesis Hflow : forall x t h, length x = n -> length (flow t h x) = n.
Variables (cbs : list cbk) (etol : R).
Let es := map (fun _ : @callback ROps => false) (mkcbs cbs).

(** One bisection iteration *)
Lemma bisect_S m dt ti di xi k1 fl : length xi = n -> (k1 = None \/ k1 = Some (f ti xi)) ->
  snd (@bisect ROps (S m) f s (mkcbs cbs) es etol dt ti di xi k1 fl) =
  if Rltb etol di then
    let d := di / 2 in
    let y := flow ti d xi in
    let fl' := @event_flags ROps (mkcbs cbs) (ti + d) y in
    if triggered fl' es
    then snd (@bisect ROps m f s (mkcbs cbs) es etol dt ti d xi k1 fl')
    else snd (@bisect ROps m f s (mkcbs cbs) es etol dt (ti + d) dt y (Some (f (ti + d) y)) fl')
  else Ok (ti, xi, k1, fl).
Proof.
  intros Hx Hk. cbn [bisect]. rops. destruct (Rltb etol di); [|reflexivity].
  assert (E2 : Q2R 2 = 2) by (unfold Q2R; simpl; lra). rewrite E2.
  pose proof (Hstep xi ti (di / 2) k1 Hx Hk) as E.
  refine (eq_trans (snd_bind_ok _ _ _ E) _). cbv beta iota zeta.
  match goal with |- snd (if ?a then _ else _) = (if ?b then _ else _) => change b with a; destruct a; reflexivity end.
Qed.

(** Every outcome of the bisection *)
Lemma bisect_spec m : forall dt ti di xi k1 fl r, length xi = n -> (k1 = None \/ k1 = Some (f ti xi)) ->
  (0 < di -> 0 < dt) -> 0 <= etol ->
  (exists d, fl = @event_flags ROps (mkcbs cbs) (ti + d) (flow ti d xi)) \/ 
  (forall i, first_true fl <> Ok i) ->
  snd (@bisect ROps m f s (mkcbs cbs) es etol dt ti di xi k1 fl) = Ok r ->
  exists t' x' k' fl', r = (t', x', k', fl') /\ length x' = n /\ quiet flow cbs ti xi t' x' /\
    ((exists d, fl' = @event_flags ROps (mkcbs cbs) (t' + d) (flow t' d x')) \/ (forall i, first_true fl' <> Ok i)).
Proof.
  induction m as [|m IH]; intros dt ti di xi k1 fl r Hx Hk Hd He Hfl Hr.
  - injection Hr as <-. do 4 eexists. split; [reflexivity|]. split; auto. split; auto. apply quiet_nil.
  - rewrite bisect_S in Hr by auto. destruct (Rltb_spec etol di) as [Hlt|Hge].
    + cbv zeta in Hr. destruct (triggered _ _) eqn:Et.
      * apply IH in Hr; auto. { intros; apply Hd. lra. } left. now exists (di / 2).
      * assert (Ht := Et). apply triggered_flags_f in Ht.
        apply IH in Hr.
        -- destruct Hr as (t' & x' & k' & fl' & -> & H1 & H2 & H3). do 4 eexists. split; [reflexivity|].
           split; auto. split; auto. eapply quiet_cons; [|exact Ht|exact H2]. lra.
        -- now apply Hflow.
        -- now right.
        -- intros _. apply Hd. lra.
        -- auto.
        -- right. intros i Hi. apply first_firing in Hi. destruct Hi as (cb & Hl & _).
           apply first_firing_fires in Hl. auto.
    + injection Hr as <-. do 4 eexists. split; [reflexivity|]. split; auto. split; auto. apply quiet_nil.
Qed.

Lemma bisect_no_error m : forall dt ti di xi k1 fl, length xi = n -> (k1 = None \/ k1 = Some (f ti xi)) ->
  exists r, snd (@bisect ROps m f s (mkcbs cbs) es etol dt ti di xi k1 fl) = Ok r.
Proof.
  induction m as [|m IH]; intros dt ti di xi k1 fl Hx Hk.
  - eexists. reflexivity.
  - rewrite bisect_S by auto. destruct (Rltb etol di); [|eauto]. cbv zeta. destruct (triggered _ _).
    + apply IH; auto.
    + apply IH; auto.
Qed.

Hypothesis Hpers : persistent flow cbs (fun x => length x = n).

(** Persistent events: the bisection stays inside the step. *)
Lemma bisect_inside m : forall t h x ti di xi k1 fl r, length xi = n -> (k1 = None \/ k1 = Some (f ti xi)) ->
  length x = n -> 0 < h -> 0 <= etol -> fires cbs (t + h) (flow t h x) -> quiet flow cbs t x ti xi -> ti < t + h ->
  snd (@bisect ROps m f s (mkcbs cbs) es etol h ti di xi k1 fl) = Ok r ->
  exists t' x' k' fl', r = (t', x', k', fl') /\ ti <= t' < t + h.
Proof.
  induction m as [|m IH]; intros t h x ti di xi k1 fl r Hx Hk Hlx Hh He Hf Hq Hlt Hr.
  - injection Hr as <-. do 4 eexists. split; [reflexivity|]. lra.
  - rewrite bisect_S in Hr by auto. destruct (Rltb_spec etol di) as [Hd|Hge].
    + cbv zeta in Hr. destruct (triggered _ _) eqn:Et.
      * eapply (IH t h x) in Hr; eauto.
      * apply triggered_flags_f in Et.
        assert (ti + di / 2 < t + h).
        { destruct (Rlt_le_dec (ti + di / 2) (t + h)); auto. exfalso. apply Et. eapply (Hpers t h x); eauto. }
        eapply (IH t h x) in Hr; eauto.
        -- destruct Hr as (t' & x' & k' & fl' & -> & H1). do 4 eexists. split; [reflexivity|]. lra.
        -- apply quiet_snoc; auto. lra.
    + injection Hr as <-. do 4 eexists. split; [reflexivity|]. lra.
Qed.

(** Persistent events and a step of at most 2^k event tolerances: the bisection needs at most
    k + k (k+1) / 2 iterations, ends with a firing callback and locates the event up to the
    tolerance. *)
Lemma bisect_located k m : forall h ti xi i j k1 fl, length xi = n -> (k1 = None \/ k1 = Some (f ti xi)) ->
  0 < h -> 0 < etol -> h <= etol * 2 ^ k -> (i <= j <= k)%nat ->
  ((k - i) + (tri k - tri j) <= m)%nat ->
  (forall l, (l <= j)%nat -> fires cbs (ti + h / 2 ^ l) (flow ti (h / 2 ^ l) xi)) ->
  (fl = @event_flags ROps (mkcbs cbs) (ti + h / 2 ^ i) (flow ti (h / 2 ^ i) xi) \/ (i = 0%nat /\ etol < h)) ->
  exists t' x' k' d, 
    snd (@bisect ROps m f s (mkcbs cbs) es etol h ti (h / 2 ^ i) xi k1 fl) =
      Ok (t', x', k', @event_flags ROps (mkcbs cbs) (t' + d) (flow t' d x')) /\ 
    0 < d <= etol /\ fires cbs (t' + d) (flow t' d x').
Proof.
  induction m as [|m IH]; intros h ti xi i j k1 fl Hx Hk Hh He Hhk Hij Hm Hf Hfl.
  - assert (i = k /\ j = k) as [-> ->].
    { assert (i = k) by lia. assert (j = k) by lia. auto. }
    assert (Hle : h / 2 ^ k <= etol).
    { apply Rmult_le_reg_r with (2 ^ k); [apply pow_lt; lra|]. unfold Rdiv. rewrite Rmult_assoc, Rinv_l, Rmult_1_r; auto.
      apply pow_nonzero; lra. }
    destruct Hfl as [->|[-> Hlt]].
    + exists ti, xi, k1, (h / 2 ^ k). split; [reflexivity|]. split; [|apply Hf; lia].
      split; auto. now apply half_pos.
    + simpl in Hle. lra.
  - rewrite bisect_S by auto. destruct (Rltb_spec etol (h / 2 ^ i)) as [Hlt|Hge].
    + assert (Hik : (i < k)%nat).
      { destruct (Nat.lt_ge_cases i k); auto. exfalso.
        assert (Hle : h / 2 ^ k <= etol).
        { apply Rmult_le_reg_r with (2 ^ k); [apply pow_lt; lra|]. unfold Rdiv. rewrite Rmult_assoc, Rinv_l, Rmult_1_r; auto.
          apply pow_nonzero; lra. }
        pose proof (half_mono h k i Hh H). lra. }
      cbv zeta. rewrite <- half_pow.
      destruct (triggered _ _) eqn:Et.
      * apply triggered_flags in Et.
        destruct (Nat.lt_ge_cases i j) as [Hlj|Hlj].
        -- apply (IH h ti xi (S i) j); auto; try lia.
        -- assert (i = j) by lia. subst j. apply (IH h ti xi (S i) (S i)); auto; try lia.
           ++ simpl tri in *. pose proof (tri_mono (S i) k ltac:(lia)). simpl in H. lia.
           ++ intros l Hl. destruct (Nat.eq_dec l (S i)) as [->|]; auto. apply Hf. lia.
      * apply triggered_flags_f in Et.
        assert (i = j).
        { destruct (Nat.lt_ge_cases i j); [|lia]. exfalso. apply Et, Hf. lia. }
        subst j.
        assert (Hq : quiet flow cbs ti xi (ti + h / 2 ^ S i) (flow ti (h / 2 ^ S i) xi)).
        { eapply quiet_cons; [|exact Et|apply quiet_nil]. now apply half_pos. }
        match goal with |- exists _ _ _ _, snd (@bisect _ _ _ _ _ _ _ _ ?a _ ?c ?d ?e) = _ /\ _ =>
          pose proof (IH h a c 0%nat (S i) d e) as K end.
        replace (h / 2 ^ 0) with h in K by (simpl; field).
        apply K; auto; try lia; clear K.
        -- pose proof (tri_mono (S i) k ltac:(lia)). simpl in *. lia.
        -- intros l Hl. pose proof (half_mono h l (S i) Hh Hl). pose proof (half_pos h (S i) Hh).
           apply (Hpers ti (h / 2 ^ i) xi); auto.
           ++ now apply half_pos.
           ++ rewrite half_pow in *. lra.
           ++ rewrite half_pow in *. lra.
        -- right. split; auto. assert (h / 2 ^ i <= h / 2 ^ 0) by (apply half_mono; [auto|lia]). simpl in H. lra.
    + destruct Hfl as [->|[-> Hl]].
      * exists ti, xi, k1, (h / 2 ^ i). split; [reflexivity|]. split; [|apply Hf; lia].
        split; auto. now apply half_pos.
      * simpl in Hge. lra.
Qed.
End Bisect.
