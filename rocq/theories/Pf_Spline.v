(** Proofs: the spline of the interpolated adjoint, dense_output. *)
From Coq Require Import ZArith QArith Qreals Reals Lra Lia List Bool Sorted.
From Verif Require Import Num Py Tensor M_SolversOde M_Utils M_Odeint M_Root M_Sens M_Spline.
From Verif Require Import Spec_Ode Spec_Trees Spec_RK Spec_Root Spec_Sens Spec_Spline.
From Verif Require Import L_Base L_Fixed L_Vec L_Steps L_Steps2 L_Fixed2 L_Root L_Sens L_Spline Pf_Fixed Pf_Sens L_Adaptive.
Import ListNotations.
Local Open Scope R_scope.

(** ** The spline *)
Lemma pos_diffs t : StronglySorted Rlt t -> Forall (fun v => 0 < v) (map (fun h => 1 / h) (@diffs ROps t)).
Proof.
  induction t as [|t0 [|t1 t] IH]; intros H; [constructor|constructor|]. inversion H as [|? ? H' F]; subst. inversion F; subst.
  change (map (fun h => 1 / h) (@diffs ROps (t0 :: t1 :: t))) with (1 / (t1 - t0) :: map (fun h => 1 / h) (@diffs ROps (t1 :: t))).
  constructor; [apply Rdiv_lt_0_compat; lra|]. now apply IH.
Qed.
Lemma diffs_len (t0 : R) t : length (@diffs ROps (t0 :: t)) = length t.
Proof. revert t0. induction t as [|t1 t IH]; intros t0; [reflexivity|]. cbn [length]. rewrite <- (IH t1). reflexivity. Qed.
Lemma map2_len {A B C} (f : A -> B -> C) l m n : length l = n -> length m = n -> length (map2 f l m) = n.
Proof. revert m n. induction l as [|a l IH]; intros [|b m] [|n] H1 H2; try discriminate; auto. cbn. f_equal. apply IH; auto. Qed.
Lemma map_R3 (dx rs : list R) : @map2 R R R (fun dx r => Q2R 3 * dx * (r * r)) dx rs = map2 (fun dx r => 3 * dx * (r * r)) dx rs.
Proof. replace (Q2R 3) with 3 by (symmetry; first [exact (Q2R_int 2)|exact (Q2R_int 3)]). reflexivity. Qed.

Lemma knots_smooth t0 t1 t x0 x1 x : StronglySorted Rlt (t0 :: t1 :: t) -> length x = length t ->
  smooth (t0 :: t1 :: t) (x0 :: x1 :: x) (@knot_derivatives ROps (t0 :: t1 :: t) (x0 :: x1 :: x)) 0 /\
  length (@knot_derivatives ROps (t0 :: t1 :: t) (x0 :: x1 :: x)) = S (S (length t)).
Proof.
  intros Hs Hx.
  set (r0 := 1 / (t1 - t0)). set (rs := map (fun h => 1 / h) (@diffs ROps (t1 :: t))).
  set (sc := map2 (fun dx r => 3 * dx * (r * r)) (@diffs ROps (x1 :: x)) rs). set (s0 := 3 * (x1 - x0) * (r0 * r0)).
  assert (Hp := pos_diffs _ Hs). 
  change (map (fun h => 1 / h) (@diffs ROps (t0 :: t1 :: t))) with (r0 :: rs) in Hp. inversion Hp as [|? ? Hr0 Hrs]; subst.
  assert (Lr : length rs = length t) by (unfold rs; rewrite map_length; apply diffs_len).
  assert (Ls : length sc = length t) by (unfold sc; apply map2_len; auto; rewrite diffs_len; auto).
  assert (EK : @knot_derivatives ROps (t0 :: t1 :: t) (x0 :: x1 :: x) =
    @tridiagonal ROps (r0 :: rs) (later_diag r0 rs) (map2 Rplus (sc ++ [0]) (s0 :: sc)) (2 * (r0 + 0)) (s0 + 0)).
  { unfold knot_derivatives.
    change (@diffs ROps (t0 :: t1 :: t)) with (t1 - t0 :: @diffs ROps (t1 :: t)). change (@diffs ROps (x0 :: x1 :: x)) with (x1 - x0 :: @diffs ROps (x1 :: x)).
    unfold rs, sc, s0, r0, later_diag. cbn -[Q2R diffs tridiagonal]. rewrite ?Q2R_1', ?Q2R_0'.
    replace (Q2R 2) with 2 by (symmetry; first [exact (Q2R_int 2)|exact (Q2R_int 3)]). rewrite ?map_R3. replace (Q2R 3) with 3 by (unfold Q2R; cbn; lra). reflexivity. }
  rewrite EK.
  destruct (tri_solves rs r0 (map2 Rplus (sc ++ [0]) (s0 :: sc)) (2 * (r0 + 0)) (s0 + 0) Hr0 Hrs ltac:(lra)) as [T1 T2].
  { apply map2_len; [rewrite app_length, Nat.add_1_r; f_equal|cbn [length]; f_equal]; congruence. }
  split; [|rewrite T2; lia].
  eapply (solves_smooth t t0 t1 x0 x1 x _ _ _ 0 Hs Hx); [exact T1|]. intros k0 _. fold r0. fold s0. unfold Rdiv. ring.
Qed.

Lemma coeffs_smooth t0 t1 t x0 x1 x : StronglySorted Rlt (t0 :: t1 :: t) -> length x = length t ->
  exists k, length k = S (S (length t)) /\ smooth (t0 :: t1 :: t) (x0 :: x1 :: x) k 0 /\
    @natural_cubic_coeffs ROps (t0 :: t1 :: t) (x0 :: x1 :: x) = herms (t0 :: t1 :: t) (x0 :: x1 :: x) k.
Proof.
  intros Hs Hx. destruct t as [|t2 t].
  - destruct x; [|discriminate]. inversion Hs as [|? ? _ F]; subst. inversion F; subst.
    exists [(x1 - x0) / (t1 - t0); (x1 - x0) / (t1 - t0)]. split; [reflexivity|]. split.
    + cbn. unfold curv0, curv1. split; field; lra.
    + cbn. unfold herm. rewrite ?Q2R_0'. apply f_equal2; [|reflexivity]. apply f_equal2; [reflexivity|].
      apply f_equal2; [apply f_equal2; [reflexivity|]|]; field; lra.
  - destruct (knots_smooth t0 t1 (t2 :: t) x0 x1 x Hs Hx) as [H1 H2]. eexists. split; [exact H2|]. split; [exact H1|].
    destruct x as [|x2 x]; [discriminate|]. rewrite <- herms_model by exact Hs. reflexivity.
Qed.

Lemma herms_cons t0 t1 t x0 x1 x k0 k1 k : herms (t0 :: t1 :: t) (x0 :: x1 :: x) (k0 :: k1 :: k) =
  (t0, herm (t1 - t0) x0 x1 k0 k1) :: herms (t1 :: t) (x1 :: x) (k1 :: k).
Proof. reflexivity. Qed.
Lemma q_fst q u c : In q [q0; q1; q2] -> fst (q (u, c)) = u.
Proof. intros [<-|[<-|[<-|[]]]]; destruct c as [[[? ?] ?] ?]; reflexivity. Qed.
(** on the pieces after the first one *)
Lemma pw_tail q t0 t1 t2 t x0 x1 x2 x k0 k1 k2 k u : In q [q0; q1; q2] ->
  pw (map q (herms (t0 :: t1 :: t2 :: t) (x0 :: x1 :: x2 :: x) (k0 :: k1 :: k2 :: k))) u =
  if Rlt_dec t1 u then pw (map q (herms (t1 :: t2 :: t) (x1 :: x2 :: x) (k1 :: k2 :: k))) u else snd (q (t0, herm (t1 - t0) x0 x1 k0 k1)) u.
Proof. intros [<-|[<-|[<-|[]]]]; rewrite !herms_cons; reflexivity. Qed.
Lemma pw_single q t0 t1 x0 x1 k0 k1 u : In q [q0; q1; q2] -> pw (map q (herms [t0; t1] [x0; x1] [k0; k1])) u = snd (q (t0, herm (t1 - t0) x0 x1 k0 k1)) u.
Proof. intros [<-|[<-|[<-|[]]]]; reflexivity. Qed.
Lemma pw_low q t0 t1 t x0 x1 x k0 k1 k u : In q [q0; q1; q2] -> u <= t1 -> length x = length t -> length k = length t ->
  pw (map q (herms (t0 :: t1 :: t) (x0 :: x1 :: x) (k0 :: k1 :: k))) u = snd (q (t0, herm (t1 - t0) x0 x1 k0 k1)) u.
Proof.
  intros Hq Hu Hx Hk. destruct t as [|t2 t], x as [|x2 x], k as [|k2 k]; try discriminate; [now apply pw_single|].
  rewrite pw_tail by auto. destruct (Rlt_dec t1 u); [lra|reflexivity].
Qed.
Lemma pw_high q t0 t1 t2 t x0 x1 x2 x k0 k1 k2 k u c0 : In q [q0; q1; q2] -> t1 <= u -> StronglySorted Rlt (t0 :: t1 :: t2 :: t) ->
  smooth (t0 :: t1 :: t2 :: t) (x0 :: x1 :: x2 :: x) (k0 :: k1 :: k2 :: k) c0 ->
  pw (map q (herms (t0 :: t1 :: t2 :: t) (x0 :: x1 :: x2 :: x) (k0 :: k1 :: k2 :: k))) u =
  pw (map q (herms (t1 :: t2 :: t) (x1 :: x2 :: x) (k1 :: k2 :: k))) u.
Proof.
  intros Hq Hu Hs Hk. rewrite pw_tail by auto. destruct (Rlt_dec t1 u); auto. replace u with t1 in * by lra.
  pose proof (herms_joined _ _ _ _ Hs Hk) as J.
  assert (Jq : joined (map q (herms (t0 :: t1 :: t2 :: t) (x0 :: x1 :: x2 :: x) (k0 :: k1 :: k2 :: k)))) by (destruct Hq as [<-|[<-|[<-|[]]]]; tauto).
  rewrite !herms_cons in Jq |- *. cbn [map] in Jq |- *. apply joined_cons in Jq. destruct Jq as [[_ E] Jq]. rewrite !(q_fst q) in E by auto. rewrite E.
  symmetry. clear - Jq Hq. destruct (q (t1, herm (t2 - t1) x1 x2 k1 k2)) as [u f] eqn:Eq.
  pose proof (q_fst q t1 (herm (t2 - t1) x1 x2 k1 k2) Hq) as Ef. rewrite Eq in Ef. cbn in Ef. subst u. cbn [snd]. apply pw_first; auto. lra.
Qed.

Lemma herms_natural : forall t t0 t1 x0 x1 x k0 k1 k c0, StronglySorted Rlt (t0 :: t1 :: t) -> length x = length t -> length k = length t ->
  smooth (t0 :: t1 :: t) (x0 :: x1 :: x) (k0 :: k1 :: k) c0 ->
  let G0 := pw (map q0 (herms (t0 :: t1 :: t) (x0 :: x1 :: x) (k0 :: k1 :: k))) in
  let G2 := pw (map q2 (herms (t0 :: t1 :: t) (x0 :: x1 :: x) (k0 :: k1 :: k))) in
  (forall i u y, nth_error (t0 :: t1 :: t) i = Some u -> nth_error (x0 :: x1 :: x) i = Some y -> G0 u = y) /\
  G2 t0 = c0 /\ G2 (last (t0 :: t1 :: t) 0) = 0 /\
  (forall i u u', nth_error (t0 :: t1 :: t) i = Some u -> nth_error (t0 :: t1 :: t) (S i) = Some u' ->
     exists a b c d, forall v, u <= v <= u' -> G0 v = a + b * v + c * v ^ 2 + d * v ^ 3).
Proof.
  induction t as [|t2 t IH]; intros t0 t1 x0 x1 x k0 k1 k c0 Hs Hx Hk HS G0 G2.
  all: assert (I0 : In q0 [q0; q1; q2]) by (cbn; tauto); assert (I2 : In q2 [q0; q1; q2]) by (cbn; tauto).
  all: inversion Hs as [|? ? Hs' Hf]; subst; inversion Hf as [|? ? H01 _]; subst.
  all: destruct (herm_at0 t0 (t1 - t0) x0 x1 k0 k1 ltac:(lra)) as (A0 & A1 & A2); destruct (herm_at1 t0 (t1 - t0) x0 x1 k0 k1 ltac:(lra)) as (B0 & B1 & B2).
  all: replace (t0 + (t1 - t0)) with t1 in * by ring.
  all: assert (P : exists a b c d, forall v, t0 <= v <= t1 -> G0 v = a + b * v + c * v ^ 2 + d * v ^ 3).
  1,3: unfold G0; destruct (herm (t1 - t0) x0 x1 k0 k1) as [[[a b] c] d] eqn:E;
    exists (a - b * t0 + c / 2 * t0 ^ 2 - d / 3 * t0 ^ 3), (b - c * t0 + d * t0 ^ 2), (c / 2 - d * t0), (d / 3);
    intros v Hv; rewrite (pw_low q0) by (auto; lra); rewrite E; cbn [q0 snd]; field.
  - destruct x; [|discriminate]. destruct k; [|discriminate]. destruct HS as [HS0 HS1]. cbn [smooth] in HS1.
    unfold G0, G2 in *. split; [|split; [|split]].
    + intros [|[|i]] u y Hu Hy; cbn in Hu, Hy; try (destruct i; discriminate); injection Hu as <-; injection Hy as <-; rewrite pw_single by auto; assumption.
    + rewrite pw_single by auto. congruence.
    + cbn [last]. rewrite pw_single by auto. congruence.
    + intros [|[|i]] u u' Hu Hu'; cbn in Hu, Hu'; try (destruct i; discriminate); try discriminate. injection Hu as <-; injection Hu' as <-. exact P.
  - destruct x as [|x2 x]; [discriminate|]. destruct k as [|k2 k]; [discriminate|].
    destruct (IH t1 t2 x1 x2 x k1 k2 k _ Hs' ltac:(now injection Hx) ltac:(now injection Hk) (proj2 HS)) as (J1 & J2 & J3 & J4).
    inversion Hs' as [|? ? _ Hf']; subst.
    assert (Ge : forall i u, nth_error (t1 :: t2 :: t) i = Some u -> t1 <= u).
    { intros [|i] u Hu; [injection Hu as <-; lra|]. change (nth_error (t2 :: t) i = Some u) in Hu. apply nth_error_In in Hu. rewrite Forall_forall in Hf'. apply Rlt_le, Hf', Hu. }
    unfold G0, G2 in *. split; [|split; [|split]].
    + intros [|i] u y Hu Hy; [injection Hu as <-; injection Hy as <-; rewrite pw_low by (auto; lra); exact A0|].
      cbn in Hu, Hy. rewrite (pw_high q0 _ _ _ _ _ _ _ _ _ _ _ _ _ c0) by (auto; eapply Ge; exact Hu). exact (J1 i u y Hu Hy).
    + rewrite pw_low by (auto; lra). destruct HS as [HS _]. congruence.
    + change (last (t0 :: t1 :: t2 :: t) 0) with (last (t1 :: t2 :: t) 0).
      assert (HL : In (last (t1 :: t2 :: t) 0) (t1 :: t2 :: t)).
      { clear. generalize (t2 :: t). intros l. revert t1. induction l as [|b l IHl]; intros a; [now left|]. right. exact (IHl b). }
      apply In_nth_error in HL. destruct HL as (i & HL).
      rewrite (pw_high q2 _ _ _ _ _ _ _ _ _ _ _ _ _ c0) by (auto; eapply Ge; exact HL). exact J3.
    + intros [|i] u u' Hu Hu'; [injection Hu as <-; injection Hu' as <-; exact P|].
      destruct (J4 i u u' Hu Hu') as (a & b & c & d & Hv). exists a, b, c, d. intros v Hv'. rewrite <- Hv by exact Hv'.
      apply (pw_high q0 _ _ _ _ _ _ _ _ _ _ _ _ _ c0); auto. cbn in Hu. pose proof (Ge i u Hu). lra.
Qed.

Lemma natural_coeffs_spline t0 t1 t xs : StronglySorted Rlt (t0 :: t1 :: t) -> length xs = length (t0 :: t1 :: t) ->
  natural_spline (t0 :: t1 :: t) xs (@spline_evaluate ROps (@natural_cubic_coeffs ROps (t0 :: t1 :: t) xs)).
Proof.
  intros Hs Hx. destruct xs as [|x0 [|x1 x]]; try discriminate.
  destruct (coeffs_smooth t0 t1 t x0 x1 x Hs ltac:(now injection Hx)) as (k & Lk & Sk & E).
  destruct k as [|k0 [|k1 k]]; try discriminate. set (cs := herms (t0 :: t1 :: t) (x0 :: x1 :: x) (k0 :: k1 :: k)) in *.
  assert (Ev : forall u, @spline_evaluate ROps (@natural_cubic_coeffs ROps (t0 :: t1 :: t) (x0 :: x1 :: x)) u = pw (map q0 cs) u).
  { intros u. refine (eq_trans (f_equal (fun c => @spline_evaluate ROps c u) E) _). apply evaluate_pw. }
  destruct (herms_joined _ _ _ _ Hs Sk) as (J0 & J1 & J2). fold cs in J0, J1, J2.
  destruct (herms_natural t t0 t1 x0 x1 x k0 k1 k 0 Hs ltac:(now injection Hx) ltac:(now injection Lk) Sk) as (N1 & N2 & N3 & N4).
  fold cs in N1, N2, N3, N4.
  assert (Hne : forall q : R * cub -> R * (R -> R), map q cs <> []) by (intros q; discriminate).
  split; [|split].
  - intros i u y Hu Hy. rewrite Ev. exact (N1 i u y Hu Hy).
  - exists (pw (map q1 cs)), (pw (map q2 cs)). split; [|split; [|split]].
    + intros u. eapply L_Conv.dlim_ext; [|reflexivity|apply (pw_derive _ _ (q01 cs) J0 J1 (Hne q0) u)]. intros v. symmetry. apply Ev.
    + apply (pw_derive _ _ (q12 cs) J1 J2 (Hne q1)).
    + apply (pw_cont _ (q2c cs) J2 (Hne q2)).
    + split; [exact N2|exact N3].
  - intros i u u' Hu Hu'. destruct (N4 i u u' Hu Hu') as (a & b & c & d & H). exists a, b, c, d. intros v Hv. rewrite Ev. now apply H.
Qed.

(** ** The path of the interpolated adjoint *)
Lemma incb_sorted : forall l, StronglySorted Rlt l -> @strictly_increasing ROps l = true.
Proof.
  induction l as [|a l IH]; intros H; [reflexivity|]. destruct l as [|b l]; [reflexivity|].
  inversion H as [|? ? H' F]; subst. inversion F; subst.
  change (Rltb a b && @strictly_increasing ROps (b :: l) = true). rewrite IH by assumption.
  unfold Rltb. destruct (Rlt_dec a b); [reflexivity|contradiction].
Qed.
Lemma path_ok k d t0 t1 ts (sol : list rvl) : StronglySorted Rlt (t0 :: t1 :: ts) -> length sol = length (t0 :: t1 :: ts) ->
  exists path, @interp_path ROps [k; d] (t0 :: t1 :: ts) sol = Ok path /\ (forall t, length (path t) = (k * d)%nat) /\
    forall j, (j < k * d)%nat -> natural_spline (t0 :: t1 :: ts) (map (fun y => nth j y 0) sol) (fun t => nth j (path t) 0) /\
      forall t, nth j (path t) 0 = @spline_evaluate ROps (@natural_cubic_coeffs ROps (t0 :: t1 :: ts) (map (fun y : list R => nth j y 0) sol)) t.
Proof.
  intros Hs Hl. unfold interp_path, validate_input_path. cbn [length Nat.ltb Nat.leb negb Nat.eqb].
  pose proof (incb_sorted _ Hs) as Hi.
  change (num ROps) with R in *. change (vec ROps) with rvl in *. rewrite Hi. cbn [negb]. rewrite Hl. cbn [nth length Nat.sub].
  rewrite Nat.eqb_refl. cbn [negb rbind Nat.ltb Nat.leb]. eexists. split; [reflexivity|].
  assert (Sz : size [k; d] = (k * d)%nat) by (unfold size; cbn; lia). rewrite Sz. split.
  - intros t. rewrite map_length. apply seq_length.
  - intros j Hj.
    assert (E : forall t, nth j (map (fun j => @spline_evaluate ROps (@natural_cubic_coeffs ROps (t0 :: t1 :: ts) (map (fun y : list (num ROps) => nth j y n0) sol)) t) (seq 0 (k * d))) 0 =
      @spline_evaluate ROps (@natural_cubic_coeffs ROps (t0 :: t1 :: ts) (map (fun y : list R => nth j y 0) sol)) t).
    { intros t. rewrite (nth_indep _ _ (@spline_evaluate ROps (@natural_cubic_coeffs ROps (t0 :: t1 :: ts) (map (fun y : list (num ROps) => nth (k * d) y n0) sol)) t)) by (rewrite map_length, seq_length; exact Hj).
      rewrite (map_nth (fun j => @spline_evaluate ROps (@natural_cubic_coeffs ROps (t0 :: t1 :: ts) (map (fun y : list (num ROps) => nth j y n0) sol)) t) _ (k * d)%nat).
      rewrite seq_nth by exact Hj. cbn [Nat.add nQ ROps]. rewrite Q2R_0'. reflexivity. }
    destruct (natural_coeffs_spline t0 t1 ts (map (fun y : list R => nth j y 0) sol) Hs ltac:(now rewrite map_length)) as (N1 & (S1 & S2 & D1 & D2 & C2) & N3).
    split; [|exact E]. split; [|split].
    + intros i t x Ht Hx. rewrite E. exact (N1 i t x Ht Hx).
    + exists S1, S2. split; [|split; [exact D2|exact C2]]. intros t. eapply L_Conv.dlim_ext; [|reflexivity|apply D1]. intros u. symmetry. apply E.
    + intros i t t' Ht Ht'. destruct (N3 i t t' Ht Ht') as (a & b & c & e & H). exists a, b, c, e. intros u Hu. rewrite E. now apply H.
Qed.

(** ** The backward pass along a path *)
Lemma step_ext rows b f g t h x : (forall t x, f t x = g t x) -> erk_step rows b f t h x = erk_step rows b g t h x.
Proof.
  intros E. unfold erk_step. f_equal. unfold erk_stages.
  assert (G : forall acc, fold_left (fun ks r => ks ++ [f (t + fst r * h) (comb x h (snd r) ks)]) rows acc =
    fold_left (fun ks r => ks ++ [g (t + fst r * h) (comb x h (snd r) ks)]) rows acc); [|apply G].
  induction rows as [|r rows IH]; intros acc; [reflexivity|]. cbn [fold_left]. rewrite E. apply IH.
Qed.
Lemma add_head nmu : forall (g A : rvl) n, length g = n -> length A = (n + nmu)%nat ->
  @vadd ROps (firstn n A) g ++ skipn n A = axpy 1 (g ++ repeat 0 nmu) A.
Proof.
  induction g as [|u g IH]; intros A n Hg HA; subst n.
  - cbn [firstn skipn app length]. change (@vadd ROps [] []) with (@nil R). cbn [app]. unfold axpy. cbn in HA. subst nmu.
    induction A as [|v A IH]; [reflexivity|]. cbn. f_equal; [lra|exact IH].
  - destruct A as [|v A]; [discriminate|]. cbn [length firstn skipn app Nat.add] in *. injection HA as HA.
    specialize (IH A (length g) eq_refl HA). unfold axpy in *. cbn [combine map fst snd app].
    change (@vadd ROps (v :: firstn (length g) A) (u :: g)) with (v + u :: @vadd ROps (firstn (length g) A) g). cbn [app]. f_equal; [lra|exact IH].
Qed.
Section Along.
Variables (n nmu : nat) (F : adj_field (K := ROps)) (path : R -> rvl).
Hypothesis Hdg : af_dg F = None.
Hypothesis Hpath : forall t, length (path t) = n.
Hypothesis HX : forall t x w, length x = n -> length w = n -> length (af_vjp_x F t x w) = n.
Hypothesis HP : forall t x w, length x = n -> length w = n -> length (cat_params (af_vjp_p F t x w)) = nmu.
Variables (fuel : nat) (s : solver ROps (vec ROps)) (rows : list (R * rvl)) (b : rvl) (atol rtol : R).
Hypothesis Hs : erk_solver s rows b.
Hypothesis Hmu : (0 < nmu)%nat.
Let isize : nat := (n + nmu)%nat.

Definition along (t : R) (A : rvl) : rvl :=
  let w := map Ropp (firstn n A) in af_vjp_x F t (path t) w ++ cat_params (af_vjp_p F t (path t) w).
Lemma along_dyn t A : @interp_dynamics ROps F path n t A = along t A.
Proof. unfold interp_dynamics, along, dlam. rewrite Hdg. reflexivity. Qed.
Lemma along_on : field_on isize along.
Proof.
  intros t A HA. unfold along, isize in *.
  assert (L2 : length (map Ropp (firstn n A)) = n) by (rewrite map_length, firstn_length; lia).
  pose proof (HX t (path t) _ (Hpath t) L2) as E2. pose proof (HP t (path t) _ (Hpath t) L2) as E3.
  change (num ROps) with R in *. change (vec ROps) with rvl in *. rewrite app_length. congruence.
Qed.
Lemma tail_slice (A : rvl) : length A = isize -> pyslice (Some (- Z.of_nat nmu)%Z) None A = skipn n A.
Proof.
  intros HA. unfold pyslice, slice_bound, isize in *. rewrite HA.
  replace (- Z.of_nat nmu <? 0)%Z with true by (symmetry; apply Z.ltb_lt; lia).
  replace (Nat.min (Z.to_nat (- Z.of_nat nmu + Z.of_nat (n + nmu))) (n + nmu)) with n by lia.
  rewrite firstn_all2; auto. rewrite skipn_length. lia.
Qed.
Lemma interval_along t_prev t_i g A : separated [t_i; t_prev] -> length A = isize -> length g = n ->
  @interp_interval ROps fuel F path n nmu s atol rtol t_prev t_i g A =
    Ok (axpy 1 (g ++ repeat 0 nmu) (erk_step rows b along t_i (t_prev - t_i) A)) /\
  length (axpy 1 (g ++ repeat 0 nmu) (erk_step rows b along t_i (t_prev - t_i) A)) = isize.
Proof.
  intros Hsep HA Hg. unfold interp_interval.
  assert (HD : field_on isize (@interp_dynamics ROps F path n)) by (intros t z Hz; rewrite along_dyn; now apply along_on).
  assert (E0 : Nat.eqb (length (@interp_dynamics ROps F path n t_i A)) (length A) = true).
  { apply Nat.eqb_eq. etransitivity; [apply HD, HA|symmetry; exact HA]. }
  change (num ROps) with R in *. change (vec ROps) with rvl in *. rewrite E0. cbn [negb].
  destruct (two_point fuel s rows b isize (@interp_dynamics ROps F path n) A t_i t_prev atol rtol None Hs HD HA Hsep) as (tm & E).
  change (num ROps) with R in *. change (vec ROps) with rvl in *. rewrite E. cbn [rbind snd].
  assert (ES : erk_step rows b (@interp_dynamics ROps F path n) t_i (t_prev - t_i) A = erk_step rows b along t_i (t_prev - t_i) A).
  { apply step_ext. exact along_dyn. }
  change (num ROps) with R in *. change (vec ROps) with rvl in *. rewrite ES.
  assert (H1 : length (erk_step rows b along t_i (t_prev - t_i) A) = isize) by (apply erk_step_len; [exact along_on|exact HA]).
  set (A1 := erk_step rows b along t_i (t_prev - t_i) A) in *. clearbody A1.
  cbn [pylast rev app rbind]. rewrite tail_slice by exact H1. split.
  - apply f_equal. now apply add_head.
  - rewrite axpy_len with (n := isize); auto. rewrite app_length, repeat_length. unfold isize. congruence.
Qed.

Lemma loop_along ts gx : separated ts -> length gx = length ts -> Forall (fun g => length g = n) gx ->
  forall k A, (k < length ts)%nat -> length A = isize ->
  A = adjoint_recursion rows b along (skipn k ts) (map (fun g => g ++ repeat 0 nmu) (skipn k gx)) ->
  @interp_loop_adj ROps fuel F path n nmu s atol rtol ts gx k A = Ok (adjoint_recursion rows b along ts (map (fun g => g ++ repeat 0 nmu) gx)) /\
  length (adjoint_recursion rows b along ts (map (fun g => g ++ repeat 0 nmu) gx)) = isize.
Proof.
  intros Hsep Hl Hg. induction k as [|j IH]; intros A Hk HA HI.
  - subst A. split; [reflexivity|exact HA].
  - destruct (nth_error ts (S j)) as [t_i|] eqn:Ei; [|apply nth_error_None in Ei; lia].
    destruct (nth_error ts j) as [t_prev|] eqn:Ep; [|apply nth_error_None in Ep; lia].
    destruct (nth_error gx j) as [g|] eqn:Eg; [|apply nth_error_None in Eg; lia].
    assert (Hgl : length g = n). { rewrite Forall_forall in Hg. apply Hg. now apply nth_error_In in Eg. }
    assert (Hs2 : separated [t_i; t_prev]).
    { intros a c x y Hac Hx Hy. destruct a as [|[|a]]; destruct c as [|[|c]]; try lia; cbn in Hx, Hy; try (destruct a; discriminate); try (destruct c; discriminate);
      injection Hx as <-; injection Hy as <-; [apply (Hsep (S j) j)|apply (Hsep j (S j))]; auto. }
    destruct (interval_along t_prev t_i g A Hs2 HA Hgl) as [E1 L1].
    cbn [interp_loop_adj]. unfold pyget.
    change (num ROps) with R in *. change (vec ROps) with rvl in *. rewrite Ei, Ep, Eg. cbn [rbind].
    change (num ROps) with R in *. change (vec ROps) with rvl in *.
    destruct (IH _ ltac:(lia) L1) as [E2 L2].
    { assert (S1 : skipn j ts = t_prev :: skipn (S j) ts) by (apply nth_skipn_cons; auto).
      assert (S2 : skipn j gx = g :: skipn (S j) gx) by (apply nth_skipn_cons; auto).
      rewrite S1, S2. assert (S3 : skipn (S j) ts = t_i :: skipn (S (S j)) ts) by (apply nth_skipn_cons; auto).
      rewrite HI. rewrite S3. reflexivity. }
    split; [|exact L2]. refine (eq_trans (f_equal (fun z => rbind z _) E1) _). exact E2.
Qed.

Lemma backward_along ts gx : separated ts -> ts <> [] -> length gx = length ts -> Forall (fun g => length g = n) gx ->
  exists mu lam, @interp_adjoint_backward ROps fuel F path nmu s atol rtol ts gx = Ok (mu, lam) /\ length lam = n /\
    lam ++ mu = adjoint_recursion rows b along ts (map (fun g => g ++ repeat 0 nmu) gx).
Proof.
  intros Hsep Hne Hl Hg. unfold interp_adjoint_backward.
  destruct (exists_last Hne) as (ts0 & tT & E).
  assert (Hgn : gx <> []) by (intros ->; subst ts; rewrite app_length in Hl; cbn in Hl; lia).
  destruct (exists_last Hgn) as (gx0 & lT & Eg).
  assert (Ep : pylast gx = Ok lT) by (subst gx; unfold pylast; rewrite rev_app_distr; reflexivity).
  assert (Hlt : length lT = n). { rewrite Forall_forall in Hg. apply Hg. subst gx. apply in_or_app. right. now left. }
  change (num ROps) with R in *. change (vec ROps) with rvl in *. rewrite Ep. cbn [rbind]. rewrite Hlt.
  assert (Lts : length ts = S (length ts0)) by (subst ts; rewrite app_length; cbn; lia).
  assert (Lgx : length gx0 = length ts0) by (subst gx; rewrite app_length in Hl; cbn in Hl; lia).
  assert (LA : length (lT ++ @vzeros ROps nmu) = isize).
  { pose proof (vzeros_len nmu) as Hz. rewrite app_length. change (num ROps) with R in *. change (vec ROps) with rvl in *. rewrite Hz, Hlt. reflexivity. }
  destruct (loop_along ts gx Hsep Hl Hg (length ts - 1)%nat (lT ++ @vzeros ROps nmu) ltac:(lia) LA) as [E' L'].
  { replace (length ts - 1)%nat with (length ts0) by lia.
    assert (S1 : skipn (length ts0) ts = [tT]) by (subst ts; rewrite skipn_app, skipn_all, Nat.sub_diag; reflexivity).
    assert (S2 : skipn (length ts0) gx = [lT]) by (subst gx; rewrite <- Lgx, skipn_app, skipn_all, Nat.sub_diag; reflexivity).
    rewrite S1, S2. cbn [map adjoint_recursion]. f_equal. unfold vzeros. cbn [nQ ROps]. now rewrite Q2R_0'. }
  do 2 eexists. split; [refine (eq_trans (f_equal (fun z => rbind z _) E') _); reflexivity|].
  rewrite tail_slice by exact L'. split; [rewrite firstn_length; unfold isize in L'; lia|]. apply firstn_skipn.
Qed.
End Along.

Lemma gradient_core :
  forall fuel fuel' s rows b k d nmu (F : adj_field (K := ROps)) x t0 t1 ts gx atol rtol interp,
  erk_solver s rows b -> field_on (k * d) (af_f F) -> af_dg F = None -> (0 < nmu)%nat ->
  (forall t x w, length x = (k * d)%nat -> length w = (k * d)%nat ->
     length (af_vjp_x F t x w) = (k * d)%nat /\ length (cat_params (af_vjp_p F t x w)) = nmu) ->
  separated (t0 :: t1 :: ts) -> increasing (t0 :: t1 :: ts) -> length x = (k * d)%nat ->
  length gx = length (t0 :: t1 :: ts) -> Forall (fun g => length g = (k * d)%nat) gx ->
  exists sol path mu lam,
    snd (@odeint ROps fuel (af_f F) x (@TTensor ROps (t0 :: t1 :: ts)) s atol rtol interp true [] None) = Ok (t0 :: t1 :: ts, sol) /\
    @interp_backward ROps fuel' F [k; d] nmu s atol rtol (t0 :: t1 :: ts) (t0 :: t1 :: ts) sol gx = Ok (mu, lam) /\
    (forall j, (j < k * d)%nat -> natural_spline (t0 :: t1 :: ts) (map (fun y => nth j y 0) sol) (fun t => nth j (path t) 0)) /\
    (forall i t y, nth_error (t0 :: t1 :: ts) i = Some t -> nth_error sol i = Some y -> path t = y) /\
    length lam = (k * d)%nat /\
    lam ++ mu = adjoint_recursion rows b
      (fun t A => let w := map Ropp (firstn (k * d) A) in af_vjp_x F t (path t) w ++ cat_params (af_vjp_p F t (path t) w))
      (t0 :: t1 :: ts) (map (fun g => g ++ repeat 0 nmu) gx) /\
    Forall (fun y : rvl => length y = (k * d)%nat) sol /\ length sol = length (t0 :: t1 :: ts) /\ (forall t, length (path t) = (k * d)%nat).
Proof.
  intros fuel fuel' s rows b k d nmu F x t0 t1 ts gx atol rtol interp Hs Hf Hdg Hmu HV Hsep Hinc Hx Hgx Hg.
  pose proof Hs as (Hfix & Hs'). destruct (Hs' (k * d)%nat (af_f F) Hf) as (one & lg & Hst & Hone).
  assert (H01 : t0 < t1) by (apply (Hinc 0%nat 1%nat); auto).
  assert (Es : snd (@odeint ROps fuel (af_f F) x (@TTensor ROps (t0 :: t1 :: ts)) s atol rtol interp true [] None) =
    Ok (t0 :: t1 :: ts, one_step_traj (erk_step rows b (af_f F)) x (t0 :: t1 :: ts))).
  { rewrite (C01_fixed_trajectory_pf fuel s (af_f F) one lg) by (auto; lra). f_equal. f_equal.
    apply (one_step_traj_ext (erk_step rows b (af_f F)) one (fun z => length z = (k * d)%nat)); auto; intros t h z Hz; now apply erk_step_len. }
  set (sol := one_step_traj (erk_step rows b (af_f F)) x (t0 :: t1 :: ts)) in *.
  assert (Hrows : Forall (fun y : rvl => length y = (k * d)%nat) sol) by (exact (traj_rows (k * d) rows b (af_f F) (t0 :: t1 :: ts) x Hf Hx)).
  assert (Hsl : length sol = length (t0 :: t1 :: ts)) by (exact (traj_length (erk_step rows b (af_f F)) x (t0 :: t1 :: ts))).
  apply increasing_sorted in Hinc.
  destruct (path_ok k d t0 t1 ts sol Hinc Hsl) as (path & Ep & Lp & Hp).
  destruct (backward_along (k * d) nmu F path Hdg Lp (fun t y w Hy Hw => proj1 (HV t y w Hy Hw)) (fun t y w Hy Hw => proj2 (HV t y w Hy Hw)) fuel' s rows b atol rtol Hs Hmu
    (t0 :: t1 :: ts) gx Hsep ltac:(discriminate) Hgx Hg) as (mu & lam & Eb & Ll & EA).
  exists sol, path, mu, lam. split; [exact Es|]. split.
  { unfold interp_backward. refine (eq_trans (f_equal (fun z => rbind z _) Ep) _). exact Eb. }
  split; [intros j Hj; now apply Hp|]. split; [|split; [exact Ll|split; [exact EA|auto]]].
  intros i t y Ht Hy. apply (list_ext (k * d)); auto.
  { rewrite Forall_forall in Hrows. apply Hrows. eapply nth_error_In. exact Hy. }
  intros j Hj. destruct (Hp j Hj) as [(N & _) _]. apply (N i); auto.
  rewrite (map_nth_error (fun y => nth j y 0) i sol Hy). reflexivity.
Qed.

(** C138.  Increasing t_span, states of shape (k, d), fixed-step solvers, nonlinear fields: the path is the natural cubic
    spline through the stored states, it passes through all of them, and the gradients with respect to x and to the
    parameters are those of the adjoint equation along this path, solved backwards with the solver. *)
Lemma C138_gradient_pf :
  forall fuel fuel' s rows b k d nmu (F : adj_field (K := ROps)) x t0 t1 ts gx atol rtol interp,
  erk_solver s rows b -> field_on (k * d) (af_f F) -> af_dg F = None -> (0 < nmu)%nat ->
  (forall t x w, length x = (k * d)%nat -> length w = (k * d)%nat ->
     length (af_vjp_x F t x w) = (k * d)%nat /\ length (cat_params (af_vjp_p F t x w)) = nmu) ->
  separated (t0 :: t1 :: ts) -> increasing (t0 :: t1 :: ts) -> length x = (k * d)%nat ->
  length gx = length (t0 :: t1 :: ts) -> Forall (fun g => length g = (k * d)%nat) gx ->
  exists sol path mu lam,
    snd (@odeint ROps fuel (af_f F) x (@TTensor ROps (t0 :: t1 :: ts)) s atol rtol interp true [] None) = Ok (t0 :: t1 :: ts, sol) /\
    @interp_backward ROps fuel' F [k; d] nmu s atol rtol (t0 :: t1 :: ts) (t0 :: t1 :: ts) sol gx = Ok (mu, lam) /\
    (forall j, (j < k * d)%nat -> natural_spline (t0 :: t1 :: ts) (map (fun y => nth j y 0) sol) (fun t => nth j (path t) 0)) /\
    (forall i t y, nth_error (t0 :: t1 :: ts) i = Some t -> nth_error sol i = Some y -> path t = y) /\
    length lam = (k * d)%nat /\
    lam ++ mu = adjoint_recursion rows b
      (fun t A => let w := map Ropp (firstn (k * d) A) in af_vjp_x F t (path t) w ++ cat_params (af_vjp_p F t (path t) w))
      (t0 :: t1 :: ts) (map (fun g => g ++ repeat 0 nmu) gx).
Proof.
  intros fuel fuel' s rows b k d nmu F x t0 t1 ts gx atol rtol interp Hs Hf Hdg Hmu HV Hsep Hinc Hx Hgx Hg.
  destruct (gradient_core fuel fuel' s rows b k d nmu F x t0 t1 ts gx atol rtol interp Hs Hf Hdg Hmu HV Hsep Hinc Hx Hgx Hg)
    as (sol & path & mu & lam & E1 & E2 & E3 & E4 & E5 & E6 & _).
  exists sol, path, mu, lam. auto 10.
Qed.

Lemma euler_is_axpy f t h x : erk_step (to_R_rows q_euler) (to_R qb_euler) f t h x = axpy h (f t x) x.
Proof.
  unfold erk_step, erk_stages, to_R_rows, q_euler, to_R, qb_euler, comb. cbn [map fold_left fst snd combine app].
  replace (t + Q2R 0 * h) with t by (rewrite Q2R_0'; ring). rewrite Q2R_1', Rmult_1_r. reflexivity.
Qed.
Lemma firstn_axpy a m : forall k x : list R, firstn m (axpy a k x) = axpy a (firstn m k) (firstn m x).
Proof. unfold axpy. induction m as [|m IH]; intros k x; auto. destruct x as [|u x], k as [|v k]; cbn; auto. f_equal. apply IH. Qed.
Lemma firstn_app_eq (g h : rvl) n : length g = n -> firstn n (g ++ h) = g.
Proof. intros <-. rewrite firstn_app, Nat.sub_diag, firstn_all. apply app_nil_r. Qed.
Lemma recursion_euler n nmu (F : adj_field (K := ROps)) path :
  (forall t x w, length x = n -> length w = n -> length (af_vjp_x F t x w) = n) -> (forall t, length (path t) = n) ->
  forall ts xs gx, length xs = length ts -> length gx = length ts -> Forall (fun g => length g = n) gx -> Forall (fun x => length x = n) xs ->
  (forall i t y, nth_error ts i = Some t -> nth_error xs i = Some y -> path t = y) ->
  firstn n (adjoint_recursion (to_R_rows q_euler) (to_R qb_euler) (along n F path) ts (map (fun g => g ++ repeat 0 nmu) gx)) =
    euler_recursion (af_vjp_x F) ts xs gx /\ (ts <> [] -> length (euler_recursion (af_vjp_x F) ts xs gx) = n).
Proof.
  intros HX Lp. induction ts as [|t0 ts IH]; intros xs gx H1 H2 Hg Hx Hp.
  - destruct gx; [|discriminate]. split; [apply firstn_nil|congruence].
  - destruct gx as [|g gx]; [discriminate|]. destruct xs as [|x0 xs]; [discriminate|]. inversion Hg as [|? ? Hg0 Hg']; subst. inversion Hx as [|? ? Hx0 Hx']; subst.
    destruct ts as [|t1 ts].
    + cbn [map adjoint_recursion]. split; [now apply firstn_app_eq|reflexivity].
    + destruct xs as [|x1 xs]; [discriminate|].
      destruct (IH (x1 :: xs) gx (eq_add_S _ _ H1) (eq_add_S _ _ H2) Hg' Hx' (fun i => Hp (S i))) as [I1 I2]. specialize (I2 ltac:(discriminate)).
      set (n := length g) in *.
      change (adjoint_recursion (to_R_rows q_euler) (to_R qb_euler) (along n F path) (t0 :: t1 :: ts) (map (fun g => g ++ repeat 0 nmu) (g :: gx)))
        with (axpy 1 (g ++ repeat 0 nmu) (erk_step (to_R_rows q_euler) (to_R qb_euler) (along n F path) t1 (t0 - t1)
          (adjoint_recursion (to_R_rows q_euler) (to_R qb_euler) (along n F path) (t1 :: ts) (map (fun g => g ++ repeat 0 nmu) gx)))).
      change (euler_recursion (af_vjp_x F) (t0 :: t1 :: ts) (x0 :: x1 :: xs) (g :: gx)) with
        (let lam := euler_recursion (af_vjp_x F) (t1 :: ts) (x1 :: xs) gx in axpy 1 g (axpy (t0 - t1) (af_vjp_x F t1 x1 (map Ropp lam)) lam)). cbv zeta.
      set (A := adjoint_recursion _ _ _ (t1 :: ts) _) in *. set (lam := euler_recursion _ (t1 :: ts) _ _) in *.
      assert (Ex : path t1 = x1) by (apply (Hp 1%nat); reflexivity).
      inversion Hx' as [|? ? Hx1 _]; subst.
      assert (Lv : length (af_vjp_x F t1 (path t1) (map Ropp lam)) = n) by (apply HX; [apply Lp|now rewrite map_length]).
      split.
      * rewrite euler_is_axpy, !firstn_axpy. rewrite firstn_app_eq by reflexivity. rewrite I1. f_equal. f_equal.
        unfold along. rewrite I1. apply firstn_app_eq. exact Lv.
      * intros _. apply axpy_len; auto. apply axpy_len; auto.
Qed.

(** C138 for euler: the field is only evaluated at the stored states. *)
Lemma C138_euler_pf :
  forall fuel fuel' k d nmu (F : adj_field (K := ROps)) x t0 t1 ts gx atol rtol interp,
  field_on (k * d) (af_f F) -> af_dg F = None -> (0 < nmu)%nat ->
  (forall t x w, length x = (k * d)%nat -> length w = (k * d)%nat ->
     length (af_vjp_x F t x w) = (k * d)%nat /\ length (cat_params (af_vjp_p F t x w)) = nmu) ->
  separated (t0 :: t1 :: ts) -> increasing (t0 :: t1 :: ts) -> length x = (k * d)%nat ->
  length gx = length (t0 :: t1 :: ts) -> Forall (fun g => length g = (k * d)%nat) gx ->
  exists sol mu,
    snd (@odeint ROps fuel (af_f F) x (@TTensor ROps (t0 :: t1 :: ts)) (Euler ROps) atol rtol interp true [] None) = Ok (t0 :: t1 :: ts, sol) /\
    @interp_backward ROps fuel' F [k; d] nmu (Euler ROps) atol rtol (t0 :: t1 :: ts) (t0 :: t1 :: ts) sol gx =
      Ok (mu, euler_recursion (af_vjp_x F) (t0 :: t1 :: ts) sol gx).
Proof.
  intros fuel fuel' k d nmu F x t0 t1 ts gx atol rtol interp Hf Hdg Hmu HV Hsep Hinc Hx Hgx Hg.
  destruct (gradient_core fuel fuel' (Euler ROps) _ _ k d nmu F x t0 t1 ts gx atol rtol interp C05_euler_pf Hf Hdg Hmu HV Hsep Hinc Hx Hgx Hg)
    as (sol & path & mu & lam & E1 & E2 & _ & Hp & Ll & E3 & Hrows & Hsl & Lp).
  exists sol, mu. split; [exact E1|]. rewrite E2. f_equal. f_equal.
  assert (E4 : firstn (k * d) (lam ++ mu) = lam) by (now apply firstn_app_eq).
  rewrite <- E4, E3. apply (recursion_euler (k * d) nmu F path); auto. intros t y w Hy Hw. now apply HV.
Qed.

(** C138, refuted: states of another number of axes than two, whatever the field and the grid: backward raises. *)
Lemma C138_shape_refuted_pf :
  forall fuel F shape nmu s atol rtol t_span t_sol sol gx, length shape <> 2%nat ->
  @interp_backward ROps fuel F shape nmu s atol rtol t_span t_sol sol gx = Err RuntimeError.
Proof.
  intros fuel F shape nmu s atol rtol t_span t_sol sol gx H. destruct shape as [|k [|d [|e shape]]]; try reflexivity. contradiction.
Qed.

(** C138 needs two returned times, and as many states: otherwise the path is rejected. *)
Lemma C138_path_checked_pf :
  forall fuel F k d nmu s atol rtol t_span t_sol sol gx, (length t_sol < 2)%nat \/ length sol <> length t_sol ->
  @interp_backward ROps fuel F [k; d] nmu s atol rtol t_span t_sol sol gx = Err ValueError.
Proof.
  intros fuel F k d nmu s atol rtol t_span t_sol sol gx H. unfold interp_backward, interp_path, validate_input_path. cbn [length Nat.ltb Nat.leb Nat.eqb negb Nat.sub nth].
  destruct (strictly_increasing t_sol); cbn [negb]; [|reflexivity].
  destruct (Nat.eqb (length sol) (length t_sol)) eqn:E; cbn [negb]; [|reflexivity]. apply Nat.eqb_eq in E.
  assert (L : (length t_sol <? 2)%nat = true) by (apply Nat.ltb_lt; destruct H; [assumption|contradiction]).
  refine (eq_trans (f_equal (fun b : bool => rbind (rbind (if b then _ else _) _) _) L) _). reflexivity.
Qed.

(** The field x' = 1, v' = x v with its vector-Jacobian product. *)
Definition ramp : adj_field (K := ROps) := @MkAF ROps
  (fun _ y => match y with [x; v] => [1; x * v] | _ => y end)
  (fun _ y w => match y, w with [x; v], [w1; w2] => [w2 * v; w2 * x] | _, _ => w end)
  (fun _ _ _ => None) (fun _ _ _ => [None]) None.

(** C138, refuted for decreasing t_span: the returned times are negated, the spline has its knots at the negated times
    and is evaluated at the times themselves.  x' = 1, v' = x v from (1, 1) over [1, 1/2, 0] with euler, loss v(0): the
    component of the gradient for v is 3/4 along the stored states; 5/4 is returned. *)
Lemma C138_decreasing_refuted_pf :
  forall fuel fuel' atol rtol interp,
  exists t_sol sol mu lam,
    snd (@odeint ROps fuel (af_f ramp) [1; 1] (@TTensor ROps [1; 1/2; 0]) (Euler ROps) atol rtol interp true [] None) = Ok (t_sol, sol) /\
    @interp_backward ROps fuel' ramp [1%nat; 2%nat] 1 (Euler ROps) atol rtol [1; 1/2; 0] t_sol sol [[0; 0]; [0; 0]; [0; 1]] = Ok (mu, lam) /\
    nth 1 lam 0 = 5 / 4 /\ nth 1 (euler_recursion (af_vjp_x ramp) [1; 1/2; 0] sol [[0; 0]; [0; 0]; [0; 1]]) 0 = 3 / 4.
Proof.
  intros fuel fuel' atol rtol interp.
  assert (Hf : field_on 2 (af_f ramp)) by (intros t y Hy; destruct y as [|u [|v [|]]]; try discriminate Hy; reflexivity).
  assert (Hsep : separated [1; 1/2; 0]).
  { intros i j p q Hij Hp Hq. unfold close_to.
    destruct i as [|[|[|i]]]; destruct j as [|[|[|j]]]; try lia; cbn in Hp, Hq; try (destruct i; discriminate); try (destruct j; discriminate);
      injection Hp as <-; injection Hq as <-; unfold Rabs; repeat destruct (Rcase_abs _); lra. }
  pose proof C05_euler_pf as (Hfix & Hs'). destruct (Hs' 2%nat (@neg_field ROps (af_f ramp)) (neg_field_on 2 _ Hf)) as (one & lg & Hst & Hone).
  pose proof (C06_reversed_times_exact_pf fuel (Euler ROps) (af_f ramp) one lg [1; 1] 1 (1/2) [0] atol rtol interp true None Hfix Hst Hsep ltac:(lra)) as Et.
  pose proof (C05_reverse_is_negative_stepping_pf fuel (Euler ROps) _ _ 2 (af_f ramp) [1; 1] 1 (1/2) [0] atol rtol interp true None C05_euler_pf Hf eq_refl Hsep ltac:(lra)) as Es.
  match goal with |- context [snd ?m] => destruct (snd m) as [[tm sl]|e|] end; cbn [rmap rbind snd fst] in Et, Es; try discriminate.
  injection Et as Et. injection Es as Es.
  assert (Esl : sl = [[1; 1]; [1/2; 1/2]; [0; 3/8]]).
  { rewrite Es. cbn [one_step_traj]. rewrite !euler_is_axpy. unfold axpy, ramp. cbn. repeat (apply f_equal2; [repeat (apply f_equal2; [lra|]); reflexivity|]). reflexivity. }
  assert (Etm : tm = [-1; -(1/2); 0]) by (rewrite Et; cbn [map]; rewrite Ropp_0; reflexivity). clear Et Es.
  assert (Hsrt : StronglySorted Rlt [-1; -(1/2); 0]) by (repeat constructor; lra).
  destruct (path_ok 1 2 (-1) (-(1/2)) [0] [[1; 1]; [1/2; 1/2]; [0; 3/8]] Hsrt eq_refl) as (path & Ep & Lp & Hp).
  assert (HX : forall t x w, length x = 2%nat -> length w = 2%nat -> length (af_vjp_x ramp t x w) = 2%nat).
  { intros t x w H1 H2. destruct x as [|? [|? [|]]]; try discriminate. destruct w as [|? [|? [|]]]; try discriminate. reflexivity. }
  destruct (backward_along 2 1 ramp path eq_refl Lp HX (fun _ _ _ _ _ => eq_refl) fuel' (Euler ROps) _ _ atol rtol C05_euler_pf ltac:(lia)
    [1; 1/2; 0] [[0; 0]; [0; 0]; [0; 1]] Hsep ltac:(discriminate) eq_refl ltac:(repeat constructor)) as (mu & lam & Eb & Ll & EA).
  exists tm, sl, mu, lam. split; [reflexivity|]. split; [|split].
  - rewrite Etm, Esl. unfold interp_backward. refine (eq_trans (f_equal (fun z => rbind z _) Ep) _). exact Eb.
  - destruct (Hp 0%nat ltac:(lia)) as [(N & _) V].
    assert (V0 : nth 0 (path 0) 0 = 0) by (apply (N 2%nat); reflexivity).
    assert (V1 : nth 0 (path (1/2)) 0 = -(1/2)).
    { rewrite V. cbn -[Q2R]. unfold Rltb. destruct (Rlt_dec (-(1/2)) (1/2)) as [_|H]; [|exfalso; lra].
      cbn. unfold Q2R. cbn. field. }
    clear - EA V0 V1 Ll Lp. pose proof (Lp 0) as L0. pose proof (Lp (1/2)) as L1.
    cbn [map app repeat adjoint_recursion] in EA. rewrite !euler_is_axpy in EA. unfold along, axpy, ramp, cat_params in EA.
    destruct (path 0) as [|a0 [|b0 [|]]]; try discriminate. destruct (path (1/2)) as [|a1 [|b1 [|]]]; try discriminate.
    cbn in V0, V1. subst a0 a1. cbn in EA.
    destruct lam as [|l0 [|l1 [|]]]; try discriminate. cbn in EA. injection EA as _ E1 _. cbn. rewrite E1. lra.
  - rewrite Esl. unfold euler_recursion, axpy, ramp. cbn. lra.
Qed.

Lemma C138_ex_pf : field_on 2 (af_f ramp) /\ af_dg ramp = None /\ separated [0; 1; 2] /\ increasing [0; 1; 2] /\
  (forall t x w, length x = 2%nat -> length w = 2%nat -> length (af_vjp_x ramp t x w) = 2%nat /\ length (cat_params (af_vjp_p ramp t x w)) = 1%nat).
Proof.
  split; [intros t y Hy; destruct y as [|u [|v [|]]]; try discriminate Hy; reflexivity|]. split; [reflexivity|]. split; [exact grid3_separated|].
  split; [apply increasing_sorted; repeat constructor; lra|]. intros t x w H1 H2.
  destruct x as [|? [|? [|]]]; try discriminate. destruct w as [|? [|? [|]]]; try discriminate. split; reflexivity.
Qed.

(** C139, refuted.  dense_output raises for all solutions, times and evaluation points: the arguments of
    hermite_cubic_coefficients_with_backward_differences are exchanged. *)
Lemma C139_raises_refuted_pf :
  forall (K : NumOps) (A : Type) (run : list nat -> array -> array -> array -> res A) (sol t_sol t_eval : @array K),
  dense_output run sol t_sol t_eval = Err ValueError \/ dense_output run sol t_sol t_eval = Err RuntimeError.
Proof.
  intros K A run sol t_sol t_eval. unfold dense_output, permute102. destruct (a_shape sol) as [|p [|q [|r [|]]]]; cbn [rbind]; auto.
  left. unfold validate_input_path. destruct (length (a_shape t_sol) <? 2)%nat; reflexivity.
Qed.

(** C139, what would hold with the arguments exchanged back: the validation accepts every solution of two or more
    increasing times. *)
Lemma C139_exchanged_partial_pf :
  forall p q r ts, increasing ts -> length ts = p -> (2 <= p)%nat ->
  @validate_input_path ROps [q; p; r] [p] ts = Ok tt.
Proof.
  intros p q r ts Hi Hl Hp. unfold validate_input_path. cbn [length Nat.ltb Nat.leb negb Nat.eqb].
  pose proof (incb_sorted ts ltac:(now apply increasing_sorted)) as E. rewrite E. cbn [negb nth length Nat.sub].
  change (num ROps) with R in *. rewrite Hl, Nat.eqb_refl. cbn [negb]. destruct p as [|[|p]]; [lia|lia|reflexivity].
Qed.
