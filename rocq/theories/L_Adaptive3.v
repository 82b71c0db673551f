(** Termination of odeint with an adaptive pair. *)
From Coq Require Import ZArith QArith Qreals Reals Lra Lia List Bool Sorted.
From Verif Require Import Num Py Tensor M_Constants M_SolversOde M_Utils M_Interp M_Odeint.
From Verif Require Import Spec_Ode Spec_Trees Spec_RK Spec_Norm Spec_Adaptive.
From Verif Require Import L_Base L_Fixed L_Vec L_Steps L_Tables L_Steps2 L_Interp L_Utils L_Fixed2 L_Adaptive L_Run.
From Verif Require Import L_Adaptive2 L_Term L_Growth.
Import ListNotations.
Local Open Scope R_scope.

Section Pair.
Variables (s : solver ROps (vec ROps)) (rows : list (R * list R)) (b bh : list R).
Hypothesis HP : embedded_pair s rows b bh.
Variables (n : nat) (f : R -> rvec -> rvec).
Hypothesis Hf : field_on n f.
Variables (atol rtol : R) (interp all : bool) (semi : option nat).
Let bmid := if s_is_tsit5 s then None else if interp then Some (construct_4th ROps) else None.

Lemma adaptive_odeint_halts (D : R -> rvec -> Prop) hm x dt t0 ts :
  StronglySorted Rlt (t0 :: ts) -> ts <> [] -> length x = n -> 0 < dt ->
  0 < hm -> D t0 x ->
  (forall t h y y', D t y -> length y = n -> 0 < h -> t + h <= last ts t0 ->
     pair_accepts rows b bh f atol rtol semi t h y y' -> D (t + h) y') ->
  (forall t h y, D t y -> length y = n -> 0 < h <= hm -> t + h <= last ts t0 ->
     scaled_error atol rtol semi y (erk_step rows b f t h y)
       (minus_list (erk_step rows b f t h y) (erk_step rows bh f t h y)) < 1) ->
  exists fuel r, snd (@adaptive_odeint ROps fuel f (f t0 x) x dt (t0 :: ts) s atol rtol bmid all semi) = Ok r.
Proof.
  intros Hs Hne Hx Hd Hhm HD HDacc HDsm.
  pose proof HP as (_ & H1' & H2 & H3 & _ & _). assert (H1 : 0 < s_min_factor s <= 1) by lra.
  assert (El : @pylast R (t0 :: ts) = Ok (last ts t0)).
  { rewrite (pylast_last _ t0) by discriminate. destruct ts; [congruence|reflexivity]. }
  edestruct (loop_halts f s (last ts t0) ts atol rtol bmid all semi n (erk_step rows b f)
    (fun t h x => @vsub ROps (erk_step rows b f t h x) (erk_step rows bh f t h x)) (erk_stages rows f)
    (pdense rows b f)) with (D := D) (hm := hm) (rest := ts) (st := @MkA ROps t0 dt x (f t0 x) 0 [t0] [x])
    as (fuel & r & Hr); auto.
  - intros y t h Hy. exact (p_step s rows b bh HP n f Hf y t h Hy).
  - intros y t h Hy. exact (p_len rows b n f Hf y t h Hy).
  - intros bm y t h c Hb. apply (p_dense s rows b bh HP n f Hf bmid); auto. apply bmid_cases.
  - intros t h y y' HDt Hy Hh HT Hacc. apply (HDacc t h y y'); auto. now apply accd_pair.
  - intros t h y HDt Hy Hh HT. unfold ratio. rewrite error_ratio_spec, <- minus_list_vsub. auto.
  - lra.
  - now apply init_inv.
  - exists fuel, r. unfold adaptive_odeint.
    rewrite !snd_mbind. rewrite !snd_mlift. cbn [pyget nth_error rbind skipn].
    rewrite snd_mbind, snd_mlift. rbw El. cbn [rbind]. exact Hr.
Qed.

Lemma odeint_halts (D : R -> rvec -> Prop) hm x t0 t1 ts save_at :
  StronglySorted Rlt (t0 :: t1 :: ts) -> length x = n ->
  0 < hm -> D t0 x ->
  (forall t h y y', D t y -> length y = n -> 0 < h -> t + h <= last (t1 :: ts) t0 ->
     pair_accepts rows b bh f atol rtol semi t h y y' -> D (t + h) y') ->
  (forall t h y, D t y -> length y = n -> 0 < h <= hm -> t + h <= last (t1 :: ts) t0 ->
     scaled_error atol rtol semi y (erk_step rows b f t h y)
       (minus_list (erk_step rows b f t h y) (erk_step rows bh f t h y)) < 1) ->
  exists fuel r, snd (@odeint ROps fuel f x (@TTensor ROps (t0 :: t1 :: ts)) s atol rtol interp all save_at semi) = Ok r.
Proof.
  intros Hs Hx Hhm HD H1 H2.
  assert (Hle : t0 <= t1).
  { inversion Hs as [|? ? ? Hf1]; subst. inversion Hf1; subst. lra. }
  destruct (odeint_adaptive_inc s rows b bh HP f atol rtol interp all semi 0 x t0 t1 ts save_at Hle) as (dt & lg & Hd & E & _).
  destruct (adaptive_odeint_halts D hm x dt t0 (t1 :: ts) Hs ltac:(discriminate) Hx Hd Hhm HD H1 H2) as (fuel & r & Hr).
  exists fuel, r.
  destruct (odeint_adaptive_inc s rows b bh HP f atol rtol interp all semi fuel x t0 t1 ts save_at Hle) as (dt' & lg' & _ & E' & Eo).
  rewrite E in E'. injection E' as -> ->. rops. rewrite Eo. exact Hr.
Qed.

Lemma odeint_growth_halts L x t0 t1 ts save_at :
  StronglySorted Rlt (t0 :: t1 :: ts) -> length x = n -> 0 <= L -> linear_growth n L f ->
  0 < atol -> 0 <= rtol ->
  exists fuel r, snd (@odeint ROps fuel f x (@TTensor ROps (t0 :: t1 :: ts)) s atol rtol interp all save_at semi) = Ok r.
Proof.
  intros Hs Hx HL Hg Ha Hr.
  set (T := last (t1 :: ts) t0).
  assert (HT : t0 < T).
  { assert (In T (t1 :: ts)).
    { unfold T. destruct (@exists_last _ (t1 :: ts) ltac:(discriminate)) as (l & a & E). rewrite E, last_last.
      apply in_or_app. right. now left. }
    inversion Hs as [|? ? ? Hf1]; subst. rewrite Forall_forall in Hf1. auto. }
  assert (HH : 0 <= T - t0) by lra.
  destruct (step_bound n f L (T - t0) Hf HL HH Hg rows b) as (C & HC & Hstep).
  destruct (error_bound n f L (T - t0) Hf HL HH Hg rows b bh) as (E & HE & Herr).
  set (B0 := sumabs x).
  assert (HB0 : 0 <= B0) by apply sumabs_nn.
  assert (Hb0 : bounded_by B0 x).
  { unfold B0. clear. induction x as [|a l IH]; intros c Hc; [destruct Hc|]. simpl. pose proof (sumabs_nn l). pose proof (Rabs_pos a).
    destruct Hc as [<-|Hc]; [lra|]. specialize (IH c Hc). lra. }
  set (G := fun t => (1 + B0) * exp (C * (t - t0))).
  assert (HG1 : forall t, t0 <= t -> 1 <= G t).
  { intros t Ht. unfold G. rewrite <- (Rmult_1_r 1) at 1. apply Rmult_le_compat; try lra.
    rewrite <- exp_0. assert (0 <= C * (t - t0)) by (apply Rmult_le_pos; lra).
    destruct H as [H|H]; [left; now apply exp_increasing|right; now rewrite <- H]. }
  assert (HGm : forall t, t <= T -> G t <= G T).
  { intros t Ht. unfold G. apply Rmult_le_compat_l; [lra|].
    assert (C * (t - t0) <= C * (T - t0)) by (apply Rmult_le_compat_l; lra).
    destruct H as [H|H]; [left; now apply exp_increasing|right; now rewrite H]. }
  set (hm := Rmin (T - t0) (atol / (2 * (E * G T + 1)))).
  assert (HGT : 1 <= G T) by (apply HG1; lra).
  assert (HEG : 0 <= E * G T) by (apply Rmult_le_pos; lra).
  assert (Hhm : 0 < hm).
  { unfold hm. apply Rmin_glb_lt; [lra|]. apply Rdiv_lt_0_compat; lra. }
  apply (odeint_halts (fun t y => t0 <= t <= T /\ bounded_by (G t - 1) y) hm); auto.
  - split; [lra|]. apply (bounded_le B0); auto. unfold G. rewrite (Rminus_diag_eq t0 t0) by reflexivity.
    rewrite Rmult_0_r, exp_0. lra.
  - intros t h y y' [Ht Hb] Hy Hh HhT [-> _]. fold T in HhT. split; [lra|].
    pose proof (HG1 t (proj1 Ht)).
    apply (bounded_le (G t - 1 + h * C * (1 + (G t - 1)))).
    + assert (EG : G (t + h) = G t * exp (C * h)).
      { unfold G. rewrite Rmult_assoc, <- exp_plus. f_equal. f_equal. ring. }
      rewrite EG. assert (HCh : 0 <= C * h) by (apply Rmult_le_pos; lra).
      assert (Hexp : 1 + C * h <= exp (C * h)).
      { destruct HCh as [Hp|Hz]; [left; apply exp_ineq1; lra|]. rewrite <- Hz, exp_0. lra. }
      assert (G t * (1 + C * h) <= G t * exp (C * h)) by (apply Rmult_le_compat_l; lra). lra.
    + apply Hstep; auto; lra.
  - intros t h y [Ht Hb] Hy Hh HhT. fold T in HhT. pose proof (HG1 t (proj1 Ht)).
    assert (Hh2 : h <= atol / (2 * (E * G T + 1))) by (apply Rle_trans with hm; [lra|apply Rmin_r]).
    apply Rle_lt_trans with (h * E * (1 + (G t - 1)) / atol).
    + apply scaled_bound; auto.
      * apply Rmult_le_pos; [apply Rmult_le_pos; lra|lra].
      * apply Herr; auto; lra.
    + apply (Rmult_lt_reg_r atol); auto. unfold Rdiv. rewrite Rmult_assoc, Rinv_l, Rmult_1_r, Rmult_1_l by lra.
      replace (1 + (G t - 1)) with (G t) by ring.
      apply Rle_lt_trans with (h * (E * G T + 1)).
      * rewrite Rmult_assoc. apply Rmult_le_compat_l; [lra|].
        assert (E * G t <= E * G T) by (apply Rmult_le_compat_l; auto; apply HGm; lra). lra.
      * apply Rle_lt_trans with (atol / (2 * (E * G T + 1)) * (E * G T + 1)).
        { apply Rmult_le_compat_r; lra. }
        replace (atol / (2 * (E * G T + 1)) * (E * G T + 1)) with (atol / 2) by (field; lra). lra.
Qed.

Lemma odeint_run fuel x t0 t1 ts save_at times sol :
  StronglySorted Rlt (t0 :: t1 :: ts) -> length x = n ->
  snd (@odeint ROps fuel f x (@TTensor ROps (t0 :: t1 :: ts)) s atol rtol interp all save_at semi) = Ok (times, sol) ->
  exists times' sol', times = t0 :: times' /\ sol = x :: sol' /\
    run (pair_accepts rows b bh f atol rtol semi) (pair_dense rows b (construct_4th ROps) f) (interp_on s interp) all
      t0 x (t1 :: ts) times' sol'.
Proof.
  intros Hs Hx Hr.
  assert (Hle : t0 <= t1).
  { inversion Hs as [|? ? ? Hf1]; subst. inversion Hf1; subst. lra. }
  destruct (odeint_adaptive_inc s rows b bh HP f atol rtol interp all semi fuel x t0 t1 ts save_at Hle) as (dt & lg & Hd & _ & Eo).
  rops. rewrite Eo in Hr. cbn [snd] in Hr.
  exact (adaptive_odeint_run s rows b bh HP n f Hf atol rtol interp all semi fuel (f t0 x) x dt t0 (t1 :: ts) times sol
    Hs ltac:(discriminate) Hx eq_refl Hd Hr).
Qed.

Lemma odeint_no_error fuel x t0 t1 ts save_at e :
  StronglySorted Rlt (t0 :: t1 :: ts) -> length x = n ->
  snd (@odeint ROps fuel f x (@TTensor ROps (t0 :: t1 :: ts)) s atol rtol interp all save_at semi) <> Err e.
Proof.
  intros Hs Hx.
  assert (Hle : t0 <= t1).
  { inversion Hs as [|? ? ? Hf1]; subst. inversion Hf1; subst. lra. }
  destruct (odeint_adaptive_inc s rows b bh HP f atol rtol interp all semi fuel x t0 t1 ts save_at Hle) as (dt & lg & Hd & _ & Eo).
  rops. rewrite Eo. cbn [snd].
  exact (adaptive_odeint_no_error s rows b bh HP n f Hf atol rtol interp all semi fuel (f t0 x) x dt t0 (t1 :: ts) e
    Hs ltac:(discriminate) Hx eq_refl Hd).
Qed.

(** Number of vector field calls: 2 + c * m with m the number of loop iterations. *)
Lemma odeint_calls c fuel x t0 t1 ts save_at r :
  (forall x t h k, length (fst (s_step s f x t h (Some k))) = c) -> t0 <= t1 ->
  snd (@odeint ROps fuel f x (@TTensor ROps (t0 :: t1 :: ts)) s atol rtol interp all save_at semi) = Ok r ->
  exists m, (m <= fuel)%nat /\
    (forall k, (m <= k)%nat -> @odeint ROps k f x (@TTensor ROps (t0 :: t1 :: ts)) s atol rtol interp all save_at semi =
        @odeint ROps fuel f x (@TTensor ROps (t0 :: t1 :: ts)) s atol rtol interp all save_at semi) /\
    (forall k, (k < m)%nat -> snd (@odeint ROps k f x (@TTensor ROps (t0 :: t1 :: ts)) s atol rtol interp all save_at semi) = OutOfFuel) /\
    length (fst (@odeint ROps fuel f x (@TTensor ROps (t0 :: t1 :: ts)) s atol rtol interp all save_at semi)) = (2 + c * m)%nat.
Proof.
  intros Hc Hle Hr.
  destruct (odeint_adaptive_inc s rows b bh HP f atol rtol interp all semi fuel x t0 t1 ts save_at Hle) as (dt & lg & Hd & E & Eo).
  assert (Ek : forall k, @odeint ROps k f x (@TTensor ROps (t0 :: t1 :: ts)) s atol rtol interp all save_at semi =
     let z := @adaptive_loop ROps k (@MkP ROps f s (last (t1 :: ts) t0) (t1 :: ts) atol rtol bmid all semi)
                (@MkA ROps t0 dt x (f t0 x) 0 [t0] [x]) in
     ((t0, x) :: lg :: fst z, snd z)).
  { intros k.
    destruct (odeint_adaptive_inc s rows b bh HP f atol rtol interp all semi k x t0 t1 ts save_at Hle) as (dt' & lg' & _ & E' & Ek).
    rewrite E in E'. injection E' as -> ->. 
    etransitivity; [exact Ek|]. 
    assert (El : @pylast R (t0 :: t1 :: ts) = Ok (last (t1 :: ts) t0)).
    { rewrite (pylast_last _ t0) by discriminate. reflexivity. }
    unfold adaptive_odeint. rewrite (mbind_eq (mlift _) [] t0 _ eq_refl).
    rewrite (mbind_eq (mlift _) [] (last (t1 :: ts) t0) _ (f_equal mlift El)). reflexivity. }
  rewrite Ek in Hr. cbv zeta in Hr. cbn [snd] in Hr.
  destruct (loop_count (@MkP ROps f s (last (t1 :: ts) t0) (t1 :: ts) atol rtol bmid all semi) c Hc fuel _ _ Hr) as (m & Hm & H1 & H2 & H3).
  exists m. split; auto. split; [|split].
  - intros k Hk. rewrite !Ek. cbv zeta. now rewrite H1.
  - intros k Hk. rewrite Ek. cbv zeta. cbn [snd]. auto.
  - rewrite Ek. cbv zeta. cbn [fst length]. rewrite H3. reflexivity.
Qed.

End Pair.
