(** Gradients of fixed-step solves with respect to the times. *)
From Coq Require Import ZArith QArith Qreals Reals Lra Lia List Bool.
From Verif Require Import Num Py Tensor M_Constants M_SolversOde M_Utils M_Interp M_Odeint M_Autograd.
From Verif Require Import Spec_Ode Spec_Autograd L_Base L_Nan L_Fixed L_Vec L_Steps L_Utils L_Rel Pf_Fixed Pf_Values Pf_Autograd Pf_AdGrad.
Import ListNotations.
Local Notation length := List.length.
Local Open Scope R_scope.

(** ** The fixed-step loop in any arithmetic with a + (b - a) = b *)
Fixpoint gtraj {K : NumOps} (one : K -> K -> vec K -> vec K) (x : vec K) (ts : list K) : list (vec K) :=
  match ts with
  | [] => []
  | t0 :: rest => x :: match rest with [] => [] | t1 :: _ => gtraj one (one t0 (nsub t1 t0) x) rest end
  end.

Section Gen.
Context {K : NumOps}.
Hypothesis law : forall a b : K, nadd a (nsub b a) = b.
Variables (f : K -> vec K -> vec K) (step : @step_fun K (vec K)) (one : K -> K -> vec K -> vec K).
Hypothesis Hstep : forall x t dt, snd (step f x t dt None) = Ok (Ret3 None (one t dt x) None).

Lemma gen_loop (ts sv : list K) : (forall t, In t ts -> (@isclose_count K t sv =? 0)%nat = false) ->
  forall post pre t t' x sol, ts = pre ++ t :: t' :: post ->
  snd (@fixed_loop K (vec K) f step ts sv (length (t' :: post)) (length pre + 1) x t (nsub t' t) sol) =
  Ok (sol ++ gtraj one (one t (nsub t' t) x) (t' :: post)).
Proof.
  intros Hin. induction post as [|t'' post IH]; intros pre t t' x sol E.
  - cbn [length fixed_loop]. refine (eq_trans (snd_bind_ok _ _ _ (Hstep _ _ _)) _). cbv iota zeta. rewrite law, Hin by (rewrite E; apply in_or_app; right; right; left; reflexivity).
    assert (L : (length pre + 1 <? length ts - 1)%nat = false) by (apply Nat.ltb_ge; rewrite E, app_length; cbn [length]; lia).
    rewrite L. reflexivity.
  - change (length (t' :: t'' :: post)) with (S (length (t'' :: post))). cbn [fixed_loop]. refine (eq_trans (snd_bind_ok _ _ _ (Hstep _ _ _)) _). cbv iota zeta.
    rewrite law, Hin by (rewrite E; apply in_or_app; right; right; left; reflexivity).
    assert (L : (length pre + 1 <? length ts - 1)%nat = true) by (apply Nat.ltb_lt; rewrite E, app_length; cbn [length]; lia).
    rewrite L. assert (P : pyget ts (length pre + 1 + 1) = Ok t'').
    { unfold pyget. rewrite E, nth_error_app2 by lia. replace (length pre + 1 + 1 - length pre)%nat with 2%nat by lia. reflexivity. }
    rewrite snd_mbind, snd_mbind, snd_mlift, P. cbn [rbind snd mret].
    assert (E' : ts = (pre ++ [t]) ++ t' :: t'' :: post) by (rewrite <- app_assoc; exact E).
    pose proof (IH (pre ++ [t]) t' t'' (one t (nsub t' t) x) (sol ++ [one t (nsub t' t) x]) E') as H.
    rewrite app_length in H. change (length [t]) with 1%nat in H. refine (eq_trans H _). rewrite <- app_assoc. reflexivity.
Qed.
Lemma gen_fixed x t0 t1 ts : forallb (fun t => (@isclose_count K t (t0 :: t1 :: ts) =? 1)%nat) (t0 :: t1 :: ts) = true ->
  snd (@fixed_odeint K (vec K) f x (t0 :: t1 :: ts) step []) = Ok (t0 :: t1 :: ts, gtraj one x (t0 :: t1 :: ts)).
Proof.
  intros Hu. set (l := t0 :: t1 :: ts) in *.
  assert (Hin : forall t, In t l -> (@isclose_count K t l =? 0)%nat = false).
  { intros t Ht. apply (proj1 (forallb_forall _ _) Hu) in Ht. apply Nat.eqb_eq in Ht. now rewrite Ht. }
  rewrite fixed_odeint_snd. cbv zeta. rewrite Hu. cbn [negb]. change (pyget l 0) with (Ok t0). change (pyget l 1) with (Ok t1).
  cbn [rbind]. assert (P : exists z, pylast l = Ok z).
  { unfold pylast. destruct (rev l) eqn:E; [|eauto]. apply (f_equal (@length K)) in E. rewrite rev_length in E. discriminate. }
  destruct P as (z & ->). cbn [rbind]. rewrite Hin by (left; reflexivity).
  pose proof (gen_loop l l Hin ts [] t0 t1 x [x] eq_refl) as H.
  refine (eq_trans (f_equal (fun r => rbind r _) H) _). reflexivity.
Qed.
End Gen.

Lemma law_R : forall a b : ROps, nadd a (nsub b a) = b.
Proof. intros a b. change (a + (b - a) = b). ring. Qed.
Lemma law_D : forall a b : DR, nadd a (nsub b a) = b.
Proof. intros [a a'] [b b']. cbn. f_equal; ring. Qed.

Lemma count_fst (t : DR) (l : list DR) : @isclose_count DR t l = @isclose_count ROps (fst t) (map fst l).
Proof. unfold isclose_count. rewrite map_map. f_equal. Qed.
Lemma unique_fst (l : list DR) : forallb (fun t => (@isclose_count DR t l =? 1)%nat) l = forallb (fun t => (@isclose_count ROps t (map fst l) =? 1)%nat) (map fst l).
Proof. rewrite forallb_map. apply forallb_ext. intros t. now rewrite count_fst. Qed.

(** ** Steps as functions of state, time and step size *)
Inductive smooth_family (n : nat) : solver DR (vec DR) -> (R -> solver ROps (vec ROps)) -> Prop :=
| sm_euler : smooth_family n (Euler DR) (fun _ => Euler ROps)
| sm_midpoint : smooth_family n (Midpoint DR) (fun _ => Midpoint ROps)
| sm_rk4 : smooth_family n (RungeKutta4 DR) (fun _ => RungeKutta4 ROps)
| sm_hyper_euler G g : smooth_field n G g -> smooth_family n (@HyperEuler DR G) (fun e => @HyperEuler ROps (g e))
| sm_hyper_midpoint G g : smooth_field n G g -> smooth_family n (@HyperMidpoint DR G) (fun e => @HyperMidpoint ROps (g e))
| sm_hyper_rk4 G g : smooth_field n G g -> smooth_family n (@HyperRungeKutta4 DR G) (fun e => @HyperRungeKutta4 ROps (g e)).

Definition smooth_step (n : nat) (sd : @step_fun DR (vec DR)) (sr : R -> @step_fun ROps (vec ROps)) : Prop :=
  exists oneD one,
  (forall F X T H, snd (sd F X T H None) = Ok (Ret3 None (oneD F T H X) None)) /\
  (forall e f x t h, snd (sr e f x t h None) = Ok (Ret3 None (one e f t h x) None)) /\
  (forall F f X x T t H h, smooth_field n F f -> tracks_vec n X x -> tracks T t -> tracks H h ->
     tracks_vec n (oneD F T H X) (fun e => one e (f e) (t e) (h e) (x e))).

Lemma tr_lit q : tracks (@nQ DR q) (fun _ => @nQ ROps q).
Proof. apply rc_tr. apply t_lit. Qed.
Lemma tr_pow a c k : tracks a c -> tracks (@npow DR a k) (fun e => @npow ROps (c e) k).
Proof.
  intros H. induction k as [|k IH]; cbn [npow]; [apply tr_lit|].
  apply (tr_mul _ _ _ _ H IH).
Qed.
Ltac smv := repeat first [eassumption | apply tv_add | apply tv_scale_t | (eapply sf_call; [eassumption| |]) | apply tr_add | apply tr_mul | apply tr_pow | apply tr_lit ].

Lemma sm_step_euler n : smooth_step n (@euler_step DR) (fun _ => @euler_step ROps).
Proof.
  exists (fun F T H X => @vadd DR X (@vscale DR H (F T X))), (fun _ f t h x => @vadd ROps x (@vscale ROps h (f t x))).
  split; [reflexivity|]. split; [reflexivity|]. intros. smv.
Qed.
Lemma sm_step_midpoint n : smooth_step n (@midpoint_step DR) (fun _ => @midpoint_step ROps).
Proof.
  do 2 eexists. split; [intros; cbv [midpoint_step first_stage mbind call mret fst snd app]; reflexivity|].
  split; [intros; cbv [midpoint_step first_stage mbind call mret fst snd app]; reflexivity|]. intros. cbv beta. smv.
Qed.
Lemma sm_step_rk4 n : smooth_step n (@rk4_step DR) (fun _ => @rk4_step ROps).
Proof.
  do 2 eexists. split; [intros; cbv [rk4_step first_stage mbind call mret fst snd app construct_rk4 tc ta tb tget aget nth]; reflexivity|].
  split; [intros; cbv [rk4_step first_stage mbind call mret fst snd app construct_rk4 tc ta tb tget aget nth]; reflexivity|]. intros. cbv beta. smv.
Qed.
Lemma sm_step_hyper n sd sr order G g : smooth_step n sd sr -> smooth_field n G g ->
  smooth_step n (@hyper_step DR sd order G) (fun e => @hyper_step ROps (sr e) order (g e)).
Proof.
  intros (oD & o & E1 & E2 & HT) HG.
  exists (fun F T H X => @vadd DR (oD F T H X) (@vscale DR (@npow DR H (order + 1)) (G T X))),
    (fun e f t h x => @vadd ROps (o e f t h x) (@vscale ROps (@npow ROps h (order + 1)) (g e t x))).
  split; [|split].
  - intros. unfold hyper_step. refine (eq_trans (snd_bind_ok _ _ _ (E1 _ _ _ _)) _). reflexivity.
  - intros. unfold hyper_step. refine (eq_trans (snd_bind_ok _ _ _ (E2 _ _ _ _ _)) _). reflexivity.
  - intros F f X x T t H h HF HX Ht Hh. apply tv_add; [now apply HT|]. smv.
Qed.
Lemma smooth_family_steps n sd sr : smooth_family n sd sr -> s_fixed sd = true /\ (forall e, s_fixed (sr e) = true) /\
  smooth_step n (s_step sd) (fun e => s_step (sr e)).
Proof.
  intros H. destruct H; (split; [reflexivity|]; split; [reflexivity|]); cbn [s_step Euler Midpoint RungeKutta4 HyperEuler HyperMidpoint HyperRungeKutta4 mk_solver].
  - apply sm_step_euler. - apply sm_step_midpoint. - apply sm_step_rk4.
  - apply (sm_step_hyper n _ (fun _ => @euler_step ROps)); [apply sm_step_euler|assumption].
  - apply (sm_step_hyper n _ (fun _ => @midpoint_step ROps)); [apply sm_step_midpoint|assumption].
  - apply (sm_step_hyper n _ (fun _ => @rk4_step ROps)); [apply sm_step_rk4|assumption].
Qed.

(** ** Trajectories *)
Lemma tv_cons_inv m T l c : tracks_vec (S m) (T :: l) c ->
  tracks T (fun e => hd 0 (c e)) /\ tracks_vec m l (fun e => tl (c e)).
Proof.
  intros (L1 & L2 & H). split.
  - apply (tr_ext _ (fun e => nth 0 (c e) 0)); [intros e; destruct (c e); reflexivity|]. apply (H 0%nat). lia.
  - split; [cbn in L1; lia|]. split; [intros e; specialize (L2 e); destruct (c e); cbn in *; lia|].
    intros i Hi. apply (tr_ext _ (fun e => nth (S i) (c e) 0)); [intros e; destruct (c e); [destruct i|]; reflexivity|]. apply (H (S i)). lia.
Qed.
Lemma ts_cons n S s X x : tracks_vec n X x -> tracks_states n S s -> tracks_states n (X :: S) (fun e => x e :: s e).
Proof.
  intros HX [L H]. split; [intros e; cbn; now rewrite L|]. intros [|k] Hk; [exact HX|]. cbn in Hk. cbn [nth]. apply H. lia.
Qed.
Lemma ts_ext n S s s' : (forall e, s e = s' e) -> tracks_states n S s -> tracks_states n S s'.
Proof.
  intros E [L H]. split; [intros e; now rewrite <- E|]. intros k Hk. apply (tv_ext n _ (fun e => nth k (s e) [])); [intros e; now rewrite E|now apply H].
Qed.
Lemma gtraj_tracks n F f oneD (one : R -> (R -> list R -> list R) -> R -> R -> list R -> list R) :
  smooth_field n F f ->
  (forall F f X x T t H h, smooth_field n F f -> tracks_vec n X x -> tracks T t -> tracks H h ->
     tracks_vec n (oneD F T H X) (fun e => one e (f e) (t e) (h e) (x e))) ->
  forall (T : list (R * R)) m (ts : R -> list R) X x, tracks_vec m T ts -> tracks_vec n X x ->
  tracks_states n (@gtraj DR (oneD F) X T) (fun e => @gtraj ROps (one e (f e)) (x e) (ts e)).
Proof.
  intros HF HO. induction T as [|T0 T IH]; intros m ts X x HT HX.
  - destruct HT as (L1 & L2 & _). cbn in L1. subst m. split; [|intros k Hk; cbn in Hk; lia].
    intros e. specialize (L2 e). destruct (ts e); [reflexivity|discriminate].
  - destruct m as [|m]; [destruct HT as [L _]; discriminate|]. destruct (tv_cons_inv _ _ _ _ HT) as [H0 Hr].
    destruct T as [|T1 T].
    + cbn [gtraj]. apply (ts_ext _ _ (fun e => [x e])).
      { intros e. destruct HT as (_ & L2 & _). destruct Hr as (Lr & _). cbn in Lr. subst m. specialize (L2 e). destruct (ts e) as [|a [|b r]]; try discriminate. reflexivity. }
      apply (ts_cons _ [] (fun _ => [])); [exact HX|]. split; [reflexivity|intros k Hk; cbn in Hk; lia].
    + destruct m as [|m]; [destruct Hr as [L _]; discriminate|]. destruct (tv_cons_inv _ _ _ _ Hr) as [H1 _].
      change (@gtraj DR (oneD F) X (T0 :: T1 :: T)) with (X :: @gtraj DR (oneD F) (oneD F T0 (@nsub DR T1 T0) X) (T1 :: T)).
      apply (ts_ext _ _ (fun e => x e :: @gtraj ROps (one e (f e)) (one e (f e) (hd 0 (ts e)) (hd 0 (tl (ts e)) - hd 0 (ts e)) (x e)) (tl (ts e)))).
      { intros e. destruct HT as (_ & L2 & _). specialize (L2 e). destruct (ts e) as [|a [|b r]]; try discriminate. reflexivity. }
      apply ts_cons; [exact HX|]. apply (IH (S m)); [exact Hr|]. apply HO; auto. apply tr_sub; auto.
Qed.

(** ** Separated grids stay separated for small changes *)
Definition near (P : R -> Prop) : Prop := exists d, 0 < d /\ forall e, Rabs e < d -> P e.
Lemma near_and P Q : near P -> near Q -> near (fun e => P e /\ Q e).
Proof.
  intros (d & Hd & H) (d' & Hd' & H'). exists (Rmin d d'). split; [apply Rmin_glb_lt; auto|]. intros e He.
  split; [apply H; eapply Rlt_le_trans; [exact He|apply Rmin_l]|apply H'; eapply Rlt_le_trans; [exact He|apply Rmin_r]].
Qed.
Lemma near_below N (P : nat -> R -> Prop) : (forall i, (i < N)%nat -> near (P i)) -> near (fun e => forall i, (i < N)%nat -> P i e).
Proof.
  induction N as [|N IH]; intros H; [exists 1; split; [lra|intros; lia]|].
  destruct (near_and _ _ (IH (fun i Hi => H i ltac:(lia))) (H N ltac:(lia))) as (d & Hd & G). exists d. split; [exact Hd|].
  intros e He i Hi. destruct (G e He) as [G1 G2]. destruct (Nat.eq_dec i N) as [->|]; [exact G2|apply G1; lia].
Qed.
Lemma near_mono (P Q : R -> Prop) : (forall e, P e -> Q e) -> near P -> near Q.
Proof. intros H (d & Hd & G). exists d. split; auto. Qed.
Lemma near_cont (g : R -> R) : continuity_pt g 0 -> 0 < g 0 -> near (fun e => 0 < g e).
Proof.
  intros Hc Hp. destruct (Hc (g 0) Hp) as (d & Hd & H). exists d. split; [exact Hd|]. intros e He.
  destruct (Req_dec e 0) as [->|Hne]; [exact Hp|].
  assert (G : Rabs (g e - g 0) < g 0).
  { apply (H e). split; [split; [exact I|auto]|]. cbn. unfold R_dist. now rewrite Rminus_0_r. }
  apply Rabs_def2 in G. lra.
Qed.
Lemma tr_cont d c : tracks d c -> continuity_pt c 0.
Proof. intros [_ H]. apply derivable_continuous_pt. exists (snd d). exact H. Qed.
Lemma near_apart a b A B : tracks A a -> tracks B b -> ~ close_to (a 0) (b 0) -> near (fun e => ~ close_to (a e) (b e)).
Proof.
  intros Ha Hb H. unfold close_to in *.
  apply (near_mono (fun e => 0 < Rabs (a e - b e) - (1 / 100000000 + 1 / 100000 * Rabs (b e)))); [intros e G; lra|].
  apply near_cont; [|lra].
  apply continuity_pt_minus.
  - apply (continuity_pt_comp (fun e => a e - b e) Rabs); [|apply Rcontinuity_abs].
    apply continuity_pt_minus; eapply tr_cont; eauto.
  - apply continuity_pt_plus; [apply continuity_pt_const; intros ? ?; reflexivity|].
    apply continuity_pt_mult; [apply continuity_pt_const; intros ? ?; reflexivity|].
    apply (continuity_pt_comp b Rabs); [eapply tr_cont; eauto|apply Rcontinuity_abs].
Qed.
Lemma nth_error_nth_lt (l : list R) i a : nth_error l i = Some a -> (i < length l)%nat /\ nth i l 0 = a.
Proof. intros H. split; [apply nth_error_Some; congruence|now apply nth_error_nth]. Qed.
Lemma near_separated m T ts : tracks_vec m T ts -> separated (ts 0) -> near (fun e => separated (ts e)).
Proof.
  intros (L1 & L2 & H) Hs.
  apply (near_mono (fun e => forall i, (i < m)%nat -> forall j, (j < m)%nat -> i <> j -> ~ close_to (nth i (ts e) 0) (nth j (ts e) 0))).
  { intros e G i j a b Hij Ha Hb. apply nth_error_nth_lt in Ha, Hb. rewrite L2 in Ha, Hb. destruct Ha as [? <-], Hb as [? <-]. now apply G. }
  apply near_below. intros i Hi. apply near_below. intros j Hj. destruct (Nat.eq_dec i j) as [->|Hij]; [exists 1; split; [lra|]; intros; congruence|].
  apply (near_mono (fun e => ~ close_to (nth i (ts e) 0) (nth j (ts e) 0))); [auto|].
  apply (near_apart _ _ _ _ (H i Hi) (H j Hj)). apply (Hs i j); auto; rewrite (nth_error_nth' _ 0); auto; now rewrite L2.
Qed.
Lemma near_less a b A B : tracks A a -> tracks B b -> a 0 < b 0 -> near (fun e => a e < b e).
Proof.
  intros Ha Hb H. apply (near_mono (fun e => 0 < b e - a e)); [intros; lra|]. apply near_cont; [|lra]. apply continuity_pt_minus; eapply tr_cont; eauto.
Qed.
Lemma tracks_fst m T ts : tracks_vec m T ts -> map fst T = ts 0.
Proof.
  intros (L1 & L2 & H). apply (nth_ext _ _ 0 0).
  - rewrite map_length, L2. exact L1.
  - intros i Hi. rewrite map_length, L1 in Hi. rewrite <- (proj1 (H i Hi)). apply (map_nth fst T (0, 0) i).
Qed.

(** The fixed-step routine on a grid whose times have derivatives *)
Lemma fixed_time_tracks n m sd sr F f X x T ts :
  smooth_step n sd sr -> smooth_field n F f -> tracks_vec n X x -> tracks_vec (S (S m)) T ts -> separated (ts 0) ->
  exists S s, snd (@fixed_odeint DR (vec DR) F X T sd []) = Ok (T, S) /\
    near (fun e => snd (@fixed_odeint ROps (vec ROps) (f e) (x e) (ts e) (sr e) []) = Ok (ts e, s e)) /\
    length S = Datatypes.S (Datatypes.S m) /\ tracks_states n S s.
Proof.
  intros (oD & o & E1 & E2 & HO) HF HX HT Hs.
  assert (LT : length T = S (S m)) by apply HT. assert (Lt : forall e, length (ts e) = S (S m)) by apply HT.
  exists (@gtraj DR (oD F) X T), (fun e => @gtraj ROps (o e (f e)) (x e) (ts e)). split; [|split; [|split]].
  - destruct T as [|T0 [|T1 T]]; try discriminate. apply (gen_fixed law_D F sd (oD F) (fun x t dt => E1 F x t dt)).
    refine (eq_trans (unique_fst _) _). pose proof (tracks_fst _ _ _ HT) as Ef.
    refine (eq_ind_r (fun l => forallb (fun t => (@isclose_count ROps t l =? 1)%nat) l = true) _ Ef). now apply assertion_separated.
  - apply (near_mono (fun e => separated (ts e))); [|now apply (near_separated _ _ _ HT)].
    intros e He. specialize (Lt e). destruct (ts e) as [|t0 [|t1 r]]; try discriminate.
    apply (gen_fixed law_R (f e) (sr e) (o e (f e)) (fun x t dt => E2 e (f e) x t dt)). now apply assertion_separated.
  - rewrite <- LT. assert (G : forall x, length (@gtraj DR (oD F) x T) = length T).
    { clear. induction T as [|a T IH]; intros x; [reflexivity|]. destruct T as [|b T]; [reflexivity|]. cbn [gtraj length] in *. f_equal. apply IH. }
    apply G.
  - apply (gtraj_tracks n F f oD o HF HO T _ ts X x HT HX).
Qed.

Lemma smooth_neg n F f : smooth_field n F f -> smooth_field n (@neg_field DR F) (fun e => @neg_field ROps (f e)).
Proof.
  intros HF T t Y y HT HY. unfold neg_field. apply tv_opp. eapply sf_call; [exact HF|now apply tr_opp|exact HY].
Qed.
Lemma separated_neg l : separated l -> separated (map Ropp l).
Proof.
  intros H i j a b Hij Ha Hb. rewrite nth_error_map in Ha, Hb. destruct (nth_error l i) as [a'|] eqn:Ea; [|discriminate]. destruct (nth_error l j) as [b'|] eqn:Eb; [|discriminate].
  cbn in Ha, Hb. injection Ha as <-. injection Hb as <-. intros C. apply (H i j a' b' Hij Ea Eb). unfold close_to in *.
  replace (- a' - - b') with (- (a' - b')) in C by ring. now rewrite !Rabs_Ropp in C.
Qed.

(** C157.  Increasing grids: if autograd differentiates the field correctly in time, state and parameter, and initial state and times of the grid are given with
    their derivatives, then the derivatives of the returned states that autograd computes through a fixed-step solve are the derivatives of the states the solve returns. *)
Lemma C157_forward_pf :
  forall fuel fuel' n m sd sr F f X x T ts atol rtol atol' rtol' interp all semi,
  smooth_family n sd sr -> smooth_field n F f -> tracks_vec n X x -> tracks_vec (S (S m)) T ts ->
  separated (ts 0) -> nth 0 (ts 0) 0 <= nth 1 (ts 0) 0 ->
  exists S s,
    snd (@odeint_autograd ROps fuel F X (@TTensor DR T) sd atol' rtol' interp all [] semi) = Ok (T, S) /\
    (exists d, 0 < d /\ forall e, Rabs e < d ->
       snd (@odeint ROps fuel' (f e) (x e) (@TTensor ROps (ts e)) (sr e) atol rtol interp all [] semi) = Ok (ts e, s e)) /\
    length S = Datatypes.S (Datatypes.S m) /\ tracks_states n S s.
Proof.
  intros fuel fuel' n m sd sr F f X x T ts atol rtol atol' rtol' interp all semi Hfam HF HX HT Hs Hle.
  destruct (smooth_family_steps n sd sr Hfam) as (H1 & H2 & Hst).
  destruct (fixed_time_tracks n m _ _ F f X x T ts Hst HF HX HT Hs) as (S & s & G1 & G2 & G3 & G4).
  exists S, s. split; [|split; [|split; auto]].
  - unfold odeint_autograd, odeint_ad. rewrite H1. rewrite snd_mbind, snd_mlift.
    assert (P : @prep_time DR F (@TTensor DR T) = Ok (F, T)).
    { pose proof (tracks_fst _ _ _ HT) as Ef. assert (LT : length T = Datatypes.S (Datatypes.S m)) by apply HT. destruct T as [|T0 [|T1 T]]; try discriminate.
      unfold prep_time. cbn [ts_list]. unfold pyget. cbn [nth_error rbind]. rewrite <- Ef in Hle. cbn in Hle.
      change (@nltb DR T1 T0) with (Rltb (fst T1) (fst T0)). replace (Rltb (fst T1) (fst T0)) with false; [reflexivity|]. symmetry. apply Rltb_false. exact Hle. }
    refine (eq_trans (f_equal (fun r => rbind r _) P) _). cbn [rbind]. exact G1.
  - assert (Hlt : nth 0 (ts 0) 0 < nth 1 (ts 0) 0).
    { destruct Hle as [?|E]; [assumption|]. exfalso. destruct HT as (_ & L & _). specialize (L 0).
      apply (Hs 0%nat 1%nat (nth 0 (ts 0) 0) (nth 1 (ts 0) 0)); [lia|apply nth_error_nth'; lia|apply nth_error_nth'; lia|].
      rewrite E. unfold close_to. replace (_ - _) with 0 by ring. rewrite Rabs_R0. pose proof (Rabs_pos (nth 1 (ts 0) 0)). lra. }
    destruct HT as (_ & L & HT).
    destruct (near_and _ _ G2 (near_less _ _ _ _ (HT 0%nat ltac:(lia)) (HT 1%nat ltac:(lia)) Hlt)) as (d & Hd & G). exists d. split; [exact Hd|].
    intros e He. destruct (G e He) as [E Hl]. unfold odeint. rewrite H2, snd_mbind, snd_mlift.
    assert (P : @prep_time ROps (f e) (@TTensor ROps (ts e)) = Ok (f e, ts e)).
    { specialize (L e). destruct (ts e) as [|t0 [|t1 r]]; try discriminate. unfold prep_time. cbn [ts_list]. unfold pyget. cbn [nth_error rbind]. cbn in Hl.
      change (@nltb ROps t1 t0) with (Rltb t1 t0). replace (Rltb t1 t0) with false; [reflexivity|]. symmetry. apply Rltb_false. lra. }
    refine (eq_trans (f_equal (fun r => rbind r _) P) _). cbn [rbind]. exact E.
Qed.

(** C157, decreasing grids: the times are returned with the opposite sign, the derivatives of the states are right. *)
Lemma C157_backward_pf :
  forall fuel fuel' n m sd sr F f X x T ts atol rtol atol' rtol' interp all semi,
  smooth_family n sd sr -> smooth_field n F f -> tracks_vec n X x -> tracks_vec (S (S m)) T ts ->
  separated (ts 0) -> nth 1 (ts 0) 0 < nth 0 (ts 0) 0 ->
  exists S s,
    snd (@odeint_autograd ROps fuel F X (@TTensor DR T) sd atol' rtol' interp all [] semi) = Ok (map (fun t => (- fst t, - snd t)) T, S) /\
    (exists d, 0 < d /\ forall e, Rabs e < d ->
       snd (@odeint ROps fuel' (f e) (x e) (@TTensor ROps (ts e)) (sr e) atol rtol interp all [] semi) = Ok (map Ropp (ts e), s e)) /\
    length S = Datatypes.S (Datatypes.S m) /\ tracks_states n S s.
Proof.
  intros fuel fuel' n m sd sr F f X x T ts atol rtol atol' rtol' interp all semi Hfam HF HX HT Hs Hlt.
  destruct (smooth_family_steps n sd sr Hfam) as (H1 & H2 & Hst).
  pose proof (tv_map _ (@nopp DR) Ropp T ts tr_opp HT) as HT'.
  destruct (fixed_time_tracks n m _ _ _ _ X x _ _ Hst (smooth_neg n F f HF) HX HT' (separated_neg _ Hs)) as (S & s & G1 & G2 & G3 & G4).
  exists S, s. split; [|split; [|split; auto]].
  - unfold odeint_autograd, odeint_ad. rewrite H1. rewrite snd_mbind, snd_mlift.
    assert (P : @prep_time DR F (@TTensor DR T) = Ok (@neg_field DR F, map (@nopp DR) T)).
    { pose proof (tracks_fst _ _ _ HT) as Ef. assert (LT : length T = Datatypes.S (Datatypes.S m)) by apply HT. destruct T as [|T0 [|T1 T]]; try discriminate.
      unfold prep_time. cbn [ts_list]. unfold pyget. cbn [nth_error rbind]. rewrite <- Ef in Hlt. cbn in Hlt.
      change (@nltb DR T1 T0) with (Rltb (fst T1) (fst T0)). replace (Rltb (fst T1) (fst T0)) with true; [reflexivity|]. symmetry. apply Rltb_true. exact Hlt. }
    refine (eq_trans (f_equal (fun r => rbind r _) P) _). cbn [rbind]. exact G1.
  - destruct HT as (_ & L & HT).
    destruct (near_and _ _ G2 (near_less _ _ _ _ (HT 1%nat ltac:(lia)) (HT 0%nat ltac:(lia)) Hlt)) as (d & Hd & G). exists d. split; [exact Hd|].
    intros e He. destruct (G e He) as [E Hl]. unfold odeint. rewrite H2, snd_mbind, snd_mlift.
    assert (P : @prep_time ROps (f e) (@TTensor ROps (ts e)) = Ok (@neg_field ROps (f e), map Ropp (ts e))).
    { specialize (L e). destruct (ts e) as [|t0 [|t1 r]]; try discriminate. unfold prep_time. cbn [ts_list]. unfold pyget. cbn [nth_error rbind]. cbn in Hl.
      change (@nltb ROps t1 t0) with (Rltb t1 t0). replace (Rltb t1 t0) with true; [reflexivity|]. symmetry. apply Rltb_true. lra. }
    refine (eq_trans (f_equal (fun r => rbind r _) P) _). cbn [rbind]. exact E.
Qed.

(** The gradient with respect to the last time of x' = x, euler over [0, 1, 2 + e] from 1: the last state is 2 (2 + e), the gradient 2; the hypotheses of C157 are met. *)
Lemma C157_ex_pf : forall fuel,
  smooth_family 1 (Euler DR) (fun _ => Euler ROps) /\ smooth_field 1 (fun _ Y => Y) (fun _ _ y => y) /\
  tracks_vec 1 [(1, 0)] (fun _ => [1]) /\ tracks_vec 3 [(0, 0); (1, 0); (2, 1)] (fun e => [0; 1; 2 + e]) /\
  separated [0; 1; 2 + 0] /\
  exists u v w, snd (@odeint_autograd ROps fuel (fun _ Y => Y) [(1, 0)] (@TTensor DR [(0, 0); (1, 0); (2, 1)]) (Euler DR) (1, 0) (1, 0) false false [] None)
    = Ok ([(0, 0); (1, 0); (2, 1)], [u; v; [w]]) /\ w = (4, 2).
Proof.
  intros fuel.
  assert (A1 : smooth_family 1 (Euler DR) (fun _ => Euler ROps)) by constructor.
  assert (A2 : smooth_field 1 (fun _ Y => Y) (fun _ _ y => y)) by (intros T t Y y _ H; exact H).
  assert (C : forall a, tracks (a, 0) (fun _ => a)) by (intros a; rewrite <- cst_eq; apply tr_cst).
  assert (A3 : tracks_vec 1 [(1, 0)] (fun _ => [1])).
  { split; [reflexivity|]. split; [reflexivity|]. intros [|i] Hi; [apply C|lia]. }
  assert (A4 : tracks_vec 3 [(0, 0); (1, 0); (2, 1)] (fun e => [0; 1; 2 + e])).
  { split; [reflexivity|]. split; [reflexivity|]. intros [|[|[|i]]] Hi; try lia; try apply C. cbn [nth]. split; [cbn; lra|]. cbn [snd].
    replace 1 with (0 + 1) by ring. apply (derivable_pt_lim_plus (fun _ => 2) (fun e => e)); [apply derivable_pt_lim_const|apply derivable_pt_lim_id]. }
  assert (A5 : separated [0; 1; 2 + 0]) by (rewrite Rplus_0_r; exact grid3_separated).
  split; [exact A1|]. split; [exact A2|]. split; [exact A3|]. split; [exact A4|]. split; [exact A5|].
  destruct (sm_step_euler 1) as (oD & o & E1 & _ & _).
  unfold odeint_autograd, odeint_ad. cbn [s_fixed Euler mk_solver]. rewrite snd_mbind, snd_mlift.
  assert (P : @prep_time DR (fun _ Y => Y) (@TTensor DR [(0, 0); (1, 0); (2, 1)]) = Ok ((fun _ Y => Y), [(0, 0); (1, 0); (2, 1)])).
  { unfold prep_time. cbn [ts_list]. unfold pyget. cbn [nth_error rbind]. change (@nltb DR (1, 0) (0, 0)) with (Rltb 1 0). replace (Rltb 1 0) with false; [reflexivity|].
    symmetry. apply Rltb_false. lra. }
  do 3 eexists. split; [refine (eq_trans (f_equal (fun r => rbind r _) P) _); cbn [rbind]|].
  - refine (eq_trans (gen_fixed law_D (fun _ Y => Y) _ (fun T H X => @vadd DR X (@vscale DR H X)) _ _ _ _ _ _) _).
    + intros; reflexivity.
    + refine (eq_trans (unique_fst _) _). apply assertion_separated. exact grid3_separated.
    + cbn [gtraj vadd vscale map map2]. reflexivity.
  - cbn. f_equal; ring.
Qed.
