(** odeint with the adaptive embedded pairs. *)
From Coq Require Import ZArith QArith Qreals Reals Lra Lia List Bool Sorted.
From Verif Require Import Num Py Tensor M_Constants M_SolversOde M_Utils M_Interp M_Odeint.
From Verif Require Import Spec_Ode Spec_Trees Spec_RK Spec_Norm Spec_Adaptive.
From Verif Require Import L_Base L_Fixed L_Vec L_Steps L_Tables L_Steps2 L_Interp L_Utils L_Fixed2 L_Adaptive L_Run.
Import ListNotations.
Local Open Scope R_scope.

Lemma mbind_eq {L A B} (m : M L A) l a (k : A -> M L B) : m = (l, Ok a) ->
  mbind m k = (l ++ fst (k a), snd (k a)).
Proof. intros ->. reflexivity. Qed.

Lemma minus_list_vsub (a b : rvec) : minus_list a b = @vsub ROps a b.
Proof. unfold minus_list, vsub. rops. now rewrite map2_combine. Qed.

Lemma error_ratio_spec atol rtol semi (x x' e : rvec) :
  @error_ratio ROps atol rtol semi x x' e = scaled_error atol rtol semi x x' e.
Proof.
  unfold error_ratio, scaled_error. rewrite hairer_rms. f_equal.
  assert (K : forall e x x' : list R,
    map2 Rdiv e (map (fun m => atol + rtol * m) (map2 Rmax (map Rabs x) (map Rabs x'))) =
    map (fun q => fst q / (atol + rtol * Rmax (Rabs (fst (snd q))) (Rabs (snd (snd q))))) (combine e (combine x x'))).
  { clear. intros e. induction e as [|e0 e IH]; intros [|x0 x] [|y0 y]; auto.
    cbn [map map2 combine fst snd]. f_equal. apply IH. }
  destruct semi; apply K.
Qed.

(** An adaptive solver object whose step is the embedded pair (rows, b, bh), with the last stage
    taken at the new point, and whose controller constants are sane. *)
Definition embedded_pair (s : solver ROps (vec ROps)) (rows : list (R * list R)) (b bh : list R) : Prop :=
  s_fixed s = false /\ 0 < s_min_factor s < 1 /\ 1 <= s_max_factor s /\ 0 < s_safety s < 1 /\
  length rows = 7%nat /\
  forall n f t h x, field_on n f -> length x = n ->
    let x1 := erk_step rows b f t h x in
    snd (s_step s f x t h (Some (f t x))) =
    Ok (Ret4 (f (t + h) x1) x1 (@vsub ROps x1 (erk_step rows bh f t h x)) (erk_stages rows f t h x)).

Lemma dopri5_pair :
  embedded_pair (DormandPrince45 ROps) (to_R_rows q_dopri5) (to_R qb5_dopri5) (to_R qb4_dopri5).
Proof.
  split; [reflexivity|]. cbn [s_min_factor s_max_factor s_safety DormandPrince45 mk_solver]. rops. qlit.
  split; [lra|]. split; [lra|]. split; [lra|]. split; [reflexivity|].
  intros n f t h x Hf Hx. apply (dopri5_full n); auto. intros k [= <-]; auto.
Qed.

Lemma tsit5_pair : embedded_pair (Tsitouras45 ROps) (to_R_rows (qrows7 (construct_tsit5 QRaw)))
   (to_R (qb7 (construct_tsit5 QRaw))) (to_R (q_embedded (construct_tsit5 QRaw))).
Proof.
  split; [reflexivity|]. cbn [s_min_factor s_max_factor s_safety Tsitouras45 mk_solver]. rops. qlit.
  split; [lra|]. split; [lra|]. split; [lra|]. split; [reflexivity|].
  intros n f t h x Hf Hx. apply (tsit5_full n); auto. intros k [= <-]; auto.
Qed.

(** The built-in adaptive solvers with their tableaux: dopri5 with the published one, tsit5 with
    the constants of the code (which meet the order conditions up to 1e-80, C23). *)
Definition builtin_pair (s : solver ROps (vec ROps)) (rows : list (R * list R)) (b bh : list R) : Prop :=
  (s = DormandPrince45 ROps /\ rows = to_R_rows q_dopri5 /\ b = to_R qb5_dopri5 /\ bh = to_R qb4_dopri5) \/
  (s = Tsitouras45 ROps /\ rows = to_R_rows (qrows7 (construct_tsit5 QRaw)) /\
   b = to_R (qb7 (construct_tsit5 QRaw)) /\ bh = to_R (q_embedded (construct_tsit5 QRaw))).

Lemma builtin_embedded s rows b bh : builtin_pair s rows b bh -> embedded_pair s rows b bh.
Proof.
  intros [(-> & -> & -> & ->)|(-> & -> & -> & ->)]; [apply dopri5_pair|apply tsit5_pair].
Qed.

Lemma builtin_calls s rows b bh : builtin_pair s rows b bh ->
  forall f x t h k, length (fst (s_step s f x t h (Some k))) = 6%nat.
Proof.
  intros [(-> & _)|(-> & _)] f x t h k; [apply (erk7_calls (construct_dopri5 ROps))|apply (erk7_calls (construct_tsit5 ROps))].
Qed.

Section Pair.
Variables (s : solver ROps (vec ROps)) (rows : list (R * list R)) (b bh : list R).
Hypothesis HP : embedded_pair s rows b bh.
Variables (n : nat) (f : R -> rvec -> rvec).
Hypothesis Hf : field_on n f.

Let xn := erk_step rows b f.
Let err t h x := @vsub ROps (xn t h x) (erk_step rows bh f t h x).
Let stg := erk_stages rows f.
Let bm4 := construct_4th ROps.
Definition pdense := pair_dense rows b (construct_4th ROps) f.

Lemma p_step x t h : length x = n -> snd (s_step s f x t h (Some (f t x))) =
  Ok (Ret4 (f (t + h) (xn t h x)) (xn t h x) (err t h x) (stg t h x)).
Proof. intros Hx. destruct HP as (_ & _ & _ & _ & _ & H). exact (H n f t h x Hf Hx). Qed.
Lemma p_len x t h : length x = n -> length (xn t h x) = n.
Proof. intros Hx. now apply erk_step_len. Qed.

Lemma p_dense (bmid : option (list R)) bm x t h c : (bmid = None \/ bmid = Some bm4) ->
  bmid = Some bm -> length x = n -> h <> 0 ->
  exists sm, @bmid_sum ROps bm (stg t h x) = Ok sm /\
  @interp_evaluate ROps (@fourth_fit ROps h (f t x) (f (t + h) (xn t h x)) x (xn t h x)
      (@vadd ROps x (@vscale ROps h sm))) t (t + h) c = Ok (pdense t h x c).
Proof.
  intros Hb E Hx Hh. assert (bm = bm4) by (destruct Hb; congruence). subst bm. clear E Hb bmid.
  assert (Hlen : length (stg t h x) = 7%nat).
  { unfold stg. rewrite erk_stages_count. destruct HP as (_ & _ & _ & _ & H & _). exact H. }
  destruct (bmid_sum_value n bm4 (stg t h x)) as (sm & E1 & E2 & E3).
  { rewrite Hlen. reflexivity. }
  { intros E. rewrite E in Hlen. discriminate. }
  { intros k Hk. eapply erk_stages_len; eauto. }
  exists sm. split; [exact E1|]. rewrite (E3 x h Hx).
  change (comb x h bm4 (stg t h x)) with (erk_step rows bm4 f t h x).
  destruct (interp_value n h (f t x) (f (t + h) (xn t h x)) x (xn t h x) (erk_step rows bm4 f t h x) t (t + h) c)
    as (y & Ey & Ly & Vy); auto.
  { apply Hf, p_len; auto. } { now apply p_len. } { now apply erk_step_len. }
  etransitivity; [exact Ey|]. f_equal. unfold pdense, pair_dense. rewrite Hx.
  apply (list_ext n); auto.
  { now rewrite map_length, seq_length. }
  intros i Hi. rewrite Vy by auto.
  symmetry. match goal with |- nth i (map ?g _) 0 = _ =>
    etransitivity; [exact (nth_indep (map g (seq 0 n)) 0 (g 0%nat)
      ltac:(rewrite map_length, seq_length; exact Hi))|];
    etransitivity; [exact (map_nth g (seq 0 n) 0%nat i)|]; cbv beta end.
  rewrite seq_nth by auto. cbn [Nat.add]. fold xn. replace (t + h - t) with h by ring. reflexivity.
Qed.

Variables (atol rtol : R) (interp all : bool) (semi : option nat).
Let bmid := if s_is_tsit5 s then None else if interp then Some (construct_4th ROps) else None.
Definition interp_on : bool := interp && negb (s_is_tsit5 s).

Lemma run_mono {X} (acc acc' : R -> R -> X -> X -> Prop) dn ip al t x req times xs :
  (forall t h x x', acc t h x x' -> acc' t h x x') ->
  run acc dn ip al t x req times xs -> run acc' dn ip al t x req times xs.
Proof. intros H. induction 1; econstructor; eauto. Qed.

Lemma accd_pair t h x x' : accd atol rtol semi xn err t h x x' ->
  pair_accepts rows b bh f atol rtol semi t h x x'.
Proof.
  intros [-> Hr]. split; [reflexivity|]. unfold ratio in Hr. rewrite error_ratio_spec in Hr.
  rewrite minus_list_vsub. exact Hr.
Qed.

Lemma bmid_cases : bmid = None \/ bmid = Some bm4.
Proof. unfold bmid, bm4. destruct (s_is_tsit5 s); auto. destruct interp; auto. Qed.
Lemma bmid_flag : match bmid with Some _ => true | None => false end = interp_on.
Proof. unfold bmid, interp_on. destruct (s_is_tsit5 s), interp; auto. Qed.

Definition pairrun := run (pair_accepts rows b bh f atol rtol semi) pdense interp_on all.

Lemma init_inv k1 x dt t0 ts : StronglySorted Rlt (t0 :: ts) -> ts <> [] -> length x = n -> k1 = f t0 x -> 0 < dt ->
  Inv f (last ts t0) ts n (@MkA ROps t0 dt x k1 0 [t0] [x]) ts.
Proof.
  intros Hs Hne Hx Hk Hd. inversion Hs as [|? ? Hs1 Hf1]; subst. rewrite Forall_forall in Hf1.
  unfold Inv. cbn [a_t a_x a_k1 a_dt a_ck skipn].
  assert (Hin : In (last ts t0) ts).
  { destruct (exists_last Hne) as (l & a & ->). rewrite last_last. apply in_or_app; right; now left. }
  repeat split; auto.
  - destruct (exists_last Hne) as (l & a & E). rewrite E, last_last. rewrite E in H, Hs1.
    apply in_app_or in H. destruct H as [H|[<-|[]]]; [|lra].
    apply sorted_app_inv in Hs1. destruct Hs1 as [_ Hs1]. specialize (Hs1 c a H (or_introl eq_refl)). lra.
  - apply Rlt_le, Hf1, Hin.
Qed.

(** The adaptive routine *)
Lemma adaptive_odeint_run fuel k1 x dt t0 ts times sol :
  StronglySorted Rlt (t0 :: ts) -> ts <> [] -> length x = n -> k1 = f t0 x -> 0 < dt ->
  snd (@adaptive_odeint ROps fuel f k1 x dt (t0 :: ts) s atol rtol bmid all semi) = Ok (times, sol) ->
  exists times' sol', times = t0 :: times' /\ sol = x :: sol' /\ pairrun t0 x ts times' sol'.
Proof.
  intros Hs Hne Hx Hk Hd Hr. unfold adaptive_odeint in Hr.
  rewrite !snd_mbind in Hr. rewrite !snd_mlift in Hr. cbn [pyget nth_error rbind skipn] in Hr.
  assert (El : @pylast R (t0 :: ts) = Ok (last ts t0)).
  { rewrite (pylast_last _ t0) by discriminate. destruct ts; [congruence|reflexivity]. }
  rewrite snd_mbind, snd_mlift in Hr. rbwin El Hr. cbn [rbind] in Hr.
  pose proof HP as (_ & H1' & H2 & H3 & _ & _). assert (H1 : 0 < s_min_factor s <= 1) by lra.
  destruct (loop_run f s (last ts t0) ts atol rtol bmid all semi n xn err stg pdense
     p_step p_len (fun bm x t h c => p_dense bmid bm x t h c bmid_cases) H1 H2 fuel _ ts times sol
     (init_inv k1 x dt t0 ts Hs Hne Hx Hk Hd) Hr) as (times' & sol' & E1 & E2 & E3).
  exists times', sol'. split; [exact E1|]. split; [exact E2|].
  cbn [a_t a_x] in E3. unfold pairrun. rewrite <- bmid_flag. eapply run_mono; [|exact E3]. apply accd_pair.
Qed.

Lemma adaptive_odeint_no_error fuel k1 x dt t0 ts e :
  StronglySorted Rlt (t0 :: ts) -> ts <> [] -> length x = n -> k1 = f t0 x -> 0 < dt ->
  snd (@adaptive_odeint ROps fuel f k1 x dt (t0 :: ts) s atol rtol bmid all semi) <> Err e.
Proof.
  intros Hs Hne Hx Hk Hd. unfold adaptive_odeint.
  rewrite !snd_mbind. rewrite !snd_mlift. cbn [pyget nth_error rbind skipn].
  assert (El : @pylast R (t0 :: ts) = Ok (last ts t0)).
  { rewrite (pylast_last _ t0) by discriminate. destruct ts; [congruence|reflexivity]. }
  rewrite snd_mbind, snd_mlift. rbw El. cbn [rbind].
  pose proof HP as (_ & H1' & H2 & H3 & _ & _). assert (H1 : 0 < s_min_factor s <= 1) by lra.
  exact (loop_no_error f s (last ts t0) ts atol rtol bmid all semi n xn err stg pdense
     p_step p_len (fun bm x t h c => p_dense bmid bm x t h c bmid_cases) H1 H2 fuel _ ts
     (init_inv k1 x dt t0 ts Hs Hne Hx Hk Hd) e).
Qed.

(** odeint, increasing grid *)
Lemma odeint_adaptive_inc fuel x t0 t1 ts save_at : t0 <= t1 ->
  exists dt lg, 0 < dt /\ 
  @init_step ROps f (f t0 x) x t0 (s_order s) atol rtol = ([lg], Ok dt) /\
  @odeint ROps fuel f x (@TTensor ROps (t0 :: t1 :: ts)) s atol rtol interp all save_at semi =
  ([(t0, x); lg] ++ fst (@adaptive_odeint ROps fuel f (f t0 x) x dt (t0 :: t1 :: ts) s atol rtol bmid all semi),
   snd (@adaptive_odeint ROps fuel f (f t0 x) x dt (t0 :: t1 :: ts) s atol rtol bmid all semi)).
Proof.
  intros Hle. destruct (init_step_value f (f t0 x) x t0 (s_order s) atol rtol) as (dt & lg & E & Hd & _).
  exists dt, lg. split; auto. split; auto.
  unfold odeint, prep_time. cbn [ts_list pyget nth_error rbind]. rops.
  rewrite (proj2 (Rltb_false t1 t0)) by lra.
  destruct HP as (Hfx & _).
  assert (E' : @init_step ROps f (f t0 x) x t0 (s_order s) atol rtol = ([lg], Ok dt)) by exact E.
  rewrite (mbind_eq (mlift _) [] (f, t0 :: t1 :: ts) _ eq_refl). cbv beta iota zeta. rewrite Hfx.
  rewrite (mbind_eq (mlift _) [] t0 _ eq_refl).
  rewrite (mbind_eq (call f t0 x) [(t0, x)] (f t0 x) _ eq_refl).
  rewrite (mbind_eq _ _ _ _ E'). reflexivity.
Qed.

End Pair.
