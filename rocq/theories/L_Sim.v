(** Adaptive solves of reindexed states and shifted times. *)
From Coq Require Import ZArith QArith Qreals Reals Lra Lia List Bool Sorted.
From Verif Require Import Num Py Tensor M_Constants M_SolversOde M_Utils M_Interp M_Odeint.
From Verif Require Import Spec_Ode Spec_Trees Spec_RK Spec_Norm Spec_Adaptive Spec_Inv.
From Verif Require Import L_Base L_Fixed L_Vec L_Steps L_Tables L_Steps2 L_Interp L_Utils L_Fixed2 L_Adaptive L_Run.
From Verif Require Import L_Adaptive2 L_Adaptive3 L_Adaptive4 L_Inv.
Import ListNotations.
Local Open Scope R_scope.

Lemma nth_reindex idx y i : (i < length idx)%nat -> nth i (reindex idx y) 0 = nth (nth i idx 0%nat) y 0.
Proof.
  intros Hi. unfold reindex. rewrite (nth_indep _ 0 ((fun j => nth j y 0) 0%nat)) by (rewrite map_length; auto).
  exact (map_nth (fun j => nth j y 0) idx 0%nat i).
Qed.
Lemma reindex_len idx y : length (reindex idx y) = length idx.
Proof. apply map_length. Qed.
Lemma map_nth_seq {A} (F : nat -> A) idx : map (fun i => F (nth i idx 0%nat)) (seq 0 (length idx)) = map F idx.
Proof.
  induction idx as [|j idx IH]; simpl; auto. f_equal. rewrite <- seq_shift, map_map. exact IH.
Qed.
Lemma nth_map_seq0 n (F : nat -> R) j : (j < n)%nat -> nth j (map F (seq 0 n)) 0 = F j.
Proof.
  intros Hj. rewrite (nth_indep _ 0 (F 0%nat)) by (rewrite map_length, seq_length; auto).
  rewrite (map_nth F), seq_nth by auto. reflexivity.
Qed.

Lemma nth_error_map' {A B} (F : A -> B) l k : nth_error (map F l) k = option_map F (nth_error l k).
Proof. revert k; induction l as [|a l IH]; intros [|k]; simpl; auto. Qed.

Section Re.
Variables (n : nat) (idx : list nat).
Hypothesis Hidx : forall j, In j idx -> (j < n)%nat.

Lemma reindex_map2 (F : R -> R -> R) (a c : list R) : length a = n -> length c = n ->
  reindex idx (map2 F a c) = map2 F (reindex idx a) (reindex idx c).
Proof.
  intros Ha Hc. unfold reindex. clear -Hidx Ha Hc. induction idx as [|j l IH]; simpl; auto.
  f_equal; [|apply IH; intros; apply Hidx; now right].
  assert (Hj : (j < n)%nat) by (apply Hidx; now left). clear IH Hidx.
  revert a c j Ha Hc Hj. induction n as [|k IH]; intros [|u a] [|v c] j Ha Hc Hj; try discriminate; try lia.
  destruct j as [|j]; simpl; auto. apply IH; simpl in *; lia.
Qed.
Lemma reindex_map (F : R -> R) (a : list R) : length a = n -> reindex idx (map F a) = map F (reindex idx a).
Proof.
  intros Ha. unfold reindex. rewrite map_map. apply map_ext_in. intros j Hj.
  rewrite (nth_indep _ 0 (F 0)) by (rewrite map_length, Ha; auto). apply (map_nth F).
Qed.
Lemma reindex_axpy a (k x : list R) : length k = n -> length x = n ->
  reindex idx (axpy a k x) = axpy a (reindex idx k) (reindex idx x).
Proof.
  intros Hk Hx. rewrite !axpy_vadd. unfold vadd, vscale. rops.
  rewrite reindex_map2 by (auto; rewrite map_length; auto). now rewrite reindex_map.
Qed.
End Re.

Section Sim.
Variables (s : solver ROps (vec ROps)) (rows : list (R * list R)) (b bh : list R).
Hypothesis HP : embedded_pair s rows b bh.
Variables (n : nat) (idx : list nat) (f g : R -> rvec -> rvec) (sh : R).
Hypothesis Hidx : forall j, In j idx -> (j < n)%nat.
Let phi := reindex idx.
Let m := length idx.
Hypothesis Hf : field_on n f.
Hypothesis Hg : field_on m g.
Hypothesis Hfg : forall t y, length y = n -> g (t + sh) (phi y) = phi (f t y).
Variables (atol rtol : R) (interp all : bool) (semi : option nat).
Hypothesis Herr : forall x x' e, length x = n -> length x' = n -> length e = n ->
  @error_ratio ROps atol rtol semi (phi x) (phi x') (phi e) = @error_ratio ROps atol rtol semi x x' e.

Let bmid := if s_is_tsit5 s then None else if interp then Some (construct_4th ROps) else None.
Let xn := erk_step rows b f.
Let err t h x := @vsub ROps (xn t h x) (erk_step rows bh f t h x).
Let stg := erk_stages rows f.
Let xg := erk_step rows b g.
Let errg t h x := @vsub ROps (xg t h x) (erk_step rows bh g t h x).
Let stgg := erk_stages rows g.
Let shf (t : R) : R := t + sh.

Lemma sim_axpy a k x : length k = n -> length x = n -> phi (axpy a k x) = axpy a (phi k) (phi x).
Proof. now apply reindex_axpy. Qed.
Lemma sim_step w t h x : length x = n -> erk_step rows w g (t + sh) h (phi x) = phi (erk_step rows w f t h x).
Proof. apply (step_map n phi phi f g sh Hf sim_axpy Hfg). Qed.
Lemma sim_stages t h x : length x = n -> erk_stages rows g (t + sh) h (phi x) = map phi (erk_stages rows f t h x).
Proof. apply (stages_map n phi phi f g sh Hf sim_axpy Hfg). Qed.
Lemma sim_err t h x : length x = n -> errg (t + sh) h (phi x) = phi (err t h x).
Proof.
  intros Hx. unfold errg, err, xg, xn. rewrite !sim_step by auto. symmetry.
  apply (reindex_map2 n idx Hidx Rminus); now apply erk_step_len.
Qed.
Lemma sim_dense t h x c : length x = n ->
  pdense rows b g (t + sh) h (phi x) (c + sh) = phi (pdense rows b f t h x c).
Proof.
  intros Hx. unfold pdense, pair_dense. rewrite !sim_step by auto.
  replace (t + sh + h) with (t + h + sh) by ring. rewrite !Hfg by (auto; now apply erk_step_len).
  replace (c + sh - (t + sh)) with (c - t) by ring.
  unfold phi at 6. rewrite reindex_len.
  set (Q := fun j => quartic_interp h (nth j (f t x) 0) (nth j (f (t + h) (erk_step rows b f t h x)) 0) (nth j x 0)
      (nth j (erk_step rows b f t h x) 0) (nth j (erk_step rows (construct_4th ROps) f t h x) 0) ((c - t) / h)).
  transitivity (map (fun i => Q (nth i idx 0%nat)) (seq 0 (length idx))).
  - apply map_ext_in. intros i Hi. apply in_seq in Hi. unfold phi. rewrite !nth_reindex by lia. reflexivity.
  - rewrite map_nth_seq. unfold phi, reindex. apply map_ext_in. intros j Hj. rewrite Hx.
    symmetry. apply (nth_map_seq0 n Q). auto.
Qed.

Notation astateR := (astate ROps).
Definition sim_st (st : astateR) : astateR :=
  @MkA ROps (a_t st + sh) (a_dt st) (phi (a_x st)) (phi (a_k1 st)) (a_ck st) (map shf (a_times st)) (map phi (a_sol st)).
Definition sim_out (o : nat * list R * list rvec) : nat * list R * list rvec :=
  let '(ck, times, sol) := o in (ck, map shf times, map phi sol).

Variables (T : R) (te : list R).
Let p := @MkP ROps f s T te atol rtol bmid all semi.
Let p' := @MkP ROps g s (T + sh) (map shf te) atol rtol bmid all semi.

Lemma Rltb_shift a c : Rltb (a + sh) (c + sh) = Rltb a c.
Proof. destruct (Rltb_spec a c), (Rltb_spec (a + sh) (c + sh)); auto; lra. Qed.
Lemma Reqb_shift a c : Reqb (a + sh) (c + sh) = Reqb a c.
Proof. destruct (Reqb_spec a c), (Reqb_spec (a + sh) (c + sh)); auto; lra. Qed.

Lemma sim_attempt st : @attempt_dt ROps p' (sim_st st) = @attempt_dt ROps p st.
Proof.
  unfold attempt_dt, p, p', sim_st. cbn [p_T p_t_eval p_interp a_t a_dt a_ck]. rops.
  replace (a_t st + sh + a_dt st) with (a_t st + a_dt st + sh) by ring. rewrite Rltb_shift.
  replace (T + sh - (a_t st + sh)) with (T - a_t st) by ring.
  set (dt := if Rltb T (a_t st + a_dt st) then T - a_t st else a_dt st).
  pose proof (nth_error_map' shf te (a_ck st)) as E.
  match goal with |- context [@nth_error ?A (map shf te) ?k] => change (@nth_error A (map shf te) k) with (@nth_error R (map shf te) k) end.
  rewrite E.
  match goal with |- _ = match @nth_error ?A te ?k with _ => _ end => change (@nth_error A te k) with (@nth_error R te k) end.
  destruct (nth_error te (a_ck st)) as [c|]; cbn [option_map]; auto.
  unfold shf. replace (a_t st + sh + dt) with (a_t st + dt + sh) by ring. rewrite Rltb_shift.
  replace (c + sh - (a_t st + sh)) with (c - a_t st) by ring. reflexivity.
Qed.

Lemma sim_below u l : below (u + sh) (map shf l) = map shf (below u l).
Proof.
  induction l as [|c l IH]; simpl; auto. change (shf c) with (c + sh) at 1.
  rewrite Rltb_shift. destruct (Rltb c u); simpl; auto. now rewrite IH.
Qed.

Lemma sim_accept st rest h : Inv f T te n st rest -> 0 < h ->
  @accept_out ROps p' (sim_st st) h (phi (f (a_t st + h) (xn (a_t st) h (a_x st)))) (phi (xn (a_t st) h (a_x st))) (map phi (stg (a_t st) h (a_x st))) =
  rmap sim_out (@accept_out ROps p st h (f (a_t st + h) (xn (a_t st) h (a_x st))) (xn (a_t st) h (a_x st)) (stg (a_t st) h (a_x st))).
Proof.
  intros (Hx & Hk & _ & Hr & _) Hh. set (t := a_t st) in *. set (x := a_x st) in *.
  unfold accept_out. cbn [p_interp p_t_eval p_all p p' a_t a_x a_k1 a_ck a_times a_sol sim_st].
  fold t x. rewrite Hk.
  assert (HI : exists o : nat * list R * list rvec,
    match bmid with
    | None => Ok (a_ck st, a_times st, a_sol st)
    | Some bm => @interp_loop ROps (length te - a_ck st) bm te t h x (f t x) (f (t + h) (xn t h x)) (xn t h x) (stg t h x) (a_ck st) (a_times st) (a_sol st)
    end = Ok o /\
    match bmid with
    | None => Ok (a_ck st, map shf (a_times st), map phi (a_sol st))
    | Some bm => @interp_loop ROps (length (map shf te) - a_ck st) bm (map shf te) (t + sh) h (phi x) (phi (f t x)) (phi (f (t + h) (xn t h x))) (phi (xn t h x)) (map phi (stg t h x)) (a_ck st) (map shf (a_times st)) (map phi (a_sol st))
    end = Ok (sim_out o)).
  { case_eq bmid; [intros bm Eb|intros Eb]; [|eexists; split; reflexivity].
    pose proof (interp_loop_spec f te bmid n xn stg (pdense rows b f)
      (fun bm' x' t' h' c' => p_dense s rows b bh HP n f Hf bmid bm' x' t' h' c' (bmid_cases s interp)) bm t h x rest (a_ck st) (a_times st) (a_sol st) Eb Hx Hh Hr) as E1.
    assert (Hr' : skipn (a_ck st) (map shf te) = map shf rest).
    { rewrite <- Hr. apply skipn_map. }
    pose proof (interp_loop_spec g (map shf te) bmid m xg stgg (pdense rows b g)
      (fun bm' x' t' h' c' => p_dense s rows b bh HP m g Hg bmid bm' x' t' h' c' (bmid_cases s interp)) bm (t + sh) h (phi x) (map shf rest) (a_ck st)
      (map shf (a_times st)) (map phi (a_sol st)) Eb (reindex_len idx x) Hh Hr') as E2.
    rewrite (skipn_length_rest _ _ _ Hr), (skipn_length_rest _ _ _ Hr').
    eexists. split; [exact E1|].
    assert (S1 : xg (t + sh) h (phi x) = phi (xn t h x)) by (apply sim_step; auto).
    assert (S2 : stgg (t + sh) h (phi x) = map phi (stg t h x)) by (apply sim_stages; auto).
    rewrite S1, S2 in E2. replace (t + sh + h) with (t + h + sh) in E2 by ring.
    rewrite !Hfg in E2 by (auto; now apply erk_step_len).
    etransitivity; [exact E2|]. f_equal. unfold sim_out. rewrite !sim_below, !map_length, !map_app. f_equal. f_equal.
    rewrite !map_map. apply map_ext. intros c. unfold shf. now apply sim_dense. }
  destruct HI as ([[ck times] sol] & E1 & E2).
  rbw E2. symmetry. rbw E1. symmetry. cbn [rbind sim_out].
  unfold pyget.
  match goal with |- context [@nth_error ?A (map shf te) ?k] => change (@nth_error A (map shf te) k) with (@nth_error R (map shf te) k) end.
  match goal with |- context [@nth_error ?A te ?k] => change (@nth_error (num ROps) te k) with (@nth_error R te k) end.
  rewrite nth_error_map'. destruct (nth_error te ck) as [c|]; cbn [option_map rbind]; [|reflexivity].
  rops. replace (t + sh + h) with (t + h + sh) by ring. change (shf c) with (c + sh). rewrite !Reqb_shift.
  destruct (Reqb (t + h) c || all); cbn [rmap rbind sim_out].
  - rewrite !map_app. destruct (Reqb (t + h) c); reflexivity.
  - reflexivity.
Qed.

Lemma sim_iter st rest : Inv f T te n st rest -> a_t st < T ->
  snd (@adaptive_iter ROps p' (sim_st st)) = rmap sim_st (snd (@adaptive_iter ROps p st)).
Proof.
  intros HI Ht. pose proof HI as (Hx & Hk & _).
  destruct (p_iter s rows b bh HP n f Hf atol rtol interp all semi T te st rest HI Ht) as (h & old & st' & Ea & Hh & _).
  unfold adaptive_iter. rewrite sim_attempt.
  assert (Ea' : @attempt_dt ROps p st = (h, old)) by exact Ea. rewrite Ea'.
  cbn [p_solver p_f p_atol p_rtol p_semi p p' a_t a_x a_k1 a_ck a_times a_sol sim_st].
  set (t := a_t st) in *. set (x := a_x st) in *. rewrite Hk, !snd_mbind.
  rbw (p_step s rows b bh HP n f Hf x t h Hx).
  assert (Eg : snd (s_step s g (phi x) (t + sh) h (Some (phi (f t x)))) =
     Ok (Ret4 (phi (f (t + h) (xn t h x))) (phi (xn t h x)) (phi (err t h x)) (map phi (stg t h x)))).
  { pose proof (p_step s rows b bh HP m g Hg (phi x) (t + sh) h (reindex_len idx x)) as E.
    rewrite Hfg in E by auto. rewrite sim_step in E by auto. fold stgg in E.
    replace (t + sh + h) with (t + h + sh) in E by ring. rewrite Hfg in E by (now apply erk_step_len).
    unfold stg. rewrite <- sim_stages by auto. rewrite <- sim_err by auto. unfold errg, xg. rewrite sim_step by auto. exact E. }
  rbw Eg. cbn [rbind]. rewrite !snd_mbind.
  assert (Er : @error_ratio ROps atol rtol semi (phi x) (phi (xn t h x)) (phi (err t h x)) =
     @error_ratio ROps atol rtol semi x (xn t h x) (err t h x)).
  { apply Herr; auto; [now apply erk_step_len|]. apply vsub_len; now apply erk_step_len. }
  rewrite Er. change (err t h x) with (@vsub ROps (erk_step rows b f t h x) (erk_step rows bh f t h x)) in *.
  change (xn t h x) with (erk_step rows b f t h x) in *.
  set (r := @error_ratio ROps atol rtol semi x _ _) in *. clearbody r.
  match goal with |- context [@nleb ROps r ?o] => destruct (@nleb ROps r o) end.
  - rewrite !snd_mlift. pose proof (sim_accept st rest h HI Hh) as Ac.
    match type of Ac with _ = rmap _ ?o0 => remember o0 as o eqn:Eo end.
    rbw Ac. symmetry. rbw (eq_sym Eo). symmetry.
    destruct o as [[[ck times] sol]|e|]; cbn [rmap rbind sim_out snd mret]; auto.
    f_equal. unfold sim_st. cbn [a_t a_x a_k1 a_ck a_times a_sol a_dt]. rops. f_equal. ring.
  - cbn [rmap rbind sim_out snd mret]. unfold sim_st. cbn [a_t a_x a_k1 a_ck a_times a_sol a_dt]. reflexivity.
Qed.

Lemma sim_loop fuel : forall st rest, Inv f T te n st rest ->
  snd (@adaptive_loop ROps fuel p' (sim_st st)) =
  rmap (fun r => (map shf (fst r), map phi (snd r))) (snd (@adaptive_loop ROps fuel p st)).
Proof.
  induction fuel as [|fuel IH]; intros st rest HI; cbn [adaptive_loop];
    change (p_T p') with (T + sh); change (p_T p) with T; change (a_t (sim_st st)) with (a_t st + sh); rops;
    rewrite Rltb_shift; destruct (Rltb_spec (a_t st) T) as [Hlt|Hge]; try reflexivity.
  rewrite !snd_mbind.
  pose proof (sim_iter st rest HI Hlt) as E.
  destruct (p_iter s rows b bh HP n f Hf atol rtol interp all semi T te st rest HI Hlt) as (h & old & st' & _ & _ & _ & Ei & _ & Hc).
  assert (Ei' : snd (@adaptive_iter ROps p st) = Ok st') by exact Ei. clear Ei.
  rewrite Ei' in E. cbn [rmap rbind] in E. rbw E. rbw Ei'. cbn [rbind].
  destruct Hc as [(_ & _ & _ & _ & _ & HI')|(_ & _ & cr & hit & rest' & _ & _ & _ & _ & _ & _ & HI')].
  - apply (IH st' rest HI').
  - apply (IH st' rest' HI').
Qed.
End Sim.
