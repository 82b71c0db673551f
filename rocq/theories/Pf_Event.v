(** Events and requested times; events of steps whose error was not checked. *)
From Coq Require Import ZArith QArith Qreals Reals Lra Lia String List Bool Sorted Floats.
From Verif Require Import Num Py Tensor M_Constants M_SolversOde M_Utils M_Interp M_Odeint.
From Verif Require Import Spec_Ode Spec_Trees Spec_RK Spec_Norm Spec_Adaptive Spec_Hybrid Spec_Inv Spec_Lin.
From Verif Require Import L_Base L_Fixed L_Vec L_Steps L_Tables L_Steps2 L_Interp L_Utils L_Fixed2 L_Adaptive L_Run.
From Verif Require Import L_Adaptive2 L_Nan L_Hybrid L_Hybrid2 Pf_Adaptive Pf_Hybrid Pf_Lin.
Import ListNotations.
Local Open Scope R_scope.

(** C141, refuted (binary64).  Zero field, dopri5, default tolerances, t_span [0, 0.6, 1], one event at t = 0.5: the step
    that was to end at 0.6 is replaced by the event, but the checkpoint counter has already advanced.  No returned time
    is between 0.55 and 0.65. *)
Lemma C141_time_lost_refuted_pf :
  forall pw : float -> float -> float,
  exists f x ts cbs times sol,
    snd (@odeint_hybrid (FloatOps pw) 50 f x ts 5 (DormandPrince45 (FloatOps pw)) cbs
      0.001%float 0.001%float 0.0001%float true None) = Ok (times, sol) /\
    (forall t y, f t y = [0%float]) /\ In 0.6%float ts /\
    existsb (fun t => PrimFloat.leb 0.55 t && PrimFloat.leb t 0.65) times = false /\ last times 0%float = 1%float.
Proof.
  intros pw. exists (fun _ _ => [0%float]), [0%float], [0%float; 0.6%float; 1%float].
  exists [fcb pw (fun t x => PrimFloat.eqb x 0 && PrimFloat.leb 0.5 t) (fun t x => 1%float)].
  do 2 eexists. split; [vm_compute; reflexivity|].
  split; [reflexivity|]. split; [right; left; reflexivity|]. split; reflexivity.
Qed.

Lemma last_snoc2 {A} (l : list A) a b d : last (l ++ [a; b]) d = b.
Proof. change [a; b] with ([a] ++ [b]). rewrite app_assoc. apply last_last. Qed.

(** The last output of a run is the current time. *)
Lemma iter_last {K : NumOps} (p : @hparams K) st st' d : last (h_times st) d = h_t st ->
  snd (hybrid_iter p st) = Ok st' -> last (h_times st') d = h_t st'.
Proof.
  intros H. unfold hybrid_iter. destruct (hybrid_attempt p st) as [[dt old] ck].
  intros E. apply mbind_inv_ok in E. destruct E as (r & _ & E). destruct r as [|f_new x_new x_err ks]; [discriminate|]. cbv zeta in E.
  destruct (triggered _ _) in E.
  - apply mbind_inv_ok in E. destruct E as ([[[t' x'] k'] fl] & _ & E).
    apply mbind_inv_ok in E. destruct E as (i & _ & E). apply mbind_inv_ok in E. destruct E as (cb & _ & E).
    injection E as <-. cbn [h_times h_t]. apply (last_snoc2 (h_times st)).
  - injection E as <-. destruct (nleb _ _); cbn [h_times h_t]; [apply last_last|exact H].
Qed.

Lemma loop_last fuel : forall (p : @hparams ROps) jn js (st : @hstate ROps) times sol d,
  last (h_times st) d = h_t st -> (jn < js)%nat ->
  snd (@hybrid_loop ROps fuel p jn js st) = Ok (times, sol) -> hp_T p <= last times d.
Proof.
  induction fuel as [|fuel IH]; intros p jn js st times sol d Hl Hj Hr; cbn [hybrid_loop] in Hr;
    change (@nltb ROps) with Rltb in Hr; rewrite (proj2 (Nat.ltb_lt _ _) Hj), andb_true_r in Hr;
    destruct (Rltb_spec (h_t st) (hp_T p)) as [H|H]; try discriminate.
  - injection Hr as <- <-. rewrite Hl. lra.
  - apply mbind_inv_ok in Hr. destruct Hr as (st' & E1 & E2).
    exact (IH p jn js st' times sol d (iter_last p st st' d Hl E1) Hj E2).
  - injection Hr as <- <-. rewrite Hl. lra.
Qed.

(** C141 (what holds).  Any solver, any callbacks: a solve with j_span at least 2 that returns ends at or after the last
    requested time. *)
Lemma C141_final_time_pf :
  forall fuel f x t0 ts j_span s cbs atol rtol etol jump_first semi times sol d,
  (2 <= j_span)%nat ->
  snd (@odeint_hybrid ROps fuel f x (t0 :: ts) j_span s cbs atol rtol etol jump_first semi) = Ok (times, sol) ->
  last (t0 :: ts) d <= last times d.
Proof.
  intros fuel f x t0 ts js s cbs atol rtol etol jf semi times sol d Hj Hr. unfold odeint_hybrid in Hr.
  apply mbind_inv_ok in Hr. destruct Hr as (t & Et & Hr). injection Et as <-.
  apply mbind_inv_ok in Hr. destruct Hr as (T & ET & Hr). rewrite snd_mlift in ET.
  assert (HT : T = last (t0 :: ts) d).
  { pose proof (pylast_last (t0 :: ts) d ltac:(discriminate)) as E. pose proof (eq_trans (eq_sym ET) E) as E2. now injection E2. }
  cbv zeta in Hr. apply mbind_inv_ok in Hr. destruct Hr as ([x0 jn] & Ex & Hr).
  assert (Hjn : (jn <= 1)%nat).
  { destruct jf; [|injection Ex as _ <-; lia]. destruct (triggered _ _) in Ex; [|injection Ex as _ <-; lia].
    apply mbind_inv_ok in Ex. destruct Ex as (i & _ & Ex). apply mbind_inv_ok in Ex. destruct Ex as (cb & _ & Ex).
    injection Ex as _ <-. lia. }
  apply mbind_inv_ok in Hr. destruct Hr as (k1 & _ & Hr). apply mbind_inv_ok in Hr. destruct Hr as (dt & _ & Hr).
  rewrite <- HT. apply (loop_last _ _ _ _ _ times sol d) in Hr; [exact Hr|reflexivity|lia].
Qed.

(** C141 (what holds).  With persistent events and increasing t_span it ends exactly there, and starts at the first
    requested time. *)
Lemma C141_endpoints_pf :
  forall fuel s rows b bh n f x t0 t1 ts j_span cbs atol rtol etol jump_first semi times sol,
  builtin_pair s rows b bh -> field_on n f -> List.length x = n -> 0 < etol -> (2 <= j_span)%nat ->
  (forall cb t y, In cb cbs -> List.length y = n -> List.length (snd cb t y) = n) ->
  increasing (t0 :: t1 :: ts) ->
  persistent (erk_step rows b f) cbs (fun y => List.length y = n) ->
  snd (@odeint_hybrid ROps fuel f x (t0 :: t1 :: ts) j_span s (mkcbs cbs) atol rtol etol jump_first semi)
    = Ok (times, sol) ->
  hd t1 times = t0 /\ last times t0 = last (t1 :: ts) t0.
Proof.
  intros fuel s rows b bh n f x t0 t1 ts js cbs atol rtol etol jf semi times sol HB Hf Hx He Hj Hcb Hinc Hp Hr.
  destruct (C37_inside_step_pf fuel s rows b bh n f x t0 t1 ts js cbs atol rtol etol jf semi times sol HB Hf Hx He Hcb Hinc Hp Hr)
    as (_ & Hb & x0 & jn & out & _ & E & _).
  pose proof (C141_final_time_pf fuel f x t0 (t1 :: ts) js s (mkcbs cbs) atol rtol etol jf semi times sol t0 Hj Hr) as Hl.
  split; [now rewrite E|]. apply Rle_antisym.
  - apply Hb. rewrite E. clear. generalize (map fst out). intros l. revert t0. 
    assert (H : forall (m : list R) a d, In (last (a :: m) d) (a :: m)).
    { induction m as [|c m IH]; intros a d; [now left|]. right. apply IH. }
    intros a. apply H.
  - exact Hl.
Qed.

(** ** A field that only the fifth stage of dopri5 sees *)
Definition bump (s : R) : R := s ^ 6 * ((s - 1/5) * (s - 3/10) * (s - 8/9) * (s - 1)) ^ 2.
Definition bump_coefs : list R :=
  [0; 0; 0; 0; 0; 0; 16/5625; -(1004/16875); 103897/202500; -(4438/1875); 643577/101250; -(6859/675); 76897/8100; -(43/9); 1].
Definition spike (t : R) : R := 206000 * 1000000 * bump (1000000 * t).
Definition spike_int (t : R) : R := 206000 * peval (integ bump_coefs) (1000000 * t).

Lemma bump_peval s : bump s = peval bump_coefs s.
Proof. unfold bump, bump_coefs. cbn [peval]. field. Qed.
Lemma bump_nn s : 0 <= s -> 0 <= bump s.
Proof. intros H. unfold bump. apply Rmult_le_pos; [now apply pow_le|apply pow2_ge_0]. Qed.
Lemma spike_derivative t : derivable_pt_lim spike_int t (spike t).
Proof.
  unfold spike_int, spike. rewrite bump_peval.
  replace (206000 * 1000000 * peval bump_coefs (1000000 * t)) with (206000 * (peval bump_coefs (1000000 * t) * (1000000 * 1))) by ring.
  apply (derivable_pt_lim_scal (fun u => peval (integ bump_coefs) (1000000 * u))).
  apply (derivable_pt_lim_comp (fun u => 1000000 * u) (peval (integ bump_coefs))).
  - apply (derivable_pt_lim_scal id). apply derivable_pt_lim_id.
  - apply peval_integ_derivative.
Qed.
Lemma spike_int_0 : spike_int 0 = 0.
Proof. unfold spike_int, integ, bump_coefs. cbn [integ_from peval]. ring. Qed.
Lemma spike_int_1 : spike_int (1 / 1000000) <= 3 / 4.
Proof.
  unfold spike_int, integ, bump_coefs. cbn [integ_from peval]. rewrite !S_INR. change (INR 0) with 0.
  replace (1000000 * (1 / 1000000)) with 1 by field. lra.
Qed.
Lemma spike_int_range t : 0 <= t <= 1 / 1000000 -> 0 <= spike_int t <= 3 / 4.
Proof.
  assert (M : forall a b, 0 <= a -> a <= b -> spike_int a <= spike_int b).
  { intros a b Ha [Hab| ->]; [|lra].
    destruct (MVT_cor2 spike_int spike a b Hab ltac:(intros; apply spike_derivative)) as (c & E & Hc).
    assert (0 <= spike c * (b - a)); [|lra]. apply Rmult_le_pos; [|lra].
    unfold spike. pose proof (bump_nn (1000000 * c) ltac:(lra)). lra. }
  intros Ht. pose proof (M 0 t ltac:(lra) ltac:(lra)). pose proof (M t _ ltac:(lra) (proj2 Ht)).
  pose proof spike_int_0. pose proof spike_int_1. lra.
Qed.

Lemma spike_quad : 
  quad (to_R_rows q_dopri5) (to_R qb5_dopri5) spike 0 (1 / 1000000) = 125/192 * 206000 * bump (4/5) /\
  quad (to_R_rows q_dopri5) (to_R qb4_dopri5) spike 0 (1 / 1000000) = 451/720 * 206000 * bump (4/5).
Proof.
  assert (S0 : forall c, 1000000 * (0 + c * (1 / 1000000)) = c) by (intros; field).
  assert (S1 : forall c, spike (0 + c * (1/1000000)) = 206000 * 1000000 * bump c).
  { intros c. unfold spike. now rewrite S0. }
  unfold quad, to_R_rows, to_R, q_dopri5, qb5_dopri5, qb4_dopri5. cbn [combine map fold_right fst snd]. rewrite !S1. qlit.
  unfold bump. split; field.
Qed.

Definition spike_field (t : R) (_ : list R) : list R := [spike t].
Lemma spike_step b h u : erk_step (to_R_rows q_dopri5) b spike_field 0 h [u]
  = [u + quad (to_R_rows q_dopri5) b spike 0 h].
Proof.
  pose proof (step_time 1 0 (to_R_rows q_dopri5) b (fun s => [spike s]) 0 h [u] ltac:(reflexivity) eq_refl ltac:(lia)) as E.
  cbn [nth] in E.
  assert (L : length (erk_step (to_R_rows q_dopri5) b spike_field 0 h [u]) = 1%nat).
  { apply erk_step_len; [|reflexivity]. intros ? ? _. reflexivity. }
  change (fun s _ => [spike s]) with spike_field in E.
  destruct (erk_step (to_R_rows q_dopri5) b spike_field 0 h [u]) as [|v [|]]; try discriminate. cbn [nth] in E. now rewrite E.
Qed.

Lemma spike_ends : spike 0 = 0 /\ spike (0 + 1 / 1000000) = 0.
Proof. unfold spike, bump. split; field. Qed.

Lemma spike_init atol rtol order : 0 < atol ->
  snd (@init_step ROps spike_field (spike_field 0 [0]) [0] 0 order atol rtol) = Ok (1 / 1000000).
Proof.
  intros Ha. unfold init_step. cbv zeta. unfold vdiv. rewrite !hairer_rms. rops.
  unfold spike_field at 1 2. rewrite (proj1 spike_ends). cbn [map map2].
  assert (Z : rms [0 / (atol + Rabs 0 * rtol)] = 0).
  { replace (0 / (atol + Rabs 0 * rtol)) with 0; [apply rms_zero; intros a [<-|[]]; reflexivity|].
    rewrite Rabs_R0. field. lra. }
  rewrite !Z. qlit. rewrite (proj2 (Rltb_true 0 (1/100000))) by lra. cbn [orb].
  unfold call. rewrite mbind_Ok. cbn [fst snd mret app].
  unfold spike_field. rewrite (proj1 spike_ends), (proj2 spike_ends). cbn [map2 map].
  replace (@vsub ROps [0] [0]) with [0] by (unfold vsub; cbn [map2]; rops; f_equal; ring).
  rewrite hairer_rms. cbn [map2]. rops. rewrite !Z.
  rewrite (proj2 (Rleb_true 0 (1 / 1000000000000000))) by lra.
  rewrite (proj2 (Rleb_true (0 / (1 / 1000000)) (1 / 1000000000000000))) by lra. cbn [andb].
  f_equal. rewrite Rmax_left by lra. apply Rmin_right. lra.
Qed.

(** C142, refuted.  dopri5, every atol, rtol > 0 and every event tolerance of at least 10^-6: the exact solution X of
    x' = f(t), x(0) = 0 stays below 3/4, yet the event x >= 1 fires (and its jump is applied, at time 0, from state 0). *)
Lemma C142_spurious_event_refuted_pf :
  forall atol rtol etol fuel, 0 < atol -> 0 < rtol -> 1 / 1000000 <= etol -> (2 <= fuel)%nat ->
  exists (f : R -> R) (X : R -> R) (jump : R -> R) y,
    (forall t, derivable_pt_lim X t (f t)) /\ X 0 = 0 /\ (forall t, 0 <= t <= 1 / 1000000 -> 0 <= X t <= 3 / 4) /\
    snd (@odeint_hybrid ROps fuel (fun t _ => [f t]) [0] [0; 1 / 1000000] 10 (DormandPrince45 ROps)
          (mkcbs [(fun _ x => Rleb 1 (hd 0 x), fun _ x => [jump (hd 0 x)])]) atol rtol etol true None)
      = Ok ([0; 0; 0; 1 / 1000000], [[0]; [0]; [jump 0]; [y]]) /\ jump 0 < 0.
Proof.
  intros atol rtol etol fuel Ha Hr He Hfu.
  set (b5 := 125/192 * 206000 * bump (4/5)). set (b4 := 451/720 * 206000 * bump (4/5)).
  assert (B5 : 1 <= b5 <= 2) by (unfold b5, bump; lra).
  assert (B4 : b5 - b4 <= 1 /\ 0 <= b5 - b4) by (unfold b5, b4, bump; lra).
  set (J := - (4 + 1 / rtol)).
  assert (HJ : J < - 4). { unfold J. assert (0 < 1 / rtol) by (apply Rdiv_lt_0_compat; lra). lra. }
  exists spike, spike_int, (fun _ => J), (J + b5).
  split; [exact spike_derivative|]. split; [exact spike_int_0|]. split; [exact spike_int_range|].
  split; [|lra].
  set (cbs := [(fun (_ : R) (x : list R) => Rleb 1 (hd 0 x), fun (_ : R) (_ : list R) => [J])]).
  change (fun (t : R) (_ : vec ROps) => [spike t]) with spike_field.
  destruct fuel as [|[|fuel]]; try lia. clear Hfu.
  assert (HB : builtin_pair (DormandPrince45 ROps) (to_R_rows q_dopri5) (to_R qb5_dopri5) (to_R qb4_dopri5)) by (left; auto).
  assert (Hf : field_on 1 spike_field) by (intros ? ? _; reflexivity).
  assert (Hj : forall cb t x, In cb cbs -> length x = 1%nat -> length (snd cb t x) = 1%nat) by (intros cb t x [<-|[]] _; reflexivity).
  assert (Fl : forall u, erk_step (to_R_rows q_dopri5) (to_R qb5_dopri5) spike_field 0 (1/1000000) [u] = [u + b5]).
  { intros u. rewrite spike_step, (proj1 spike_quad). reflexivity. }
  assert (Fl4 : forall u, erk_step (to_R_rows q_dopri5) (to_R qb4_dopri5) spike_field 0 (1/1000000) [u] = [u + b4]).
  { intros u. rewrite spike_step, (proj2 spike_quad). reflexivity. }
  assert (Fi : forall t u, fires cbs t [u] <-> 1 <= u).
  { intros t u. split.
    - intros (cb & [<-|[]] & E). cbn in E. now apply Rleb_true.
    - intros H. exists (fun _ x => Rleb 1 (hd 0 x), fun _ _ => [J]). split; [now left|]. now apply Rleb_true. }
  refine (eq_trans (@hybrid_start_any ROps _ spike_field [0] [0; 1/1000000] 10 _ (mkcbs cbs) atol rtol etol true None 0 (1/1000000) (1/1000000) eq_refl eq_refl _ _) _).
  { cbn. change (@nltb ROps) with Rltb. rops. rewrite (proj2 (Rleb_false 1 0)) by lra. reflexivity. }
  { apply spike_init, Ha. }
  set (st0 := MkH _ _ _ _ _ _ _ _). set (p := MkHP _ _ _ _ _ _ _ _ _).
  set (st1 := @MkH ROps 0 (1/1000000) [J] None 0 None ([0] ++ [0; 0]) ([[0]] ++ [[0]; [J]])).
  assert (Att : forall st : @hstate ROps, h_t st = 0 -> h_dt st = 1/1000000 -> h_ck st = 0%nat -> h_old st = None ->
    @hybrid_attempt ROps p st = (1/1000000, None, 0%nat)).
  { intros st H1 H2 H3 H4. unfold hybrid_attempt, p. cbn [hp_T hp_t_eval skipn]. rewrite H1, H2, H3, H4. rops.
    rewrite (proj2 (Rltb_false (1/1000000) (0 + 1/1000000))) by lra. cbn [nth_error].
    rewrite (proj2 (Rltb_false (1/1000000) (0 + 1/1000000))) by lra. reflexivity. }
  assert (I1 : snd (@hybrid_iter ROps p st0) = Ok st1).
  { assert (HI : HInv 1 spike_field st0) by (split; [reflexivity|now right]).
    assert (Hfi : fires cbs (h_t st0 + 1/1000000) (erk_step (to_R_rows q_dopri5) (to_R qb5_dopri5) spike_field (h_t st0) (1/1000000) (h_x st0))).
    { change (h_t st0) with 0. change (h_x st0) with [0]. rewrite Fl, Fi. lra. }
    destruct (hybrid_iter_event _ _ _ _ HB 1 spike_field Hf cbs (1/1000000) [1/1000000] atol rtol etol None st0 _ _ _ HI
      (Att st0 eq_refl eq_refl eq_refl eq_refl) Hfi) as (t' & x' & k' & fl & Eb & Ei).
    change (h_t st0) with 0 in Eb. change (h_x st0) with [0] in Eb. rewrite Fl in Eb.
    pose proof (eq_trans (eq_sym Eb) (bisect_zero _ spike_field cbs etol _ _ _ _ _ _ He)) as E. 
    injection E as -> -> -> ->. refine (eq_trans Ei _).
    match goal with |- context [first_true ?l] => assert (Ef : first_true l = Ok 0%nat) end.
    { cbn. rewrite (proj2 (Rleb_true 1 (0 + b5))) by lra. reflexivity. }
    rewrite Ef. reflexivity. }
  assert (I2 : exists dt k, snd (@hybrid_iter ROps p st1) = Ok (@MkH ROps (0 + 1/1000000) dt [J + b5] k 0 None
      [0; 0; 0; 0 + 1/1000000] [[0]; [0]; [J]; [J + b5]])).
  { assert (HI : HInv 1 spike_field st1) by (split; [reflexivity|now left]).
    assert (Hfi : ~ fires cbs (h_t st1 + 1/1000000) (erk_step (to_R_rows q_dopri5) (to_R qb5_dopri5) spike_field (h_t st1) (1/1000000) (h_x st1))).
    { change (h_t st1) with 0. change (h_x st1) with [J]. rewrite Fl, Fi. lra. }
    pose proof (hybrid_iter_quiet _ _ _ _ HB 1 spike_field Hf cbs (1/1000000) [1/1000000] atol rtol etol None st1 _ _ _ HI
      (Att st1 eq_refl eq_refl eq_refl eq_refl) Hfi) as E. cbv zeta in E.
    assert (Hacc : hrat (to_R_rows q_dopri5) (to_R qb5_dopri5) (to_R qb4_dopri5) spike_field atol rtol None (h_t st1) (1/1000000) (h_x st1) <= 1).
    { apply (fun H => proj2 (hrat_acc (to_R_rows q_dopri5) (to_R qb5_dopri5) (to_R qb4_dopri5) spike_field 0 atol rtol None _ _ _) H). unfold hacc. cbv zeta. change (h_t st1) with 0. change (h_x st1) with [J]. rewrite Fl, Fl4.
      unfold scaled_error, minus_list. cbn [combine map fst snd].
      apply Rle_trans with (Rabs ((J + b5 - (J + b4)) / (atol + rtol * Rmax (Rabs J) (Rabs (J + b5))))).
      { apply rms_le_max; [apply Rabs_pos|]. intros a [<-|[]]. apply Rle_refl. }
      pose proof (Rmax_l (Rabs J) (Rabs (J + b5))) as Hm.
      assert (Hm2 : 1 / rtol <= Rmax (Rabs J) (Rabs (J + b5))).
      { apply Rle_trans with (2 := Hm). rewrite Rabs_left by lra. unfold J. lra. }
      assert (Hm3 : 1 <= rtol * Rmax (Rabs J) (Rabs (J + b5))).
      { apply Rle_trans with (rtol * (1 / rtol)); [right; field; lra|]. apply Rmult_le_compat_l; lra. }
      rewrite Rabs_pos_eq.
      - apply Rmult_le_reg_r with (atol + rtol * Rmax (Rabs J) (Rabs (J + b5))); [lra|].
        unfold Rdiv. rewrite Rmult_assoc, Rinv_l by lra. lra.
      - apply Rmult_le_pos; [lra|]. apply Rlt_le, Rinv_0_lt_compat. lra. }
    rewrite (proj2 (Rleb_true _ _) Hacc) in E. change (h_t st1) with 0 in E. change (h_x st1) with [J] in E. rewrite Fl in E.
    eexists. eexists. exact E. }
  destruct I2 as (dt & k & I2).
  cbn [hybrid_loop]. change (@nltb ROps) with Rltb. cbn [Nat.ltb Nat.leb]. rewrite andb_true_r.
  change (hp_T p) with (1/1000000). change (h_t st0) with 0. rewrite (proj2 (Rltb_true 0 (1/1000000))) by lra.
  refine (eq_trans (snd_bind_ok _ _ _ I1) _). rewrite andb_true_r.
  change (h_t st1) with 0. rewrite (proj2 (Rltb_true 0 (1/1000000))) by lra.
  refine (eq_trans (snd_bind_ok _ _ _ I2) _).
  destruct fuel; cbn [hybrid_loop h_t h_times h_sol]; change (@nltb ROps) with Rltb; change (hp_T p) with (1/1000000);
    rewrite (proj2 (Rltb_false (0 + 1/1000000) (1/1000000))) by lra; cbn [andb mret snd]; rewrite Rplus_0_l; reflexivity.
Qed.

(** C142 (what holds).  If no solver step from a state of the region D (which contains the start) fires a callback, and
    the steps stay in D, then there are no jumps: the output consists of accepted solver steps. *)
Lemma C142_no_event_partial_pf :
  forall fuel s rows b bh n f x t0 t1 ts j_span cbs atol rtol etol jump_first semi times sol (D : R -> list R -> Prop),
  builtin_pair s rows b bh -> field_on n f -> List.length x = n -> 0 <= etol ->
  (forall cb t y, In cb cbs -> List.length y = n -> List.length (snd cb t y) = n) ->
  let flow := erk_step rows b f in
  let accepted t h y := scaled_error atol rtol semi y (flow t h y)
                          (minus_list (flow t h y) (erk_step rows bh f t h y)) <= 1 in
  D t0 x -> ~ fires cbs t0 x ->
  (forall t h y, D t y -> D (t + h) (flow t h y) /\ ~ fires cbs (t + h) (flow t h y)) ->
  snd (@odeint_hybrid ROps fuel f x (t0 :: t1 :: ts) j_span s (mkcbs cbs) atol rtol etol jump_first semi)
    = Ok (times, sol) ->
  exists out, times = t0 :: map fst out /\ sol = x :: map snd out /\
    hrun flow accepted [] (fun _ _ _ _ _ _ => True) t0 x out.
Proof.
  intros fuel s rows b bh n f x t0 t1 ts js cbs atol rtol etol jf semi times sol D HB Hf Hx He Hj flow accepted HD Hq Hs Hr.
  destruct (C34_event_outputs_pf fuel s rows b bh n f x t0 t1 ts js cbs atol rtol etol jf semi times sol HB Hf Hx He Hj Hr)
    as (x0 & jn & out & Hst & -> & -> & Hrun).
  assert (x0 = x).
  { destruct Hst as [(cb & _ & (bf & af & E & Hc & _) & _)|(_ & E & _)]; [|exact E]. exfalso. apply Hq. exists cb. split; [|exact Hc].
    rewrite E. apply in_or_app. right. now left. }
  subst x0. exists out. split; [reflexivity|]. split; [reflexivity|].
  clear Hq Hr Hst. fold flow in Hrun. change (hrun flow accepted cbs (fun _ _ _ _ _ _ => True) t0 x out) in Hrun.
  induction Hrun as [t y|t h y out Hn Ha Hrun IH|t h y t' x' d cb out Hfi _ _ _ _].
  - constructor.
  - constructor; [intros (cb & [] & _)|exact Ha|]. apply IH; [apply erk_step_len; auto|]. apply Hs, HD.
  - exfalso. now apply (Hs t h y HD).
Qed.

(** A constant solution below the threshold meets the hypotheses of C142_no_event_partial (those of C141_endpoints are met
    by C37_ex). *)
Lemma C142_ex_pf :
  let f := fun (t : R) (x : list R) => [0] in
  let cbs := [(fun (t : R) (x : list R) => Rleb 1 (hd 0 x), fun (t : R) (x : list R) => [hd 0 x - 1])] in
  let D := fun (t : R) (x : list R) => x = [1/2] in
  let flow := erk_step (to_R_rows q_dopri5) (to_R qb5_dopri5) f in
  field_on 1 f /\ D 0 [1/2] /\ ~ fires cbs 0 [1/2] /\
  (forall t h y, D t y -> D (t + h) (flow t h y) /\ ~ fires cbs (t + h) (flow t h y)).
Proof.
  cbv zeta. split; [intros ? ? _; reflexivity|]. split; [reflexivity|].
  assert (N : forall t, ~ fires [(fun (t : R) (x : list R) => Rleb 1 (hd 0 x), fun (t : R) (x : list R) => [hd 0 x - 1])] t [1/2]).
  { intros t (cb & [<-|[]] & E). cbn in E. apply Rleb_true in E. lra. }
  split; [apply N|]. intros t h y ->.
  assert (E : erk_step (to_R_rows q_dopri5) (to_R qb5_dopri5) (fun _ _ => [0]) t h [1/2] = [1/2]).
  { pose proof (step_scalar (to_R_rows q_dopri5) (to_R qb5_dopri5) (fun _ => 0) t h (1/2)) as E.
    unfold scalar_field in E. rewrite E. f_equal.
    unfold to_R_rows, to_R. cbn [map q_dopri5 qb5_dopri5 fst snd dotp]. unfold Q2R; simpl. field. }
  rewrite E. split; [reflexivity|apply N].
Qed.
