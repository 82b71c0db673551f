(** Proofs of C111: adaptive solves never report NaN. *)
From Coq Require Import ZArith QArith Reals Lra Lia List Bool Floats.
From Flocq Require Import Core BinarySingleNaN.
From Flocq Require Import IEEE754.PrimFloat.
From Verif Require Import Num Py Tensor M_Constants M_SolversOde M_Utils M_Odeint L_Base L_Float.
Import ListNotations.
Local Notation float := PrimFloat.float.
Local Open Scope nat_scope.

Section Pw.
Variable pw : float -> float -> float.
Notation KF := (FloatOps pw).

Lemma sum_nan : forall (l : list float) a, isnan a \/ (exists y, In y l /\ isnan y) ->
  isnan (fold_left PrimFloat.add l a).
Proof.
  induction l as [|b l IH]; intros a [H|(y & Hy & Ny)]; simpl; try assumption; try contradiction.
  - apply IH. left. now apply nan_add_l.
  - apply IH. destruct Hy as [->|Hy]; [left; now apply nan_add_r|right; now exists y].
Qed.

Lemma norm_nan : forall l : list float, (exists y, In y l /\ isnan y) -> isnan (@hairer_norm KF l).
Proof.
  intros l (y & Hy & Ny). unfold hairer_norm. apply nan_sqrt. unfold vmean. apply nan_div_l. unfold vsum.
  apply sum_nan. right. exists (PrimFloat.mul (PrimFloat.abs y) (PrimFloat.abs y)). split.
  - apply in_map_iff. exists y. split; [reflexivity|assumption].
  - apply nan_mul_l. now apply nan_abs.
Qed.

Lemma nan_div_r : forall x y, isnan y -> isnan (PrimFloat.div x y).
Proof. intros x y. unfold isnan. rewrite div_equiv. destruct (Prim2B y); try discriminate. now destruct (Prim2B x). Qed.

Lemma max_nan_l : forall a b, isnan a -> isnan (@nmax KF a b).
Proof. intros a b H. simpl. rewrite (proj1 (nan_test a) H). assumption. Qed.
Lemma max_nan_r : forall a b, isnan b -> isnan (@nmax KF a b).
Proof.
  intros a b H. simpl. destruct (is_nan_f a) eqn:E; [now apply nan_test|].
  rewrite (proj1 (nan_test b) H). assumption.
Qed.

(** a NaN in the state before or after the step makes the error ratio NaN *)
Lemma ratio_nan : forall atol rtol (x xn err : list float), length x = length err -> length xn = length err ->
  ((exists y, In y x /\ isnan y) \/ (exists y, In y xn /\ isnan y)) ->
  nleb (@error_ratio KF atol rtol None x xn err) n1 = false.
Proof.
  intros atol rtol x xn err L1 L2 H. apply nan_leb. unfold error_ratio. apply norm_nan.
  revert xn err L1 L2 H. induction x as [|a x IH]; intros [|b xn] [|c err] L1 L2 H; simpl in *; try discriminate.
  - destruct H as [(y & [] & _)|(y & [] & _)].
  - assert (Q : isnan a \/ isnan b \/ (exists y, In y x /\ isnan y) \/ (exists y, In y xn /\ isnan y)).
    { destruct H as [(y & [->|Hy] & N)|(y & [->|Hy] & N)]; eauto 6. }
    assert (A : isnan a \/ isnan b -> isnan (PrimFloat.div c (PrimFloat.add atol (PrimFloat.mul rtol
      (@nmax KF (PrimFloat.abs a) (PrimFloat.abs b)))))).
    { intros [N|N]; apply nan_div_r, nan_add_r, nan_mul_r; [apply max_nan_l|apply max_nan_r]; now apply nan_abs. }
    destruct Q as [N|[N|Q]].
    + eexists. split; [left; reflexivity|]. apply A. now left.
    + eexists. split; [left; reflexivity|]. apply A. now right.
    + destruct (IH xn err) as (y & Hy & N); [lia|lia|assumption|]. exists y. split; [now right|assumption].
Qed.

(** ** Sizes *)
Lemma len_vadd : forall n (a b : vec KF), length a = n -> length b = n -> length (vadd a b) = n.
Proof.
  intros n a b <-. revert b. unfold vadd. induction a as [|u a IH]; intros [|v b] H; simpl in *; try discriminate; auto.
Qed.
Lemma len_vscale : forall n c (a : vec KF), length a = n -> length (vscale c a) = n.
Proof. intros n c a H. unfold vscale. now rewrite map_length. Qed.

Lemma erk7_len : forall tab n f x t (dt : KF) k1 f_new x_new x_err st,
  (forall t x, length x = n -> length (f t x) = n) -> length x = n -> length k1 = n ->
  snd (@erk7_step KF tab f x t dt (Some k1)) = Ok (Ret4 f_new x_new x_err st) ->
  length f_new = n /\ length x_new = n /\ length x_err = n.
Proof.
  intros tab n f x t dt k1 f_new x_new x_err st Hf Hx Hk E. unfold erk7_step in E. cbv zeta in E.
  apply mbind_inv_ok in E as (k1' & E1 & E). injection E1 as <-.
  apply mbind_inv_ok in E as (k2 & E2 & E). apply mbind_inv_ok in E as (k3 & E3 & E).
  apply mbind_inv_ok in E as (k4 & E4 & E). apply mbind_inv_ok in E as (k5 & E5 & E).
  apply mbind_inv_ok in E as (k6 & E6 & E). apply mbind_inv_ok in E as (k7 & E7 & E).
  unfold call in *. cbv [snd] in E2, E3, E4, E5, E6, E7.
  assert (L2 : length k2 = n).
  { injection E2 as <-. apply Hf. repeat (apply len_vadd || apply len_vscale || assumption). }
  clear E2. assert (L3 : length k3 = n).
  { injection E3 as <-. apply Hf. repeat (apply len_vadd || apply len_vscale || assumption). }
  clear E3. assert (L4 : length k4 = n).
  { injection E4 as <-. apply Hf. repeat (apply len_vadd || apply len_vscale || assumption). }
  clear E4. assert (L5 : length k5 = n).
  { injection E5 as <-. apply Hf. repeat (apply len_vadd || apply len_vscale || assumption). }
  clear E5. assert (L6 : length k6 = n).
  { injection E6 as <-. apply Hf. repeat (apply len_vadd || apply len_vscale || assumption). }
  clear E6. assert (L7 : length k7 = n).
  { injection E7 as <-. apply Hf. repeat (apply len_vadd || apply len_vscale || assumption). }
  clear E7. cbv [mret snd] in E. injection E as <- <- <- <-.
  repeat split; repeat (apply len_vadd || apply len_vscale || assumption).
Qed.

Definition step_len (s : solver KF (vec KF)) : Prop := forall n f x t (dt : KF) k1 f_new x_new x_err st,
  (forall t x, length x = n -> length (f t x) = n) -> length x = n -> length k1 = n ->
  snd (s_step s f x t dt (Some k1)) = Ok (Ret4 f_new x_new x_err st) ->
  length f_new = n /\ length x_new = n /\ length x_err = n.

Definition no_nan (v : list float) : Prop := forall y, In y v -> PrimFloat.is_nan y = false.

Lemma nan_is_nan : forall y, PrimFloat.is_nan y = true <-> isnan y.
Proof. intros y. rewrite is_nan_equiv. unfold isnan. tauto. Qed.

(** ** The loop *)
Record clean (n : nat) (st : @astate KF) : Prop := Clean {
  cl_x : length (a_x st) = n; cl_k : length (a_k1 st) = n;
  cl_sol : a_sol st <> [] /\ Forall no_nan (tl (a_sol st)) }.

Lemma iter_clean : forall n (p : @aparams KF) (st st' : @astate KF),
  step_len (p_solver p) -> p_interp p = None -> p_semi p = None ->
  (forall t x, length x = n -> length (p_f p t x) = n) -> clean n st ->
  snd (adaptive_iter p st) = Ok st' -> clean n st'.
Proof.
  intros n p st st' SL HI HS Hf [Lx Lk [N0 C]] E. unfold adaptive_iter in E.
  destruct (attempt_dt p st) as [dt old]. cbv zeta in E.
  apply mbind_inv_ok in E as (r & Er & E). destruct r as [|f_new x_new x_err stages]; [discriminate|].
  destruct (SL n _ _ _ _ _ _ _ _ _ Hf Lx Lk Er) as (L1 & L2 & L3).
  set (ratio := error_ratio _ _ _ _ _ _) in E.
  apply mbind_inv_ok in E as ([[ck times] sol] & Eo & E). cbv [mret snd] in E.
  match type of E with Ok ?v = Ok _ => cut (clean n v); [intros Q; injection E as <-; exact Q | clear E] end.
  destruct (nleb ratio n1) eqn:EL.
  2:{ cbv [mret snd] in Eo. injection Eo as <- <- <-. split; [assumption|assumption|split; assumption]. }
  assert (NN : no_nan x_new).
  { intros y Hy. destruct (PrimFloat.is_nan y) eqn:Ny; [|reflexivity]. exfalso. apply nan_is_nan in Ny.
    unfold ratio in EL. rewrite HS in EL.
    rewrite ratio_nan in EL; [discriminate|exact (eq_trans Lx (eq_sym L3))|exact (eq_trans L2 (eq_sym L3))|]. right. now exists y. }
  unfold mlift in Eo. cbv [snd] in Eo. unfold accept_out in Eo. rewrite HI in Eo. cbv [rbind] in Eo.
  destruct (pyget (p_t_eval p) (a_ck st)) as [tc| |]; try discriminate.
  assert (C' : a_sol st ++ [x_new] <> [] /\ Forall no_nan (tl (a_sol st ++ [x_new]))).
  { destruct (a_sol st) as [|v l]; [now elim N0|]. split; [discriminate|]. simpl in *.
    apply Forall_app. split; [assumption|]. constructor; [assumption|constructor]. }
  destruct (_ || _)%bool; injection Eo as <- <- <-; split; try assumption; split; assumption.
Qed.

Lemma loop_clean : forall n (p : @aparams KF),
  step_len (p_solver p) -> p_interp p = None -> p_semi p = None ->
  (forall t x, length x = n -> length (p_f p t x) = n) ->
  forall fuel st times sol, clean n st -> snd (adaptive_loop fuel p st) = Ok (times, sol) -> Forall no_nan (tl sol).
Proof.
  intros n p SL HI HS Hf. induction fuel as [|fuel IH]; intros st times sol C E; simpl in E;
    destruct (PrimFloat.ltb (a_t st) (p_T p)) eqn:L; try discriminate.
  - cbv [mret snd] in E. injection E as <- <-. apply C.
  - apply mbind_inv_ok in E as (st' & E1 & E2). exact (IH _ _ _ (iter_clean n p st st' SL HI HS Hf C E1) E2).
  - cbv [mret snd] in E. injection E as <- <-. apply C.
Qed.

(** a NaN in the state is never left *)
Lemma iter_stuck : forall n (p : @aparams KF) (st st' : @astate KF),
  step_len (p_solver p) -> p_semi p = None -> (forall t x, length x = n -> length (p_f p t x) = n) ->
  length (a_x st) = n -> length (a_k1 st) = n -> (exists y : float, In y (a_x st) /\ isnan y) ->
  snd (adaptive_iter p st) = Ok st' -> a_x st' = a_x st /\ a_k1 st' = a_k1 st /\ a_t st' = a_t st.
Proof.
  intros n p st st' SL HS Hf Lx Lk HN E. unfold adaptive_iter in E.
  destruct (attempt_dt p st) as [dt old]. cbv zeta in E.
  apply mbind_inv_ok in E as (r & Er & E). destruct r as [|f_new x_new x_err stages]; [discriminate|].
  destruct (SL n _ _ _ _ _ _ _ _ _ Hf Lx Lk Er) as (L1 & L2 & L3).
  rewrite HS in E.
  assert (R : nleb (@error_ratio KF (p_atol p) (p_rtol p) None (a_x st) x_new x_err) n1 = false).
  { apply ratio_nan; [exact (eq_trans Lx (eq_sym L3))|exact (eq_trans L2 (eq_sym L3))|now left]. }
  rewrite R in E. apply mbind_inv_ok in E as ([[ck times] sol] & _ & E). cbv [mret snd] in E.
  injection E as <-. repeat split.
Qed.

Lemma loop_stuck : forall n (p : @aparams KF),
  step_len (p_solver p) -> p_semi p = None -> (forall t x, length x = n -> length (p_f p t x) = n) ->
  forall fuel (st : @astate KF), length (a_x st) = n -> length (a_k1 st) = n ->
  (exists y : float, In y (a_x st) /\ isnan y) -> PrimFloat.ltb (a_t st) (p_T p) = true ->
  forall r, snd (adaptive_loop fuel p st) <> Ok r.
Proof.
  intros n p SL HS Hf. induction fuel as [|fuel IH]; intros st Lx Lk HN HT r E; simpl in E; rewrite HT in E; [discriminate|].
  apply mbind_inv_ok in E as (st' & E1 & E2).
  destruct (iter_stuck n p st st' SL HS Hf Lx Lk HN E1) as (A & B & C).
  apply (IH st') in E2; [assumption| | | |]; rewrite ?A, ?B, ?C; assumption.
Qed.

Definition nan_solver (s : solver KF (vec KF)) : Prop := step_len s /\ s_fixed s = false.
Lemma dopri5_nan : nan_solver (DormandPrince45 KF).
Proof. split; [|reflexivity]. intros n f x t dt k1 a b c d. apply erk7_len. Qed.
Lemma tsit5_nan : nan_solver (Tsitouras45 KF).
Proof. split; [|reflexivity]. intros n f x t dt k1 a b c d. apply erk7_len. Qed.
End Pw.

(** C111.  In binary64, for every field that keeps the size of the state, every grid (increasing or decreasing),
    all tolerances and whatever the power function: the states that a solve by dopri5 or tsit5 (no interpolation)
    returns after the initial one do not contain NaN. *)
Lemma C111_no_nan_pf :
  forall (pw : float -> float -> float) fuel n f x ts s atol rtol all save_at times (sol : list (list float)),
  s = DormandPrince45 (FloatOps pw) \/ s = Tsitouras45 (FloatOps pw) ->
  (forall t x, length x = n -> length (f t x) = n) -> length x = n ->
  snd (@odeint (FloatOps pw) fuel f x ts s atol rtol false all save_at None) = Ok (times, sol) ->
  forall v y, In v (tl sol) -> In y v -> PrimFloat.is_nan y = false.
Proof.
  intros pw fuel n f x ts s atol rtol all save_at times sol HS Hf Hx E.
  assert (OS : nan_solver pw s) by (destruct HS; subst s; [apply dopri5_nan|apply tsit5_nan]).
  destruct OS as [SL SF].
  unfold odeint in E. apply mbind_inv_ok in E as ([g ts'] & Ep & E). rewrite SF in E.
  apply mbind_inv_ok in E as (t & _ & E). apply mbind_inv_ok in E as (k1 & Ek & E).
  apply mbind_inv_ok in E as (dt & _ & E).
  assert (Hg : forall t x, length x = n -> length (g t x) = n).
  { unfold mlift in Ep. cbv [snd] in Ep. unfold prep_time in Ep.
    apply rbind_inv_ok in Ep as (t1 & _ & Ep). apply rbind_inv_ok in Ep as (t0 & _ & Ep).
    destruct (nltb t1 t0).
    - destruct ts; [|discriminate]. injection Ep as <- <-. intros t' x' L. unfold neg_field, vopp. rewrite map_length. now apply Hf.
    - injection Ep as <- <-. exact Hf. }
  unfold call in Ek. cbv [snd] in Ek. injection Ek as <-.
  unfold adaptive_odeint in E. apply mbind_inv_ok in E as (t0 & _ & E). apply mbind_inv_ok in E as (T & _ & E).
  cbv zeta in E.
  assert (F : Forall no_nan (tl sol)).
  { eapply (loop_clean pw n); [| | | | |exact E].
    - exact SL.
    - simpl. destruct (s_is_tsit5 s); reflexivity.
    - reflexivity.
    - exact Hg.
    - split; simpl; [assumption|now apply Hg|split; [discriminate|constructor]]. }
  intros v y Hv. rewrite Forall_forall in F. exact (F v Hv y).
Qed.

(** C111.  An initial state with a NaN in it is never left: the solve does not return (however many iterations are
    allowed) unless the grid is empty of time. *)
Lemma C111_nan_state_pf :
  forall (pw : float -> float -> float) fuel n f (x ts : list float) s atol rtol all save_at y T r,
  s = DormandPrince45 (FloatOps pw) \/ s = Tsitouras45 (FloatOps pw) ->
  (forall t x, length x = n -> length (f t x) = n) -> length x = n ->
  In y x -> PrimFloat.is_nan y = true ->
  pylast ts = Ok T -> PrimFloat.ltb (nth 0 ts 0%float) T = true ->
  PrimFloat.ltb (nth 1 ts 0%float) (nth 0 ts 0%float) = false ->
  snd (@odeint (FloatOps pw) fuel f x (@TTensor (FloatOps pw) ts) s atol rtol false all save_at None) <> Ok r.
Proof.
  intros pw fuel n f x ts s atol rtol all save_at y T r HS Hf Hx Hy Ny HT L0 L1 E.
  assert (OS : nan_solver pw s) by (destruct HS; subst s; [apply dopri5_nan|apply tsit5_nan]).
  destruct OS as [SL SF].
  unfold odeint in E. apply mbind_inv_ok in E as ([g ts'] & Ep & E). rewrite SF in E.
  apply mbind_inv_ok in E as (t & _ & E). apply mbind_inv_ok in E as (k1 & Ek & E).
  apply mbind_inv_ok in E as (dt & _ & E).
  destruct ts as [|a [|b l]]; try discriminate Ep.
  unfold mlift in Ep. cbv [snd] in Ep. unfold prep_time in Ep. cbn [ts_list pyget nth_error rbind] in Ep.
  change (@nltb (FloatOps pw) b a) with (PrimFloat.ltb b a) in Ep. simpl in L1. rewrite L1 in Ep. injection Ep as <- <-.
  unfold call in Ek. cbv [snd] in Ek. injection Ek as <-.
  unfold adaptive_odeint in E. apply mbind_inv_ok in E as (t0 & Et & E). apply mbind_inv_ok in E as (T' & ET & E).
  injection Et as <-.
  assert (TT : T' = T) by (pose proof (eq_trans (eq_sym ET) HT) as Q; now injection Q).
  subst T'. cbv zeta in E. revert E.
  eapply (loop_stuck pw n); simpl; try assumption; try reflexivity.
  - now apply Hf.
  - exists y. split; [assumption|now apply nan_is_nan].
Qed.

(** Infinity is not excluded: the constant field 1e308 from the state 1e308 overflows, the scale of the error
    becomes infinite, the error ratio 0, and the solve returns the infinite state (shown with a power function that is
    constantly one, which leaves the initial step at most one). *)
Lemma C111_overflow_accepted_pf :
  let pw := fun _ _ : float => 1%float in
  exists fuel times sol,
    snd (@odeint (FloatOps pw) fuel (fun _ _ => [1e308%float]) [1e308%float] (@TTensor (FloatOps pw) [0; 10]%float)
      (DormandPrince45 (FloatOps pw)) 0.001%float 0.001%float false false [] None) = Ok (times, sol) /\
    last sol [] = [infinity].
Proof.
  intros pw. exists 40. do 2 eexists. split; vm_compute; reflexivity.
Qed.

(** A case of [C111_no_nan]: x' = sqrt(2 - x) from 1 over [0, 1] would leave the domain of the square root (and give
    NaN) if a step overshot x = 2; the returned states are numbers. *)
Lemma C111_no_nan_ex_pf :
  let pw := fun _ _ : float => 1%float in
  exists times sol,
    snd (@odeint (FloatOps pw) 200 (fun _ x => map (fun a => PrimFloat.sqrt (PrimFloat.sub 2%float a)) x) [1%float]
      (@TTensor (FloatOps pw) [0; 1]%float) (DormandPrince45 (FloatOps pw)) 0.001%float 0.001%float false false [] None)
    = Ok (times, sol) /\ length sol = 2.
Proof. do 2 eexists. split; vm_compute; reflexivity. Qed.
