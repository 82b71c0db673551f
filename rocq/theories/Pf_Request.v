(** Requested times and the steps of adaptive solves with interpolation. *)
From Coq Require Import ZArith QArith Qreals Reals Lra Lia String List Bool Sorted.
From Verif Require Import Num Py Tensor M_Constants M_SolversOde M_Utils M_Interp M_Odeint.
From Verif Require Import Spec_Ode Spec_Trees Spec_RK Spec_Norm Spec_Adaptive.
From Verif Require Import L_Base L_Fixed L_Vec L_Steps L_Tables L_Steps2 L_Interp L_Utils L_Fixed2 L_Adaptive L_Run.
From Verif Require Import L_Adaptive2 L_Term L_Growth L_Adaptive3 L_Adaptive4 Pf_Adaptive.
Import ListNotations.
Local Notation length := List.length.
Local Open Scope R_scope.

(** two outputs of a solve have the same state wherever they have the same time *)
Definition agree (times : list R) (sol : list rvec) (times' : list R) (sol' : list rvec) : Prop :=
  forall i j c y y', nth_error times i = Some c -> nth_error times' j = Some c ->
  nth_error sol i = Some y -> nth_error sol' j = Some y' -> y = y'.

Definition agree_in (P P' : list (R * rvec)) : Prop := forall c y y', In (c, y) P -> In (c, y') P' -> y = y'.

Lemma nth_combine {A B} (l : list A) (m : list B) : forall i a b, nth_error l i = Some a -> nth_error m i = Some b -> In (a, b) (combine l m).
Proof.
  revert m. induction l as [|a0 l IH]; intros [|b0 m] [|i] a b Ha Hb; try discriminate; cbn in *.
  - left. congruence.
  - right. now apply (IH m i).
Qed.

Lemma agree_of times sol times' sol' : agree_in (combine times sol) (combine times' sol') -> agree times sol times' sol'.
Proof. intros H i j c y y' A B C D. apply (H c); eapply nth_combine; eauto. Qed.

Lemma combine_app {A B} (l l' : list A) (m m' : list B) : length l = length m -> combine (l ++ l') (m ++ m') = combine l m ++ combine l' m'.
Proof. revert m. induction l as [|a l IH]; intros [|b m] H; try discriminate; cbn; [reflexivity|]. now rewrite IH by (cbn in H; lia). Qed.

(** entries written during a step from t to u, all given by one function E of time *)
Definition written (t u : R) (E : R -> rvec) (P : list (R * rvec)) : Prop := forall c y, In (c, y) P -> t < c <= u /\ y = E c.
Definition upto (t : R) (P : list (R * rvec)) : Prop := forall c y, In (c, y) P -> c <= t.

Lemma agree_step t u E P P' Q Q' : agree_in P P' -> upto t P -> upto t P' -> written t u E Q -> written t u E Q' -> t <= u ->
  agree_in (P ++ Q) (P' ++ Q') /\ upto u (P ++ Q) /\ upto u (P' ++ Q').
Proof.
  intros HA HP HP' HQ HQ' Htu. split; [|split].
  - intros c y y' H H'. apply in_app_or in H, H'. destruct H as [H|H], H' as [H'|H'].
    + now apply (HA c).
    + specialize (HP _ _ H). destruct (HQ' _ _ H') as [? _]. lra.
    + specialize (HP' _ _ H'). destruct (HQ _ _ H) as [? _]. lra.
    + destruct (HQ _ _ H) as [_ ->]. destruct (HQ' _ _ H') as [_ ->]. reflexivity.
  - intros c y H. apply in_app_or in H. destruct H as [H|H]; [specialize (HP _ _ H) | destruct (HQ _ _ H)]; lra.
  - intros c y H. apply in_app_or in H. destruct H as [H|H]; [specialize (HP' _ _ H) | destruct (HQ' _ _ H)]; lra.
Qed.

Section Two.
Variables (f : R -> rvec -> rvec) (s : solver ROps (vec ROps)) (T : R) (te te' : list R).
Variables (atol rtol : R) (bm : list R) (all all' : bool) (semi : option nat).
Variable n : nat.
Variables (xn err : R -> R -> rvec -> rvec) (stg : R -> R -> rvec -> list rvec).
Variable dn : R -> R -> rvec -> R -> rvec.
Hypothesis Hstep : forall x t h, length x = n -> 
  snd (s_step s f x t h (Some (f t x))) =
  Ok (Ret4 (f (t + h) (xn t h x)) (xn t h x) (err t h x) (stg t h x)).
Hypothesis Hxn : forall x t h, length x = n -> length (xn t h x) = n.
Hypothesis Hdn : forall b x t h c, Some bm = Some b -> length x = n -> h <> 0 ->
  exists sm, @bmid_sum ROps b (stg t h x) = Ok sm /\
  @interp_evaluate ROps (@fourth_fit ROps h (f t x) (f (t + h) (xn t h x)) x (xn t h x)
      (@vadd ROps x (@vscale ROps h sm))) t (t + h) c = Ok (dn t h x c).
Hypothesis Hmn : 0 < s_min_factor s <= 1.
Hypothesis Hmx : 1 <= s_max_factor s.

Let p := @MkP ROps f s T te atol rtol (Some bm) all semi.
Let p' := @MkP ROps f s T te' atol rtol (Some bm) all' semi.
Notation astateR := (astate ROps).

(** the two loops are at the same point *)
Definition together (st st' : astateR) : Prop :=
  a_t st = a_t st' /\ a_dt st = a_dt st' /\ a_x st = a_x st' /\
  length (a_times st) = length (a_sol st) /\ length (a_times st') = length (a_sol st') /\
  agree_in (combine (a_times st) (a_sol st)) (combine (a_times st') (a_sol st')) /\
  upto (a_t st) (combine (a_times st) (a_sol st)) /\ upto (a_t st) (combine (a_times st') (a_sol st')).

Lemma attempt_clamped (q : aparams ROps) (st : astateR) : p_interp q = Some (bm : list (num ROps)) ->
  @attempt_dt ROps q st = ((if Rltb (p_T q) (a_t st + a_dt st) then p_T q - a_t st else a_dt st), None).
Proof.
  intros E. unfold attempt_dt. rewrite E. rops.
  set (d := if Rltb (p_T q) (a_t st + a_dt st) then p_T q - a_t st else a_dt st).
  match goal with |- match ?o with Some _ => _ | None => _ end = _ => destruct o as [tc|]; [|reflexivity] end.
  match goal with |- (if ?o then _ else _) = _ => destruct o; reflexivity end.
Qed.

Lemma iter_calls (q : aparams ROps) (st : astateR) : fst (@adaptive_iter ROps q st) =
  fst (s_step (p_solver q) (p_f q) (a_x st) (a_t st) (fst (@attempt_dt ROps q st)) (Some (a_k1 st))).
Proof.
  unfold adaptive_iter. destruct (attempt_dt q st) as [h old]. cbn [fst].
  match goal with |- fst (mbind ?m ?k) = _ => destruct m as [lg [r|e|]] end; cbn [mbind fst snd]; try reflexivity.
  destruct r as [f3 x3 e3|f4 x4 e4 g4]; [cbn [mraise fst]; now rewrite app_nil_r|].
  match goal with |- context [(?a <=? ?b)%N] => destruct (a <=? b)%N end; cbn [mlift mret mbind snd fst].
  - destruct (accept_out q st h f4 x4 g4) as [[[ck tm] sl]|e|]; cbn [mlift mret mbind snd fst app]; now rewrite app_nil_r.
  - now rewrite app_nil_r.
Qed.

Lemma entries_written t h x (crossed : list R) (last_one : bool) x' :
  0 < h -> (forall c, In c crossed -> t < c < t + h) ->
  written t (t + h) (fun c => if Req_EM_T c (t + h) then x' else dn t h x c)
    (combine (crossed ++ (if last_one then [t + h] else [])) (map (dn t h x) crossed ++ (if last_one then [x'] else []))).
Proof.
  intros Hh Hc c y Hin. rewrite combine_app in Hin by now rewrite map_length.
  apply in_app_or in Hin. destruct Hin as [Hin|Hin].
  - assert (A : In c crossed /\ y = dn t h x c).
    { clear Hc. induction crossed as [|a l IH]; [contradiction|]. cbn in Hin. destruct Hin as [[= <- <-]|Hin]; [split; [now left|reflexivity]|].
      destruct (IH Hin). split; [now right | assumption]. }
    destruct A as [A ->]. specialize (Hc c A). split; [lra|]. destruct (Req_EM_T c (t + h)); [lra | reflexivity].
  - destruct last_one; [|contradiction]. destruct Hin as [[= <- <-]|[]]. split; [lra|]. destruct (Req_EM_T (t + h) (t + h)); congruence.
Qed.

Lemma iter_together st st' rest rest' : Inv f T te n st rest -> Inv f T te' n st' rest' -> together st st' -> a_t st < T ->
  fst (@adaptive_iter ROps p st) = fst (@adaptive_iter ROps p' st') /\
  exists st1 st1' rest1 rest1', snd (@adaptive_iter ROps p st) = Ok st1 /\ snd (@adaptive_iter ROps p' st') = Ok st1' /\
  Inv f T te n st1 rest1 /\ Inv f T te' n st1' rest1' /\ together st1 st1'.
Proof.
  intros HI HI' (Et & Ed & Ex & L & L' & HA & HU & HU') Ht.
  assert (Ea : attempt_dt p st = attempt_dt p' st').
  { rewrite !attempt_clamped by reflexivity. change (p_T p) with T. change (p_T p') with T. rewrite Et, Ed. reflexivity. }
  assert (Ek : a_k1 st = a_k1 st').
  { destruct HI as (_ & E & _). destruct HI' as (_ & E' & _). rewrite E, E', Et, Ex. reflexivity. }
  split.
  { rewrite !iter_calls, Ea, Ek, Et, Ex. reflexivity. }
  assert (Ht' : a_t st' < T) by (rewrite <- Et; exact Ht).
  destruct (iter_spec f s T te atol rtol (Some bm) all semi n xn err stg dn Hstep Hxn Hdn Hmn Hmx st rest HI Ht)
    as (h & old & st1 & A1 & A2 & A3 & A4 & A5 & A6).
  destruct (iter_spec f s T te' atol rtol (Some bm) all' semi n xn err stg dn Hstep Hxn Hdn Hmn Hmx st' rest' HI' Ht')
    as (h' & old' & st1' & B1 & B2 & B3 & B4 & B5 & B6).
  fold p in A1, A4. fold p' in B1, B4.
  assert (E2 : (h, old) = (h', old')) by (rewrite <- A1, <- B1; exact Ea).
  assert (h = h') by congruence. assert (old = old') by congruence. subst h' old'. clear E2.
  rewrite <- Et, <- Ex in B5, B6.
  assert (Edt : a_dt st1 = a_dt st1') by (rewrite A5, B5; reflexivity).
  destruct A6 as [(R1 & R2 & R3 & R4 & R5 & R6)|((Q1 & Q1') & Q2 & cr & hit & r1 & Q3 & Q4 & Q5 & Q6 & Q7 & Q8 & Q9)];
  destruct B6 as [(S1 & S2 & S3 & S4 & S5 & S6)|((W1 & W1') & W2 & cr' & hit' & r1' & W3 & W4 & W5 & W6 & W7 & W8 & W9)]; try lra.
  - exists st1, st1', rest, rest'. split; [exact A4|]. split; [exact B4|]. split; [exact R6|]. split; [exact S6|].
    unfold together. rewrite R2, R3, R4, R5, S2, S3, S4, S5. auto 10.
  - exists st1, st1', r1, r1'. split; [exact A4|]. split; [exact B4|]. split; [exact Q9|]. split; [exact W9|].
    assert (Exn : a_x st1 = a_x st1') by congruence.
    unfold together. rewrite Q2, W2. split; [reflexivity|]. split; [exact Edt|]. split; [exact Exn|].
    rewrite Q7, Q8, W7, W8. rewrite <- Exn.
    split; [rewrite !app_length, map_length, L; destruct (hit || all); reflexivity|].
    split; [rewrite !app_length, map_length, L'; destruct (hit' || all'); reflexivity|].
    rewrite !(combine_app (a_times _)) by assumption.
    apply (agree_step (a_t st) (a_t st + h) (fun c => if Req_EM_T c (a_t st + h) then a_x st1 else dn (a_t st) h (a_x st) c)); auto; [| |lra];
      apply entries_written; auto.
Qed.

Lemma loop_together fuel : forall st st' rest rest', Inv f T te n st rest -> Inv f T te' n st' rest' -> together st st' ->
  fst (@adaptive_loop ROps fuel p st) = fst (@adaptive_loop ROps fuel p' st') /\
  (snd (@adaptive_loop ROps fuel p st) = OutOfFuel /\ snd (@adaptive_loop ROps fuel p' st') = OutOfFuel \/
   exists times sol times' sol', snd (@adaptive_loop ROps fuel p st) = Ok (times, sol) /\
     snd (@adaptive_loop ROps fuel p' st') = Ok (times', sol') /\ agree times sol times' sol').
Proof.
  induction fuel as [|fuel IH]; intros st st' rest rest' HI HI' HT; pose proof HT as (Et & _ & _ & _ & _ & HA & _);
    cbn [adaptive_loop]; change (p_T p) with T; change (p_T p') with T; rops; rewrite <- Et; destruct (Rltb_spec (a_t st) T) as [Hlt|Hge].
  - split; [reflexivity|]. left. split; reflexivity.
  - split; [reflexivity|]. right. do 4 eexists. split; [reflexivity|]. split; [reflexivity|]. now apply agree_of.
  - destruct (iter_together st st' rest rest' HI HI' HT Hlt) as (Ef & st1 & st1' & r1 & r1' & E1 & E1' & I1 & I1' & T1).
    destruct (IH st1 st1' r1 r1' I1 I1' T1) as [F G].
    assert (X : @adaptive_iter ROps p st = (fst (@adaptive_iter ROps p st), Ok st1)) by (rewrite <- E1; apply surjective_pairing).
    assert (X' : @adaptive_iter ROps p' st' = (fst (@adaptive_iter ROps p st), Ok st1')) by (rewrite <- E1', Ef; apply surjective_pairing).
    rewrite (mbind_eq _ _ _ _ X), (mbind_eq _ _ _ _ X'). cbn [fst snd]. split; [exact (f_equal (app _) F) | exact G].
  - split; [reflexivity|]. right. do 4 eexists. split; [reflexivity|]. split; [reflexivity|]. now apply agree_of.
Qed.
End Two.

Lemma adaptive_together s rows b bh n f atol rtol all all' semi fuel x dt t0 ts ts' :
  embedded_pair s rows b bh -> field_on n f -> length x = n -> 0 < dt ->
  StronglySorted Rlt (t0 :: ts) -> StronglySorted Rlt (t0 :: ts') -> ts <> [] -> ts' <> [] -> last ts t0 = last ts' t0 ->
  let r := @adaptive_odeint ROps fuel f (f t0 x) x dt (t0 :: ts) s atol rtol (Some (construct_4th ROps)) all semi in
  let r' := @adaptive_odeint ROps fuel f (f t0 x) x dt (t0 :: ts') s atol rtol (Some (construct_4th ROps)) all' semi in
  fst r = fst r' /\
  (snd r = OutOfFuel /\ snd r' = OutOfFuel \/
   exists times sol times' sol', snd r = Ok (times, sol) /\ snd r' = Ok (times', sol') /\ agree times sol times' sol').
Proof.
  intros HP Hf Hx Hd Hs Hs' Hn Hn' Hl r r'.
  assert (Lp : forall l, l <> [] -> @pylast R (t0 :: l) = Ok (last l t0)).
  { intros l Hl0. rewrite (pylast_last _ t0) by discriminate. destruct l; [congruence|reflexivity]. }
  assert (E : forall l al, l <> [] -> @adaptive_odeint ROps fuel f (f t0 x) x dt (t0 :: l) s atol rtol (Some (construct_4th ROps)) al semi =
    @adaptive_loop ROps fuel (@MkP ROps f s (last l t0) l atol rtol (Some (construct_4th ROps)) al semi) (@MkA ROps t0 dt x (f t0 x) 0 [t0] [x])).
  { intros l al Hl0. unfold adaptive_odeint. rewrite (mbind_eq (mlift _) [] t0 _ eq_refl).
    assert (E1 : @mlift (R * rvec) _ (@pylast R (t0 :: l)) = ([], Ok (last l t0))) by (unfold mlift; now rewrite Lp).
    rewrite (mbind_eq _ [] (last l t0) _ E1). cbn [app fst snd skipn]. rewrite <- surjective_pairing. reflexivity. }
  unfold r, r'. rewrite !E by assumption. rewrite Hl.
  pose proof HP as (_ & H1' & H2 & H3 & _ & _). assert (H1 : 0 < s_min_factor s <= 1) by lra.
  pose proof (init_inv n f Hf (f t0 x) x dt t0 ts Hs Hn Hx eq_refl Hd) as I1. rewrite Hl in I1.
  pose proof (init_inv n f Hf (f t0 x) x dt t0 ts' Hs' Hn' Hx eq_refl Hd) as I2.
  refine (loop_together f s (last ts' t0) ts ts' atol rtol (construct_4th ROps) all all' semi n _ _ _ _
    (p_step s rows b bh HP n f Hf) (p_len rows b n f Hf)
    (fun bm x t h c => p_dense s rows b bh HP n f Hf (Some (construct_4th ROps)) bm x t h c (or_intror eq_refl)) H1 H2 fuel _ _ ts ts' I1 I2 _).
  unfold together. cbn [a_t a_dt a_x a_times a_sol combine length].
  do 5 (split; [reflexivity|]). split; [|split].
  - intros c y y' [[= <- <-]|[]] [[= <-]|[]]. reflexivity.
  - intros c y [[= <- <-]|[]]. lra.
  - intros c y [[= <- <-]|[]]. lra.
Qed.

(** C178.  dopri5 with interpolation: two grids with the same first and last time give the same calls of the vector
    field, and the same states at the times they share. *)
Lemma C178_requested_times_pf :
  forall fuel n f x t0 t1 ts t1' ts' atol rtol all all' save_at save_at' semi,
  field_on n f -> length x = n -> increasing (t0 :: t1 :: ts) -> increasing (t0 :: t1' :: ts') -> last (t1 :: ts) t0 = last (t1' :: ts') t0 ->
  let r := @odeint ROps fuel f x (@TTensor ROps (t0 :: t1 :: ts)) (DormandPrince45 ROps) atol rtol true all save_at semi in
  let r' := @odeint ROps fuel f x (@TTensor ROps (t0 :: t1' :: ts')) (DormandPrince45 ROps) atol rtol true all' save_at' semi in
  fst r = fst r' /\
  (snd r = OutOfFuel /\ snd r' = OutOfFuel \/
   exists times sol times' sol', snd r = Ok (times, sol) /\ snd r' = Ok (times', sol') /\ agree times sol times' sol').
Proof.
  intros fuel n f x t0 t1 ts t1' ts' atol rtol all all' save_at save_at' semi Hf Hx Hinc Hinc' Hl r r'.
  pose proof (Hinc 0%nat 1%nat t0 t1 ltac:(lia) eq_refl eq_refl) as L1. pose proof (Hinc' 0%nat 1%nat t0 t1' ltac:(lia) eq_refl eq_refl) as L1'.
  destruct (odeint_adaptive_inc _ _ _ _ dopri5_pair f atol rtol true all semi fuel x t0 t1 ts save_at ltac:(lra)) as (dt & lg & Hd & Ei & Eo).
  destruct (odeint_adaptive_inc _ _ _ _ dopri5_pair f atol rtol true all' semi fuel x t0 t1' ts' save_at' ltac:(lra)) as (dt' & lg' & _ & Ei' & Eo').
  assert (lg' = lg /\ dt' = dt) by (rewrite Ei in Ei'; split; congruence). destruct H as [-> ->].
  unfold r, r'. rewrite Eo, Eo'. cbn [fst snd].
  destruct (adaptive_together _ _ _ _ n f atol rtol all all' semi fuel x dt t0 (t1 :: ts) (t1' :: ts') dopri5_pair Hf Hx Hd
    (proj1 (increasing_sorted _) Hinc) (proj1 (increasing_sorted _) Hinc') ltac:(discriminate) ltac:(discriminate) Hl) as [F G].
  split; [exact (f_equal (app _) F) | exact G].
Qed.

(** C178, decreasing grids *)
Lemma C178_requested_times_back_pf :
  forall fuel n f x t0 t1 ts t1' ts' atol rtol all all' save_at save_at' semi,
  field_on n f -> length x = n -> decreasing (t0 :: t1 :: ts) -> decreasing (t0 :: t1' :: ts') -> last (t1 :: ts) t0 = last (t1' :: ts') t0 ->
  let r := @odeint ROps fuel f x (@TTensor ROps (t0 :: t1 :: ts)) (DormandPrince45 ROps) atol rtol true all save_at semi in
  let r' := @odeint ROps fuel f x (@TTensor ROps (t0 :: t1' :: ts')) (DormandPrince45 ROps) atol rtol true all' save_at' semi in
  snd r = OutOfFuel /\ snd r' = OutOfFuel \/
  exists times sol times' sol', snd r = Ok (times, sol) /\ snd r' = Ok (times', sol') /\ agree times sol times' sol'.
Proof.
  intros fuel n f x t0 t1 ts t1' ts' atol rtol all all' save_at save_at' semi Hf Hx Hinc Hinc' Hl r r'.
  pose proof (Hinc 0%nat 1%nat t0 t1 ltac:(lia) eq_refl eq_refl) as L1. pose proof (Hinc' 0%nat 1%nat t0 t1' ltac:(lia) eq_refl eq_refl) as L1'.
  assert (Sd : forall l, decreasing l -> StronglySorted Rlt (map Ropp l)).
  { intros l Hdec. apply increasing_sorted. intros i j u v Hij Hu Hv. rewrite nth_error_map in Hu, Hv.
    destruct (nth_error l i) as [u'|] eqn:Eu; [|discriminate]. destruct (nth_error l j) as [v'|] eqn:Ev; [|discriminate].
    injection Hu as <-. injection Hv as <-. pose proof (Hdec i j u' v' Hij Eu Ev). lra. }
  assert (Ml : forall l d, last (map Ropp l) (- d) = - last l d).
  { induction l as [|a [|b l] IH]; intros d; try reflexivity. exact (IH d). }
  destruct (odeint_adaptive_dec (DormandPrince45 ROps) f atol rtol true all semi fuel x t0 t1 ts save_at eq_refl L1) as (dt & lg & Hd & Ei & Eo).
  destruct (odeint_adaptive_dec (DormandPrince45 ROps) f atol rtol true all' semi fuel x t0 t1' ts' save_at' eq_refl L1') as (dt' & lg' & _ & Ei' & Eo').
  assert (lg' = lg /\ dt' = dt) by (rewrite Ei in Ei'; split; congruence). destruct H as [-> ->].
  assert (Hfr : field_on n (@neg_field ROps f)).
  { intros t y Hy. unfold neg_field. apply vopp_len. now apply Hf. }
  unfold r, r'. rewrite Eo, Eo'.
  refine (proj2 (adaptive_together _ _ _ _ n (@neg_field ROps f) atol rtol all all' semi fuel x dt (- t0) (map Ropp (t1 :: ts)) (map Ropp (t1' :: ts')) dopri5_pair Hfr Hx Hd
    (Sd _ Hinc) (Sd _ Hinc') ltac:(discriminate) ltac:(discriminate) _)).
  rewrite !Ml. now rewrite Hl.
Qed.

(** the decay problem of C14 over [[0, 3]], with and without the time 1: the solves return, with the same states at 0 and 3 *)
Lemma C178_requested_times_ex_pf :
  let f := fun (t : R) (x : list R) => map (fun a => - a) x in
  field_on 2 f /\ increasing [0; 1; 3] /\ increasing [0; 3] /\ last [1; 3] 0 = last [3] 0 /\
  exists fuel a b c, snd (@odeint ROps fuel f [1; 2] (@TTensor ROps [0; 1; 3]) (DormandPrince45 ROps) (1/1000) (1/1000) true false [] None) = Ok ([0; 1; 3], [a; b; c]) /\
    snd (@odeint ROps fuel f [1; 2] (@TTensor ROps [0; 3]) (DormandPrince45 ROps) (1/1000) (1/1000) true false [] None) = Ok ([0; 3], [a; c]).
Proof.
  intros f. destruct C14_ex_pf as (HP & Hf & Hi & Hg & _). fold f in Hf, Hg.
  assert (Hi' : increasing [0; 3]) by (apply increasing_sorted; repeat constructor; lra).
  split; [exact Hf|]. split; [exact Hi|]. split; [exact Hi'|]. split; [reflexivity|].
  destruct (C14_linear_growth_pf _ _ _ _ 2 f 1 [1; 2] 0 1 [3] (1/1000) (1/1000) true false [] None HP Hf eq_refl Hi ltac:(lia) ltac:(discriminate)
    ltac:(lra) ltac:(lra) ltac:(lra) Hg) as (fuel & [times sol] & E).
  destruct (C178_requested_times_pf fuel 2 f [1; 2] 0 1 [3] 3 [] (1/1000) (1/1000) false false [] [] None Hf eq_refl Hi Hi' eq_refl) as [_ G].
  destruct G as [[X _]|(tm & sl & tm' & sl' & X & X' & A)]; [rewrite X in E; discriminate|].
  destruct (C10_interpolated_times_pf _ _ _ _ _ 2 f [1; 2] _ _ _ _ _ _ _ HP Hf eq_refl Hi ltac:(cbn; lia) X) as (T1 & L1 & F1).
  destruct (C10_interpolated_times_pf _ _ _ _ _ 2 f [1; 2] _ _ _ _ _ _ _ HP Hf eq_refl Hi' ltac:(cbn; lia) X') as (T2 & L2 & F2).
  destruct sl as [|a [|b [|c [|]]]]; try discriminate. destruct sl' as [|a' [|c' [|]]]; try discriminate. subst tm tm'.
  pose proof (A 0%nat 0%nat 0 a a' eq_refl eq_refl eq_refl eq_refl) as <-.
  pose proof (A 2%nat 1%nat 3 c c' eq_refl eq_refl eq_refl eq_refl) as <-.
  exists fuel, a, b, c. split; [exact X | exact X'].
Qed.
