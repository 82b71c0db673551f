(** The adaptive loop over the reals: every run that returns is a [run] of the specification. *)
From Coq Require Import ZArith QArith Qreals Reals Lra Lia List Bool Sorted.
From Verif Require Import Num Py Tensor M_Constants M_SolversOde M_Utils M_Interp M_Odeint.
From Verif Require Import Spec_Ode Spec_RK Spec_Norm Spec_Adaptive L_Base L_Vec L_Utils.
Import ListNotations.
Local Open Scope R_scope.

Lemma increasing_sorted l : increasing l <-> StronglySorted Rlt l.
Proof.
  split.
  - induction l as [|a l IH]; intros H; constructor.
    + apply IH. intros i j x y Hij Hx Hy. apply (H (S i) (S j) x y); auto. lia.
    + apply Forall_forall. intros b Hb. apply In_nth_error in Hb. destruct Hb as [j Hj].
      apply (H 0%nat (S j) a b); auto. lia.
  - induction 1 as [|a l Hs IH Hf]; intros i j x y Hij Hx Hy.
    + destruct i; discriminate.
    + destruct j as [|j]; [lia|]. destruct i as [|i].
      * injection Hx as <-. rewrite Forall_forall in Hf. apply Hf. eapply nth_error_In; eauto.
      * apply (IH i j x y); auto. lia.
Qed.

(** Rewrite the head of an outer [rbind], up to conversion. *)
Ltac rbw H :=
  match goal with |- context [@rbind ?A ?B ?m ?k] =>
    let E := fresh "E" in eassert (E : m = _) by exact H; rewrite E; clear E end.

Ltac rbwin H H0 :=
  match type of H0 with context [@rbind ?A ?B ?m ?k] =>
    let E := fresh "E" in eassert (E : m = _) by exact H; rewrite E in H0; clear E end.

Lemma skipn_add {A} (l : list A) a b : skipn (a + b) l = skipn b (skipn a l).
Proof. revert l; induction a as [|a IH]; intros [|x l]; simpl; auto. now rewrite skipn_nil. Qed.

(** Requested times below a bound *)
Fixpoint below (b : R) (l : list R) : list R :=
  match l with [] => [] | s :: l' => if Rltb s b then s :: below b l' else [] end.
Fixpoint notbelow (b : R) (l : list R) : list R :=
  match l with [] => [] | s :: l' => if Rltb s b then notbelow b l' else l end.
Lemma below_split b l : l = below b l ++ notbelow b l.
Proof. induction l as [|s l IH]; auto. simpl. destruct (Rltb s b); auto. simpl. now f_equal. Qed.
Lemma below_lt b l s : In s (below b l) -> s < b.
Proof.
  induction l as [|a l IH]; [intros []|]. simpl. destruct (Rltb_spec a b); [|intros []].
  intros [<-|Hi]; auto.
Qed.
Lemma notbelow_hd b l s r : notbelow b l = s :: r -> b <= s.
Proof.
  induction l as [|a l IH]; [discriminate|]. simpl. destruct (Rltb_spec a b); auto.
  intros [= -> _]. auto.
Qed.
Lemma sorted_app_r (l1 l2 : list R) : StronglySorted Rlt (l1 ++ l2) -> StronglySorted Rlt l2.
Proof. induction l1; auto. simpl. inversion 1; auto. Qed.

Section Loop.
Variables (f : R -> rvec -> rvec) (s : solver ROps (vec ROps)) (T : R) (t_eval : list R).
Variables (atol rtol : R) (bmid : option (list R)) (all : bool) (semi : option nat).
Variable n : nat.
Variables (xn err : R -> R -> rvec -> rvec) (stg : R -> R -> rvec -> list rvec).
Variable dn : R -> R -> rvec -> R -> rvec.

Hypothesis Hstep : forall x t h, length x = n -> 
  snd (s_step s f x t h (Some (f t x))) =
  Ok (Ret4 (f (t + h) (xn t h x)) (xn t h x) (err t h x) (stg t h x)).
Hypothesis Hxn : forall x t h, length x = n -> length (xn t h x) = n.
Hypothesis Hdn : forall bm x t h c, bmid = Some bm -> length x = n -> h <> 0 ->
  exists sm, @bmid_sum ROps bm (stg t h x) = Ok sm /\
  @interp_evaluate ROps (@fourth_fit ROps h (f t x) (f (t + h) (xn t h x)) x (xn t h x)
      (@vadd ROps x (@vscale ROps h sm))) t (t + h) c = Ok (dn t h x c).
Hypothesis Hmn : 0 < s_min_factor s <= 1.
Hypothesis Hmx : 1 <= s_max_factor s.
Hypothesis Hsf : 0 < s_safety s < 1.

Definition ratio (t h : R) (x : rvec) : R :=
  @error_ratio ROps atol rtol semi x (xn t h x) (err t h x).
Definition accd (t h : R) (x x' : rvec) : Prop := x' = xn t h x /\ ratio t h x <= 1.

Lemma ratio_nonneg t h x : 0 <= ratio t h x.
Proof. unfold ratio, error_ratio. rewrite hairer_rms. apply rms_nonneg. Qed.

Let p := @MkP ROps f s T t_eval atol rtol bmid all semi.
Notation astateR := (astate ROps).

Definition Inv (st : astateR) (rest : list R) : Prop :=
  length (a_x st) = n /\ a_k1 st = f (a_t st) (a_x st) /\ 0 < a_dt st /\
  skipn (a_ck st) t_eval = rest /\ StronglySorted Rlt rest /\
  (forall c, In c rest -> a_t st < c <= T) /\ (a_t st < T -> In T rest) /\ a_t st <= T.

Lemma nth_error_skipn {A} (l : list A) k a r : skipn k l = a :: r -> nth_error l k = Some a /\ skipn (S k) l = r.
Proof.
  revert l; induction k as [|k IH]; intros [|b l] H; try discriminate.
  - injection H as -> ->. auto.
  - simpl in H. destruct (IH l H) as [H1 H2]. split; auto.
Qed.
Lemma nth_error_skipn_nil {A} (l : list A) k : skipn k l = [] -> nth_error l k = None.
Proof.
  revert l; induction k as [|k IH]; intros [|b l] H; try discriminate; auto. simpl in *. auto.
Qed.
Lemma skipn_length_rest {A} (l : list A) k r : skipn k l = r -> (length l - k)%nat = length r.
Proof. intros <-. now rewrite skipn_length. Qed.

Lemma attempt_spec st rest : Inv st rest -> a_t st < T ->
  exists h old, attempt_dt p st = (h, old) /\ 0 < h /\ a_t st + h <= T /\
    (bmid = None -> forall c, In c rest -> a_t st + h <= c) /\
    h <= a_dt st /\
    (old = None -> h = a_dt st \/ a_t st + h = T) /\
    (forall o, old = Some o -> h < o <= a_dt st /\ exists c r, rest = c :: r /\ a_t st + h = c).
Proof.
  intros (Hx & Hk & Hd & Hr & Hs & Hc & HT & Hle) Ht.
  unfold attempt_dt, p. cbn [p_T p_t_eval p_interp]. rops.
  set (dt := if Rltb T (a_t st + a_dt st) then T - a_t st else a_dt st).
  assert (Hdt : 0 < dt /\ a_t st + dt <= T /\ dt <= a_dt st /\ (dt = a_dt st \/ a_t st + dt = T)).
  { unfold dt. destruct (Rltb_spec T (a_t st + a_dt st)); repeat split; try lra. }
  destruct Hdt as (D1 & D2 & D3 & D4). clearbody dt.
  destruct rest as [|c r].
  { exfalso. specialize (HT Ht). destruct HT. }
  destruct (nth_error_skipn _ _ _ _ Hr) as [Hn Hr']. 
  match goal with |- context [@nth_error ?A t_eval (a_ck st)] =>
    change (@nth_error A t_eval (a_ck st)) with (@nth_error R t_eval (a_ck st)) end.
  rewrite Hn.
  assert (Hmin : forall c', In c' (c :: r) -> c <= c').
  { intros c' [<-|Hin]; [lra|]. inversion Hs as [|? ? ? Hf]; subst. rewrite Forall_forall in Hf.
    specialize (Hf _ Hin). lra. }
  destruct (Hc c (or_introl eq_refl)) as [Hc1 Hc2].
  destruct (Rltb_spec c (a_t st + dt)) as [Hlt|Hge].
  - destruct bmid as [bm|] eqn:Eb.
    + exists dt, None. repeat split; auto; try discriminate.
    + exists (c - a_t st), (Some dt). repeat split; try lra; try discriminate.
      * intros _ c' Hin. specialize (Hmin c' Hin). lra.
      * injection H as <-. lra.
      * injection H as <-. lra.
      * exists c, r. split; auto. lra.
  - exists dt, None. repeat split; auto; try discriminate.
    intros _ c' Hin. specialize (Hmin c' Hin). lra.
Qed.

Lemma interp_loop_spec bm t h x rest ck times sol : bmid = Some bm -> length x = n -> 0 < h ->
  skipn ck t_eval = rest ->
  @interp_loop ROps (length rest) bm t_eval t h x (f t x) (f (t + h) (xn t h x)) (xn t h x)
     (stg t h x) ck times sol =
  Ok ((ck + length (below (t + h) rest))%nat, times ++ below (t + h) rest,
      sol ++ map (dn t h x) (below (t + h) rest)).
Proof.
  intros Hb Hx Hh. revert ck times sol. induction rest as [|c r IH]; intros ck times sol Hr.
  - cbn [length interp_loop below map]. rewrite !app_nil_r, Nat.add_0_r. reflexivity.
  - destruct (nth_error_skipn _ _ _ _ Hr) as [Hn Hr'].
    cbn [length interp_loop below]. 
    match goal with |- context [@nth_error ?A t_eval ck] =>
      change (@nth_error A t_eval ck) with (@nth_error R t_eval ck) end.
    rewrite Hn. rops. destruct (Rltb_spec c (t + h)).
    + destruct (Hdn bm x t h c Hb Hx ltac:(lra)) as (sm & E1 & E2).
      rewrite E1. unfold rbind at 1. rewrite E2. unfold rbind at 1.
      etransitivity; [apply IH; rewrite Nat.add_1_r; exact Hr'|].
      cbn [length map]. apply f_equal. apply pair_equal_spec; split; [apply pair_equal_spec; split; [lia|]|];
        rewrite <- app_assoc; reflexivity.
    + cbn [length map]. rewrite !app_nil_r, Nat.add_0_r. reflexivity.
Qed.

(** One iteration *)
Lemma iter_spec st rest : Inv st rest -> a_t st < T ->
  exists h old st' , attempt_dt p st = (h, old) /\ 0 < h /\ a_t st + h <= T /\
  snd (@adaptive_iter ROps p st) = Ok st' /\
  a_dt st' = @adapt_step ROps (match old with Some o => o - h | None => h end)
      (ratio (a_t st) h (a_x st)) (s_safety s) (s_min_factor s) (s_max_factor s) (s_order s) /\
  ((1 < ratio (a_t st) h (a_x st) /\ a_t st' = a_t st /\ a_x st' = a_x st /\
    a_times st' = a_times st /\ a_sol st' = a_sol st /\ Inv st' rest) \/
   (accd (a_t st) h (a_x st) (a_x st') /\ a_t st' = a_t st + h /\
    exists crossed (hit : bool) rest',
      rest = crossed ++ (if hit then [a_t st + h] else []) ++ rest' /\
      (forall c, In c crossed -> a_t st < c < a_t st + h) /\ (bmid = None -> crossed = []) /\
      (forall c, In c rest' -> a_t st + h < c) /\
      a_times st' = a_times st ++ crossed ++ (if hit || all then [a_t st + h] else []) /\
      a_sol st' = a_sol st ++ map (dn (a_t st) h (a_x st)) crossed ++ (if hit || all then [a_x st'] else []) /\
      Inv st' rest')).
Proof.
  intros HI Ht. pose proof HI as (Hx & Hk & Hd & Hr & Hs & Hc & HT & Hle).
  destruct (attempt_spec st rest HI Ht) as (h & old & Ea & Hh & HhT & Hnone & Hhd & Hold1 & Hold).
  exists h, old.
  set (t := a_t st) in *. set (x := a_x st) in *.
  unfold adaptive_iter. rewrite Ea. cbn [p_solver p_f p_atol p_rtol p_semi p]. fold t x. rewrite Hk.
  rewrite snd_mbind. rbw (Hstep x t h Hx). cbn [rbind].
  change (@error_ratio ROps atol rtol semi x (xn t h x) (err t h x)) with (ratio t h x).
  rops.
  set (q := match old with Some o => o - h | None => h end).
  assert (Hq : 0 < q).
  { unfold q. destruct old as [o|]; auto. destruct (Hold o eq_refl) as [? _]. lra. }
  assert (Hdt' : 0 < @adapt_step ROps q (ratio t h x) (s_safety s) (s_min_factor s) (s_max_factor s) (s_order s)).
  { rewrite adapt_factor. apply Rmult_lt_0_compat; auto. apply factor_pos; auto. apply ratio_nonneg. }
  rewrite snd_mbind. rewrite Q2R_1'. destruct (Rleb_spec (ratio t h x) 1) as [Hacc|Hrej].
  2:{ (* rejected *)
    cbn [rbind snd mret]. eexists. split; [reflexivity|]. split; [auto|]. split; [auto|].
    split; [reflexivity|]. split; [reflexivity|].
    left. cbn [a_t a_x a_times a_sol a_dt]. split; [lra|]. do 4 (split; [reflexivity|]).
    refine (conj Hx (conj eq_refl (conj Hdt' (conj Hr (conj Hs (conj Hc (conj HT Hle))))))). }
  (* accepted *)
  assert (Hout : exists crossed hit rest',
     rest = crossed ++ (if hit : bool then [t + h] else []) ++ rest' /\
     (forall c, In c crossed -> t < c < t + h) /\ (bmid = None -> crossed = []) /\
     (forall c, In c rest' -> t + h < c) /\
     @accept_out ROps p st h (f (t + h) (xn t h x)) (xn t h x) (stg t h x) =
     Ok ((a_ck st + length crossed + (if hit then 1 else 0))%nat,
         a_times st ++ crossed ++ (if hit || all then [t + h] else []),
         a_sol st ++ map (dn t h x) crossed ++ (if hit || all then [xn t h x] else []))).
  { set (crossed := match bmid with None => [] | Some _ => below (t + h) rest end).
    set (rst := match bmid with None => rest | Some _ => notbelow (t + h) rest end).
    assert (Hsplit : rest = crossed ++ rst).
    { unfold crossed, rst; destruct bmid; auto. apply below_split. }
    assert (Hcr : forall c, In c crossed -> t < c < t + h).
    { intros c Hin. split.
      - apply Hc. rewrite Hsplit. apply in_or_app; auto.
      - unfold crossed in Hin. destruct bmid; [|destruct Hin]. now apply below_lt in Hin. }
    assert (Hsr : StronglySorted Rlt rst).
    { rewrite Hsplit in Hs. now apply sorted_app_r in Hs. }
    assert (Hne : exists c r, rst = c :: r /\ t + h <= c).
    { assert (In T rst).
      { specialize (HT Ht). rewrite Hsplit in HT. apply in_app_or in HT. destruct HT as [Hb|]; auto.
        specialize (Hcr _ Hb). lra. }
      destruct rst as [|c r] eqn:Er; [contradiction|]. exists c, r. split; auto.
      unfold rst in Er. destruct bmid eqn:Eb.
      - now apply notbelow_hd in Er.
      - apply (Hnone eq_refl). rewrite Er. now left. }
    destruct Hne as (c & r & Er & Hcge).
    assert (Hpre : (match bmid with
         | None => Ok (a_ck st, a_times st, a_sol st)
         | Some bm =>
             @interp_loop ROps (length t_eval - a_ck st) bm t_eval t h x (f t x)
               (f (t + h) (xn t h x)) (xn t h x) (stg t h x) (a_ck st) (a_times st) (a_sol st)
         end) = Ok ((a_ck st + length crossed)%nat, a_times st ++ crossed, a_sol st ++ map (dn t h x) crossed)).
    { unfold crossed. case_eq bmid; [intros bm Eb|intros Eb].
      - rewrite (skipn_length_rest _ _ _ Hr). now apply interp_loop_spec.
      - cbn [map length]. now rewrite !app_nil_r, Nat.add_0_r. }
    assert (Hck : skipn (a_ck st + length crossed) t_eval = rst).
    { rewrite skipn_add, Hr, Hsplit. rewrite skipn_app, skipn_all, Nat.sub_diag. reflexivity. }
    rewrite Er in Hck. destruct (nth_error_skipn _ _ _ _ Hck) as [Hn Hck'].
    assert (Hgt : forall c', In c' r -> c < c').
    { intros c' Hin. rewrite Er in Hsr. inversion Hsr as [|? ? ? Hf]; subst. rewrite Forall_forall in Hf. auto. }
    exists crossed, (Reqb (t + h) c), (if Reqb (t + h) c then r else c :: r).
    assert (EE : crossed ++ c :: r = crossed ++ (if Reqb (t + h) c then [t + h] else []) ++ (if Reqb (t + h) c then r else c :: r)).
    { destruct (Reqb_spec (t + h) c); auto. simpl. now f_equal; f_equal. }
    split. { rewrite <- EE. rewrite Hsplit, Er. reflexivity. }
    split; [auto|]. split. { intros E. unfold crossed. now rewrite E. }
    split. { intros c' Hin. destruct (Reqb_spec (t + h) c) as [E|E].
      - specialize (Hgt c' Hin). lra.
      - destruct Hin as [<-|Hin]; [lra|]. specialize (Hgt c' Hin). lra. }
    unfold accept_out, p. cbn [p_interp p_t_eval p_all]. rewrite Hk. fold t x.
    etransitivity; [exact (f_equal (fun z => rbind z _) Hpre)|]. unfold rbind at 1. cbv beta iota.
    unfold pyget.
    match goal with |- context [@nth_error ?A t_eval ?k] =>
      change (@nth_error A t_eval k) with (@nth_error R t_eval k) end.
    rewrite Hn. cbn [rbind]. rops.
    destruct (Reqb (t + h) c); cbn [orb].
    - repeat rewrite <- app_assoc. reflexivity.
    - destruct all; rewrite ?app_nil_r; repeat rewrite <- app_assoc; rewrite Nat.add_0_r; reflexivity. }
  destruct Hout as (crossed & hit & rest' & E1 & E2 & E3 & E4 & E5).
  rewrite snd_mlift. rbw E5. cbn [rbind snd mret].
  eexists. split; [reflexivity|]. split; [auto|]. split; [auto|].
  split; [reflexivity|]. split; [reflexivity|].
  right. cbn [a_t a_x a_times a_sol a_dt]. split; [split; auto|]. split; [auto|].
  exists crossed, hit, rest'. do 6 (split; [auto|]).
  unfold Inv. cbn [a_t a_x a_times a_sol a_dt a_k1 a_ck].
  split; [auto|]. split; [auto|]. split; [auto|].
  assert (Hs' : StronglySorted Rlt rest').
  { rewrite E1 in Hs. apply sorted_app_r in Hs. now apply sorted_app_r in Hs. }
  split.
  { rewrite <- Nat.add_assoc, skipn_add, Hr, E1.
    replace (length crossed + (if hit then 1 else 0))%nat with (length (crossed ++ (if hit then [t + h] else [])))
      by (rewrite app_length; destruct hit; reflexivity).
    rewrite app_assoc, skipn_app, skipn_all, Nat.sub_diag. reflexivity. }
  split; [auto|]. split.
  { intros c Hin. split; auto. apply Hc. rewrite E1. apply in_or_app. right. apply in_or_app. auto. }
  split.
  { intros HtT. specialize (HT Ht). rewrite E1 in HT. apply in_app_or in HT.
    destruct HT as [Hb|Hb]. { specialize (E2 _ Hb). lra. }
    apply in_app_or in Hb. destruct Hb as [Hb|]; auto.
    destruct hit; [destruct Hb as [Hb|[]]; lra|destruct Hb]. }
  lra.
Qed.

Notation runR := (run accd dn (match bmid with Some _ => true | None => false end) all).

Lemma loop_run fuel : forall st rest times sol, Inv st rest ->
  snd (@adaptive_loop ROps fuel p st) = Ok (times, sol) ->
  exists times' sol', times = a_times st ++ times' /\ sol = a_sol st ++ sol' /\
    runR (a_t st) (a_x st) rest times' sol'.
Proof.
  induction fuel as [|fuel IH]; intros st rest times sol HI Hr.
  - cbn [adaptive_loop] in Hr. change (p_T p) with T in Hr. rops.
    destruct (Rltb_spec (a_t st) T) as [Hlt|Hge]; [discriminate|].
    injection Hr as <- <-. exists [], []. rewrite !app_nil_r. repeat split; auto.
    destruct HI as (_ & _ & _ & _ & _ & Hc & _). destruct rest as [|c r]; [constructor|].
    destruct (Hc c (or_introl eq_refl)). lra.
  - cbn [adaptive_loop] in Hr. change (p_T p) with T in Hr. rops.
    destruct (Rltb_spec (a_t st) T) as [Hlt|Hge].
    + destruct (iter_spec st rest HI Hlt) as (h & old & st' & Ea & Hh & HhT & Eit & Hdt & Hcase).
      rewrite snd_mbind in Hr. rbwin Eit Hr. cbn [rbind] in Hr.
      destruct Hcase as [(Hrej & Et & Ex & Etm & Es & HI')|(Hacc & Et & crossed & hit & rest' & E1 & E2 & E3 & E4 & E5 & E6 & HI')].
      * destruct (IH st' rest times sol HI' Hr) as (times' & sol' & -> & -> & Hrun).
        exists times', sol'. rewrite Etm, Es. repeat split; auto. now rewrite <- Et, <- Ex.
      * destruct (IH st' rest' times sol HI' Hr) as (times' & sol' & -> & -> & Hrun).
        rewrite E5, E6.
        exists (crossed ++ (if hit || all then [a_t st + h] else []) ++ times'),
               (map (dn (a_t st) h (a_x st)) crossed ++ (if hit || all then [a_x st'] else []) ++ sol').
        repeat rewrite <- app_assoc. split; [reflexivity|]. split; [reflexivity|].
        rewrite E1. apply (run_step _ _ _ _ _ _ h _ (a_x st')); auto.
        -- intros Hb. apply E3. destruct bmid; auto; discriminate.
        -- destruct hit; [now left|right]. intros ->. destruct HI as (_ & _ & _ & _ & _ & _ & HT & _).
           specialize (HT Hlt). rewrite E1 in HT. apply in_app_or in HT.
           destruct HT as [HT|[]]. specialize (E2 _ HT). lra.
        -- now rewrite <- Et.
    + injection Hr as <- <-. exists [], []. rewrite !app_nil_r. repeat split; auto.
      destruct HI as (_ & _ & _ & _ & _ & Hc & _). destruct rest as [|c r]; [constructor|].
      destruct (Hc c (or_introl eq_refl)). lra.
Qed.

(** The loop never raises. *)
Lemma loop_no_error fuel : forall st rest, Inv st rest -> 
  forall e, snd (@adaptive_loop ROps fuel p st) <> Err e.
Proof.
  induction fuel as [|fuel IH]; intros st rest HI e; cbn [adaptive_loop]; change (p_T p) with T; rops;
    destruct (Rltb_spec (a_t st) T) as [Hlt|Hge]; try discriminate.
  destruct (iter_spec st rest HI Hlt) as (h & old & st' & Ea & Hh & HhT & Eit & Hdt & Hcase).
  rewrite snd_mbind. rbw Eit. cbn [rbind].
  destruct Hcase as [(_ & _ & _ & _ & _ & HI')|(_ & _ & ? & ? & rest' & _ & _ & _ & _ & _ & _ & HI')];
    eapply IH; eauto.
Qed.

End Loop.
