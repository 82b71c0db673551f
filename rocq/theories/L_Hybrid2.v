(** The hybrid loop: iterations, runs, times. *)
From Coq Require Import ZArith QArith Qreals Reals Lra Lia List Bool Sorted.
From Verif Require Import Num Py Tensor M_Constants M_SolversOde M_Utils M_Interp M_Odeint.
From Verif Require Import Spec_Ode Spec_Trees Spec_RK Spec_Norm Spec_Adaptive Spec_Hybrid.
From Verif Require Import L_Base L_Fixed L_Vec L_Steps L_Tables L_Steps2 L_Interp L_Utils L_Fixed2 L_Adaptive L_Run L_Adaptive2 L_Nan L_Hybrid.
Import ListNotations.
Local Open Scope R_scope.

Lemma flags_lowest cbs t1 (x1 : rvec) t2 (x2 : rvec) cb :
  @event_flags ROps (mkcbs cbs) t1 x1 = @event_flags ROps (mkcbs cbs) t2 x2 ->
  lowest_firing cbs t1 x1 cb -> lowest_firing cbs t2 x2 cb.
Proof.
  intros E. assert (K : forall c, In c cbs -> fst c t1 x1 = fst c t2 x2).
  { unfold event_flags, mkcbs in E. rewrite !map_map in E. cbn [check_event] in E.
    intros c Hc. exact (proj1 map_ext_in_iff E c Hc). }
  intros (bf & af & Ec & H1 & H2). exists bf, af. split; auto. split.
  - rewrite <- K; auto. rewrite Ec. apply in_or_app; right; now left.
  - intros c Hc. rewrite <- K; auto. rewrite Ec. apply in_or_app; now left.
Qed.

Section Hyb.
Variables (s : solver ROps (vec ROps)) (rows : list (R * list R)) (b bh : list R).
Hypothesis HB : builtin_pair s rows b bh.
Variables (n : nat) (f : R -> rvec -> rvec).
Hypothesis Hf : field_on n f.
Variables (cbs : list cbk) (T : R) (t_eval : list R) (atol rtol etol : R) (semi : option nat).
Hypothesis Hjump : forall cb t x, In cb cbs -> length x = n -> length (snd cb t x) = n.

Let flow := erk_step rows b f.
Let err t h x := @vsub ROps (flow t h x) (erk_step rows bh f t h x).
Let stg := erk_stages rows f.
Let p := @MkHP ROps f s (mkcbs cbs) T t_eval atol rtol etol semi.
Definition hacc (t h : R) (x : rvec) : Prop :=
  scaled_error atol rtol semi x (flow t h x) (minus_list (flow t h x) (erk_step rows bh f t h x)) <= 1.
Definition hrat (t h : R) (x : rvec) : R := @error_ratio ROps atol rtol semi x (flow t h x) (err t h x).

Lemma hrat_acc t h x : hrat t h x <= 1 <-> hacc t h x.
Proof. unfold hrat, hacc. rewrite error_ratio_spec. unfold err. rewrite minus_list_vsub. tauto. Qed.
Lemma hrat_nn t h x : 0 <= hrat t h x.
Proof. unfold hrat, error_ratio. rewrite hairer_rms. apply rms_nonneg. Qed.

Lemma h_step x t h k : length x = n -> (k = None \/ k = Some (f t x)) ->
  snd (s_step s f x t h k) =
  Ok (Ret4 (f (t + h) (flow t h x)) (flow t h x) (err t h x) (stg t h x)).
Proof.
  intros Hx [-> | ->].
  - rewrite (builtin_none s rows b bh) by auto. apply (p_step s rows b bh (builtin_embedded _ _ _ _ HB) n f Hf); auto.
  - apply (p_step s rows b bh (builtin_embedded _ _ _ _ HB) n f Hf); auto.
Qed.
Lemma h_len x t h : length x = n -> length (flow t h x) = n.
Proof. intros Hx. now apply erk_step_len. Qed.

Notation hst := (@hstate ROps).
Definition HInv (st : hst) : Prop :=
  length (h_x st) = n /\ (h_k1 st = None \/ h_k1 st = Some (f (h_t st) (h_x st))).

Definition hnext (h : R) (old : option R) (r : R) : R :=
  @adapt_step ROps (match old with Some o => o - h | None => h end) r
     (s_safety s) (s_min_factor s) (s_max_factor s) (s_order s).

(** One iteration: quiet, or an event *)
Lemma hybrid_iter_quiet (st : hst) h old ck : HInv st -> @hybrid_attempt ROps p st = (h, old, ck) ->
  ~ fires cbs (h_t st + h) (flow (h_t st) h (h_x st)) ->
  snd (@hybrid_iter ROps p st) = Ok (
    let r := hrat (h_t st) h (h_x st) in
    if Rleb r 1 then
      @MkH ROps (h_t st + h) (hnext h old r) (flow (h_t st) h (h_x st))
        (Some (f (h_t st + h) (flow (h_t st) h (h_x st)))) ck None
        (h_times st ++ [h_t st + h]) (h_sol st ++ [flow (h_t st) h (h_x st)])
    else @MkH ROps (h_t st) (hnext h old r) (h_x st) (h_k1 st) ck None (h_times st) (h_sol st)).
Proof.
  intros [Hx Hk] Ha Hn. unfold hybrid_iter. rewrite Ha.
  pose proof (h_step (h_x st) (h_t st) h (h_k1 st) Hx Hk) as E.
  refine (eq_trans (snd_bind_ok _ _ _ E) _). cbv beta iota zeta.
  apply triggered_flags_f in Hn.
  match goal with |- snd (if ?c then _ else _) = _ => 
    assert (Hc : c = false) by exact Hn; rewrite Hc end.
  cbv beta iota zeta. rewrite snd_mret. f_equal.
  change (@nleb ROps) with Rleb. rewrite nQ1. 
  unfold p; cbn [hp_atol hp_rtol hp_semi hp_solver]. fold (hrat (h_t st) h (h_x st)).
  destruct (Rleb (hrat (h_t st) h (h_x st)) 1); reflexivity.
Qed.

Lemma hybrid_iter_event (st : hst) h old ck : HInv st -> @hybrid_attempt ROps p st = (h, old, ck) ->
  fires cbs (h_t st + h) (flow (h_t st) h (h_x st)) ->
  exists t' x' k' fl,
    snd (@bisect ROps 100 f s (mkcbs cbs) (map (fun _ => false) (mkcbs cbs)) etol h (h_t st) h (h_x st) (h_k1 st)
       (@event_flags ROps (mkcbs cbs) (h_t st + h) (flow (h_t st) h (h_x st)))) = Ok (t', x', k', fl) /\
    snd (@hybrid_iter ROps p st) = 
      match first_true fl with
      | Ok i => match pyget (mkcbs cbs) i with
                | Ok cb => let xj := jump_map cb t' x' in
                    Ok (@MkH ROps t' h xj None ck old (h_times st ++ [t'; t']) (h_sol st ++ [x'; xj]))
                | Err e => Err e | OutOfFuel => OutOfFuel end
      | Err e => Err e | OutOfFuel => OutOfFuel end.
Proof.
  intros [Hx Hk] Ha Hn. 
  destruct (bisect_no_error f s n flow err stg h_step h_len cbs etol 100 h (h_t st) h (h_x st) (h_k1 st)
     (@event_flags ROps (mkcbs cbs) (h_t st + h) (flow (h_t st) h (h_x st))) Hx Hk) as ([[[t' x'] k'] fl] & Eb).
  exists t', x', k', fl. split; auto. unfold hybrid_iter. rewrite Ha.
  pose proof (h_step (h_x st) (h_t st) h (h_k1 st) Hx Hk) as E.
  refine (eq_trans (snd_bind_ok _ _ _ E) _). cbv beta iota zeta.
  apply triggered_flags in Hn.
  match goal with |- snd (if ?c then _ else _) = _ => 
    assert (Hc : c = true) by exact Hn; rewrite Hc end.
  refine (eq_trans (snd_bind_ok _ _ _ Eb) _). cbv beta iota zeta.
  rewrite snd_mbind, snd_mlift. destruct (first_true fl); try reflexivity.
  cbn [rbind]. rewrite snd_mbind, snd_mlift. unfold p; cbn [hp_cbs]. destruct (pyget (mkcbs cbs) a); reflexivity.
Qed.

(** An event that does not raise *)
Lemma hybrid_iter_event_ok (st st' : hst) h old ck : HInv st -> @hybrid_attempt ROps p st = (h, old, ck) ->
  0 <= etol -> fires cbs (h_t st + h) (flow (h_t st) h (h_x st)) ->
  snd (@hybrid_iter ROps p st) = Ok st' ->
  exists t' x' k' fl d cb, 
    snd (@bisect ROps 100 f s (mkcbs cbs) (map (fun _ => false) (mkcbs cbs)) etol h (h_t st) h (h_x st) (h_k1 st)
       (@event_flags ROps (mkcbs cbs) (h_t st + h) (flow (h_t st) h (h_x st)))) = Ok (t', x', k', fl) /\
    located flow cbs (h_t st) (h_x st) t' x' d cb /\ fl = @event_flags ROps (mkcbs cbs) (t' + d) (flow t' d x') /\
    length x' = n /\
    st' = @MkH ROps t' h (snd cb t' x') None ck old (h_times st ++ [t'; t']) (h_sol st ++ [x'; snd cb t' x']) /\
    HInv st'.
Proof.
  intros HI Ha He Hn Hs. destruct (hybrid_iter_event st h old ck HI Ha Hn) as (t' & x' & k' & fl & Eb & Ei).
  destruct HI as [Hx Hk].
  destruct (bisect_spec f s n flow err stg h_step h_len cbs etol 100 h (h_t st) h (h_x st) (h_k1 st)
     (@event_flags ROps (mkcbs cbs) (h_t st + h) (flow (h_t st) h (h_x st))) _ Hx Hk (fun H => H) He
     (or_introl (ex_intro _ h eq_refl)) Eb) as (t2 & x2 & k2 & fl2 & E & Hx2 & Hq & Hfl).
  injection E as <- <- <- <-.
  rewrite Ei in Hs. destruct Hfl as [(d & ->)|Hfl].
  2:{ destruct (first_true fl) eqn:E; try discriminate. exfalso. eapply Hfl; eauto. }
  destruct (first_true (@event_flags ROps (mkcbs cbs) (t' + d) (flow t' d x'))) as [i| |] eqn:E; try discriminate.
  destruct (first_firing cbs _ _ _ E) as (cb & Hl & Hg). rewrite Hg in Hs. cbv zeta in Hs. cbn [jump_map] in Hs.
  injection Hs as <-.
  exists t', x', k', (@event_flags ROps (mkcbs cbs) (t' + d) (flow t' d x')), d, cb.
  split; auto. split; [split; auto|]. split; auto. split; auto. split; auto.
  split; [|now left]. cbn [h_x]. apply Hjump; auto. destruct Hl as (bf & af & -> & _). apply in_or_app; right; now left.
Qed.

Lemma loop_unfold fuel jn js (st : hst) r : snd (@hybrid_loop ROps fuel p jn js st) = Ok r ->
  (r = (h_times st, h_sol st) /\ (T <= h_t st \/ (js <= jn)%nat)) \/
  exists fuel' st', fuel = S fuel' /\ h_t st < T /\ snd (@hybrid_iter ROps p st) = Ok st' /\
     snd (@hybrid_loop ROps fuel' p jn js st') = Ok r.
Proof.
  destruct fuel as [|fuel]; cbn [hybrid_loop]; unfold p at 1; cbn [hp_T]; change (@nltb ROps) with Rltb;
    destruct (Rltb_spec (h_t st) T) as [H|H]; destruct (Nat.ltb_spec jn js) as [H'|H']; cbn [andb]; intros Hr;
    try (injection Hr as <-; left; split; auto; fail); try discriminate.
  right. apply mbind_inv_ok in Hr. destruct Hr as (st' & E1 & E2). exists fuel, st'. auto.
Qed.

(** Every run that returns *)
Lemma hybrid_loop_run fuel : forall jn js (st : hst) times sol, HInv st -> 0 <= etol ->
  snd (@hybrid_loop ROps fuel p jn js st) = Ok (times, sol) ->
  exists out, times = h_times st ++ map fst out /\ sol = h_sol st ++ map snd out /\
    hrun flow hacc cbs (fun _ _ _ _ _ _ => True) (h_t st) (h_x st) out.
Proof.
  induction fuel as [|fuel IH]; intros jn js st times sol HI He Hr; apply loop_unfold in Hr;
    (destruct Hr as [[E _]|(fuel' & st' & Ef & Ht & Ei & El)];
     [injection E as -> ->; exists []; cbn [map]; rewrite !app_nil_r; repeat split; auto; constructor|]).
  { discriminate. }
  injection Ef as <-.
  destruct (@hybrid_attempt ROps p st) as [[h old] ck] eqn:Ha.
  assert (Hd : fires cbs (h_t st + h) (flow (h_t st) h (h_x st)) \/ ~ fires cbs (h_t st + h) (flow (h_t st) h (h_x st))).
  { rewrite <- triggered_flags. destruct (triggered _ _); [now left|right; discriminate]. }
  destruct Hd as [Hfi|Hfi].
  - destruct (hybrid_iter_event_ok st st' h old ck HI Ha He Hfi Ei) as (t' & x' & k' & fl & d & cb & _ & Hl & _ & Hx' & -> & HI').
    apply IH in El; auto. cbn [h_times h_sol h_t h_x] in El. destruct El as (out & -> & -> & Hrun).
    exists ((t', x') :: (t', snd cb t' x') :: out). cbn [map fst snd]. rewrite <- !app_assoc. cbn [app].
    repeat split; auto. eapply hrun_event; eauto.
  - pose proof (hybrid_iter_quiet st h old ck HI Ha Hfi) as E. rewrite E in Ei. clear E. cbv zeta in Ei.
    destruct (Rleb_spec (hrat (h_t st) h (h_x st)) 1) as [Hr1|Hr1]; injection Ei as <-.
    + apply IH in El; auto. 2:{ split; [|right; reflexivity]. apply h_len, HI. }
      cbn [h_times h_sol h_t h_x] in El. destruct El as (out & -> & -> & Hrun).
      exists ((h_t st + h, flow (h_t st) h (h_x st)) :: out). cbn [map fst snd]. rewrite <- !app_assoc. cbn [app].
      repeat split; auto. apply hrun_flow; auto. now apply hrat_acc.
    + apply IH in El; auto.
Qed.

(** ** Persistent events: times *)
Hypothesis Hsort : StronglySorted Rlt t_eval.
Hypothesis HTle : forall c, In c t_eval -> c <= T.

Definition SInv (st : hst) : Prop :=
  HInv st /\ 0 <= h_dt st /\ h_t st <= T /\
  (forall c, In c (skipn (h_ck st) t_eval) -> h_t st <= c) /\
  (forall o, h_old st = Some o -> h_dt st <= o).

Lemma attempt_inv (st : hst) h old ck : SInv st -> h_t st < T -> @hybrid_attempt ROps p st = (h, old, ck) ->
  0 <= h <= h_dt st /\ h_t st + h <= T /\ (forall c, In c (skipn ck t_eval) -> h_t st + h <= c) /\
  (forall o, old = Some o -> h <= o) /\
  ((ck = h_ck st /\ old = h_old st) \/ (ck = S (h_ck st) /\ exists c r, skipn (h_ck st) t_eval = c :: r /\ c = h_t st + h)).
Proof.
  intros (HI & Hd & Hle & Hc & Ho) Ht. unfold hybrid_attempt, p. cbn [hp_T hp_t_eval]. rops.
  set (dt := if Rltb T (h_t st + h_dt st) then T - h_t st else h_dt st).
  assert (Hdt : 0 <= dt /\ h_t st + dt <= T /\ dt <= h_dt st).
  { unfold dt. destruct (Rltb_spec T (h_t st + h_dt st)); repeat split; try lra. }
  destruct Hdt as (D1 & D2 & D3). clearbody dt.
  destruct (skipn (h_ck st) t_eval) as [|c r] eqn:Er.
  - pose proof (nth_error_skipn_nil _ _ Er) as Hn.
    match goal with |- context [@nth_error ?A t_eval ?k] =>
      change (@nth_error A t_eval k) with (@nth_error R t_eval k) end.
    rewrite Hn. intros [= <- <- <-]. repeat split; auto.
    + rewrite Er. intros ? [].
    + intros o E. specialize (Ho o E). lra.
  - destruct (nth_error_skipn _ _ _ _ Er) as [Hn Hr'].
    match goal with |- context [@nth_error ?A t_eval ?k] =>
      change (@nth_error A t_eval k) with (@nth_error R t_eval k) end.
    rewrite Hn.
    assert (Hs : StronglySorted Rlt (c :: r)).
    { rewrite <- Er. rewrite <- (firstn_skipn (h_ck st) t_eval) in Hsort. now apply sorted_app_r in Hsort. }
    apply StronglySorted_inv in Hs. destruct Hs as [Hs1 Hs2]. rewrite Forall_forall in Hs2.
    assert (Hcc : h_t st <= c) by (apply Hc; now left).
    destruct (Rltb_spec c (h_t st + dt)) as [Hlt|Hge]; intros [= <- <- <-].
    + repeat split; try lra.
      * rewrite Nat.add_1_r, Hr'. intros c' Hin. specialize (Hs2 c' Hin). lra.
      * intros o [= <-]. lra.
      * right. split; [lia|]. exists c, r. split; auto. symmetry; apply Rplus_minus.
    + repeat split; auto.
      * rewrite Er. intros c' [<-|Hin]; [lra|]. specialize (Hs2 c' Hin). lra.
      * intros o E. specialize (Ho o E). lra.
Qed.

Lemma hnext_nn h old r : 0 <= h -> 0 <= r -> (forall o, old = Some o -> h <= o) -> 0 <= hnext h old r.
Proof.
  intros Hh Hr Ho. unfold hnext. rewrite adapt_factor.
  destruct (builtin_embedded _ _ _ _ HB) as (_ & H1 & H2 & H3 & _).
  apply Rmult_le_pos.
  - destruct old; [specialize (Ho r0 eq_refl)|]; lra.
  - apply Rlt_le, factor_pos; auto; lra.
Qed.

Lemma quiet_inv (st st' : hst) h old ck : SInv st -> h_t st < T -> @hybrid_attempt ROps p st = (h, old, ck) ->
  ~ fires cbs (h_t st + h) (flow (h_t st) h (h_x st)) -> snd (@hybrid_iter ROps p st) = Ok st' -> SInv st'.
Proof.
  intros HS Ht Ha Hfi Ei. destruct (attempt_inv st h old ck HS Ht Ha) as (A1 & A2 & A3 & A4 & _).
  destruct HS as (HI & Hd & Hle & Hc & Ho).
  pose proof (hybrid_iter_quiet st h old ck HI Ha Hfi) as E. rewrite E in Ei. clear E. cbv zeta in Ei.
  pose proof (hnext_nn h old (hrat (h_t st) h (h_x st)) ltac:(lra) (hrat_nn _ _ _) A4) as Hnn.
  destruct (Rleb_spec (hrat (h_t st) h (h_x st)) 1) as [Hr1|Hr1]; injection Ei as <-;
    unfold SInv, HInv; cbn [h_x h_k1 h_t h_dt h_ck h_old].
  - split; [split; [apply h_len, HI|now right]|]. repeat split; auto. discriminate.
  - split; [exact HI|]. repeat split; auto. 2: discriminate. intros c Hin. specialize (A3 c Hin). lra.
Qed.

Section Pers.
Hypothesis Hpers : persistent flow cbs (fun x => length x = n).
Hypothesis Het : 0 < etol.

Lemma bisect_zero m h t x k1 fl : h <= etol ->
  snd (@bisect ROps m f s (mkcbs cbs) (map (fun _ => false) (mkcbs cbs)) etol h t h x k1 fl) = Ok (t, x, k1, fl).
Proof.
  intros Hh. destruct m; [reflexivity|]. cbn [bisect]. change (@nltb ROps) with Rltb.
  rewrite (proj2 (Rltb_false etol h)) by lra. reflexivity.
Qed.

Lemma event_inv (st st' : hst) h old ck : SInv st -> h_t st < T -> @hybrid_attempt ROps p st = (h, old, ck) ->
  fires cbs (h_t st + h) (flow (h_t st) h (h_x st)) -> snd (@hybrid_iter ROps p st) = Ok st' ->
  SInv st' /\ exists t' x' d cb, located flow cbs (h_t st) (h_x st) t' x' d cb /\
    inside etol (h_t st) (h_x st) h t' x' d /\
    st' = @MkH ROps t' h (snd cb t' x') None ck old (h_times st ++ [t'; t']) (h_sol st ++ [x'; snd cb t' x']).
Proof.
  intros HS Ht Ha Hfi Ei. destruct (attempt_inv st h old ck HS Ht Ha) as (A1 & A2 & A3 & A4 & _).
  destruct HS as (HI & Hd & Hle & Hc & Ho).
  destruct (hybrid_iter_event_ok st st' h old ck HI Ha ltac:(lra) Hfi Ei)
    as (t' & x' & k' & fl & d & cb & Eb & Hl & Efl & Hx' & -> & HI').
  assert (Hin : h_t st <= t' <= h_t st + h /\ (0 < h -> t' < h_t st + h)).
  { destruct A1 as [[Hpos|H0] _].
    - destruct (bisect_inside f s n flow err stg h_step h_len cbs etol Hpers 100 (h_t st) h (h_x st) (h_t st) h (h_x st) (h_k1 st)
         _ _ (proj1 HI) (proj2 HI) (proj1 HI) Hpos ltac:(lra) Hfi (quiet_nil _ _) ltac:(lra) Eb) as (t2 & x2 & k2 & fl2 & E & Hb).
      injection E as <- <- <- <-. lra.
    - rewrite bisect_zero in Eb by lra. injection Eb as <- <- <- <-. lra. }
  destruct Hin as [Hi1 Hi2].
  assert (HS' : SInv (@MkH ROps t' h (snd cb t' x') None ck old (h_times st ++ [t'; t']) (h_sol st ++ [x'; snd cb t' x']))).
  { split; [exact HI'|]. cbn [h_dt h_t h_ck h_old]. repeat split; auto; try lra.
    intros c Hc'. specialize (A3 c Hc'). lra. }
  split; auto.
  (* precision *)
  destruct (Rle_lt_dec h (4096 * etol)) as [Hs|Hs].
  - destruct A1 as [[Hpos|H0] _].
    + assert (H4 : h <= etol * 2 ^ 12) by (simpl; lra).
      assert (H1 : h / 2 ^ 0 = h) by (simpl; field).
      destruct (bisect_located f s n flow err stg h_step h_len cbs etol Hpers 12 100 h (h_t st) (h_x st) 0 0 (h_k1 st)
         (@event_flags ROps (mkcbs cbs) (h_t st + h) (flow (h_t st) h (h_x st))) (proj1 HI) (proj2 HI) Hpos Het H4
         ltac:(lia) ltac:(cbn; lia)) as (t2 & x2 & k2 & d2 & E & Hd2 & Hfd).
      { intros l Hl0. assert (l = 0%nat) by lia. subst l. rewrite H1. exact Hfi. }
      { left. rewrite H1. reflexivity. }
      rewrite H1 in E. 
      assert (E2 := eq_trans (eq_sym Eb) E). injection E2 as E3 E4 E5 E6. subst t2 x2 k2.
      exists t', x', d2, cb. rewrite Efl in E6. destruct Hl as [Hq Hlow].
      split; [split; [exact Hq|]|]. { eapply flags_lowest; [exact E6|exact Hlow]. }
      split; [repeat split; lra|reflexivity].
    + rewrite bisect_zero in Eb by lra. injection Eb as E1 E2 E3 E4. subst t' x' k'. destruct Hl as [Hq Hlow].
      exists (h_t st), (h_x st), h, cb. rewrite Efl in E4.
      split; [split; [apply quiet_nil|]|]. { eapply flags_lowest; [symmetry; exact E4|exact Hlow]. }
      split; [repeat split; lra|reflexivity].
  - exists t', x', d, cb. split; auto. split; [|reflexivity]. repeat split; try lra.
Qed.

Lemma fires_dec t x : fires cbs t x \/ ~ fires cbs t x.
Proof. rewrite <- triggered_flags. destruct (triggered _ _); [now left|right; discriminate]. Qed.

Lemma hybrid_loop_inside fuel : forall jn js (st : hst) times sol, SInv st ->
  snd (@hybrid_loop ROps fuel p jn js st) = Ok (times, sol) ->
  exists out, times = h_times st ++ map fst out /\ sol = h_sol st ++ map snd out /\
    hrun flow hacc cbs (inside etol) (h_t st) (h_x st) out /\
    nondecreasing (h_t st :: map fst out) /\ (forall c, In c (map fst out) -> h_t st <= c <= T).
Proof.
  induction fuel as [|fuel IH]; intros jn js st times sol HS Hr; apply loop_unfold in Hr;
    (destruct Hr as [[E _]|(fuel' & st' & Ef & Ht & Ei & El)];
     [injection E as -> ->; exists []; cbn [map]; rewrite !app_nil_r;
      (split; [reflexivity|]); (split; [reflexivity|]); (split; [constructor|]); split; [exact I|intros ? []]|]).
  { discriminate. }
  injection Ef as <-.
  destruct (@hybrid_attempt ROps p st) as [[h old] ck] eqn:Ha.
  destruct (fires_dec (h_t st + h) (flow (h_t st) h (h_x st))) as [Hfi|Hfi].
  - destruct (event_inv st st' h old ck HS Ht Ha Hfi Ei) as (HS' & t' & x' & d & cb & Hl & Hin & ->).
    apply IH in El; auto. cbn [h_times h_sol h_t h_x] in El. destruct El as (out & -> & -> & Hrun & Hnd & Hb).
    exists ((t', x') :: (t', snd cb t' x') :: out). cbn [map fst snd]. rewrite <- !app_assoc. cbn [app].
    destruct Hin as (Hin0 & Hin1 & Hin2 & Hin3).
    split; auto. split; auto. split; [eapply hrun_event; eauto; unfold inside; auto|].
    assert (t' <= T) by (destruct HS' as (_ & _ & H & _); exact H).
    split; [split; [lra|split; [lra|exact Hnd]]|].
    intros c [<-|[<-|Hc]]; try lra. specialize (Hb c Hc). lra.
  - pose proof (quiet_inv st st' h old ck HS Ht Ha Hfi Ei) as HS'.
    destruct (attempt_inv st h old ck HS Ht Ha) as (A1 & A2 & _).
    pose proof (hybrid_iter_quiet st h old ck (proj1 HS) Ha Hfi) as E. rewrite E in Ei. clear E. cbv zeta in Ei.
    destruct (Rleb_spec (hrat (h_t st) h (h_x st)) 1) as [Hr1|Hr1]; injection Ei as <-.
    + apply IH in El; auto.
      cbn [h_times h_sol h_t h_x] in El. destruct El as (out & -> & -> & Hrun & Hnd & Hb).
      exists ((h_t st + h, flow (h_t st) h (h_x st)) :: out). cbn [map fst snd]. rewrite <- !app_assoc. cbn [app].
      split; auto. split; auto. split; [apply hrun_flow; auto; now apply hrat_acc|].
      split; [split; [lra|exact Hnd]|].
      intros c [<-|Hc]; try lra. specialize (Hb c Hc). lra.
    + apply IH in El; auto.
Qed.

(** No step larger than 4096 event tolerances: the solve never raises. *)
Lemma hybrid_loop_no_error fuel : forall jn js (st : hst) e, SInv st -> T - h_t st <= 4096 * etol ->
  snd (@hybrid_loop ROps fuel p jn js st) <> Err e.
Proof.
  induction fuel as [|fuel IH]; intros jn js st e HS Hsm; cbn [hybrid_loop]; unfold p at 1; cbn [hp_T]; change (@nltb ROps) with Rltb;
    destruct (Rltb_spec (h_t st) T) as [Ht|Ht]; destruct (Nat.ltb_spec jn js) as [H'|H']; cbn [andb]; try discriminate.
  destruct (@hybrid_attempt ROps p st) as [[h old] ck] eqn:Ha.
  destruct (attempt_inv st h old ck HS Ht Ha) as (A1 & A2 & _).
  assert (X : exists st', snd (@hybrid_iter ROps p st) = Ok st').
  { destruct (fires_dec (h_t st + h) (flow (h_t st) h (h_x st))) as [Hfi|Hfi].
    - pose proof (proj1 HS) as HI.
      destruct (hybrid_iter_event st h old ck HI Ha Hfi) as (t' & x' & k' & fl & Eb & Ei).
      rewrite Ei.
      assert (Hfl : exists d, fl = @event_flags ROps (mkcbs cbs) (t' + d) (flow t' d x') /\ fires cbs (t' + d) (flow t' d x')).
      { destruct A1 as [[Hpos|H0] _].
        - assert (H4 : h <= etol * 2 ^ 12) by (simpl; lra).
          assert (H1 : h / 2 ^ 0 = h) by (simpl; field).
          destruct (bisect_located f s n flow err stg h_step h_len cbs etol Hpers 12 100 h (h_t st) (h_x st) 0 0 (h_k1 st)
             (@event_flags ROps (mkcbs cbs) (h_t st + h) (flow (h_t st) h (h_x st))) (proj1 HI) (proj2 HI) Hpos Het H4
             ltac:(lia) ltac:(cbn; lia)) as (t2 & x2 & k2 & d2 & E & Hd2 & Hfd).
          { intros l Hl0. assert (l = 0%nat) by lia. subst l. rewrite H1. exact Hfi. }
          { left. rewrite H1. reflexivity. }
          rewrite H1 in E. assert (E2 := eq_trans (eq_sym Eb) E). injection E2 as E3 E4 E5 E6. subst t2 x2 k2.
          exists d2. auto.
        - rewrite bisect_zero in Eb by lra. injection Eb as E1 E2 E3 E4. subst t' x' k'. exists h. auto. }
      destruct Hfl as (d & -> & Hfd). destruct (first_firing_ok _ _ _ Hfd) as (i & Hi). rewrite Hi.
      destruct (first_firing _ _ _ _ Hi) as (cb & _ & Hg). rewrite Hg. eauto.
    - rewrite (hybrid_iter_quiet st h old ck (proj1 HS) Ha Hfi). eauto. }
  destruct X as (st' & Ei). intros Hbad. rewrite snd_mbind in Hbad.
  match type of Hbad with rbind ?m _ = _ => assert (Em : m = Ok st') by exact Ei; rewrite Em in Hbad end.
  cbn [rbind] in Hbad. revert Hbad. change (snd (@hybrid_loop ROps fuel p jn js st') <> Err e).
  assert (HS' : SInv st' /\ h_t st <= h_t st').
  { destruct (fires_dec (h_t st + h) (flow (h_t st) h (h_x st))) as [Hfi|Hfi].
    - destruct (event_inv st st' h old ck HS Ht Ha Hfi Ei) as (HS' & t' & x' & d & cb & Hl & Hin & E). split; auto.
      rewrite E. cbn [h_t]. destruct Hin as (_ & Hin & _). lra.
    - split; [eapply quiet_inv; eauto|].
      pose proof (hybrid_iter_quiet st h old ck (proj1 HS) Ha Hfi) as E. rewrite E in Ei. clear E. cbv zeta in Ei.
      destruct (Rleb _ 1); injection Ei as <-; cbn [h_t]; lra. }
  apply IH; [apply HS'|lra].
Qed.
End Pers.

(** ** No events, every step ending at a requested time accepted: all requested times are output *)
Section NoEvents.
Hypothesis Hquiet : forall t x, length x = n -> ~ fires cbs t x.
Hypothesis Hacc : forall t c x, In c t_eval -> t <= c -> length x = n -> hacc t (c - t) x.

Definition CInv (st : hst) : Prop :=
  SInv st /\ In (h_t st) (h_times st) /\ forall c, In c (firstn (h_ck st) t_eval) -> In c (h_times st).

Lemma hybrid_loop_complete fuel : forall jn js (st : hst) times sol, CInv st -> (jn < js)%nat ->
  snd (@hybrid_loop ROps fuel p jn js st) = Ok (times, sol) ->
  forall c, In c t_eval -> In c times.
Proof.
  induction fuel as [|fuel IH]; intros jn js st times sol HC Hj Hr; apply loop_unfold in Hr;
    (destruct Hr as [[E Hend]|(fuel' & st' & Ef & Ht & Ei & El)];
    [injection E as -> ->; destruct HC as (HS & Hin & Hck); intros c Hc; destruct Hend as [HT|]; [|lia];
     rewrite <- (firstn_skipn (h_ck st) t_eval) in Hc; apply in_app_or in Hc; destruct Hc as [Hc|Hc]; [now apply Hck|];
     destruct HS as (_ & _ & HtT & Hrest & _); 
     assert (c = h_t st) as -> by
      (specialize (Hrest c Hc); 
       assert (In c t_eval) by (rewrite <- (firstn_skipn (h_ck st) t_eval); apply in_or_app; now right);
       specialize (HTle c H); lra); exact Hin|]).
  { discriminate. }
  injection Ef as <-.
  destruct (@hybrid_attempt ROps p st) as [[h old] ck] eqn:Ha. destruct HC as (HS & Hin & Hck).
  destruct (attempt_inv st h old ck HS Ht Ha) as (A1 & A2 & A3 & A4 & A5).
  assert (Hfi : ~ fires cbs (h_t st + h) (flow (h_t st) h (h_x st))) by (apply Hquiet, h_len, HS).
  pose proof (quiet_inv st st' h old ck HS Ht Ha Hfi Ei) as HS'.
  pose proof (hybrid_iter_quiet st h old ck (proj1 HS) Ha Hfi) as E. rewrite E in Ei. clear E. cbv zeta in Ei.
  apply (IH jn js st' times sol); auto.
  assert (Hpre : forall c, In c (firstn ck t_eval) -> In c (h_times st) \/ (c = h_t st + h /\ hacc (h_t st) h (h_x st))).
  { intros c Hc. destruct A5 as [[-> _]|(-> & c' & r & Er & Ec')]; [left; now apply Hck|].
    destruct (nth_error_skipn _ _ _ _ Er) as [Hn _].
    assert (Hin' : In c' t_eval) by (eapply nth_error_In; eauto).
    assert (Efs : firstn (S (h_ck st)) t_eval = firstn (h_ck st) t_eval ++ [c']).
    { clear -Hn. revert Hn. generalize (h_ck st) as k. intros k. revert t_eval. induction k; intros [|a l] H; try discriminate.
      - injection H as ->. reflexivity. - cbn in H. cbn [firstn app]. f_equal. now apply IHk. }
    rewrite Efs in Hc. apply in_app_or in Hc. destruct Hc as [Hc|[<-|[]]]; [left; now apply Hck|right].
    split; auto. replace h with (c' - h_t st) by (rewrite Ec'; ring). apply Hacc; auto; [lra|apply HS]. }
  destruct (Rleb_spec (hrat (h_t st) h (h_x st)) 1) as [Hr1|Hr1]; injection Ei as <-; (split; [exact HS'|]); cbn [h_t h_times h_ck].
  - split; [apply in_or_app; right; now left|]. intros c Hc. apply in_or_app.
    destruct (Hpre c Hc) as [H|[-> _]]; [now left|right; now left].
  - split; auto. intros c Hc. destruct (Hpre c Hc) as [H|[-> H]]; auto.
    apply hrat_acc in H. lra.
Qed.
End NoEvents.
End Hyb.

(** ** odeint_hybrid *)
Section Top.
Variables (s : solver ROps (vec ROps)) (rows : list (R * list R)) (b bh : list R).
Hypothesis HB : builtin_pair s rows b bh.
Variables (n : nat) (f : R -> rvec -> rvec).
Hypothesis Hf : field_on n f.
Variables (cbs : list cbk) (atol rtol etol : R) (semi : option nat).
Hypothesis Hjump : forall cb t x, In cb cbs -> length x = n -> length (snd cb t x) = n.

Lemma odeint_hybrid_start fuel x t0 t1 ts js jf : length x = n ->
  exists x0 jn dt, started cbs t0 x jf x0 jn /\ length x0 = n /\ 0 < dt /\
  snd (@odeint_hybrid ROps fuel f x (t0 :: t1 :: ts) js s (mkcbs cbs) atol rtol etol jf semi) =
  snd (@hybrid_loop ROps fuel (@MkHP ROps f s (mkcbs cbs) (last (t1 :: ts) t0) (t1 :: ts) atol rtol etol semi) jn js
     (@MkH ROps t0 dt x0 (Some (f t0 x0)) 0 None [t0] [x0])).
Proof.
  intros Hx. unfold odeint_hybrid.
  assert (X : exists x0 jn, started cbs t0 x jf x0 jn /\ length x0 = n /\
    snd (if jf then
           let flags := @event_flags ROps (mkcbs cbs) t0 x in
           if triggered flags (map (fun _ => false) (mkcbs cbs)) then
             mbind (mlift (first_true flags)) (fun i => mbind (mlift (pyget (mkcbs cbs) i)) (fun cb =>
             mret (jump_map cb t0 x, 1%nat)))
           else mret (x, 0%nat)
         else @mret (R * rvec) _ (x, 0%nat)) = Ok (x0, jn)).
  { destruct jf; cbv zeta.
    - destruct (triggered _ _) eqn:E.
      + apply triggered_flags in E. destruct (first_firing_ok _ _ _ E) as (i & Hi). 
        destruct (first_firing _ _ _ _ Hi) as (cb & Hl & Hg).
        exists (snd cb t0 x), 1%nat. split; [left; eauto|]. split.
        { apply Hjump; auto. destruct Hl as (bf & af & -> & _). apply in_or_app; right; now left. }
        rewrite Hi. cbn [mlift mbind snd]. rewrite Hg. reflexivity.
      + apply triggered_flags_f in E. exists x, 0%nat. split; [right; auto|]. auto.
    - exists x, 0%nat. split; [right; auto|]. auto. }
  destruct X as (x0 & jn & H1 & H2 & H3).
  destruct (init_step_value f (f t0 x0) x0 t0 (s_order s) atol rtol) as (dt & lg & E & Hd & _).
  exists x0, jn, dt. split; auto. split; auto. split; auto.
  etransitivity; [apply (snd_bind_ok _ _ t0); reflexivity|].
  assert (El : @pylast R (t0 :: t1 :: ts) = Ok (last (t1 :: ts) t0)).
  { rewrite (pylast_last _ t0) by discriminate. reflexivity. }
  etransitivity; [apply (snd_bind_ok _ _ (last (t1 :: ts) t0)); exact El|]. cbv zeta.
  etransitivity; [apply (snd_bind_ok _ _ (x0, jn)); exact H3|]. cbv beta iota zeta.
  etransitivity; [apply (snd_bind_ok _ _ (f t0 x0)); reflexivity|].
  etransitivity; [apply (snd_bind_ok _ _ dt); exact (f_equal snd E)|].
  reflexivity.
Qed.

Lemma start_inv t0 t1 ts x0 dt : StronglySorted Rlt (t0 :: t1 :: ts) -> length x0 = n -> 0 < dt ->
  SInv n f (last (t1 :: ts) t0) (t1 :: ts) (@MkH ROps t0 dt x0 (Some (f t0 x0)) 0 None [t0] [x0]).
Proof.
  intros Hs Hx Hd. apply StronglySorted_inv in Hs. destruct Hs as [Hs1 Hs2]. rewrite Forall_forall in Hs2.
  unfold SInv, HInv. cbn [h_x h_k1 h_t h_dt h_ck h_old skipn].
  assert (Hin : In (last (t1 :: ts) t0) (t1 :: ts)).
  { destruct (exists_last (l := t1 :: ts) ltac:(discriminate)) as (l & a & E). rewrite E, last_last.
    apply in_or_app; right; now left. }
  split; [split; auto|]. split; [lra|]. split; [apply Rlt_le, Hs2, Hin|]. split; [|discriminate].
  intros c Hc. apply Rlt_le, Hs2, Hc.
Qed.

Lemma last_max t0 t1 ts : StronglySorted Rlt (t1 :: ts) -> forall c, In c (t1 :: ts) -> c <= last (t1 :: ts) t0.
Proof.
  intros Hs c Hc. destruct (exists_last (l := t1 :: ts) ltac:(discriminate)) as (l & a & E). rewrite E in *. rewrite last_last.
  apply in_app_or in Hc. destruct Hc as [Hc|[<-|[]]]; [|lra].
  apply sorted_app_inv in Hs. destruct Hs as [_ Hs]. specialize (Hs c a Hc (or_introl eq_refl)). lra.
Qed.
End Top.
