(** Proofs of the properties of odeint_hybrid. *)
From Coq Require Import ZArith QArith Qreals Reals Lra Lia String List Bool Sorted Floats.
From Verif Require Import Num Py Tensor M_Constants M_SolversOde M_Utils M_Interp M_Odeint.
From Verif Require Import Spec_Ode Spec_Trees Spec_RK Spec_Norm Spec_Adaptive Spec_Hybrid.
From Verif Require Import L_Base L_Fixed L_Vec L_Steps L_Tables L_Steps2 L_Interp L_Utils L_Fixed2 L_Adaptive L_Run.
From Verif Require Import L_Adaptive2 L_Nan L_Hybrid L_Hybrid2 Pf_Adaptive.
Import ListNotations.
Local Open Scope R_scope.

(** ** Runs of several iterations, any number type *)
Section Steps.
Context {K : NumOps}.
Fixpoint hsteps (n : nat) (p : @hparams K) (st : @hstate K) : option (@hstate K) :=
  match n with
  | O => Some st
  | S n' => if nltb (h_t st) (hp_T p) then
              match snd (hybrid_iter p st) with Ok st' => hsteps n' p st' | _ => None end
            else None
  end.

Definition htup (st : @hstate K) :=
  (h_t st, h_dt st, h_x st, h_k1 st, h_ck st, h_old st, h_times st, h_sol st).
Lemma htup_inv st t dt x k1 ck old times sol : htup st = (t, dt, x, k1, ck, old, times, sol) ->
  st = MkH t dt x k1 ck old times sol.
Proof. destruct st. unfold htup. cbn. now intros [= -> -> -> -> -> -> -> ->]. Qed.
Lemma hsteps_tup n p st t dt x k1 ck old times sol :
  option_map htup (hsteps n p st) = Some (t, dt, x, k1, ck, old, times, sol) ->
  hsteps n p st = Some (MkH t dt x k1 ck old times sol).
Proof. destruct (hsteps n p st) as [st'|]; cbn; [|discriminate]. intros H. f_equal. apply htup_inv. congruence. Qed.
Lemma hsteps_loop n : forall p st st' m jn js, hsteps n p st = Some st' -> (jn < js)%nat ->
  snd (hybrid_loop (n + m) p jn js st) = snd (hybrid_loop m p jn js st').
Proof.
  induction n as [|n IH]; intros p st st' m jn js H Hj.
  - injection H as <-. reflexivity.
  - cbn [hsteps] in H. cbn [hybrid_loop Nat.add].
    destruct (nltb (h_t st) (hp_T p)); [|discriminate].
    rewrite (proj2 (Nat.ltb_lt _ _) Hj). cbn [andb].
    destruct (snd (hybrid_iter p st)) eqn:E; try discriminate.
    rewrite (snd_bind_ok _ _ _ E). now apply IH.
Qed.
Lemma hsteps_fuel n : forall p st st' k jn js, hsteps n p st = Some st' -> (jn < js)%nat -> (k < n)%nat ->
  snd (hybrid_loop k p jn js st) = OutOfFuel.
Proof.
  induction n as [|n IH]; intros p st st' k jn js H Hj Hk; [lia|].
  cbn [hsteps] in H. destruct (nltb (h_t st) (hp_T p)) eqn:Et; [|discriminate].
  destruct (snd (hybrid_iter p st)) eqn:E; try discriminate.
  destruct k as [|k]; cbn [hybrid_loop]; rewrite Et, (proj2 (Nat.ltb_lt _ _) Hj); cbn [andb]; [reflexivity|].
  rewrite (snd_bind_ok _ _ _ E). apply (IH p a st' k); auto. lia.
Qed.
End Steps.

Lemma hybrid_start_any {K : NumOps} fuel f (x : vec K) ts js s cbs atol rtol etol jf semi t T dt :
  pyget ts 0 = Ok t -> pylast ts = Ok T -> triggered (event_flags cbs t x) (map (fun _ => false) cbs) = false ->
  snd (init_step f (f t x) x t (s_order s) atol rtol) = Ok dt ->
  snd (@odeint_hybrid K fuel f x ts js s cbs atol rtol etol jf semi) =
  snd (hybrid_loop fuel (MkHP f s cbs T (skipn 1 ts) atol rtol etol semi) 0 js
         (MkH t dt x (Some (f t x)) 0 None [t] [x])).
Proof.
  intros H1 H2 H3 H4. unfold odeint_hybrid.
  etransitivity; [apply (snd_bind_ok _ _ t); cbn; exact H1|].
  etransitivity; [apply (snd_bind_ok _ _ T); cbn; exact H2|]. cbv zeta.
  etransitivity; [apply (snd_bind_ok _ _ (x, 0%nat)); rewrite H3; destruct jf; reflexivity|]. cbv beta iota zeta.
  etransitivity; [apply (snd_bind_ok _ _ (f t x)); reflexivity|].
  etransitivity; [apply (snd_bind_ok _ _ dt); exact H4|]. reflexivity.
Qed.
Lemma snd_bind_ext {E A B} (m : M E A) (k k' : A -> M E B) :
  (forall a, snd (k a) = snd (k' a)) -> snd (mbind m k) = snd (mbind m k').
Proof. intros H. unfold mbind. destruct (snd m); auto. apply H. Qed.
Lemma snd_bind_ext_in {E A B} (m : M E A) (k k' : A -> M E B) :
  (forall a, snd m = Ok a -> snd (k a) = snd (k' a)) -> snd (mbind m k) = snd (mbind m k').
Proof. intros H. unfold mbind. destruct (snd m) eqn:Em; auto. apply H. reflexivity. Qed.
Lemma snd_bind_inv {E A B} (m : M E A) (k : A -> M E B) b :
  snd (mbind m k) = Ok b -> exists a, snd m = Ok a /\ snd (k a) = Ok b.
Proof. unfold mbind. destruct (snd m) eqn:Em; cbn; try discriminate. intros H. eauto. Qed.

(** Callbacks on scalar float states *)
Definition fcb (pw : float -> float -> float) (e : float -> float -> bool) (j : float -> float -> float)
  : @callback (FloatOps pw) :=
  @MkCb (FloatOps pw) (fun t x => e t (hd 0%float x)) (fun t x => [j t (hd 0%float x)]).

(** C34.  Every odeint_hybrid solve that returns is a hybrid run: each output is the end of a quiet,
    accepted solver step, or belongs to a pair of consecutive outputs at the same time, the second
    being the jump map, applied to the first, of the lowest-index callback that fires at the end of
    a further step from there.
    [mkcbs] builds the callback objects from (event test, jump map) pairs. *)
Lemma C34_event_outputs_pf :
  forall fuel s rows b bh n f x t0 t1 ts j_span cbs atol rtol etol jump_first semi times sol,
  builtin_pair s rows b bh -> field_on n f -> List.length x = n -> 0 <= etol ->
  (forall cb t y, In cb cbs -> List.length y = n -> List.length (snd cb t y) = n) ->
  snd (@odeint_hybrid ROps fuel f x (t0 :: t1 :: ts) j_span s (mkcbs cbs) atol rtol etol jump_first semi)
    = Ok (times, sol) ->
  let flow := erk_step rows b f in
  let accepted t h y := scaled_error atol rtol semi y (flow t h y)
                          (minus_list (flow t h y) (erk_step rows bh f t h y)) <= 1 in
  exists x0 jn out, started cbs t0 x jump_first x0 jn /\
    times = t0 :: map fst out /\ sol = x0 :: map snd out /\
    hrun flow accepted cbs (fun _ _ _ _ _ _ => True) t0 x0 out.
Proof.
  intros fuel s rows b bh n f x t0 t1 ts js cbs atol rtol etol jf semi times sol HB Hf Hx He Hj Hr flow accepted.
  destruct (odeint_hybrid_start s n f cbs atol rtol etol semi Hj fuel x t0 t1 ts js jf Hx) as (x0 & jn & dt & Hs & Hx0 & Hd & E).
  apply (eq_trans (eq_sym E)) in Hr.
  match type of Hr with snd (hybrid_loop _ _ _ _ ?st) = _ => assert (HI : HInv n f st) end.
  { split; [exact Hx0|now right]. }
  destruct (hybrid_loop_run s rows b bh HB n f Hf cbs (last (t1 :: ts) t0) (t1 :: ts) atol rtol etol semi Hj fuel jn js _ times sol HI He Hr)
    as (out & E1 & E2 & Hrun).
  exists x0, jn, out. auto.
Qed.

(** C34 (what holds of the times) and C37.  If events persist until the jump ([persistent]) and t_span
    is increasing, then returned times never decrease and stay within t_span, and every event is located
    inside the step that triggered it; if that step is at most 4096 event tolerances long, it is located
    within one event tolerance. *)
Lemma C37_inside_step_pf :
  forall fuel s rows b bh n f x t0 t1 ts j_span cbs atol rtol etol jump_first semi times sol,
  builtin_pair s rows b bh -> field_on n f -> List.length x = n -> 0 < etol ->
  (forall cb t y, In cb cbs -> List.length y = n -> List.length (snd cb t y) = n) ->
  increasing (t0 :: t1 :: ts) ->
  let flow := erk_step rows b f in
  let accepted t h y := scaled_error atol rtol semi y (flow t h y)
                          (minus_list (flow t h y) (erk_step rows bh f t h y)) <= 1 in
  persistent flow cbs (fun y => List.length y = n) ->
  snd (@odeint_hybrid ROps fuel f x (t0 :: t1 :: ts) j_span s (mkcbs cbs) atol rtol etol jump_first semi)
    = Ok (times, sol) ->
  nondecreasing times /\ (forall c, In c times -> t0 <= c <= last (t1 :: ts) t0) /\
  exists x0 jn out, started cbs t0 x jump_first x0 jn /\
    times = t0 :: map fst out /\ sol = x0 :: map snd out /\
    hrun flow accepted cbs (inside etol) t0 x0 out.
Proof.
  intros fuel s rows b bh n f x t0 t1 ts js cbs atol rtol etol jf semi times sol HB Hf Hx He Hj Hinc flow accepted Hp Hr.
  apply increasing_sorted in Hinc.
  destruct (odeint_hybrid_start s n f cbs atol rtol etol semi Hj fuel x t0 t1 ts js jf Hx) as (x0 & jn & dt & Hs & Hx0 & Hd & E).
  apply (eq_trans (eq_sym E)) in Hr. pose proof (proj1 (StronglySorted_inv Hinc)) as Hs1.
  pose proof (start_inv n f t0 t1 ts x0 dt Hinc Hx0 Hd) as HS.
  destruct (hybrid_loop_inside s rows b bh HB n f Hf cbs _ _ atol rtol etol semi Hj Hs1 Hp He fuel jn js _ times sol HS Hr)
    as (out & -> & -> & Hrun & Hnd & Hb).
  split; [exact Hnd|]. split.
  - intros c [<-|Hc]; [|apply (Hb c Hc)]. destruct HS as (_ & _ & HS & _). cbn [h_t] in *. split; [apply Rle_refl|exact HS].
  - exists x0, jn, out. auto.
Qed.

(** C37.  With persistent events and a t_span not longer than 4096 event tolerances, a hybrid solve
    never raises. *)
Lemma C37_never_raises_pf :
  forall fuel s rows b bh n f x t0 t1 ts j_span cbs atol rtol etol jump_first semi e,
  builtin_pair s rows b bh -> field_on n f -> List.length x = n -> 0 < etol ->
  (forall cb t y, In cb cbs -> List.length y = n -> List.length (snd cb t y) = n) ->
  increasing (t0 :: t1 :: ts) ->
  persistent (erk_step rows b f) cbs (fun y => List.length y = n) ->
  last (t1 :: ts) t0 - t0 <= 4096 * etol ->
  snd (@odeint_hybrid ROps fuel f x (t0 :: t1 :: ts) j_span s (mkcbs cbs) atol rtol etol jump_first semi) <> Err e.
Proof.
  intros fuel s rows b bh n f x t0 t1 ts js cbs atol rtol etol jf semi e HB Hf Hx He Hj Hinc Hp Hsm.
  apply increasing_sorted in Hinc.
  destruct (odeint_hybrid_start s n f cbs atol rtol etol semi Hj fuel x t0 t1 ts js jf Hx) as (x0 & jn & dt & Hs & Hx0 & Hd & E).
  intros Hr. apply (eq_trans (eq_sym E)) in Hr. revert Hr. pose proof (proj1 (StronglySorted_inv Hinc)) as Hs1.
  exact (hybrid_loop_no_error s rows b bh HB n f Hf cbs _ _ atol rtol etol semi Hj Hs1 Hp He fuel jn js _ e
    (start_inv n f t0 t1 ts x0 dt Hinc Hx0 Hd) Hsm).
Qed.

(** A sawtooth (unit slope, reset from 1 to 0) meets the hypotheses of C34 and C37. *)
Lemma C37_ex_pf :
  let rows := to_R_rows q_dopri5 in let b := to_R qb5_dopri5 in let bh := to_R qb4_dopri5 in
  let f := fun (t : R) (x : list R) => [1] in
  let cbs := [(fun (t : R) (x : list R) => Rleb 1 (hd 0 x), fun (t : R) (x : list R) => [hd 0 x - 1])] in
  builtin_pair (DormandPrince45 ROps) rows b bh /\ field_on 1 f /\
  (forall cb t y, In cb cbs -> List.length y = 1%nat -> List.length (snd cb t y) = 1%nat) /\
  increasing [0; 3/10] /\ persistent (erk_step rows b f) cbs (fun y => List.length y = 1%nat) /\
  last [3/10] 0 - 0 <= 4096 * (1/10000).
Proof.
  cbv zeta. split; [left; auto|]. split; [intros t x _; reflexivity|]. split.
  { intros cb t y [<-|[]] _. reflexivity. }
  split.
  { intros i j a c Hij Ha Hc. destruct i as [|[|i]], j as [|[|j]]; try lia; cbn in Ha, Hc; try discriminate.
    - injection Ha as <-. injection Hc as <-. lra.
    - destruct j; discriminate. - destruct j; discriminate. - destruct i; discriminate. }
  split; [|cbn; lra].
  assert (Hflow : forall t h u, erk_step (to_R_rows q_dopri5) (to_R qb5_dopri5) (fun _ _ => [1]) t h [u] = [u + h]).
  { intros t h u. pose proof (step_scalar (to_R_rows q_dopri5) (to_R qb5_dopri5) (fun _ => 1) t h u) as E.
    unfold scalar_field in E. rewrite E. f_equal. f_equal. rewrite <- (Rmult_1_r h) at 2. f_equal.
    unfold to_R_rows, to_R. cbn [map q_dopri5 qb5_dopri5 fst snd dotp]. unfold Q2R; simpl. field. }
  set (flow := erk_step (to_R_rows q_dopri5) (to_R qb5_dopri5) (fun _ _ => [1])) in *.
  set (cbs := [(_, _)]).
  assert (Hfi : forall t u, fires cbs t [u] <-> 1 <= u).
  { intros t u. unfold fires, cbs. split.
    - intros (cb & [<-|[]] & H). cbn in H. now apply Rleb_true in H.
    - intros H. eexists. split; [now left|]. cbn. now apply Rleb_true. }
  assert (Hq : forall t u t' x', quiet flow cbs t [u] t' x' -> x' = [u + (t' - t)]).
  { intros t u t' x' H. remember [u] as x eqn:Ex. revert u Ex. induction H as [t x|t d x t2 x2 H1 H2 H3 IH]; intros u ->.
    - f_equal. lra. - rewrite (IH (u + d)) by apply Hflow. f_equal. lra. }
  intros t h x t' x' d Hx Hh Hfr Hqt Hlt Hge.
  destruct x as [|u [|v x]]; try discriminate. rewrite Hflow in Hfr. apply Hfi in Hfr.
  rewrite (Hq _ _ _ _ Hqt), Hflow. apply Hfi. lra.
Qed.

(** C34, refuted (times never decrease).  In binary64, whatever the power function: zero field,
    t_span [0, 0.5, 0.6, 10], an event that fires around t = 0.5 and from t = 2 on.  The event is
    located near t = 2, past the requested time 0.6; the solver then steps back to 0.6. *)
Lemma C34_times_decrease_refuted_pf :
  forall pw : float -> float -> float,
  exists f x ts cbs times sol,
    snd (@odeint_hybrid (FloatOps pw) 50 f x ts 5 (DormandPrince45 (FloatOps pw)) cbs
      0.001%float 0.001%float 0.0001%float true None) = Ok (times, sol) /\
    exists i a c, nth_error times i = Some a /\ nth_error times (S i) = Some c /\ PrimFloat.ltb c a = true.
Proof.
  intros pw. exists (fun _ _ => [0%float]), [0%float], [0%float; 0.5%float; 0.6%float; 10%float].
  exists [fcb pw (fun t x => PrimFloat.eqb x 0 && (PrimFloat.leb 2 t || (PrimFloat.ltb 0.4999 t && PrimFloat.ltb t 0.5001)))
             (fun t x => 1%float)].
  do 2 eexists. split; [vm_compute; reflexivity|].
  exists 8%nat. do 2 eexists. split; [reflexivity|]. split; [reflexivity|]. reflexivity.
Qed.

(** C37, refuted (inside the step).  The same kind of event over t_span [0, 1]: the event is located
    near t = 2, after the end of t_span. *)
Lemma C37_outside_step_refuted_pf :
  forall pw : float -> float -> float,
  exists f x ts cbs times sol,
    snd (@odeint_hybrid (FloatOps pw) 50 f x ts 5 (DormandPrince45 (FloatOps pw)) cbs
      0.001%float 0.001%float 0.0001%float true None) = Ok (times, sol) /\
    PrimFloat.ltb (last ts 0%float) (last times 0%float) = true.
Proof.
  intros pw. exists (fun _ _ => [0%float]), [0%float], [0%float; 1%float].
  exists [fcb pw (fun t x => PrimFloat.eqb x 0 && (PrimFloat.leb 2 t || (PrimFloat.ltb 0.9999 t && PrimFloat.ltb t 1.0001)))
             (fun t x => 1%float)].
  do 2 eexists. split; [vm_compute; reflexivity|]. reflexivity.
Qed.

(** C37, refuted (never crashes).  Zero field over [0, 10] with one persistent event "t >= 1.0798011"
    and default tolerances: the bisection uses up its 100 iterations on a state where nothing fires and
    [min] of an empty list raises ValueError. *)
Lemma C37_crash_refuted_pf :
  forall pw : float -> float -> float,
  exists f x ts cbs,
    snd (@odeint_hybrid (FloatOps pw) 50 f x ts 5 (DormandPrince45 (FloatOps pw)) cbs
      0.001%float 0.001%float 0.0001%float true None) = Err ValueError.
Proof.
  intros pw. exists (fun _ _ => [0%float]), [0%float], [0%float; 10%float].
  exists [fcb pw (fun t x => PrimFloat.leb 1.0798011 t) (fun t x => x)].
  vm_compute. reflexivity.
Qed.

(** C35 (what holds).  If no callback fires and every step that ends at a requested time is accepted,
    the returned times contain all of t_span. *)
Lemma C35_requested_times_partial_pf :
  forall fuel s rows b bh n f x t0 t1 ts j_span cbs atol rtol etol jump_first semi times sol,
  builtin_pair s rows b bh -> field_on n f -> List.length x = n -> 0 < etol ->
  (forall cb t y, In cb cbs -> List.length y = n -> List.length (snd cb t y) = n) ->
  increasing (t0 :: t1 :: ts) -> (1 <= j_span)%nat ->
  (forall t y, List.length y = n -> ~ fires cbs t y) ->
  let flow := erk_step rows b f in
  let accepted t h y := scaled_error atol rtol semi y (flow t h y)
                          (minus_list (flow t h y) (erk_step rows bh f t h y)) <= 1 in
  (forall t c y, In c (t1 :: ts) -> t <= c -> List.length y = n -> accepted t (c - t) y) ->
  snd (@odeint_hybrid ROps fuel f x (t0 :: t1 :: ts) j_span s (mkcbs cbs) atol rtol etol jump_first semi)
    = Ok (times, sol) ->
  forall c, In c (t0 :: t1 :: ts) -> In c times.
Proof.
  intros fuel s rows b bh n f x t0 t1 ts js cbs atol rtol etol jf semi times sol HB Hf Hx He Hj Hinc Hjs Hq flow accepted Hacc Hr.
  apply increasing_sorted in Hinc.
  destruct (odeint_hybrid_start s n f cbs atol rtol etol semi Hj fuel x t0 t1 ts js jf Hx) as (x0 & jn & dt & Hs & Hx0 & Hd & E).
  apply (eq_trans (eq_sym E)) in Hr. pose proof (proj1 (StronglySorted_inv Hinc)) as Hs1.
  pose proof (start_inv n f t0 t1 ts x0 dt Hinc Hx0 Hd) as HS.
  assert (Hjn : (jn < js)%nat).
  { destruct Hs as [(cb & _ & Hl & _)|(_ & _ & ->)]; [|lia]. exfalso. apply (Hq t0 x Hx).
    destruct Hl as (bf & af & -> & Hcb & _). exists cb. split; [apply in_or_app; right; now left|exact Hcb]. }
  assert (HC : CInv n f (last (t1 :: ts) t0) (t1 :: ts) (@MkH ROps t0 dt x0 (Some (f t0 x0)) 0 None [t0] [x0])).
  { split; [exact HS|]. cbn [h_t h_times h_ck firstn]. split; [now left|intros ? []]. }
  intros c [<-|Hc].
  - destruct (hybrid_loop_run s rows b bh HB n f Hf cbs (last (t1 :: ts) t0) (t1 :: ts) atol rtol etol semi Hj
      fuel jn js _ times sol (proj1 HS) (Rlt_le _ _ He) Hr) as (out & -> & _). now left.
  - exact (hybrid_loop_complete s rows b bh HB n f Hf cbs (last (t1 :: ts) t0) (t1 :: ts) atol rtol etol semi Hs1
      (last_max t0 t1 ts Hs1) Hq Hacc fuel jn js _ times sol HC Hjn Hr c Hc).
Qed.

Definition spike (t : float) (_ : list float) : list float :=
  [if PrimFloat.ltb 0.000377 t && PrimFloat.ltb t 0.000378 then 1e200 else 0]%float.
Definition spike_p pw : hparams (FloatOps pw) :=
  @MkHP (FloatOps pw) spike (DormandPrince45 (FloatOps pw)) [] 1%float [0.001%float; 1%float]
              0.001%float 0%float 0.0001%float None.
Definition zero_st0 pw : hstate (FloatOps pw) :=
  @MkH (FloatOps pw) 0%float 1e-6%float [0%float] (Some [0%float]) 0 None [0%float] [[0%float]].
Definition half_cbs pw := [fcb pw (fun t x => PrimFloat.leb 0.5 t) (fun t x => x)].
Definition half_p pw : hparams (FloatOps pw) :=
  @MkHP (FloatOps pw) (fun _ _ => [0%float]) (DormandPrince45 (FloatOps pw)) (half_cbs pw) 10%float [10%float]
              0.001%float 0.001%float 0.0001%float None.

(** C35, refuted.  No callbacks, t_span [0, 0.001, 1], a field with a spike: the step ending at 0.001
    is rejected, but the checkpoint counter has already advanced and 0.001 is never output.
    Assumes only that the power function maps infinity to infinity, as IEEE pow does. *)
Lemma C35_rejected_time_lost_refuted_pf :
  forall pw : float -> float -> float, pw infinity (1 / 5)%float = infinity ->
  exists f x ts times sol,
    snd (@odeint_hybrid (FloatOps pw) 50 f x ts 5 (DormandPrince45 (FloatOps pw)) []
      0.001%float 0%float 0.0001%float true None) = Ok (times, sol) /\
    exists c, In c ts /\ existsb (fun t => PrimFloat.leb (c - 1e-5) t && PrimFloat.leb t (c + 1e-5)) times = false.
Proof.
  intros pw Hpw. vm_compute in Hpw.
  exists spike, [0%float], [0%float; 0.001%float; 1%float].
  assert (E0 : forall fuel, snd (@odeint_hybrid (FloatOps pw) fuel spike [0%float] [0%float; 0.001%float; 1%float] 5
    (DormandPrince45 (FloatOps pw)) [] 0.001%float 0%float 0.0001%float true None) = snd (hybrid_loop fuel (spike_p pw) 0 5 (zero_st0 pw))).
  { intros fuel. apply (@hybrid_start_any (FloatOps pw) fuel spike [0%float] [0%float; 0.001%float; 1%float] 5); reflexivity. }
  eassert (E1 : hsteps 3 (spike_p pw) (zero_st0 pw) = Some (MkH _ _ _ _ _ _ _ _)). { apply hsteps_tup. vm_compute. reflexivity. }
  match type of E1 with _ = Some ?st => set (st1 := st) in E1 end.
  eassert (E2 : hsteps 1 (spike_p pw) st1 = Some (MkH _ _ _ _ _ _ _ _)). { apply hsteps_tup. vm_compute. rewrite Hpw. vm_compute. reflexivity. }
  match type of E2 with _ = Some ?st => set (st2 := st) in E2 end.
  do 2 eexists. split.
  { rewrite E0. change 50%nat with (3 + (1 + 46))%nat.
    rewrite (hsteps_loop _ _ _ _ _ _ _ E1) by lia. rewrite (hsteps_loop _ _ _ _ _ _ _ E2) by lia.
    vm_compute. reflexivity. }
  exists 0.001%float. split; [right; now left|]. reflexivity.
Qed.

(** C36 (what the code does).  j_span does not bound the number of jumps: the result is the same for
    every j_span >= 2, and for every j_span >= 1 if there is no jump at the start. *)
Lemma C36_j_span_ignored_pf :
  forall (K : NumOps) fuel f x t_span j1 j2 s cbs atol rtol etol jump_first semi,
  (2 <= j1)%nat -> (2 <= j2)%nat ->
  snd (@odeint_hybrid K fuel f x t_span j1 s cbs atol rtol etol jump_first semi) =
  snd (@odeint_hybrid K fuel f x t_span j2 s cbs atol rtol etol jump_first semi).
Proof.
  intros K fuel f x ts j1 j2 s cbs atol rtol etol jf semi H1 H2. unfold odeint_hybrid.
  assert (L : forall k p jn st, (jn < 2)%nat -> snd (@hybrid_loop K k p jn j1 st) = snd (hybrid_loop k p jn j2 st)).
  { induction k as [|k IH]; intros p jn st Hj; cbn [hybrid_loop];
      rewrite (proj2 (Nat.ltb_lt jn j1)), (proj2 (Nat.ltb_lt jn j2)) by lia;
      destruct (nltb _ _); cbn [andb]; try reflexivity.
    apply snd_bind_ext. intros st'. now apply IH. }
  apply snd_bind_ext; intros t. apply snd_bind_ext; intros T. cbv zeta.
  apply snd_bind_ext_in; intros [x0 jn] Hx0. apply snd_bind_ext; intros k1. apply snd_bind_ext; intros dt. apply L.
  destruct jf; [|injection Hx0 as <- <-; lia].
  destruct (triggered _ _); [|injection Hx0 as <- <-; lia].
  apply snd_bind_inv in Hx0. destruct Hx0 as (i & _ & Hx0).
  apply snd_bind_inv in Hx0. destruct Hx0 as (cb & _ & Hx0). injection Hx0 as <- <-. lia.
Qed.

(** C36, refuted (at most j_span jumps).  Zero field over [0, 2], j_span = 1, an event met at
    t = 0.25, 0.5, 0.75 and 1 with jump x + 0.25: four jumps are made. *)
Lemma C36_jump_count_refuted_pf :
  forall pw : float -> float -> float,
  exists f x ts cbs times sol,
    snd (@odeint_hybrid (FloatOps pw) 50 f x ts 1 (DormandPrince45 (FloatOps pw)) cbs
      0.001%float 0.001%float 0.01%float true None) = Ok (times, sol) /\
    last sol [] = [1%float] /\
    (* the field is zero and every jump adds exactly 1/4 *)
    x = [0%float] /\ (forall t y, f t y = [0%float]) /\
    (forall cb t y, In cb cbs -> jump_map cb t [y] = [y + 0.25]%float).
Proof.
  intros pw. exists (fun _ _ => [0%float]), [0%float], [0%float; 2%float].
  exists [fcb pw (fun t x => PrimFloat.leb (x + 0.25) t && PrimFloat.ltb x 1) (fun t x => x + 0.25)%float].
  do 2 eexists. split; [vm_compute; reflexivity|]. split; [reflexivity|]. split; [reflexivity|].
  split; [reflexivity|]. intros cb t y [<-|[]]. reflexivity.
Qed.

(** C36, refuted (terminates after j_span jumps).  Zero field over [0, 10], j_span = 1, one event
    "t >= 0.5" with an identity jump: the loop never ends, as it jumps forever just before t = 0.5. *)
Lemma C36_hang_refuted_pf :
  forall pw : float -> float -> float,
  exists f x ts cbs, forall fuel,
    snd (@odeint_hybrid (FloatOps pw) fuel f x ts 1 (DormandPrince45 (FloatOps pw)) cbs
      0.001%float 0.001%float 0.0001%float true None) = OutOfFuel.
Proof.
  intros pw. exists (fun _ _ => [0%float]), [0%float], [0%float; 10%float], (half_cbs pw). intros fuel.
  transitivity (snd (hybrid_loop fuel (half_p pw) 0 1 (zero_st0 pw))).
  { apply (@hybrid_start_any (FloatOps pw) fuel (fun _ _ => [0%float]) [0%float] [0%float; 10%float] 1); reflexivity. }
  eassert (E1 : hsteps 7 (half_p pw) (zero_st0 pw) = Some (MkH _ _ _ _ _ _ _ _)). { apply hsteps_tup. vm_compute. reflexivity. }
  destruct (Nat.lt_ge_cases fuel 7) as [Hf|Hf].
  { apply (hsteps_fuel 7 (half_p pw) (zero_st0 pw) _ fuel 0 1 E1); lia. }
  replace fuel with (7 + (fuel - 7))%nat by lia. rewrite (hsteps_loop _ _ _ _ _ _ _ E1) by lia.
  clear E1 Hf. generalize (fuel - 7)%nat as k.
  assert (X : forall k times sol, snd (hybrid_loop k (half_p pw) 0 1
    (@MkH (FloatOps pw) 0.49996598046875002%float 1%float [0%float] None 0 None times sol)) = OutOfFuel); [|intros k; apply X].
  induction k as [|k IH]; intros times sol.
  { vm_compute. reflexivity. }
  change (S k) with (1 + k)%nat.
  etransitivity; [|apply (IH (times ++ [0.49996598046875002; 0.49996598046875002]%float) (sol ++ [[0%float]; [0%float]]))].
  apply hsteps_loop; [|lia]. apply hsteps_tup. vm_compute. reflexivity.
Qed.
