(** States without axes. *)
From Coq Require Import ZArith QArith Lia List Bool Floats.
From Verif Require Import Num Py Tensor M_Constants M_SolversOde M_Utils M_Interp M_Odeint M_Dtype M_Autograd M_Cast M_Prom M_Scalar L_Rel Pf_Prom.
Import ListNotations.
Local Notation length := List.length.
Local Open Scope nat_scope.

(** All entries are Python numbers or tensors without axes *)
Definition no_axes {K} (v : vec (TypedOps K)) : Prop := Forall flat v.
(** A field that adds no axes to time and state *)
Definition adds_no_axes {K} (f : TypedOps K -> vec (TypedOps K) -> vec (TypedOps K)) : Prop :=
  forall t x, flat t -> no_axes x -> no_axes (f t x).
(** A field for states with one entry that keeps the axis if there is one *)
Definition keeps_axes {K} (f : TypedOps K -> vec (TypedOps K) -> vec (TypedOps K)) : Prop :=
  forall t a, exists b, f t [a] = [b] /\ (is_axes a = true -> is_axes b = true).

Section Ends.
Context {K : NumOps}.
Notation T := (TypedOps K).
Notation V := (vec T).

Definition ends {A} (m : M (T * V) A) (P : A -> Prop) : Prop := forall a, snd m = Ok a -> P a.
Lemma ends_ret {A} (a : A) (P : A -> Prop) : P a -> ends (mret a) P.
Proof. intros H b E. cbn in E. congruence. Qed.
Lemma ends_bind {A B} (m : M (T * V) A) (k : A -> M (T * V) B) P Q : ends m P -> (forall a, P a -> ends (k a) Q) -> ends (mbind m k) Q.
Proof.
  intros H Hk b. unfold mbind. destruct (snd m) as [a|e|] eqn:E; cbn; [|discriminate|discriminate]. apply (Hk a (H a E)).
Qed.
Lemma ends_lift {A} (r : res A) (P : A -> Prop) : (forall a, r = Ok a -> P a) -> ends (mlift r) P.
Proof. intros H. exact H. Qed.
Lemma ends_raise {A} e (P : A -> Prop) : ends (mraise e) P. Proof. discriminate. Qed.
Lemma ends_fuel {A} (P : A -> Prop) : ends (@mfuel _ A) P. Proof. discriminate. Qed.

(** ** Axes do not appear *)
Lemma fl_add (a b : T) : flat a -> flat b -> flat (nadd a b). Proof. apply flat_op. Qed.
Lemma fl_sub (a b : T) : flat a -> flat b -> flat (nsub a b). Proof. apply flat_op. Qed.
Lemma fl_mul (a b : T) : flat a -> flat b -> flat (nmul a b). Proof. apply flat_op. Qed.
Lemma fl_lit q : flat (nQ q : T). Proof. exact I. Qed.
Lemma na_add (u v : V) : no_axes u -> no_axes v -> no_axes (vadd u v).
Proof. intros Hu. revert v. induction Hu as [|a u Ha Hu IH]; intros v Hv; [constructor|]. destruct Hv; cbn; constructor; [now apply fl_add|now apply IH]. Qed.
Lemma na_scale (c : T) (v : V) : flat c -> no_axes v -> no_axes (vscale c v).
Proof. intros Hc Hv. induction Hv as [|a v Ha Hv IH]; cbn; constructor; [now apply fl_mul|exact IH]. Qed.
Lemma na_pow (a : T) n : flat a -> flat (npow a n).
Proof. intros H. induction n; cbn [npow]; [exact I|now apply fl_mul]. Qed.

Variable f : T -> V -> V.
Hypothesis Hf : adds_no_axes f.
Definition na_ret (r : step_ret V) : Prop := match r with Ret3 _ x _ => no_axes x | Ret4 _ _ _ _ => True end.
Definition na_step (s : @step_fun T V) : Prop := forall x t dt, no_axes x -> flat t -> flat dt -> ends (s f x t dt None) na_ret.
Lemma na_call t x : flat t -> no_axes x -> ends (call f t x) no_axes.
Proof. intros Ht Hx a E. cbn in E. injection E as <-. now apply Hf. Qed.
Lemma na_euler : na_step euler_step.
Proof.
  intros x t dt Hx Ht Hd. unfold euler_step. eapply ends_bind; [now apply na_call|]. intros k Hk. apply ends_ret. cbn. apply na_add; auto. now apply na_scale.
Qed.
Lemma na_midpoint : na_step midpoint_step.
Proof.
  intros x t dt Hx Ht Hd. unfold midpoint_step. eapply ends_bind; [now apply na_call|]. intros k Hk.
  assert (Hh : flat (nhalf * dt : T)%N) by (apply fl_mul; auto; exact I).
  eapply ends_bind; [apply na_call; [now apply fl_add|apply na_add; auto; now apply na_scale]|].
  intros k2 Hk2. apply ends_ret. cbn [na_ret]. apply na_add; auto. now apply na_scale.
Qed.

Lemma na_loop s t_span save_at : na_step s -> Forall flat t_span -> forall n steps x t dt sol,
  no_axes x -> flat t -> flat dt -> Forall no_axes sol ->
  ends (fixed_loop f s t_span save_at n steps x t dt sol) (Forall no_axes).
Proof.
  intros Hs Hts. induction n as [|n IH]; intros steps x t dt sol Hx Ht Hd Hsol; cbn [fixed_loop]; [now apply ends_ret|].
  eapply ends_bind; [now apply Hs|]. intros [u y w|? ? ? ?] Hr; [|apply ends_raise]. cbn [na_ret] in Hr.
  assert (Ht' : flat (t + dt : T)%N) by now apply fl_add.
  eapply (ends_bind _ _ flat).
  - destruct (_ <? _)%nat; [|now apply ends_ret]. eapply (ends_bind _ _ flat); [|intros tn Htn; apply ends_ret; now apply fl_sub].
    apply ends_lift. intros a Ha. rewrite Forall_forall in Hts. apply Hts. eapply pyget_In; eauto.
  - intros dt' Hdt'. apply IH; auto. destruct (_ =? _)%nat; auto. apply Forall_app. split; auto.
Qed.
Lemma na_fixed s t_span save_at x : na_step s -> Forall flat t_span -> no_axes x ->
  ends (fixed_odeint f x t_span s save_at) (fun r => snd r <> [] /\ Forall no_axes (snd r)).
Proof.
  intros Hs Hts Hx. unfold fixed_odeint. set (sv := match save_at with [] => t_span | _ => save_at end). clearbody sv. cbv zeta.
  destruct (negb _); [apply ends_raise|].
  assert (G : forall i, ends (mlift (pyget t_span i)) flat).
  { intros i. apply ends_lift. intros a Ha. rewrite Forall_forall in Hts. apply Hts. eapply pyget_In; eauto. }
  eapply ends_bind; [apply G|intros t0 Ht0]. eapply (ends_bind _ _ (fun _ => True)); [now intros a Ea|intros _ _].
  eapply ends_bind; [apply G|intros t1 Ht1]. eapply ends_bind.
  - apply na_loop; auto; [now apply fl_sub|]. destruct (_ =? _)%nat; auto.
  - intros sol Hsol. destruct sol; [apply ends_raise|]. apply ends_ret. split; [discriminate|exact Hsol].
Qed.
End Ends.

Lemma no_axes_shape {K} (v : vec (TypedOps K)) : no_axes v -> existsb is_axes v = false.
Proof. intros H. induction H as [|a v Ha H IH]; [reflexivity|]. change (is_axes a || existsb is_axes v = false). rewrite IH, orb_false_r.
  unfold flat in Ha. unfold is_axes. now destruct (snd a). Qed.
Lemma stack_no_axes {K} (sol : list (vec (TypedOps K))) : sol <> [] -> Forall no_axes sol -> stack sol = Ok sol.
Proof.
  intros Hn H. destruct sol as [|u rest]; [easy|]. cbn [stack]. inversion H as [|? ? Hu Hrest]; subst.
  replace (forallb (same_shape u) rest) with true; [reflexivity|]. symmetry. apply forallb_forall. intros v Hv.
  assert (Hv' : no_axes v) by now apply (proj1 (Forall_forall _ _) Hrest).
  unfold same_shape. exact (eq_trans (f_equal2 Bool.eqb (no_axes_shape u Hu) (no_axes_shape v Hv')) eq_refl).
Qed.
Lemma stacked_ok {K} (m : M (TypedOps K * vec (TypedOps K)) (list (TypedOps K) * list (vec (TypedOps K)))) :
  ends m (fun r => stack (snd r) = Ok (snd r)) -> fst (stacked m) = fst m /\ snd (stacked m) = snd m.
Proof.
  intros H. unfold stacked, mbind. destruct (snd m) as [[times sol]|e|] eqn:E; cbn; auto. pose proof (H _ E) as Hs. cbn [snd] in Hs. rewrite Hs. cbn.
  now rewrite app_nil_r.
Qed.
Lemma neg_no_axes {K} (f : TypedOps K -> vec (TypedOps K) -> vec (TypedOps K)) : adds_no_axes f -> adds_no_axes (neg_field f).
Proof.
  intros Hf t x Ht Hx. unfold neg_field, vopp. assert (H : no_axes (f (nopp t) x)) by (apply Hf; auto). induction H; cbn; constructor; auto.
Qed.

(** C152 (partial), Euler and Midpoint.  A state without axes gives the calls, the values and the exceptions of the solve
    of the state with one entry. *)
Lemma C152_fixed_partial_pf : forall (K : NumOps) (xd td : dtype) (F : TypedOps K -> vec (TypedOps K) -> vec (TypedOps K)) (f : K -> vec K -> vec K)
    (S : solver (TypedOps K) (vec (TypedOps K))) (s : solver K (vec K)) (fuel : nat) (a : K) (ts : list K) (save_at : list (TypedOps K))
    (atol rtol : TypedOps K) (interp all : bool) (semi : option nat),
  (S = Euler (TypedOps K) /\ s = Euler K) \/ (S = Midpoint (TypedOps K) /\ s = Midpoint K) ->
  adds_no_axes F -> computes F f ->
  let scalar := stacked (odeint_typed fuel td F (scalar_of xd a) (TTensor (times_of td ts)) S atol rtol interp all save_at semi) in
  let plain := odeint fuel f [a] (TTensor ts) s (fst atol) (fst rtol) interp all (untyped save_at) semi in
  untyped_calls (fst scalar) = fst plain /\ untyped_res (snd scalar) = snd plain.
Proof.
  intros K xd td F f S s fuel a ts sv atol rtol interp all semi HS HF HFf scalar plain.
  set (typed := odeint_typed fuel td F (scalar_of xd a) (TTensor (times_of td ts)) S atol rtol interp all sv semi) in *.
  assert (E : fst scalar = fst typed /\ snd scalar = snd typed).
  { apply stacked_ok. unfold typed, odeint_typed. unfold prep_time. cbn [ts_list]. pose proof (@times_flat K td ts) as Hts. set (tt := times_of td ts) in *. clearbody tt.
    assert (G : forall F_ l, adds_no_axes F_ -> Forall flat l -> ends (fixed_odeint F_ (scalar_of xd a) l (s_step S) sv) (fun r => stack (snd r) = Ok (snd r))).
    { intros F_ l HF_ Hl r Er. destruct (na_fixed F_ (s_step S) l sv (scalar_of xd a)) with (a := r) as [H1 H2]; auto.
      - destruct HS as [[-> _]|[-> _]]; [now apply na_euler|now apply na_midpoint].
      - constructor; [exact I|constructor].
      - now apply stack_no_axes. }
    assert (Efx : s_fixed S = true) by (destruct HS as [[-> _]|[-> _]]; reflexivity).
    destruct (pyget tt 1) as [t1| |]; cbn [rbind]; try discriminate. destruct (pyget tt 0) as [t0| |]; cbn [rbind]; try discriminate.
    eapply (ends_bind _ _ (fun ft => adds_no_axes (fst ft) /\ Forall flat (snd ft))).
    - apply ends_lift. intros [f_ l] E. destruct (nltb _ _); injection E as <- <-; cbn [fst snd]; split; auto; [now apply neg_no_axes|now apply opp_flat].
    - intros [f_ l] [H1 H2]. cbn [fst snd] in *. rewrite Efx. now apply G. }
  destruct E as [-> ->]. unfold typed, plain. change [a] with (untyped (@scalar_of K xd a)).
  replace ts with (untyped (@times_of K td ts)) at 2 4 by (unfold untyped, times_of; rewrite map_map; apply map_id).
  apply (C151_values_pf K td F f S s); auto. destruct HS as [[-> ->]|[-> ->]]; constructor.
Qed.

(** ** Axes appear *)
Section Appear.
Context {K : NumOps}.
Notation T := (TypedOps K).
Notation V := (vec T).

(** a state with one entry; one that has an axis *)
Definition one (v : V) : Prop := exists a, v = [a].
Definition one_axis (v : V) : Prop := exists a, v = [a] /\ is_axes a = true.
Lemma join_ax (a b : kind) : match a with Axes _ => true | _ => false end = true \/ match b with Axes _ => true | _ => false end = true ->
  match join a b with Axes _ => true | _ => false end = true.
Proof. destruct a, b; cbn; intros [H|H]; auto. Qed.
Lemma one_of v : one_axis v -> one v. Proof. intros (a & -> & _). now exists a. Qed.
Lemma one_add u v : one u -> one v -> one (vadd u v).
Proof. intros (a & ->) (b & ->). now exists (nadd a b). Qed.
Lemma one_scale c v : one v -> one (vscale c v).
Proof. intros (a & ->). now exists (nmul c a). Qed.
Lemma ax_add_l u v : one_axis u -> one v -> one_axis (vadd u v).
Proof. intros (a & -> & Ha) (b & ->). exists (nadd a b). split; [reflexivity|]. apply join_ax. now left. Qed.
Lemma ax_add_r u v : one u -> one_axis v -> one_axis (vadd u v).
Proof. intros (a & ->) (b & -> & Hb). exists (nadd a b). split; [reflexivity|]. apply join_ax. now right. Qed.
Lemma ax_scale c v : one_axis v -> one_axis (vscale c v).
Proof. intros (a & -> & Ha). exists (nmul c a). split; [reflexivity|]. apply join_ax. now right. Qed.
Lemma ax_scale_c c v : is_axes c = true -> one v -> one_axis (vscale c v).
Proof. intros Hc (a & ->). exists (nmul c a). split; [reflexivity|]. apply join_ax. now left. Qed.
Lemma axes_mul_r (c d : T) : is_axes d = true -> is_axes (nmul c d) = true.
Proof. intros H. apply join_ax. now right. Qed.

Variable f : T -> V -> V.
Hypothesis Hf : keeps_axes f.
Lemma call_one t x : one x -> ends (call f t x) one.
Proof. intros (a & ->) b E. destruct (Hf t a) as (c & Ec & _). exists c. rewrite <- Ec. symmetry. exact (f_equal (fun r => match r with Ok v => v | _ => b end) E). Qed.
Lemma call_axis t x : one_axis x -> ends (call f t x) one_axis.
Proof. intros (a & -> & Ha) b E. destruct (Hf t a) as (c & Ec & Hc). exists c. split; [|now apply Hc]. rewrite <- Ec. symmetry. exact (f_equal (fun r => match r with Ok v => v | _ => b end) E). Qed.
Lemma first_one x t k1 : one x -> match k1 with Some k => one k | None => True end -> ends (first_stage f x t k1) one.
Proof. destruct k1; cbn [first_stage]; intros; [now apply ends_ret|now apply call_one]. Qed.

Ltac ones := repeat first [assumption | apply one_add | apply one_scale | (apply one_of; assumption)].
Ltac axes := first [assumption | apply ax_scale; axes | (apply ax_scale_c; [assumption|ones]) | (apply ax_add_r; [ones; fail|axes; fail]) | (apply ax_add_l; [axes; fail|ones; fail])].

Definition ax_ret (r : step_ret V) : Prop := match r with Ret3 _ x _ => one_axis x | Ret4 k x _ _ => one_axis k /\ one_axis x end.
Definition ax_step (s : @step_fun T V) : Prop := forall x t dt k1, one x -> match k1 with Some k => one k | None => True end -> ends (s f x t dt k1) ax_ret.

Lemma ax_rk4 tab : is_axes (aget (ta tab) 0 0) = true -> ax_step (rk4_tab_step tab).
Proof.
  intros Ha x t dt k1 Hx Hk. unfold rk4_tab_step. cbv zeta. set (a00 := aget (ta tab) 0 0) in *. clearbody a00.
  eapply ends_bind; [now apply first_one|]. intros k Hk'.
  eapply ends_bind; [apply call_axis; axes|]. intros k2 Hk2.
  eapply ends_bind; [apply call_axis; axes|]. intros k3 Hk3.
  eapply ends_bind; [apply call_axis; axes|]. intros k4 Hk4.
  apply ends_ret. cbn [ax_ret]. axes.
Qed.
Lemma ax_erk7 tab : is_axes (aget (ta tab) 0 0) = true -> ax_step (erk7_step tab).
Proof.
  intros Ha x t dt k1 Hx Hk. unfold erk7_step. cbv zeta.
  assert (Ha' : is_axes (nmul dt (aget (ta tab) 0 0)) = true) by now apply axes_mul_r.
  set (a00 := nmul dt (aget (ta tab) 0 0)) in *. clearbody a00.
  eapply ends_bind; [now apply first_one|]. intros k Hk'.
  eapply ends_bind; [apply call_axis; axes|]. intros k2 Hk2.
  eapply ends_bind; [apply call_axis; axes|]. intros k3 Hk3.
  eapply ends_bind; [apply call_axis; axes|]. intros k4 Hk4.
  eapply ends_bind; [apply call_axis; axes|]. intros k5 Hk5.
  eapply ends_bind; [apply call_axis; axes|]. intros k6 Hk6.
  eapply ends_bind; [apply call_axis; axes|]. intros k7 Hk7.
  apply ends_ret. cbn [ax_ret]. split; axes.
Qed.

Lemma ax_loop s t_span save_at x0 : ax_step s -> forall n steps x t dt sol rest, one x -> sol = x0 :: rest \/ sol = rest -> Forall one_axis rest ->
  ends (fixed_loop f s t_span save_at n steps x t dt sol) (fun sol => exists rest, (sol = x0 :: rest \/ sol = rest) /\ Forall one_axis rest).
Proof.
  intros Hs. induction n as [|n IH]; intros steps x t dt sol rest Hx Hsol Hr; cbn [fixed_loop]; [apply ends_ret; eauto|].
  eapply ends_bind; [apply Hs; auto|]. intros [u y w|? ? ? ?] Hy; [|apply ends_raise]. cbn [ax_ret] in Hy. cbv zeta.
  eapply (ends_bind _ _ (fun _ => True)); [now intros a Ea|]. intros dt' _.
  destruct (_ =? _)%nat.
  - eapply IH; eauto. now apply one_of.
  - apply (IH _ _ _ _ _ (rest ++ [y])); [now apply one_of| |apply Forall_app; split; auto].
    destruct Hsol as [->| ->]; [now left|now right].
Qed.

(** the states of one solve *)
Lemma stack_axes x0 rest : one x0 -> existsb is_axes x0 = false -> Forall one_axis rest ->
  forall sol, stack (x0 :: rest) = Ok sol -> sol = [x0].
Proof.
  intros (a & ->) Ha Hr sol E. cbn [stack] in E. destruct Hr as [|y rest (b & -> & Hb) Hr]; [cbn [forallb] in E; congruence|].
  assert (S : same_shape [a] [b] = false).
  { unfold same_shape. cbn [existsb] in *. rewrite Ha, Hb. reflexivity. }
  cbn [forallb] in E. rewrite S in E. discriminate.
Qed.
End Appear.

Section AppearAdaptive.
Context {K : NumOps}.
Notation T := (TypedOps K).
Notation V := (vec T).
Variable f : T -> V -> V.
Variable x0 : V.
Variables (sv : solver T V) (tT atol rtol : T) (tev : list T) (all : bool) (semi : option nat).
Hypothesis Hs : ax_step f (s_step sv).
Let p := MkP f sv tT tev atol rtol None all semi.
Definition ax_state (st : @astate T) : Prop :=
  one (a_x st) /\ one (a_k1 st) /\ exists rest, a_sol st = x0 :: rest /\ Forall one_axis rest.

Lemma ax_iter st : ax_state st -> ends (adaptive_iter p st) ax_state.
Proof.
  intros (Hx & Hk & rest & Hsol & Hrest). unfold adaptive_iter. destruct (attempt_dt p st) as [dt old].
  eapply ends_bind; [apply Hs; auto|]. intros [u y w|fn xn e stg] Hret; [apply ends_raise|]. cbn [ax_ret] in Hret.
  destruct Hret as [Hfn Hxn]. cbv zeta. set (ra := error_ratio _ _ _ _ _ _). clearbody ra.
  eapply (ends_bind _ _ (fun o => exists rest, snd o = x0 :: rest /\ Forall one_axis rest)).
  - destruct (nleb ra _); [|apply ends_ret; cbn [snd]; eauto]. apply ends_lift. intros [[ck times] sol] E. unfold accept_out in E. cbn [p_interp p_t_eval p_all p rbind] in E.
    destruct (pyget tev (a_ck st)) as [tc| |]; cbn [rbind] in E; try discriminate.
    destruct (_ || _); injection E as <- <- <-; cbn [snd]; eauto. rewrite Hsol. exists (rest ++ [xn]). split; [reflexivity|]. apply Forall_app. split; auto.
  - intros [[ck times] sol] Hs'. cbn [snd] in Hs'. apply ends_ret. unfold ax_state. cbn [a_x a_k1 a_sol].
    split; [destruct (nleb ra _); auto; now apply one_of|]. split; [destruct (nleb ra _); auto; now apply one_of|exact Hs'].
Qed.
Lemma ax_adaptive fuel : forall st, ax_state st -> ends (adaptive_loop fuel p st) (fun r => exists rest, snd r = x0 :: rest /\ Forall one_axis rest).
Proof.
  induction fuel as [|fuel IH]; intros st Hst; cbn [adaptive_loop]; (match goal with |- context [if ?b then _ else _] => destruct b end; [|apply ends_ret; apply Hst]);
    [apply ends_fuel|].
  eapply (ends_bind _ _ ax_state); [exact (ax_iter st Hst)|]. intros st' Hst'. now apply IH.
Qed.
End AppearAdaptive.

Lemma neg_axes {K} (f : TypedOps K -> vec (TypedOps K) -> vec (TypedOps K)) : keeps_axes f -> keeps_axes (neg_field f).
Proof. intros Hf t a. destruct (Hf (nopp t) a) as (b & E & Hb). exists (nopp b). split; [|exact Hb]. unfold neg_field. rewrite E. reflexivity. Qed.
Lemma prep_axes {K} (f : TypedOps K -> vec (TypedOps K) -> vec (TypedOps K)) ts : keeps_axes f ->
  @ends K _ (mlift (prep_time f ts)) (fun ft => keeps_axes (fst ft)).
Proof.
  intros Hf. apply ends_lift. intros [f_ l] E. unfold prep_time in E. set (tt := ts_list ts) in *. clearbody tt.
  destruct (pyget tt 1) as [t1| |]; cbn [rbind] in E; try discriminate. destruct (pyget tt 0) as [t0| |]; cbn [rbind] in E; try discriminate.
  destruct (nltb _ _), ts; try discriminate; injection E as <- <-; cbn [fst]; auto; now apply neg_axes.
Qed.

(** C152 fails for rk4.  In any arithmetic, for any field that keeps shapes, for all times: no solve of a state without axes returns the initial
    state together with another one. *)
Lemma C152_rk4_refuted_pf : forall (K : NumOps) (xd td : dtype) (f : TypedOps K -> vec (TypedOps K) -> vec (TypedOps K)) (fuel : nat) (a : K)
    (ts : list K) (save_at : list (TypedOps K)) (atol rtol : TypedOps K) (interp all : bool) (semi : option nat) times sol,
  keeps_axes f ->
  snd (stacked (odeint_typed fuel td f (scalar_of xd a) (TTensor (times_of td ts)) (rk4_rows xd) atol rtol interp all save_at semi)) = Ok (times, sol) ->
  In (scalar_of xd a) sol -> sol = [scalar_of xd a].
Proof.
  intros K xd td f fuel a ts save_at atol rtol interp all semi times sol Hf E Hin.
  set (x0 := @scalar_of K xd a) in *.
  assert (G : ends (odeint_typed fuel td f x0 (TTensor (times_of td ts)) (rk4_rows xd) atol rtol interp all save_at semi)
     (fun r => exists rest, (snd r = x0 :: rest \/ snd r = rest) /\ Forall one_axis rest)).
  { unfold odeint_typed. eapply ends_bind; [now apply prep_axes|]. intros [f_ l] Hf_. cbn [fst] in Hf_. cbn [s_fixed rk4_rows with_step RungeKutta4 mk_solver s_is_tsit5 s_step]. cbv zeta.
    unfold fixed_odeint. set (sv := match save_at with [] => l | _ => save_at end). clearbody sv. destruct (negb _); [apply ends_raise|].
    eapply (ends_bind _ _ (fun _ => True)); [now intros ? ?|intros t0 _]. eapply (ends_bind _ _ (fun _ => True)); [now intros ? ?|intros _ _].
    eapply (ends_bind _ _ (fun _ => True)); [now intros ? ?|intros t1 _].
    eapply (ends_bind _ _ (fun sol => exists rest, (sol = x0 :: rest \/ sol = rest) /\ Forall one_axis rest)).
    - apply (ax_loop f_ (rk4_tab_step (row_axis xd (construct_rk4 (TypedOps K)))) l sv x0) with (rest := []).
      + apply ax_rk4; [exact Hf_|reflexivity].
      + now exists (with_kind (NoAxes xd) a).
      + destruct (_ =? _)%nat; auto.
      + constructor.
    - intros sol' Hsol. destruct sol'; [apply ends_raise|]. apply ends_ret. exact Hsol. }
  unfold stacked in E. unfold mbind in E. destruct (snd (odeint_typed _ _ _ _ _ _ _ _ _ _ _ _)) as [[times' sol']| |] eqn:E'; cbn in E; try discriminate.
  destruct (G _ E') as (rest & Hsol & Hrest). cbn [snd] in Hsol.
  destruct (stack sol') as [sol''| |] eqn:Est; cbn in E; try discriminate. injection E as <- <-.
  destruct Hsol as [->| ->].
  - apply (stack_axes x0 rest); auto. now exists (with_kind (NoAxes xd) a).
  - exfalso. destruct rest as [|u rest]; [discriminate|]. cbn [stack] in Est. destruct (forallb _ _); [|discriminate].
    assert (Es : sol'' = u :: rest) by congruence. rewrite Es in Hin. apply (proj1 (Forall_forall _ _) Hrest) in Hin. destruct Hin as (b & Eb & Hb).
    unfold x0, scalar_of in Eb. injection Eb as <-. discriminate.
Qed.

(** C152 fails for dopri5.  In any arithmetic, for any field that keeps shapes, for all times and tolerances: no solve of a state without axes
    returns more than the initial state. *)
Lemma C152_dopri5_refuted_pf : forall (K : NumOps) (xd td : dtype) (f : TypedOps K -> vec (TypedOps K) -> vec (TypedOps K)) (fuel : nat) (a : K)
    (ts : list K) (save_at : list (TypedOps K)) (atol rtol : TypedOps K) (all : bool) (semi : option nat) times sol,
  keeps_axes f ->
  snd (stacked (odeint_typed fuel td f (scalar_of xd a) (TTensor (times_of td ts)) (dopri5_rows xd) atol rtol false all save_at semi)) = Ok (times, sol) ->
  sol = [scalar_of xd a].
Proof.
  intros K xd td f fuel a ts save_at atol rtol all semi times sol Hf E.
  set (x0 := @scalar_of K xd a) in *. assert (H0 : one x0) by now exists (with_kind (NoAxes xd) a).
  assert (G : ends (odeint_typed fuel td f x0 (TTensor (times_of td ts)) (dopri5_rows xd) atol rtol false all save_at semi)
     (fun r => exists rest, snd r = x0 :: rest /\ Forall one_axis rest)).
  { unfold odeint_typed. eapply ends_bind; [now apply prep_axes|]. intros [f_ l] Hf_. cbn [fst] in Hf_.
    cbn [s_fixed dopri5_rows with_step DormandPrince45 mk_solver s_is_tsit5]. cbv zeta.
    eapply (ends_bind _ _ (fun _ => True)); [now intros ? ?|intros t _]. eapply ends_bind; [apply call_one; [exact Hf_|exact H0]|intros k1 Hk1].
    eapply (ends_bind _ _ (fun _ => True)); [now intros ? ?|intros dt _]. eapply (ends_bind _ _ (fun _ => True)); [now intros ? ?|intros t0 _].
    eapply (ends_bind _ _ (fun _ => True)); [now intros ? ?|intros tT _]. apply ax_adaptive.
    - cbn [tensor_factors s_step]. apply ax_erk7; [exact Hf_|reflexivity].
    - unfold ax_state. cbn [a_x a_k1 a_sol]. split; [exact H0|]. split; [exact Hk1|]. now exists []. }
  unfold stacked in E. unfold mbind in E. destruct (snd (odeint_typed _ _ _ _ _ _ _ _ _ _ _ _)) as [[times' sol']| |] eqn:E'; cbn in E; try discriminate.
  destruct (G _ E') as (rest & Hsol & Hrest). cbn [snd] in Hsol.
  destruct (stack sol') as [sol''| |] eqn:Est; cbn in E; try discriminate. injection E as <- <-. rewrite Hsol in Est.
  apply (stack_axes x0 rest); auto.
Qed.


(** ** tsit5: axes come with the second step size *)
Section Tsit5.
Context {K : NumOps}.
Notation T := (TypedOps K).
Notation V := (vec T).
Variable f : T -> V -> V.
Hypothesis Hf : keeps_axes f.

Ltac ones := repeat first [assumption | apply one_add | apply one_scale | (apply one_of; assumption)].
Definition one_ret (r : step_ret V) : Prop := match r with Ret3 _ x _ => one x | Ret4 k x _ _ => one k /\ one x end.
Definition dt_ret (dt : T) (r : step_ret V) : Prop :=
  one_ret r /\ (is_axes dt = true -> match r with Ret3 _ x _ => one_axis x | Ret4 k x _ _ => one_axis x end).
Definition dt_step (s : @step_fun T V) : Prop := forall x t dt k1, one x -> match k1 with Some k => one k | None => True end -> ends (s f x t dt k1) (dt_ret dt).
Lemma dt_erk7 tab : dt_step (erk7_step tab).
Proof.
  intros x t dt k1 Hx Hk. unfold erk7_step. cbv zeta.
  eapply ends_bind; [now apply first_one|]. intros k Hk'.
  do 6 (eapply ends_bind; [apply (call_one f Hf); ones|intros ? ?]).
  apply ends_ret. split.
  - cbn [one_ret]. split; ones.
  - intros Hd. apply ax_add_r; [ones|]. apply ax_scale_c; [exact Hd|ones].
Qed.

Variable x0 : V.
Variables (sv : solver T V) (tT atol rtol : T) (tev : list T) (semi : option nat).
Hypothesis Hs : dt_step (s_step sv).
Hypotheses (Hmin : is_axes (s_min_factor sv) = true) (Hmax : is_axes (s_max_factor sv) = true) (Hsafe : is_axes (s_safety sv) = true).
Let p := MkP f sv tT tev atol rtol None false semi.
Definition dt_state (st : @astate T) : Prop :=
  one (a_x st) /\ one (a_k1 st) /\ is_axes (a_t st) = true /\ exists rest, a_sol st = x0 :: rest /\ Forall one_axis rest.

Lemma axes_sub_r (a b : T) : is_axes b = true -> is_axes (nsub a b) = true.
Proof. intros H. apply join_ax. now right. Qed.
Lemma axes_add_l (a b : T) : is_axes a = true -> is_axes (nadd a b) = true.
Proof. intros H. apply join_ax. now left. Qed.
Lemma axes_adapt (dt r a b c : T) o : is_axes c = true -> is_axes (adapt_step dt r a b c o) = true.
Proof.
  intros H. unfold adapt_step. destruct (neqb _ _); [now apply axes_mul_r|]. cbv zeta. apply axes_mul_r. apply join_ax. now left.
Qed.

(** one iteration, when the step size has axes or the step does not end at the next time *)
Lemma dt_iter st : dt_state st -> (is_axes (a_dt st) = true \/ match nth_error tev (a_ck st) with Some tc => neqb (a_t st + a_dt st)%N tc = false | None => True end) ->
  ends (adaptive_iter p st) (fun st' => dt_state st' /\ is_axes (a_dt st') = true).
Proof.
  intros (Hx & Hk & Ht & rest & Hsol & Hrest) Hd. unfold adaptive_iter.
  assert (Hat : is_axes (fst (attempt_dt p st)) = true \/ fst (attempt_dt p st) = a_dt st).
  { unfold attempt_dt. cbn [p_T p_t_eval p_interp p].
    match goal with |- context [nltb tT ?e] => set (b0 := nltb tT e) end.
    assert (Hc : is_axes (if b0 then (tT - a_t st)%N else a_dt st) = true \/ (if b0 then (tT - a_t st)%N else a_dt st) = a_dt st).
    { destruct b0; [left; now apply axes_sub_r|now right]. }
    set (dt1 := if b0 then _ else _) in *. clearbody dt1.
    destruct (nth_error tev (a_ck st)) as [tc|]; [|exact Hc]. destruct (nltb tc _); [|exact Hc]. left. now apply axes_sub_r. }
  destruct (attempt_dt p st) as [dt old]. cbn [fst] in Hat.
  eapply ends_bind; [apply Hs; auto|]. intros [u y w|fn xn e stg] [Hr1 Hr2]; [apply ends_raise|]. cbn [one_ret] in Hr1.
  destruct Hr1 as [Hfn Hxn]. cbv zeta. set (ra := error_ratio _ _ _ _ _ _). clearbody ra.
  eapply (ends_bind _ _ (fun o => exists rest, snd o = x0 :: rest /\ Forall one_axis rest)).
  - destruct (nleb ra _); [|apply ends_ret; cbn [snd]; eauto]. apply ends_lift. intros [[ck times] sol] E. unfold accept_out in E. cbn [p_interp p_t_eval p_all p rbind] in E.
    unfold pyget in E. destruct (nth_error tev (a_ck st)) as [tc|] eqn:Etc; cbn [rbind] in E; try discriminate.
    rewrite orb_false_r in E. destruct (neqb (a_t st + dt)%N tc) eqn:Eeq; injection E as <- <- <-; cbn [snd]; eauto.
    rewrite Hsol. exists (rest ++ [xn]). split; [reflexivity|]. apply Forall_app. split; auto. constructor; [|constructor].
    apply Hr2. destruct Hat as [Hat| ->]; [exact Hat|]. destruct Hd as [Hd|Hd]; [exact Hd|congruence].
  - intros [[ck times] sol] Hs'. cbn [snd] in Hs'. apply ends_ret. unfold dt_state. cbn [a_x a_k1 a_sol a_t a_dt p_solver p].
    split; [|now apply axes_adapt].
    split; [destruct (nleb ra _); auto|]. split; [destruct (nleb ra _); auto|]. split; [|exact Hs']. destruct (nleb ra _); auto. now apply axes_add_l.
Qed.
Lemma dt_loop fuel : forall st, dt_state st -> (is_axes (a_dt st) = true \/ match nth_error tev (a_ck st) with Some tc => neqb (a_t st + a_dt st)%N tc = false | None => True end) ->
  ends (adaptive_loop fuel p st) (fun r => exists rest, snd r = x0 :: rest /\ Forall one_axis rest).
Proof.
  induction fuel as [|fuel IH]; intros st Hst Hd; cbn [adaptive_loop]; (match goal with |- context [if ?b then _ else _] => destruct b end; [|apply ends_ret; apply Hst]);
    [apply ends_fuel|].
  eapply (ends_bind _ _ (fun st' => dt_state st' /\ is_axes (a_dt st') = true)); [exact (dt_iter st Hst Hd)|]. intros st' [H1 H2]. apply IH; auto.
Qed.
End Tsit5.

(** C152 fails for tsit5.  In any arithmetic, for any field that keeps shapes, for all tolerances and increasing times: unless the very first step size, before any
    clipping, leads exactly to the first requested time, no solve of a state without axes returns more than the initial state. *)
Lemma C152_tsit5_refuted_pf : forall (K : NumOps) (xd td : dtype) (f : TypedOps K -> vec (TypedOps K) -> vec (TypedOps K)) (fuel : nat) (a : K)
    (t0 t1 : K) (ts : list K) (save_at : list (TypedOps K)) (atol rtol : TypedOps K) (interp : bool) (semi : option nat) times sol,
  keeps_axes f -> nltb t1 t0 = false ->
  (forall dt, snd (init_step_cast (to_dtype td) f (f (with_kind (NoAxes td) t0) (scalar_of xd a)) (scalar_of xd a) (with_kind (NoAxes td) t0) 5 atol rtol) = Ok dt ->
     neqb (nadd t0 (fst dt)) t1 = false) ->
  snd (stacked (odeint_typed fuel td f (scalar_of xd a) (TTensor (times_of td (t0 :: t1 :: ts))) (Tsitouras45 (TypedOps K)) atol rtol interp false save_at semi)) = Ok (times, sol) ->
  sol = [scalar_of xd a].
Proof.
  intros K xd td f fuel a t0 t1 ts save_at atol rtol interp semi times sol Hf Ht Hinit E.
  set (x0 := @scalar_of K xd a) in *. assert (H0 : one x0) by now exists (with_kind (NoAxes xd) a).
  assert (G : ends (odeint_typed fuel td f x0 (TTensor (times_of td (t0 :: t1 :: ts))) (Tsitouras45 (TypedOps K)) atol rtol interp false save_at semi)
     (fun r => exists rest, snd r = x0 :: rest /\ Forall one_axis rest)).
  { unfold odeint_typed.
    assert (Ep : prep_time f (TTensor (times_of td (t0 :: t1 :: ts))) = Ok (f, times_of td (t0 :: t1 :: ts))).
    { unfold prep_time. cbn [ts_list times_of map pyget nth_error rbind]. change (nltb (with_kind (NoAxes td) t1) (with_kind (NoAxes td) t0)) with (nltb t1 t0). now rewrite Ht. }
    rewrite Ep. eapply (ends_bind _ _ (fun ft => ft = (f, times_of td (t0 :: t1 :: ts)))); [intros b Ea; exact (eq_sym (f_equal (fun r => match r with Ok v => v | _ => b end) Ea))|]. intros ft ->.
    cbn [s_fixed Tsitouras45 mk_solver s_is_tsit5 s_order]. cbv zeta.
    eapply (ends_bind _ _ (fun t => t = with_kind (NoAxes td) t0)); [intros b Ea; exact (eq_sym (f_equal (fun r => match r with Ok v => v | _ => b end) Ea))|intros t ->].
    eapply (ends_bind _ _ (fun k => k = f (with_kind (NoAxes td) t0) x0)); [intros b Ea; exact (eq_sym (f_equal (fun r => match r with Ok v => v | _ => b end) Ea))|intros k1 ->].
    eapply ends_bind; [exact Hinit|]. intros dt Hdt. cbv beta in Hdt.
    eapply (ends_bind _ _ (fun t => t = with_kind (NoAxes td) t0)); [intros b Ea; exact (eq_sym (f_equal (fun r => match r with Ok v => v | _ => b end) Ea))|intros t ->].
    eapply (ends_bind _ _ (fun _ => True)); [now intros ? ?|intros tT _].
    apply (dt_loop f x0).
    - cbn [tensor_factors s_step Tsitouras45 mk_solver]. now apply dt_erk7.
    - reflexivity.
    - unfold dt_state. cbn [a_x a_k1 a_sol a_t]. split; [exact H0|]. split.
      + destruct (Hf (with_kind (NoAxes td) t0) (with_kind (NoAxes xd) a)) as (b & Eb & _). exists b. exact Eb.
      + split; [reflexivity|]. now exists [].
    - right. cbn [a_ck a_dt a_t times_of map skipn nth_error]. exact Hdt. }
  unfold stacked in E. unfold mbind in E. destruct (snd (odeint_typed _ _ _ _ _ _ _ _ _ _ _ _)) as [[times' sol']| |] eqn:E'; cbn in E; try discriminate.
  destruct (G _ E') as (rest & Hsol & Hrest). cbn [snd] in Hsol.
  destruct (stack sol') as [sol''| |] eqn:Est; cbn in E; try discriminate. injection E as <- <-. rewrite Hsol in Est.
  apply (stack_axes x0 rest); auto.
Qed.

(** C152 fails, runs.  The field 0 with x(0) = 1 and default arguments over [0, 1] in double precision arithmetic: rk4 and dopri5 raise
    RuntimeError for the state without axes; Euler and Midpoint return it unchanged, and so do all four for the state with one entry.  The
    hypotheses of C152_tsit5_refuted are met. *)
Lemma C152_scalar_refuted_pf : forall pw : float -> float -> float,
  let K := FloatOps pw in
  let f := @zero_slopes K 0%float in
  let tol := @with_kind K PyNumber 0.001%float in
  let run x s := snd (stacked (@odeint_typed K 40 Float f x (TTensor (@times_of K Float [0; 1]%float)) s tol tol false false [] None)) in
  let values x s := match run x s with Ok (_, sol) => Ok (map (map fst) sol) | Err e => Err e | OutOfFuel => OutOfFuel end in
  let s0 := @scalar_of K Float 1%float in
  let s1 := @state_of K Float [1%float] in
  let z := @with_kind K (NoAxes Float) 0%float in
  (keeps_axes f /\ adds_no_axes f) /\
  values s0 (rk4_rows Float) = Err RuntimeError /\ values s0 (dopri5_rows Float) = Err RuntimeError /\
  values s0 (Euler (TypedOps K)) = Ok [[1%float]; [1%float]] /\ values s0 (Midpoint (TypedOps K)) = Ok [[1%float]; [1%float]] /\
  Forall (fun s => values s1 s = Ok [[1%float]; [1%float]])
    [rk4_rows Float; dopri5_rows Float; Euler (TypedOps K); Midpoint (TypedOps K)] /\
  (forall dt, snd (init_step_cast (to_dtype Float) f (f z s0) s0 z 5 tol tol) = Ok dt -> @neqb K (@nadd K 0%float (fst dt)) 1%float = false).
Proof.
  intros pw K f tol run values s0 s1 z. split.
  - split; [intros t a; exists (0%float, snd a); split; [reflexivity|exact (fun h => h)]|].
    intros t x _ Hx. unfold f, zero_slopes. induction Hx as [|a x Ha Hx IH]; cbn; constructor; auto.
  - split; [vm_compute; reflexivity|]. split; [vm_compute; reflexivity|]. split; [vm_compute; reflexivity|]. split; [vm_compute; reflexivity|]. split.
    + do 4 (apply Forall_cons; [vm_compute; reflexivity|]). apply Forall_nil.
    + intros dt E. vm_compute in E. injection E as <-. vm_compute. reflexivity.
Qed.
