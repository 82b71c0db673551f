(** dtypes of states during a solve. *)
From Coq Require Import ZArith QArith Lia List Bool Floats.
From Verif Require Import Num Py Tensor M_Constants M_SolversOde M_Utils M_Interp M_Odeint M_Dtype M_Autograd M_Cast M_Prom L_Rel.
Import ListNotations.
Local Notation length := List.length.
Local Open Scope nat_scope.

(** All entries of a state have axes and dtype d *)
Definition has_dtype {K} (d : dtype) (v : vec (TypedOps K)) : Prop := Forall (fun a => snd a = Axes d) v.
(** d holds all numbers of e *)
Definition holds (d e : dtype) : Prop := promote d e = d.
(** A field that returns slopes of the dtype of the state, whatever that is and whatever the time *)
Definition keeps_dtype {K} (f : TypedOps K -> vec (TypedOps K) -> vec (TypedOps K)) : Prop :=
  forall d t x, has_dtype d x -> has_dtype d (f t x).

(** ** Kinds below a dtype *)
Definition small (d : dtype) (k : kind) : Prop := match k with Axes e => holds d e | _ => True end.

Lemma small_join d a b : small d a -> small d b -> small d (join a b).
Proof. destruct a as [|e|e], b as [|e'|e']; cbn; auto. unfold holds. destruct d, e, e'; cbn; auto; discriminate. Qed.
Lemma join_axes d b : small d b -> join (Axes d) b = Axes d.
Proof. destruct b; cbn; auto. unfold holds. now intros ->. Qed.
Lemma join_axes_r d b : small d b -> join b (Axes d) = Axes d.
Proof. destruct b as [|e|e]; cbn; auto. unfold holds. intros H. f_equal. destruct d, e; cbn in *; congruence. Qed.
Lemma small_self d : small d (Axes d).
Proof. destruct d; reflexivity. Qed.
Lemma small_reduced d a : small d a -> small d (reduced a).
Proof. destruct a; cbn; auto. Qed.

Section Keep.
Context {K : NumOps}.
Notation T := (TypedOps K).
Notation V := (vec T).
Variable d : dtype.
Implicit Types (u v x : V).

Definition sm (a : T) : Prop := small d (snd a).
Definition smv (v : V) : Prop := Forall sm v.

Lemma sm_add a b : sm a -> sm b -> sm (nadd a b). Proof. apply small_join. Qed.
Lemma sm_sub a b : sm a -> sm b -> sm (nsub a b). Proof. apply small_join. Qed.
Lemma sm_mul a b : sm a -> sm b -> sm (nmul a b). Proof. apply small_join. Qed.
Lemma sm_div a b : sm a -> sm b -> sm (ndiv a b). Proof. apply small_join. Qed.
Lemma sm_powr a b : sm a -> sm b -> sm (npowr a b). Proof. apply small_join. Qed.
Lemma sm_max a b : sm a -> sm b -> sm (nmax a b). Proof. apply small_join. Qed.
Lemma sm_min a b : sm a -> sm b -> sm (nmin a b). Proof. apply small_join. Qed.
Lemma sm_opp a : sm a -> sm (nopp a). Proof. auto. Qed.
Lemma sm_abs a : sm a -> sm (nabs a). Proof. auto. Qed.
Lemma sm_sqrt a : sm a -> sm (nsqrt a). Proof. apply small_reduced. Qed.
Lemma sm_lit q : sm (nQ q). Proof. exact I. Qed.
Lemma sm_nat n : sm (nnat n). Proof. exact I. Qed.
Lemma sm_pymax (a b : T) : sm a -> sm b -> sm (pymax a b). Proof. unfold pymax. now destruct (nltb a b). Qed.
Lemma sm_pow (a : T) n : sm a -> sm (npow a n).
Proof. intros H. induction n; cbn [npow]; [apply sm_lit|now apply sm_mul]. Qed.

Lemma smv_map2 (op : T -> T -> T) u v : (forall a b, sm a -> sm b -> sm (op a b)) -> smv u -> smv v -> smv (map2 op u v).
Proof. intros Hop Hu. revert v. induction Hu; intros v Hv; [constructor|]. destruct Hv; cbn; constructor; auto. now apply IHHu. Qed.
Lemma smv_map (op : T -> T) u : (forall a, sm a -> sm (op a)) -> smv u -> smv (map op u).
Proof. intros Hop Hu. induction Hu; cbn; constructor; auto. Qed.
Lemma smv_add u v : smv u -> smv v -> smv (vadd u v). Proof. apply smv_map2, sm_add. Qed.
Lemma smv_sub u v : smv u -> smv v -> smv (vsub u v). Proof. apply smv_map2, sm_sub. Qed.
Lemma smv_div u v : smv u -> smv v -> smv (vdiv u v). Proof. apply smv_map2, sm_div. Qed.
Lemma smv_max u v : smv u -> smv v -> smv (vmax u v). Proof. apply smv_map2, sm_max. Qed.
Lemma smv_scale c v : sm c -> smv v -> smv (vscale c v). Proof. intros Hc. apply smv_map. intros a. now apply sm_mul. Qed.
Lemma smv_adds c v : sm c -> smv v -> smv (vadds c v). Proof. intros Hc. apply smv_map. intros a. now apply sm_add. Qed.
Lemma smv_abs v : smv v -> smv (vabs v). Proof. apply smv_map, sm_abs. Qed.
Lemma smv_hd v : has_dtype d v -> smv v.
Proof. intros H. induction H as [|a l Ha]; constructor; auto. unfold sm. rewrite Ha. apply small_self. Qed.

Lemma hd_add u v : has_dtype d u -> smv v -> has_dtype d (vadd u v).
Proof. intros Hu. revert v. induction Hu as [|a u Ha]; intros v Hv; [constructor|]. destruct Hv; cbn; constructor; [|now apply IHHu]. cbn. rewrite Ha. now apply join_axes. Qed.
Lemma hd_sub u v : has_dtype d u -> smv v -> has_dtype d (vsub u v).
Proof. intros Hu. revert v. induction Hu as [|a u Ha]; intros v Hv; [constructor|]. destruct Hv; cbn; constructor; [|now apply IHHu]. cbn. rewrite Ha. now apply join_axes. Qed.
Lemma hd_scale c v : sm c -> has_dtype d v -> has_dtype d (vscale c v).
Proof. intros Hc Hv. induction Hv as [|a v Ha]; cbn; constructor; auto. cbn. rewrite Ha. now apply join_axes_r. Qed.
Lemma hd_opp v : has_dtype d v -> has_dtype d (vopp v).
Proof. intros Hv. induction Hv as [|a v Ha]; cbn; constructor; auto. Qed.
Lemma hd_app u v : has_dtype d u -> has_dtype d v -> has_dtype d (u ++ v).
Proof. intros Hu Hv. apply Forall_app. now split. Qed.
Lemma hd_firstn n v : has_dtype d v -> has_dtype d (firstn n v).
Proof. intros H. rewrite <- (firstn_skipn n v) in H. now apply Forall_app in H. Qed.
Lemma hd_skipn n v : has_dtype d v -> has_dtype d (skipn n v).
Proof. intros H. rewrite <- (firstn_skipn n v) in H. now apply Forall_app in H. Qed.
Lemma smv_firstn n v : smv v -> smv (firstn n v).
Proof. intros H. rewrite <- (firstn_skipn n v) in H. now apply Forall_app in H. Qed.

Lemma sm_vsum v : smv v -> sm (vsum v).
Proof.
  unfold vsum. assert (G : forall a, sm a -> smv v -> sm (fold_left nadd v a)).
  { induction v as [|b v IH]; intros a Ha H; cbn; auto. inversion H; subst. apply IH; auto. now apply sm_add. }
  apply G, sm_lit.
Qed.
Lemma sm_norm v : smv v -> sm (hairer_norm v).
Proof.
  intros H. unfold hairer_norm, vmean. apply sm_sqrt, sm_div; [|apply sm_nat]. apply sm_vsum. apply smv_map; auto.
  intros a Ha. apply sm_mul; now apply sm_abs.
Qed.

(** ** Computations that call the field with states of dtype d only *)
Definition good {A} (m : M (T * V) A) (P : A -> Prop) : Prop :=
  Forall (fun c => has_dtype d (snd c)) (fst m) /\ forall a, snd m = Ok a -> P a.

Lemma good_ret {A} (a : A) (P : A -> Prop) : P a -> good (mret a) P.
Proof. intros H. split; [constructor|]. cbn. intros b E. congruence. Qed.
Lemma good_bind {A B} (m : M (T * V) A) (k : A -> M (T * V) B) P Q :
  good m P -> (forall a, P a -> good (k a) Q) -> good (mbind m k) Q.
Proof.
  intros [H1 H2] Hk. unfold mbind. destruct (snd m) as [a|e|] eqn:E; [|split; [exact H1|discriminate]|split; [exact H1|discriminate]].
  destruct (Hk a (H2 a eq_refl)) as [H3 H4]. split; cbn; [apply Forall_app; now split|exact H4].
Qed.
Lemma good_lift {A} (r : res A) (P : A -> Prop) : (forall a, r = Ok a -> P a) -> good (mlift r) P.
Proof. intros H. split; [constructor|exact H]. Qed.
Lemma good_raise {A} e (P : A -> Prop) : good (mraise e) P.
Proof. split; [constructor|discriminate]. Qed.
Lemma good_fuel {A} (P : A -> Prop) : good (@mfuel _ A) P.
Proof. split; [constructor|discriminate]. Qed.
Lemma good_weak {A} (m : M (T * V) A) (P Q : A -> Prop) : (forall a, P a -> Q a) -> good m P -> good m Q.
Proof. intros H [H1 H2]. split; auto. Qed.

Variable f : T -> V -> V.
Hypothesis Hf : forall t x, has_dtype d x -> has_dtype d (f t x).

Lemma good_call t x : has_dtype d x -> good (call f t x) (has_dtype d).
Proof. intros H. split; cbn; [repeat constructor; exact H|]. intros a E. injection E as <-. now apply Hf. Qed.

(** What steps return *)
Definition good_ret3 (r : step_ret V) : Prop := match r with Ret3 _ x _ => has_dtype d x | Ret4 _ _ _ _ => True end.
Definition good_ret4 (r : step_ret V) : Prop :=
  match r with Ret3 _ x _ => has_dtype d x | Ret4 k x e st => has_dtype d k /\ has_dtype d x /\ smv e /\ Forall (has_dtype d) st end.
Definition good_step (s : @step_fun T V) : Prop := forall x t dt k1, has_dtype d x -> sm dt ->
  match k1 with Some k => has_dtype d k | None => True end -> good (s f x t dt k1) good_ret4.

Lemma good_first x t k1 : has_dtype d x -> match k1 with Some k => has_dtype d k | None => True end -> good (first_stage f x t k1) (has_dtype d).
Proof. destruct k1; cbn; intros; [now apply good_ret|now apply good_call]. Qed.

Ltac kinds := repeat first [assumption | exact I | apply hd_add | apply smv_add | apply smv_scale | apply sm_mul | (apply smv_hd; assumption) | apply sm_lit | match goal with H : forall i j, sm (aget _ i j) |- _ => apply H | H : forall i, sm (tget _ i) |- _ => apply H end].
Ltac next := eapply good_bind; [apply good_call; kinds|intros ? ?].

Lemma euler_good : good_step euler_step.
Proof.
  intros x t dt k1 Hx Hd Hk. unfold euler_step. eapply good_bind; [now apply good_first|intros k Hk']. apply good_ret. cbn. kinds.
Qed.
Lemma midpoint_good : good_step midpoint_step.
Proof.
  intros x t dt k1 Hx Hd Hk. unfold midpoint_step. eapply good_bind; [now apply good_first|intros k Hk']. next. apply good_ret. cbn [good_ret4]. kinds.
Qed.
(** entries of tableaux are Python numbers *)
Definition plain_list (l : list T) : Prop := Forall sm l.
Lemma sm_tget l i : plain_list l -> sm (tget l i).
Proof.
  intros H. unfold tget. destruct (Nat.lt_ge_cases i (length l)) as [Hi|Hi].
  - apply (proj1 (Forall_forall _ _) H). now apply nth_In.
  - rewrite nth_overflow by exact Hi. apply sm_lit.
Qed.
Lemma sm_aget l i j : Forall plain_list l -> sm (aget l i j).
Proof.
  intros H. unfold aget. apply sm_tget. destruct (Nat.lt_ge_cases i (length l)) as [Hi|Hi].
  - apply (proj1 (Forall_forall _ _) H). now apply nth_In.
  - rewrite nth_overflow by exact Hi. constructor.
Qed.
Definition plain_tab (tab : tableau T) : Prop := Forall plain_list (ta tab) /\ plain_list (tb tab) /\ plain_list (te tab).
Lemma rk4_plain : plain_tab (construct_rk4 T). Proof. split; [|split]; repeat constructor. Qed.
Lemma dopri5_plain : plain_tab (construct_dopri5 T). Proof. split; [|split]; repeat constructor. Qed.
Lemma tsit5_plain : plain_tab (construct_tsit5 T). Proof. split; [|split]; repeat constructor. Qed.

Lemma rk4_good : good_step rk4_step.
Proof.
  intros x t dt k1 Hx Hd Hk. unfold rk4_step. destruct rk4_plain as (Pa & Pb & _).
  pose proof (fun i j => sm_aget _ i j Pa) as Sa. pose proof (fun i => sm_tget _ i Pb) as Sb.
  set (tab := construct_rk4 T) in *. clearbody tab. cbv zeta.
  eapply good_bind; [now apply good_first|intros k Hk']. next. next. next. apply good_ret. cbn [good_ret4].
  kinds.
Qed.

Lemma alf_good a : good_step (alf_step a).
Proof.
  intros x t dt k1 Hx Hd Hk. unfold alf_step. cbv zeta. set (half := Nat.div _ 2). clearbody half.
  pose proof (hd_firstn half x Hx) as H1. pose proof (hd_skipn half x Hx) as H2.
  set (x0 := firstn half x) in *. set (v := skipn half x) in *. clearbody x0 v.
  eapply good_bind; [apply good_first; assumption|intros _ _].
  assert (H3 : has_dtype d (x0 + (nhalf * dt)%N * v)%V) by kinds.
  eapply good_bind; [apply good_call; exact H3|intros vt Hvt]. apply good_ret. cbn [good_ret4].
  assert (H4 : has_dtype d ((nQ 2 * n1)%N * (vt - v) + v)%V).
  { apply hd_add; [|now apply smv_hd]. apply hd_scale; [apply sm_mul; apply sm_lit|]. apply hd_sub; [assumption|now apply smv_hd]. }
  apply hd_app; [|exact H4]. apply hd_add; [exact H3|]. apply smv_scale; [kinds|now apply smv_hd].
Qed.

Lemma erk7_good tab : plain_tab tab -> good_step (erk7_step tab).
Proof.
  intros (Pa & Pb & Pe) x t dt k1 Hx Hd Hk. unfold erk7_step.
  pose proof (fun i j => sm_aget _ i j Pa) as Sa. pose proof (fun i => sm_tget _ i Pb) as Sb. pose proof (fun i => sm_tget _ i Pe) as Se.
  cbv zeta. eapply good_bind; [now apply good_first|intros k Hk']. do 6 next. apply good_ret. cbn [good_ret4].
  split; [assumption|]. split; [kinds|]. split; [kinds|]. repeat constructor; assumption.
Qed.

Lemma hyper_good base o (g : T -> V -> V) : (forall t x, has_dtype d x -> has_dtype d (g t x)) -> good_step base -> good_step (hyper_step base o g).
Proof.
  intros Hg Hb x t dt k1 Hx Hd Hk. unfold hyper_step. eapply good_bind; [now apply Hb|]. intros [u y w|? ? ? ?] Hr; [|apply good_raise].
  apply good_ret. cbn [good_ret4 good_ret3] in *. apply hd_add; [exact Hr|]. apply smv_scale; [now apply sm_pow|]. apply smv_hd. now apply Hg.
Qed.

(** ** Fixed-step solves *)
Definition flat (a : T) : Prop := match snd a with Axes _ => False | _ => True end.
Lemma flat_sm a : flat a -> sm a. Proof. unfold flat, sm. destruct (snd a); cbn; tauto. Qed.
Lemma flat_op a b : flat a -> flat b -> match join (snd a) (snd b) with Axes _ => False | _ => True end.
Proof. unfold flat. destruct (snd a), (snd b); cbn; tauto. Qed.
Lemma pyget_In {A} (l : list A) i a : pyget l i = Ok a -> In a l.
Proof. unfold pyget. destruct (nth_error l i) eqn:E; [|discriminate]. intros H. injection H as <-. eapply nth_error_In; eauto. Qed.
Lemma pylast_In {A} (l : list A) a : pylast l = Ok a -> In a l.
Proof. unfold pylast. destruct (rev l) eqn:E; [discriminate|]. intros H. injection H as <-. apply in_rev. rewrite E. now left. Qed.

Section Loops.
Variable s : @step_fun T V.
Hypothesis Hs : good_step s.

Lemma fixed_loop_good t_span save_at : Forall flat t_span -> forall n steps x t dt sol,
  has_dtype d x -> flat t -> flat dt -> Forall (has_dtype d) sol ->
  good (fixed_loop f s t_span save_at n steps x t dt sol) (Forall (has_dtype d)).
Proof.
  intros Hts. induction n as [|n IH]; intros steps x t dt sol Hx Ht Hd Hsol; cbn [fixed_loop]; [now apply good_ret|].
  eapply good_bind; [apply Hs; auto using flat_sm; exact I|]. intros [u y w|? ? ? ?] Hr; [|apply good_raise]. cbn [good_ret4] in Hr.
  assert (Ht' : flat (t + dt)%N) by now apply flat_op.
  eapply (good_bind _ _ flat).
  - destruct (_ <? _)%nat; [|now apply good_ret]. eapply (good_bind _ _ flat); [|intros tn Htn; apply good_ret; now apply flat_op].
    apply good_lift. intros a Ha. rewrite Forall_forall in Hts. apply Hts. eapply pyget_In; eauto.
  - intros dt' Hdt'. apply IH; auto. destruct (_ =? _)%nat; auto. apply Forall_app. split; auto.
Qed.

Lemma fixed_good t_span save_at x : Forall flat t_span -> has_dtype d x ->
  good (fixed_odeint f x t_span s save_at) (fun r => Forall (has_dtype d) (snd r)).
Proof.
  intros Hts Hx. unfold fixed_odeint. set (sv := match save_at with [] => t_span | _ => save_at end). clearbody sv. cbv zeta.
  destruct (negb _); [apply good_raise|].
  assert (G : forall i, good (mlift (pyget t_span i)) flat).
  { intros i. apply good_lift. intros a Ha. rewrite Forall_forall in Hts. apply Hts. eapply pyget_In; eauto. }
  eapply good_bind; [apply G|intros t0 Ht0]. eapply (good_bind _ _ (fun _ => True)); [now apply good_lift|intros _ _].
  eapply good_bind; [apply G|intros t1 Ht1]. eapply good_bind.
  - apply fixed_loop_good; auto; [now apply flat_op|]. destruct (_ =? _)%nat; auto.
  - intros sol Hsol. destruct sol; [apply good_raise|]. apply good_ret. exact Hsol.
Qed.

(** ** Adaptive solves *)
Variable sv : solver T V.
Hypothesis Hstep : good_step (s_step sv).
Hypotheses (Hmin : sm (s_min_factor sv)) (Hmax : sm (s_max_factor sv)) (Hsafe : sm (s_safety sv)).
Variables (atol rtol : T).
Hypotheses (Ha : sm atol) (Hr : sm rtol).

Lemma sm_adapt (dt r a b c : T) o : sm dt -> sm r -> sm a -> sm b -> sm c -> sm (adapt_step dt r a b c o).
Proof.
  intros. unfold adapt_step. destruct (neqb _ _); [now apply sm_mul|]. cbv zeta. apply sm_mul; auto.
  apply sm_min; auto. apply sm_max; [|destruct (nltb _ _); auto using sm_lit].
  apply sm_div; auto. apply sm_powr; auto. apply sm_div; [apply sm_lit|apply sm_nat].
Qed.
Lemma sm_ratio semi x x' e : has_dtype d x -> has_dtype d x' -> smv e -> sm (error_ratio atol rtol semi x x' e).
Proof.
  intros Hx Hx' He. unfold error_ratio. apply sm_norm, smv_div.
  - destruct semi; [now apply smv_firstn|assumption].
  - apply smv_map; [intros a Hm; apply sm_add; auto; now apply sm_mul|].
    apply smv_max; apply smv_abs; destruct semi; try apply smv_firstn; now apply smv_hd.
Qed.

Lemma init_good cast t0 k1 x o (g : T -> V -> V) : (forall t x, has_dtype d x -> has_dtype d (g t x)) ->
  (forall a, sm a -> sm (cast a)) -> has_dtype d k1 -> has_dtype d x ->
  good (init_step_cast cast g k1 x t0 o atol rtol) sm.
Proof.
  intros Hg Hc Hk Hx. unfold init_step_cast. cbv zeta.
  assert (Hsc : smv (map (fun a => (atol + nabs a * rtol)%N) x)).
  { apply smv_map; [|now apply smv_hd]. intros a Haa. apply sm_add; auto. apply sm_mul; auto. }
  set (scale := map _ x) in *. clearbody scale.
  assert (Hd0 : sm (hairer_norm (vdiv x scale))) by (apply sm_norm, smv_div; auto; now apply smv_hd).
  assert (Hd1 : sm (hairer_norm (vdiv k1 scale))) by (apply sm_norm, smv_div; auto; now apply smv_hd).
  set (d0 := hairer_norm (vdiv x scale)) in *. set (d1 := hairer_norm (vdiv k1 scale)) in *. clearbody d0 d1.
  match goal with |- context [vscale ?h k1] => assert (Hh0 : sm h); [|set (h0 := h) in *; clearbody h0] end.
  { destruct (_ || _); [apply Hc, sm_lit|]. apply sm_div; auto. apply sm_mul; auto using sm_lit. }
  eapply (good_bind _ _ (has_dtype d)).
  - split; cbn; [repeat constructor; apply hd_add; auto; apply smv_scale; auto; now apply smv_hd|]. intros a E. injection E as <-. apply Hg.
    apply hd_add; auto. apply smv_scale; auto. now apply smv_hd.
  - intros fn Hfn. apply good_ret. apply Hc. apply sm_min; [apply sm_mul; auto using sm_lit|].
    destruct (_ && _); [apply sm_max; [apply Hc, sm_lit|apply sm_mul; auto using sm_lit]|].
    apply sm_powr; [|apply sm_div; [apply sm_lit|apply sm_nat]]. apply sm_div; [apply sm_lit|]. apply sm_pymax; auto.
    apply sm_div; auto. apply sm_norm, smv_div; auto. apply smv_sub; now apply smv_hd.
Qed.

Section Adaptive.
Variables (tT : T) (te : list T) (bmid : option (list T)) (all : bool) (semi : option nat).
Hypotheses (HT : sm tT) (Hte : Forall sm te) (Hb : match bmid with Some l => plain_list l | None => True end).
Let p := MkP f sv tT te atol rtol bmid all semi.
Definition good_state (st : @astate T) : Prop :=
  sm (a_t st) /\ sm (a_dt st) /\ has_dtype d (a_x st) /\ has_dtype d (a_k1 st) /\ Forall (has_dtype d) (a_sol st).

Lemma bmid_good (l : list T) (st : list V) v : plain_list l -> Forall (has_dtype d) st -> bmid_sum l st = Ok v -> smv v.
Proof.
  intros Hl Hst E. unfold bmid_sum in E.
  assert (G : forall (st : list V) l ts, plain_list l -> Forall (has_dtype d) st -> bmid_terms l st = Ok ts -> Forall smv ts).
  { clear. induction st as [|k st IH]; intros [|b l] ts Hl Hst E; cbn in E; try discriminate; try (injection E as <-; constructor).
    inversion Hl; inversion Hst; subst. destruct (bmid_terms l st) eqn:E'; cbn in E; try discriminate. injection E as <-.
    constructor; [|eapply IH; eauto]. apply smv_scale; auto. now apply smv_hd. }
  destruct (bmid_terms l st) as [ts| |] eqn:E'; cbn in E; try discriminate. pose proof (G _ _ _ Hl Hst E') as Hts.
  destruct Hts as [|t0 ts H0 Hts]; [injection E as <-; constructor|]. injection E as <-.
  assert (F : forall a, smv a -> smv (fold_left vadd ts a)).
  { clear -Hts. induction Hts as [|b ts Hb Hts IH]; intros a Haa; cbn; auto. apply IH. now apply smv_add. }
  apply F. apply smv_adds; [apply sm_lit|exact H0].
Qed.

Lemma evaluate_good c0 c1 (rest : list V) (t0 t1 t : T) v : sm t0 -> sm t1 -> sm t -> has_dtype d c0 -> smv c1 -> Forall smv rest ->
  interp_evaluate (c0 :: c1 :: rest) t0 t1 t = Ok v -> has_dtype d v.
Proof.
  intros H0 H1 Ht Hc0 Hc1 Hrest E. unfold interp_evaluate in E. cbv zeta in E.
  assert (Hth : sm ((t - t0) / (t1 - t0))%N) by (apply sm_div; now apply sm_sub).
  set (th := ((t - t0) / (t1 - t0))%N) in *. clearbody th. apply (f_equal (fun r => match r with Ok a => a | _ => v end)) in E.
  cbv beta iota in E. rewrite <- E. clear E.
  assert (G : forall acc, has_dtype d (fst acc) -> sm (snd acc) -> has_dtype d (fst (fold_left
     (fun (acc : V * T) coef => let theta_power := (snd acc * th)%N in ((fst acc + theta_power * coef)%V, theta_power)) rest acc))).
  { clear -Hrest Hth. induction Hrest as [|c rest Hc Hrest IH]; intros acc G1 G2; cbn; auto. apply IH; cbn [fst snd].
    - apply hd_add; auto. apply smv_scale; auto. now apply sm_mul.
    - now apply sm_mul. }
  apply G; cbn [fst snd]; auto. apply hd_add; auto. now apply smv_scale.
Qed.

Lemma interp_good n l t dt x k1 fn xn st : plain_list l -> sm t -> sm dt -> has_dtype d x -> has_dtype d k1 -> has_dtype d fn -> has_dtype d xn ->
  Forall (has_dtype d) st -> forall ck times sol ck' times' sol', Forall (has_dtype d) sol ->
  interp_loop n l te t dt x k1 fn xn st ck times sol = Ok (ck', times', sol') -> Forall (has_dtype d) sol'.
Proof.
  intros Hl Ht Hdt Hx Hk Hfn Hxn Hst. induction n as [|n IH]; intros ck times sol ck' times' sol' Hsol E; cbn [interp_loop] in E; [congruence|].
  destruct (nth_error te ck) as [tc|] eqn:Etc; [|congruence]. destruct (nltb tc _); [|congruence].
  destruct (bmid_sum l st) as [v| |] eqn:Ev; cbn [rbind] in E; try discriminate.
  destruct (interp_evaluate _ _ _ _) as [xi| |] eqn:Ei; cbn [rbind] in E; try discriminate.
  eapply IH; [|exact E]. apply Forall_app. split; auto. constructor; [|constructor].
  assert (Htc : sm tc) by (apply (proj1 (Forall_forall _ _) Hte); eapply nth_error_In; eauto).
  pose proof (bmid_good l st v Hl Hst Ev) as Hv. unfold fourth_fit in Ei.
  assert (Hmid : smv (x + dt * v)%V) by (apply smv_add; [now apply smv_hd|now apply smv_scale]).
  eapply evaluate_good; [| | | | | |exact Ei]; auto; try (now apply sm_add).
  - apply smv_scale; auto. now apply smv_hd.
  - repeat constructor; repeat first [apply smv_sub | apply smv_add | apply smv_scale | apply sm_mul | assumption | apply sm_lit | (apply smv_hd; assumption)].
Qed.

Lemma iter_good st : good_state st -> good (adaptive_iter p st) good_state.
Proof.
  intros (Ht & Hdt & Hx & Hk & Hsol). unfold adaptive_iter.
  assert (Hat : sm (fst (attempt_dt p st)) /\ match snd (attempt_dt p st) with Some o => sm o | None => True end).
  { unfold attempt_dt. cbn [p_T p_t_eval p_interp p].
    match goal with |- context [nltb tT ?e] => set (b0 := nltb tT e) end.
    assert (Hc : sm (if b0 then (tT - a_t st)%N else a_dt st)) by (destruct b0; auto; now apply sm_sub).
    set (dt1 := if b0 then _ else _) in *. clearbody dt1.
    destruct (nth_error te (a_ck st)) as [tc|] eqn:Etc; [|split; cbn [fst snd]; auto]. destruct (nltb tc _); [|split; cbn [fst snd]; auto].
    assert (Htc : sm tc) by (apply (proj1 (Forall_forall _ _) Hte); eapply nth_error_In; eauto).
    destruct bmid; split; cbn [fst snd]; auto; now apply sm_sub. }
  destruct (attempt_dt p st) as [dt old]. cbn [fst snd] in Hat. destruct Hat as [Hd Hold].
  eapply good_bind; [apply Hstep; auto|]. intros [u y w|fn xn e stg] Hret; [apply good_raise|]. cbn [good_ret4] in Hret.
  destruct Hret as (Hfn & Hxn & He & Hstg). cbn [p_solver p_atol p_rtol p_semi p]. cbv zeta.
  pose proof (sm_ratio semi _ _ _ Hx Hxn He) as Hra. set (ra := error_ratio _ _ _ _ _ _) in *. clearbody ra.
  eapply (good_bind _ _ (fun o => Forall (has_dtype d) (snd o))).
  - destruct (nleb ra _); [|apply good_ret; exact Hsol]. apply good_lift. intros [[ck times] sol] E. unfold accept_out in E. cbn [p_interp p_t_eval p_all p] in E.
    match type of E with rbind ?m _ = _ => destruct m as [[[ck' times'] sol']| |] eqn:Em end; cbn [rbind] in E; try discriminate.
    assert (Hsol' : Forall (has_dtype d) sol').
    { destruct bmid as [l|]; [|congruence]. eapply interp_good; [..|exact Em]; auto. }
    destruct (pyget te ck') as [tc| |]; cbn [rbind] in E; try discriminate.
    destruct (_ || _); injection E as <- <- <-; cbn [snd]; auto. apply Forall_app. split; auto.
  - intros [[ck times] sol] Hs'. cbn [snd] in Hs'. apply good_ret. unfold good_state. cbn [a_t a_dt a_x a_k1 a_sol].
    split; [destruct (nleb ra _); auto; now apply sm_add|]. split.
    { apply sm_adapt; auto. destruct old; auto. now apply sm_sub. }
    split; [destruct (nleb ra _); auto|]. split; [destruct (nleb ra _); auto|exact Hs'].
Qed.

Lemma loop_good fuel : forall st, good_state st -> good (adaptive_loop fuel p st) (fun r => Forall (has_dtype d) (snd r)).
Proof.
  induction fuel as [|fuel IH]; intros st Hst; cbn [adaptive_loop]; (match goal with |- context [if ?b then _ else _] => destruct b end; [|apply good_ret; apply Hst]);
    [apply good_fuel|].
  eapply (good_bind _ _ good_state); [exact (iter_good st Hst)|]. intros st' Hst'. now apply IH.
Qed.
End Adaptive.

Section Hybrid.
Variables (tT : T) (te : list T) (cbs : list (@callback T)) (etol : T) (semi : option nat).
Hypotheses (HT : sm tT) (Hte : Forall sm te).
Hypothesis Hj : forall cb t x, In cb cbs -> has_dtype d x -> has_dtype d (jump_map cb t x).
Let p := MkHP f sv cbs tT te atol rtol etol semi.
Definition good_hstate (st : @hstate T) : Prop :=
  sm (h_t st) /\ sm (h_dt st) /\ has_dtype d (h_x st) /\ match h_k1 st with Some k => has_dtype d k | None => True end /\
  match h_old st with Some o => sm o | None => True end /\ Forall (has_dtype d) (h_sol st).

Lemma bisect_good es dt : sm dt -> forall n t di x k1 fl, sm t -> sm di -> has_dtype d x -> match k1 with Some k => has_dtype d k | None => True end ->
  good (bisect n f sv cbs es etol dt t di x k1 fl) (fun r => let '(t', x', _, _) := r in sm t' /\ has_dtype d x').
Proof.
  intros Hdt. induction n as [|n IH]; intros t di x k1 fl Ht Hdi Hx Hk; cbn [bisect]; [now apply good_ret|].
  destruct (nltb _ _); [|now apply good_ret]. assert (Hh : sm (di / nQ 2)%N) by (apply sm_div; auto using sm_lit).
  eapply good_bind; [apply Hstep; auto|]. intros [u y w|fn xn e stg] Hret; [apply good_raise|]. destruct Hret as (Hfn & Hxn & He & Hstg).
  destruct (triggered _ _); apply IH; auto. now apply sm_add.
Qed.

Lemma hiter_good st : good_hstate st -> good (hybrid_iter p st) good_hstate.
Proof.
  intros (Ht & Hdt & Hx & Hk & Ho & Hsol). unfold hybrid_iter.
  assert (Hat : sm (fst (fst (hybrid_attempt p st))) /\ match snd (fst (hybrid_attempt p st)) with Some o => sm o | None => True end).
  { unfold hybrid_attempt. cbn [hp_T hp_t_eval p].
    match goal with |- context [nltb tT ?e] => set (b0 := nltb tT e) end.
    assert (Hc : sm (if b0 then (tT - h_t st)%N else h_dt st)) by (destruct b0; auto; now apply sm_sub).
    set (dt1 := if b0 then _ else _) in *. clearbody dt1.
    destruct (nth_error te (h_ck st)) as [tc|] eqn:Etc; [|split; cbn [fst snd]; auto]. destruct (nltb tc _); [|split; cbn [fst snd]; auto].
    assert (Htc : sm tc) by (apply (proj1 (Forall_forall _ _) Hte); eapply nth_error_In; eauto).
    split; cbn [fst snd]; auto; now apply sm_sub. }
  destruct (hybrid_attempt p st) as [[dt old] ck]. cbn [fst snd] in Hat. destruct Hat as [Hd Hold]. cbv zeta.
  cbn [hp_cbs hp_solver hp_f hp_etol hp_atol hp_rtol hp_semi p].
  eapply good_bind; [apply Hstep; auto|]. intros [u y w|fn xn e stg] Hret; [apply good_raise|]. cbn [good_ret4] in Hret.
  destruct Hret as (Hfn & Hxn & He & Hstg). destruct (triggered _ _).
  - eapply good_bind; [apply bisect_good; auto|]. intros [[[t' x'] k'] fl'] [Ht' Hx'].
    eapply (good_bind _ _ (fun _ => True)); [now apply good_lift|intros i _].
    eapply (good_bind _ _ (fun cb => In cb cbs)); [apply good_lift; intros a E; eapply pyget_In; eauto|intros cb Hcb].
    apply good_ret. unfold good_hstate. cbn [h_t h_dt h_x h_k1 h_old h_sol]. repeat (split; auto).
    apply Forall_app. split; auto.
  - pose proof (sm_ratio semi _ _ _ Hx Hxn He) as Hra. set (ra := error_ratio _ _ _ _ _ _) in *. clearbody ra.
    apply good_ret. match goal with |- context [adapt_step ?a ?b ?c ?dd ?e ?o] => assert (Hn : sm (adapt_step a b c dd e o)) end.
    { apply sm_adapt; auto. destruct old; auto. now apply sm_sub. }
    set (nd := adapt_step _ _ _ _ _ _) in *. clearbody nd.
    destruct (nleb ra _); unfold good_hstate; cbn [h_t h_dt h_x h_k1 h_old h_sol]; repeat (split; auto).
    + now apply sm_add.
    + apply Forall_app. split; auto.
Qed.

Lemma hloop_good fuel jn js : forall st, good_hstate st -> good (hybrid_loop fuel p jn js st) (fun r => Forall (has_dtype d) (snd r)).
Proof.
  induction fuel as [|fuel IH]; intros st Hst; cbn [hybrid_loop]; (match goal with |- context [if ?b then _ else _] => destruct b end; [|apply good_ret; apply Hst]);
    [apply good_fuel|].
  eapply (good_bind _ _ good_hstate); [exact (hiter_good st Hst)|]. intros st' Hst'. now apply IH.
Qed.
End Hybrid.
End Loops.
End Keep.

(** ** Solves *)
Section Solves.
Context {K : NumOps}.
Notation T := (TypedOps K).
Notation V := (vec T).

(** The fixed-step solvers of torchdyn; hypernetworks keep the dtype d *)
Inductive fixed_keeping (d : dtype) : solver T V -> Prop :=
| keep_euler : fixed_keeping d (Euler T)
| keep_midpoint : fixed_keeping d (Midpoint T)
| keep_rk4 : fixed_keeping d (RungeKutta4 T)
| keep_hyper_euler g : (forall t x, has_dtype d x -> has_dtype d (g t x)) -> fixed_keeping d (@HyperEuler T g)
| keep_hyper_midpoint g : (forall t x, has_dtype d x -> has_dtype d (g t x)) -> fixed_keeping d (@HyperMidpoint T g)
| keep_hyper_rk4 g : (forall t x, has_dtype d x -> has_dtype d (g t x)) -> fixed_keeping d (@HyperRungeKutta4 T g).
Inductive adaptive_builtin : solver T V -> Prop :=
| ad_dopri5 : adaptive_builtin (DormandPrince45 T)
| ad_tsit5 : adaptive_builtin (Tsitouras45 T).

Lemma hd_neg d (f : T -> V -> V) : (forall t x, has_dtype d x -> has_dtype d (f t x)) ->
  forall t x, has_dtype d x -> has_dtype d (neg_field f t x).
Proof.
  intros Hf t x Hx. unfold neg_field, vopp. specialize (Hf (nopp t) x Hx). induction Hf; cbn; constructor; auto.
Qed.
Lemma times_flat td l : Forall flat (@times_of K td l).
Proof. apply Forall_forall. intros a Ha. apply in_map_iff in Ha. destruct Ha as (b & <- & _). exact I. Qed.
Lemma opp_flat (l : list T) : Forall flat l -> Forall flat (map nopp l).
Proof. intros H. induction H as [|a l Ha H IH]; cbn; constructor; auto. Qed.
Lemma times_kinds td l : Forall (fun a : T => snd a = NoAxes td) (@times_of K td l).
Proof. apply Forall_forall. intros a Ha. apply in_map_iff in Ha. destruct Ha as (b & <- & _). reflexivity. Qed.
Lemma opp_kinds td (l : list T) : Forall (fun a : T => snd a = NoAxes td) l -> Forall (fun a : T => snd a = NoAxes td) (map nopp l).
Proof. intros H. induction H as [|a l Ha H IH]; cbn; constructor; auto. Qed.

Lemma prep_good d td (f : T -> V -> V) l f_ ts : (forall t x, has_dtype d x -> has_dtype d (f t x)) ->
  prep_time f (TTensor (@times_of K td l)) = Ok (f_, ts) ->
  (forall t x, has_dtype d x -> has_dtype d (f_ t x)) /\ Forall (fun a : T => snd a = NoAxes td) ts.
Proof.
  intros Hf E. unfold prep_time in E. cbn [ts_list] in E. pose proof (times_kinds td l) as Hk. set (tt := times_of td l) in *. clearbody tt.
  destruct (pyget tt 1); cbn [rbind] in E; try discriminate. destruct (pyget tt 0); cbn [rbind] in E; try discriminate.
  destruct (nltb _ _); injection E as <- <-; split; auto.
  - now apply hd_neg.
  - now apply opp_kinds.
Qed.
Lemma kinds_flat td (l : list T) : Forall (fun a : T => snd a = NoAxes td) l -> Forall flat l.
Proof. intros H. eapply Forall_impl; [|exact H]. intros a Ha. unfold flat. now rewrite Ha. Qed.
Lemma kinds_sm d td (l : list T) : Forall (fun a : T => snd a = NoAxes td) l -> Forall (sm d) l.
Proof. intros H. eapply Forall_impl; [|exact H]. intros a Ha. unfold sm. rewrite Ha. exact I. Qed.

Lemma bmid_plain d : plain_list d (construct_4th T).
Proof. repeat constructor. Qed.

Lemma first_sm d td (a : T) : snd a = NoAxes td -> holds d td -> sm d (first_entry a).
Proof. intros Ha H. unfold sm, first_entry. cbn [snd]. now rewrite Ha. Qed.

Lemma skipn_kinds (P : T -> Prop) n l : Forall P l -> Forall P (skipn n l).
Proof. revert n. induction l as [|a l IH]; intros [|n] H; cbn; auto. inversion H; auto. Qed.
End Solves.

(** C151 for fixed-step solvers.  Whatever the dtypes of the state and of the times: the field is called with states of the dtype of x
    only and all states returned have this dtype. *)
Lemma C151_fixed_pf : forall (K : NumOps) (xd td : dtype) (f : TypedOps K -> vec (TypedOps K) -> vec (TypedOps K))
    (s : solver (TypedOps K) (vec (TypedOps K))) (fuel : nat) (x ts : list K) (save_at : list (TypedOps K))
    (atol rtol : TypedOps K) (interp all : bool) (semi : option nat),
  fixed_keeping xd s -> (forall t y, has_dtype xd y -> has_dtype xd (f t y)) ->
  let r := odeint_typed fuel td f (state_of xd x) (TTensor (times_of td ts)) s atol rtol interp all save_at semi in
  Forall (fun c => has_dtype xd (snd c)) (fst r) /\
  forall times sol, snd r = Ok (times, sol) -> Forall (has_dtype xd) sol.
Proof.
  intros K xd td f s fuel x ts save_at atol rtol interp all semi Hs Hf r.
  assert (Hx : has_dtype xd (state_of xd x)).
  { apply Forall_forall. intros a Ha. apply in_map_iff in Ha. destruct Ha as (b & <- & _). reflexivity. }
  assert (G : good xd r (fun r => Forall (has_dtype xd) (snd r))).
  { unfold r, odeint_typed. eapply (good_bind xd _ _ (fun ft => (forall t y, has_dtype xd y -> has_dtype xd (fst ft t y)) /\ Forall flat (snd ft))).
    - apply good_lift. intros [f_ tt] E. destruct (prep_good xd td f ts f_ tt Hf E) as [H1 H2]. split; [exact H1|]. eapply kinds_flat; eauto.
    - intros [f_ tt] [H1 H2]. cbn [fst snd] in *. assert (Efx : s_fixed s = true) by (destruct Hs; reflexivity). rewrite Efx.
      apply fixed_good; auto. destruct Hs; cbn [s_step Euler Midpoint RungeKutta4 HyperEuler HyperMidpoint HyperRungeKutta4 mk_solver].
      + now apply euler_good.
      + now apply midpoint_good.
      + now apply rk4_good.
      + apply hyper_good; auto. now apply euler_good.
      + apply hyper_good; auto. now apply midpoint_good.
      + apply hyper_good; auto. now apply rk4_good. }
  destruct G as [G1 G2]. split; [exact G1|]. intros times sol E. exact (G2 _ E).
Qed.

(** C151 (partial), dopri5 and tsit5.  If the dtype of the state holds float32 and the dtype of the times, then the field is called with
    states of the dtype of x only and all states returned have this dtype, in both directions of time, with and without
    interpolation. *)
Lemma C151_keeps_partial_pf : forall (K : NumOps) (xd td : dtype) (f : TypedOps K -> vec (TypedOps K) -> vec (TypedOps K))
    (s : solver (TypedOps K) (vec (TypedOps K))) (fuel : nat) (x ts : list K) (save_at : list (TypedOps K))
    (atol rtol : K) (interp all : bool) (semi : option nat),
  adaptive_builtin s -> (forall t y, has_dtype xd y -> has_dtype xd (f t y)) -> holds xd Float -> holds xd td ->
  let r := odeint_typed fuel td f (state_of xd x) (TTensor (times_of td ts)) s (with_kind PyNumber atol) (with_kind PyNumber rtol)
             interp all save_at semi in
  Forall (fun c => has_dtype xd (snd c)) (fst r) /\
  forall times sol, snd r = Ok (times, sol) -> Forall (has_dtype xd) sol.
Proof.
  intros K xd td f s fuel x ts save_at atol rtol interp all semi Hs Hf HF Htd r.
  assert (Hx : has_dtype xd (state_of xd x)).
  { apply Forall_forall. intros a Ha. apply in_map_iff in Ha. destruct Ha as (b & <- & _). reflexivity. }
  assert (G : good xd r (fun r => Forall (has_dtype xd) (snd r))).
  { unfold r, odeint_typed. set (x0 := state_of xd x) in *. clearbody x0.
    eapply (good_bind xd _ _ (fun ft => (forall t y, has_dtype xd y -> has_dtype xd (fst ft t y)) /\ Forall (fun a => snd a = NoAxes td) (snd ft))).
    { apply good_lift. intros [f_ tt] E. exact (prep_good xd td f ts f_ tt Hf E). }
    intros [f_ tt] [H1 H2]. cbn [fst snd] in H1, H2. cbv beta iota zeta. assert (Efx : s_fixed s = false) by (destruct Hs; reflexivity). rewrite Efx.
    assert (Hg : forall i, @good K xd _ (mlift (pyget tt i)) (fun a => snd a = NoAxes td)).
    { intros i. apply good_lift. intros a Ha. apply (proj1 (Forall_forall _ _) H2). eapply pyget_In; eauto. }
    eapply good_bind; [apply Hg|intros t Ht]. eapply good_bind; [apply good_call; [exact H1|exact Hx]|intros k1 Hk1].
    eapply good_bind; [apply (init_good xd); auto; try exact I; intros; exact I|intros dt Hdt].
    eapply good_bind; [apply Hg|intros t0 Ht0].
    eapply (good_bind xd _ _ (fun a => snd a = NoAxes td)).
    { apply good_lift. intros a Ha. apply (proj1 (Forall_forall _ _) H2). eapply pylast_In; eauto. }
    intros tT HT. apply loop_good; auto.
    - destruct Hs; cbn [tensor_factors s_step DormandPrince45 Tsitouras45 mk_solver].
      + apply erk7_good; auto. apply dopri5_plain.
      + apply erk7_good; auto. apply tsit5_plain.
    - exact I.
    - exact I.
    - unfold sm. now rewrite HT.
    - apply skipn_kinds. eapply kinds_sm; eauto.
    - destruct (s_is_tsit5 s); auto. destruct interp; auto. apply bmid_plain.
    - unfold good_state. cbn [a_t a_dt a_x a_k1 a_sol]. split; [exact (first_sm _ _ _ Ht0 Htd)|]. repeat (split; auto). }
  destruct G as [G1 G2]. split; [exact G1|]. intros times sol E. exact (G2 _ E).
Qed.

(** C151 (partial), hybrid solves: the same for odeint_hybrid with dopri5 or tsit5 if jump maps keep the dtype. *)
Lemma C151_hybrid_partial_pf : forall (K : NumOps) (xd td : dtype) (f : TypedOps K -> vec (TypedOps K) -> vec (TypedOps K))
    (s : solver (TypedOps K) (vec (TypedOps K))) (fuel : nat) (x ts : list K) (j_span : nat) (cbs : list (@callback (TypedOps K)))
    (atol rtol etol : K) (jump_first : bool) (semi : option nat),
  adaptive_builtin s -> (forall t y, has_dtype xd y -> has_dtype xd (f t y)) ->
  (forall cb t y, In cb cbs -> has_dtype xd y -> has_dtype xd (jump_map cb t y)) -> holds xd Float -> holds xd td ->
  let r := odeint_hybrid_typed fuel td f (state_of xd x) (times_of td ts) j_span s cbs (with_kind PyNumber atol) (with_kind PyNumber rtol)
             (with_kind PyNumber etol) jump_first semi in
  Forall (fun c => has_dtype xd (snd c)) (fst r) /\
  forall times sol, snd r = Ok (times, sol) -> Forall (has_dtype xd) sol.
Proof.
  intros K xd td f s fuel x ts j_span cbs atol rtol etol jump_first semi Hs Hf Hj HF Htd r.
  assert (Hx : has_dtype xd (state_of xd x)).
  { apply Forall_forall. intros a Ha. apply in_map_iff in Ha. destruct Ha as (b & <- & _). reflexivity. }
  assert (G : good xd r (fun r => Forall (has_dtype xd) (snd r))).
  { unfold r, odeint_hybrid_typed. set (x0 := state_of xd x) in *. clearbody x0.
    pose proof (@times_kinds K td ts) as H2. set (tt := times_of td ts) in *. clearbody tt.
    assert (Hg : forall i, @good K xd _ (mlift (pyget tt i)) (fun a => snd a = NoAxes td)).
    { intros i. apply good_lift. intros a Ha. apply (proj1 (Forall_forall _ _) H2). eapply pyget_In; eauto. }
    eapply good_bind; [apply Hg|intros t Ht]. cbv zeta.
    eapply (good_bind xd _ _ (fun a => snd a = NoAxes td)).
    { apply good_lift. intros a Ha. apply (proj1 (Forall_forall _ _) H2). eapply pylast_In; eauto. }
    intros tT HT. eapply (good_bind xd _ _ (fun xj => has_dtype xd (fst xj))).
    { destruct jump_first; [|apply good_ret; exact Hx]. destruct (triggered _ _); [|apply good_ret; exact Hx].
      eapply (good_bind xd _ _ (fun _ => True)); [apply good_lift; auto|intros i _].
      eapply (good_bind xd _ _ (fun cb => In cb cbs)); [apply good_lift; intros a E; eapply pyget_In; eauto|intros cb Hcb].
      apply good_ret. cbn [fst]. now apply Hj. }
    intros [x1 jn] Hx1. cbn [fst] in Hx1. cbv beta iota.
    eapply good_bind; [apply good_call; [exact Hf|exact Hx1]|intros k1 Hk1].
    eapply good_bind; [apply (init_good xd); auto; try exact I; intros; exact I|intros dt Hdt].
    apply hloop_good; auto.
    - destruct Hs; cbn [tensor_factors s_step DormandPrince45 Tsitouras45 mk_solver].
      + apply erk7_good; auto. apply dopri5_plain.
      + apply erk7_good; auto. apply tsit5_plain.
    - exact I.
    - exact I.
    - unfold sm. now rewrite HT.
    - apply skipn_kinds. eapply kinds_sm; eauto.
    - unfold good_hstate. cbn [h_t h_dt h_x h_k1 h_old h_sol]. split; [exact (first_sm _ _ _ Ht Htd)|]. repeat (split; auto). }
  destruct G as [G1 G2]. split; [exact G1|]. intros times sol E. exact (G2 _ E).
Qed.

(** ** Values do not depend on kinds *)
Section Erase.
Context {K : NumOps}.
Notation T := (TypedOps K).
Notation V := (vec T).

(** Numbers, states, calls and results without their kinds *)
Definition untyped (x : V) : vec K := map fst x.
Definition untyped_calls (l : list (T * V)) : list (K * vec K) := map (fun c => (fst (fst c), untyped (snd c))) l.
Definition untyped_res (a : res (list T * list V)) : res (list K * list (vec K)) :=
  match a with Ok (times, sol) => Ok (untyped times, map untyped sol) | Err e => Err e | OutOfFuel => OutOfFuel end.
(** F computes the values of f *)
Definition computes (F : T -> V -> V) (f : K -> vec K -> vec K) : Prop := forall t x, untyped (F t x) = f (fst t) (untyped x).
Inductive same_builtin : solver T V -> solver K (vec K) -> Prop :=
| sb_euler : same_builtin (Euler T) (Euler K)
| sb_midpoint : same_builtin (Midpoint T) (Midpoint K)
| sb_rk4 : same_builtin (RungeKutta4 T) (RungeKutta4 K)
| sb_dopri5 : same_builtin (DormandPrince45 T) (DormandPrince45 K)
| sb_tsit5 : same_builtin (Tsitouras45 T) (Tsitouras45 K).

Definition rt (a : T) (b : K) : Prop := fst a = b.
Lemma rt_related : related T K rt.
Proof. constructor; unfold rt; intros; subst; reflexivity. Qed.
Notation rtv := (Forall2 rt).
Lemma rt_vec x y : rtv x y <-> untyped x = y.
Proof.
  unfold untyped. revert y. induction x as [|a x IH]; intros y; cbn [map]; split; intros H.
  - now inversion H. - subst. constructor.
  - inversion H as [|? b ? z Hb Hz]; subst. apply IH in Hz. unfold rt in Hb. now rewrite Hb, Hz.
  - destruct y as [|b y]; [discriminate|]. injection H as H1 H2. constructor; [exact H1|now apply IH].
Qed.
Lemma rt_field F f : computes F f -> rel_field rt rtv F f.
Proof. intros H t t' x x' Ht Hx. apply rt_vec in Hx. apply rt_vec. unfold rt in Ht. subst. apply H. Qed.
Lemma rt_solver s s' : same_builtin s s' -> rel_solver rt s s'.
Proof.
  intros H. destruct H; apply (mk_rel rt rt_related).
  - apply (euler_rel rt rt_related). - apply (midpoint_rel rt rt_related). - apply (rk4_rel rt rt_related).
  - apply (erk7_rel rt rt_related), (dopri5_tab rt rt_related). - apply (erk7_rel rt rt_related), (tsit5_tab rt rt_related).
Qed.
Lemma rt_factors s s' : rel_solver rt s s' -> rel_solver rt (tensor_factors s) s'.
Proof. intros (H1 & H2 & H3 & H4 & H5 & H6 & H7). exact (conj H1 (conj H2 (conj H3 (conj H4 (conj H5 (conj H6 H7)))))). Qed.
Lemma rt_out a b : rel_m rt rtv (rel_pair rtv (Forall2 rtv)) a b -> untyped_calls (fst a) = fst b /\ untyped_res (snd a) = snd b.
Proof.
  intros [H1 H2]. split.
  - unfold untyped_calls. induction H1 as [|c d l l' [Hc Hd] _ IH]; cbn [map]; [reflexivity|]. rewrite IH. destruct d as [t x]. cbn [fst snd] in *.
    apply rt_vec in Hd. unfold rt in Hc. subst. reflexivity.
  - destruct (snd a) as [[ts sol]| |], (snd b) as [[ts' sol']| |]; cbn in *; try contradiction; [|now subst|reflexivity].
    destruct H2 as [Ht Hs]. cbn in *. apply rt_vec in Ht. do 2 f_equal; [exact Ht|]. induction Hs as [|u v l l' Hu _ IH]; cbn; [reflexivity|].
    apply rt_vec in Hu. now rewrite Hu, IH.
Qed.
Lemma rt_times td l : rtv (@times_of K td l) l.
Proof. apply rt_vec. unfold untyped, times_of. rewrite map_map. apply map_id. Qed.
Lemma rt_state d l : rtv (@state_of K d l) l.
Proof. apply rt_vec. unfold untyped, state_of. rewrite map_map. apply map_id. Qed.

Lemma init_cast_rel (cast : T -> T) F f k k' x x' t t' o a a' b b' : (forall u v, rt u v -> rt (cast u) v) ->
  rel_field rt rtv F f -> rtv k k' -> rtv x x' -> rt t t' -> rt a a' -> rt b b' ->
  rel_m rt rtv rt (init_step_cast cast F k x t o a b) (init_step f k' x' t' o a' b').
Proof.
  pose proof rt_related as HR.
  intros Hc Hf Hk Hx Ht Ha Hb. unfold init_step_cast, init_step. cbv zeta.
  set (sc := map _ x). set (sc' := map _ x').
  assert (Hsc : rtv sc sc').
  { subst sc sc'. revert Hx. apply F2_map. intros u u' Hu. apply (r_add _ _ _ HR); [assumption|]. apply (r_mul _ _ _ HR); [now apply (r_abs _ _ _ HR)|assumption]. }
  assert (D0 : rt (hairer_norm (vdiv x sc)) (hairer_norm (vdiv x' sc'))) by (apply (r_hairer _ HR), (rv_div _ HR); assumption).
  assert (D1 : rt (hairer_norm (vdiv k sc)) (hairer_norm (vdiv k' sc'))) by (apply (r_hairer _ HR), (rv_div _ HR); assumption).
  set (d0 := hairer_norm (vdiv x sc)) in *. set (d0' := hairer_norm (vdiv x' sc')) in *.
  set (d1 := hairer_norm (vdiv k sc)) in *. set (d1' := hairer_norm (vdiv k' sc')) in *.
  rewrite (r_ltb _ _ _ HR d0 d0' _ _ D0 (r_Q _ _ _ HR _)), (r_ltb _ _ _ HR d1 d1' _ _ D1 (r_Q _ _ _ HR _)).
  match goal with |- context [(if ?c then cast ?q else @ndiv T ?u ?v)] => set (h0 := if c then cast q else @ndiv T u v) end.
  match goal with |- context [(if ?c then nQ ?q else @ndiv K ?u ?v)] => set (h0' := if c then nQ q else @ndiv K u v) end.
  assert (H0 : rt h0 h0').
  { subst h0 h0'. destruct (_ || _)%bool; [apply Hc, (r_Q _ _ _ HR)|]. apply (r_div _ _ _ HR); [|assumption]. apply (r_mul _ _ _ HR); [apply (r_Q _ _ _ HR)|assumption]. }
  clearbody h0 h0'.
  eapply rel_bind; [apply rel_mcall; [exact Hf|now apply (r_add _ _ _ HR)|now apply (rv_add _ HR); [|apply (rv_scale _ HR)]]|]. intros fn fn' Hfn.
  assert (D2 : rt (ndiv (hairer_norm (vdiv (vsub fn k) sc)) h0) (ndiv (hairer_norm (vdiv (vsub fn' k') sc')) h0')).
  { apply (r_div _ _ _ HR); [|assumption]. apply (r_hairer _ HR), (rv_div _ HR); [now apply (rv_sub _ HR)|assumption]. }
  apply rel_mret. apply Hc. apply (r_min _ _ _ HR); [apply (r_mul _ _ _ HR); [apply (r_Q _ _ _ HR)|assumption]|].
  rewrite (r_leb _ _ _ HR d1 d1' _ _ D1 (r_Q _ _ _ HR _)), (r_leb _ _ _ HR _ _ _ _ D2 (r_Q _ _ _ HR _)).
  destruct (_ && _)%bool.
  - apply (r_max _ _ _ HR); [apply Hc, (r_Q _ _ _ HR)|apply (r_mul _ _ _ HR); [assumption|apply (r_Q _ _ _ HR)]].
  - apply (r_powr _ _ _ HR).
    + apply (r_div _ _ _ HR); [apply (r_Q _ _ _ HR)|]. now apply (r_pymax _ HR).
    + apply (r_div _ _ _ HR); [apply (r_Q _ _ _ HR)|apply (r_nnat _ HR)].
Qed.
End Erase.

(** C151: the dtypes are the only difference to the model without dtypes.  In any arithmetic the typed solve has the values, the exceptions
    and the calls of [odeint]. *)
Lemma C151_values_pf : forall (K : NumOps) (td : dtype) (F : TypedOps K -> vec (TypedOps K) -> vec (TypedOps K)) (f : K -> vec K -> vec K)
    (S : solver (TypedOps K) (vec (TypedOps K))) (s : solver K (vec K)) (fuel : nat) (x : vec (TypedOps K)) (ts : list (TypedOps K))
    (save_at : list (TypedOps K)) (atol rtol : TypedOps K) (interp all : bool) (semi : option nat),
  computes F f -> same_builtin S s ->
  let typed := odeint_typed fuel td F x (TTensor ts) S atol rtol interp all save_at semi in
  let plain := odeint fuel f (untyped x) (TTensor (untyped ts)) s (fst atol) (fst rtol) interp all (untyped save_at) semi in
  untyped_calls (fst typed) = fst plain /\ untyped_res (snd typed) = snd plain.
Proof.
  intros K td F f S s fuel x ts sv atol rtol interp all semi HF HS a b. apply rt_out. unfold a, b. pose proof (@rt_related K) as HR.
  apply rt_field in HF. apply rt_solver in HS.
  assert (Hx : Forall2 rt x (untyped x)) by now apply rt_vec. set (x' := untyped x) in *. clearbody x'.
  assert (Hts : Forall2 rt ts (untyped ts)) by now apply rt_vec. set (ts' := untyped ts) in *. clearbody ts'.
  assert (Hsv : Forall2 rt sv (untyped sv)) by now apply rt_vec. set (sv' := untyped sv) in *. clearbody sv'.
  unfold odeint_typed, odeint.
  eapply rel_bind; [apply rel_mlift; apply (prep_rel rt HR); [exact HF|exact Hts]|]. intros [f_ l] [f_' l'] [Hf_ Hl]. cbn [fst snd] in *. cbv zeta.
  pose proof HS as (Ho & Hfx & Htt & _ & _ & _ & Hst). rewrite Hfx, Htt, Ho. destruct (s_fixed s); [now apply (fixed_rel rt HR)|].
  eapply rel_bind; [apply rel_mlift, rel_pyget, Hl|]. intros t t' Ht.
  eapply rel_bind; [now apply rel_mcall|]. intros k k' Hk.
  eapply rel_bind; [apply init_cast_rel; auto; reflexivity|]. intros dt dt' Hdt.
  unfold adaptive_odeint.
  eapply rel_bind; [apply rel_mlift, rel_pyget, Hl|]. intros t0 t0' Ht0.
  eapply rel_bind; [apply rel_mlift, rel_pylast, Hl|]. intros T T' HT.
  rewrite <- (@adaptive_loop_ad_id (TypedOps K)). apply (loop_rel rt HR); [auto|..].
  - unfold rel_params. cbn [p_f p_solver p_T p_t_eval p_atol p_rtol p_interp p_all p_semi]. split; [assumption|]. split; [now apply rt_factors|].
    split; [assumption|]. split; [now apply F2_skipn|]. split; [reflexivity|]. split; [reflexivity|]. split; [|split; reflexivity].
    destruct (s_is_tsit5 s); [exact I|]. destruct interp; [apply (fourth_tab rt HR)|exact I].
  - unfold rel_state. cbn [a_t a_dt a_x a_k1 a_ck a_times a_sol]. repeat split; auto; constructor; auto.
Qed.

(** The field 0: slopes of the dtype of the state *)
Definition zero_slopes {K : NumOps} (z : K) (_ : TypedOps K) (x : vec (TypedOps K)) : vec (TypedOps K) := map (fun a => (z, snd a)) x.
Lemma zero_slopes_keeps {K : NumOps} (z : K) : keeps_dtype (zero_slopes z).
Proof. intros d t x H. unfold zero_slopes. induction H as [|a x Ha H IH]; cbn; constructor; auto. Qed.

(** C151 fails.  dopri5 with default arguments, the field 0 and x(0) = 1 over [0, 1] in double precision arithmetic: a float32
    state with a float64 t_span ends as a float64 state, after calls of the field with float64 states; a float16 (or bfloat16) state with a t_span of
    the same dtype ends as a float32 state. *)
Lemma C151_dtype_refuted_pf : forall pw : float -> float -> float,
  let K := FloatOps pw in
  let f := @zero_slopes K 0%float in
  let run xd td := @odeint_typed K 40 td f (@state_of K xd [1%float]) (TTensor (@times_of K td [0; 1]%float)) (DormandPrince45 (TypedOps K))
                     (@with_kind K PyNumber 0.001%float) (@with_kind K PyNumber 0.001%float) false false [] None in
  let last_dtypes xd td := match snd (run xd td) with Ok (_, sol) => Some (map snd (last sol [])) | _ => None end in
  let called xd td := map (fun c : TypedOps K * vec (TypedOps K) => map snd (snd c)) (fst (run xd td)) in
  keeps_dtype f /\
  last_dtypes Float Double = Some [Axes Double] /\ In [Axes Double] (called Float Double) /\
  last_dtypes Half Half = Some [Axes Float] /\ In [Axes Float] (called Half Half) /\
  last_dtypes Bfloat16 Bfloat16 = Some [Axes Float] /\ In [Axes Float] (called Bfloat16 Bfloat16).
Proof.
  intros pw K f run last_dtypes called. split; [apply zero_slopes_keeps|].
  repeat split; vm_compute; try reflexivity; repeat (first [left; reflexivity | right]).
Qed.

(** ** Times *)
Section Times.
Context {K : NumOps}.
Notation T := (TypedOps K).
Notation V := (vec T).
Variable td : dtype.
Definition of_kind (a : T) : Prop := snd a = NoAxes td.
Definition timed {A} (m : M (T * V) A) (P : A -> Prop) : Prop :=
  Forall (fun c => of_kind (fst c)) (fst m) /\ forall a, snd m = Ok a -> P a.
Lemma timed_ret {A} (a : A) (P : A -> Prop) : P a -> timed (mret a) P.
Proof. intros H. split; [constructor|]. cbn. intros b E. congruence. Qed.
Lemma timed_bind {A B} (m : M (T * V) A) (k : A -> M (T * V) B) P Q :
  timed m P -> (forall a, P a -> timed (k a) Q) -> timed (mbind m k) Q.
Proof.
  intros [H1 H2] Hk. unfold mbind. destruct (snd m) as [a|e|] eqn:E; [|split; [exact H1|discriminate]|split; [exact H1|discriminate]].
  destruct (Hk a (H2 a eq_refl)) as [H3 H4]. split; cbn; [apply Forall_app; now split|exact H4].
Qed.
Lemma timed_lift {A} (r : res A) (P : A -> Prop) : (forall a, r = Ok a -> P a) -> timed (mlift r) P.
Proof. intros H. split; [constructor|exact H]. Qed.
Lemma timed_raise {A} e (P : A -> Prop) : timed (mraise e) P.
Proof. split; [constructor|discriminate]. Qed.
Lemma promote_same d : promote d d = d. Proof. now destruct d. Qed.
Lemma kind_add a b : of_kind a -> of_kind b -> of_kind (a + b)%N.
Proof. unfold of_kind. cbn. intros -> ->. cbn. now rewrite promote_same. Qed.
Lemma kind_sub a b : of_kind a -> of_kind b -> of_kind (a - b)%N.
Proof. unfold of_kind. cbn. intros -> ->. cbn. now rewrite promote_same. Qed.
Lemma kind_half a : of_kind a -> of_kind (nhalf * a)%N.
Proof. unfold of_kind. cbn. intros ->. reflexivity. Qed.

Variable f : T -> V -> V.
Lemma timed_call t x : of_kind t -> timed (call f t x) (fun _ => True).
Proof. intros H. split; cbn; [repeat constructor; exact H|]. auto. Qed.
Definition timed_step (s : @step_fun T V) : Prop := forall x t dt, of_kind t -> of_kind dt -> timed (s f x t dt None) (fun _ => True).
Lemma euler_timed : timed_step euler_step.
Proof. intros x t dt Ht Hd. unfold euler_step. eapply timed_bind; [now apply timed_call|intros k _]. now apply timed_ret. Qed.
Lemma midpoint_timed : timed_step midpoint_step.
Proof.
  intros x t dt Ht Hd. unfold midpoint_step. eapply timed_bind; [now apply timed_call|intros k _].
  eapply timed_bind; [apply timed_call; apply kind_add; auto; now apply kind_half|intros k' _]. now apply timed_ret.
Qed.

Variable s : @step_fun T V.
Hypothesis Hs : timed_step s.
Lemma fixed_loop_timed t_span save_at : Forall of_kind t_span -> forall n steps x t dt sol, of_kind t -> of_kind dt ->
  timed (fixed_loop f s t_span save_at n steps x t dt sol) (fun _ => True).
Proof.
  intros Hts. induction n as [|n IH]; intros steps x t dt sol Ht Hd; cbn [fixed_loop]; [now apply timed_ret|].
  eapply timed_bind; [now apply Hs|]. intros [u y w|? ? ? ?] _; [|apply timed_raise].
  assert (Ht' : of_kind (t + dt)%N) by now apply kind_add.
  eapply (timed_bind _ _ of_kind).
  - destruct (_ <? _)%nat; [|now apply timed_ret]. eapply (timed_bind _ _ of_kind); [|intros tn Htn; apply timed_ret; now apply kind_sub].
    apply timed_lift. intros a Ha. rewrite Forall_forall in Hts. apply Hts. eapply pyget_In; eauto.
  - intros dt' Hdt'. apply IH; auto.
Qed.
Lemma fixed_timed t_span save_at x : Forall of_kind t_span -> Forall of_kind save_at ->
  timed (fixed_odeint f x t_span s save_at) (fun r => Forall of_kind (fst r)).
Proof.
  intros Hts Hsa. unfold fixed_odeint. set (sv := match save_at with [] => t_span | _ => save_at end).
  assert (Hsv : Forall of_kind sv) by (unfold sv; destruct save_at; auto). clearbody sv. cbv zeta.
  destruct (negb _); [apply timed_raise|].
  assert (G : forall i, timed (mlift (pyget t_span i)) of_kind).
  { intros i. apply timed_lift. intros a Ha. rewrite Forall_forall in Hts. apply Hts. eapply pyget_In; eauto. }
  eapply timed_bind; [apply G|intros t0 Ht0]. eapply (timed_bind _ _ (fun _ => True)); [now apply timed_lift|intros _ _].
  eapply timed_bind; [apply G|intros t1 Ht1]. eapply timed_bind.
  - apply fixed_loop_timed; auto. now apply kind_sub.
  - intros sol _. destruct sol; [apply timed_raise|]. apply timed_ret. exact Hsv.
Qed.
End Times.

(** C151, the times of Euler's method and the midpoint rule (the solvers without tableau; the entries of tableaux take part in the times of
    the others): the field is called at times of the dtype of t_span only, in both directions of time and whatever the dtype of
    the state; the times returned have the dtype of t_span if those of save_at do. *)
Lemma C151_times_pf : forall (K : NumOps) (td : dtype) (f : TypedOps K -> vec (TypedOps K) -> vec (TypedOps K))
    (s : solver (TypedOps K) (vec (TypedOps K))) (fuel : nat) (x : vec (TypedOps K)) (ts : list K) (save_at : list K)
    (atol rtol : TypedOps K) (interp all : bool) (semi : option nat),
  s = Euler (TypedOps K) \/ s = Midpoint (TypedOps K) ->
  let r := odeint_typed fuel td f x (TTensor (times_of td ts)) s atol rtol interp all (times_of td save_at) semi in
  Forall (fun c => snd (fst c) = NoAxes td) (fst r) /\
  forall times sol, snd r = Ok (times, sol) -> Forall (fun t => snd t = NoAxes td) times.
Proof.
  intros K td f s fuel x ts sa atol rtol interp all semi Hs r.
  assert (G : timed td r (fun r => Forall (of_kind td) (fst r))).
  { unfold r, odeint_typed. eapply (timed_bind td _ _ (fun ft => Forall (of_kind td) (snd ft))).
    - apply timed_lift. intros [f_ tt] E. unfold prep_time in E. cbn [ts_list] in E. pose proof (times_kinds td ts) as Hk.
      set (l := times_of td ts) in *. clearbody l.
      destruct (pyget l 1); cbn [rbind] in E; try discriminate. destruct (pyget l 0); cbn [rbind] in E; try discriminate.
      destruct (nltb _ _); injection E as <- <-; auto. now apply opp_kinds.
    - intros [f_ tt] H2. cbn [fst snd] in *. assert (Efx : s_fixed s = true) by (destruct Hs as [-> | ->]; reflexivity). rewrite Efx.
      apply fixed_timed; auto; [|apply times_kinds]. destruct Hs as [-> | ->]; [apply euler_timed|apply midpoint_timed]. }
  destruct G as [G1 G2]. split; [exact G1|]. intros times sol E. exact (G2 _ E).
Qed.

(** The hypotheses of C151 are met: float32 states with float32 times, float64 states with any times; the solve of C151_dtype_refuted with
    float32 throughout returns float32 states, and Euler's method keeps float16 states with float64 times. *)
Lemma C151_ex_pf : forall pw : float -> float -> float,
  let K := FloatOps pw in
  let f := @zero_slopes K 0%float in
  let run s xd td := @odeint_typed K 40 td f (@state_of K xd [1%float]) (TTensor (@times_of K td [0; 1]%float)) s
                     (@with_kind K PyNumber 0.001%float) (@with_kind K PyNumber 0.001%float) false false [] None in
  let last_dtypes s xd td := match snd (run s xd td) with Ok (_, sol) => Some (map snd (last sol [])) | _ => None end in
  (holds Float Float /\ holds Double Float /\ forall e, holds Double e) /\
  (forall t y, has_dtype Float y -> has_dtype Float (f t y)) /\
  adaptive_builtin (DormandPrince45 (TypedOps K)) /\ fixed_keeping Half (Euler (TypedOps K)) /\
  last_dtypes (DormandPrince45 (TypedOps K)) Float Float = Some [Axes Float] /\
  last_dtypes (DormandPrince45 (TypedOps K)) Double Half = Some [Axes Double] /\
  last_dtypes (Euler (TypedOps K)) Half Double = Some [Axes Half].
Proof.
  intros pw K f run last_dtypes. split; [split; [reflexivity|split; [reflexivity|intros []; reflexivity]]|].
  split; [intros t y; apply zero_slopes_keeps|]. split; [constructor|]. split; [constructor|].
  repeat split; vm_compute; reflexivity.
Qed.
