(** Purely relative tolerances. *)
From Coq Require Import ZArith QArith Lia List Bool Floats.
From Verif Require Import Num Py Tensor M_Constants M_SolversOde M_Utils M_Interp M_Odeint L_Base L_Nan.
Import ListNotations.
Local Notation length := List.length.
Local Open Scope float_scope.

(** Entry i of a vector is 0, -0 or NaN *)
Definition zero_or_nan (z : float) : Prop := z = 0 \/ z = -0 \/ z = nan.
Definition entry_zero (i : nat) (v : list float) : Prop := exists z, nth_error v i = Some z /\ zero_or_nan z.

Lemma zn_spec z : zero_or_nan z <-> Prim2SF z = S754_nan \/ exists s, Prim2SF z = S754_zero s.
Proof.
  split.
  - intros [->|[->| ->]]; [right; exists false|right; exists true|left]; reflexivity.
  - intros [H|[s H]]; [right; right; now apply nan_char|].
    destruct s; [right; left|left]; apply Prim2SF_inj; rewrite H; reflexivity.
Qed.
Lemma zn_add a b : zero_or_nan a -> zero_or_nan b -> zero_or_nan (a + b).
Proof.
  rewrite !zn_spec, add_spec. intros [Ha|[s Ha]] [Hb|[s' Hb]]; rewrite Ha, Hb; cbn; auto. destruct s, s'; cbn; eauto.
Qed.
Lemma zn_mul a b : zero_or_nan b -> zero_or_nan (a * b).
Proof.
  rewrite !zn_spec, mul_spec. intros [Hb|[s' Hb]]; rewrite Hb; destruct (Prim2SF a) as [s|s| |s m e]; cbn; auto; right; eexists; reflexivity.
Qed.
Lemma zn_abs a : zero_or_nan a -> zero_or_nan (PrimFloat.abs a).
Proof. rewrite !zn_spec, abs_spec. intros [H|[s H]]; rewrite H; cbn; eauto. Qed.
Lemma zn_div a b : zero_or_nan a -> zero_or_nan b -> a / b = nan.
Proof.
  rewrite !zn_spec. intros [Ha|[s Ha]] [Hb|[s' Hb]]; apply nan_char; rewrite div_spec, Ha, Hb; reflexivity.
Qed.

Section Rel.
Variable pw : float -> float -> float.
Notation F := (FloatOps pw).
Lemma zn_max a b : zero_or_nan a -> zero_or_nan b -> zero_or_nan (@nmax F a b).
Proof. intros Ha Hb. cbn. destruct (is_nan_f a), (is_nan_f b), (a <? b); assumption. Qed.

Lemma nth_error_map2 {A B C} (op : A -> B -> C) l l' i : nth_error (map2 op l l') i =
  match nth_error l i, nth_error l' i with Some a, Some b => Some (op a b) | _, _ => None end.
Proof.
  revert l' i. induction l as [|a l IH]; intros [|b l'] [|i]; cbn; try reflexivity; [now destruct (nth_error l i)|apply IH].
Qed.
Variable i : nat.
Lemma ez_add v w : entry_zero i v -> entry_zero i w -> entry_zero i (@vadd F v w).
Proof.
  intros (a & Ha & Za) (b & Hb & Zb). exists (a + b). split; [|now apply zn_add]. unfold vadd. etransitivity; [apply nth_error_map2|]. 
  change (num F) with float. rewrite Ha, Hb. reflexivity.
Qed.
Lemma ez_scale c v : entry_zero i v -> entry_zero i (@vscale F c v).
Proof.
  intros (a & Ha & Za). exists (c * a). split; [|now apply zn_mul]. unfold vscale. etransitivity; [apply nth_error_map|]. change (num F) with float. now rewrite Ha.
Qed.
Lemma ez_scaled_error rtol x x' e : entry_zero i x -> entry_zero i x' -> entry_zero i e -> @error_ratio F 0 rtol None x x' e = nan.
Proof.
  intros (a & Ha & Za) (b & Hb & Zb) (c & Hc & Zc). unfold error_ratio, hairer_norm.
  assert (N : nth_error (@vdiv F e (map (fun m : F => @nadd F 0 (@nmul F rtol m)) (@vmax F (@vabs F x) (@vabs F x')))) i = Some nan).
  { unfold vdiv, vmax, vabs. etransitivity; [apply nth_error_map2|]. rewrite nth_error_map, nth_error_map2, !nth_error_map.
    change (num F) with float. rewrite Ha, Hb, Hc. cbn [option_map]. f_equal. apply zn_div; [exact Zc|].
    apply (zn_add 0 (rtol * _)); [left; reflexivity|]. apply zn_mul. apply zn_max; apply zn_abs; assumption. }
  set (v := @vdiv F _ _) in *. clearbody v.

  assert (S : forall (l : list float) a, fold_left (@nadd F) l a = nan \/ ~ (a = nan \/ In nan l)).
  { clear; induction l as [|b l IH]; intros a0; cbn [fold_left].
    - destruct (Prim2SF a0) eqn:E; [right|right|left; now apply nan_char|right]; intros [->|[]]; rewrite nan_sf in E; discriminate.
    - destruct (IH (@nadd F a0 b)) as [H|H]; [now left|right]. intros [->|[->|H']]; apply H.
      + left. apply nan_add_l.
      + left. apply nan_add_r.
      + now right. }
  assert (M : vsum (map (fun a0 : F => (nabs a0 * nabs a0)%N) v) = nan).
  { destruct (S (map (fun a0 : F => (nabs a0 * nabs a0)%N) v) (@nQ F 0)) as [H|H]; [exact H|exfalso; apply H; right].
    apply nth_error_In with i. etransitivity; [apply nth_error_map|]. change (num F) with float in *. rewrite N. reflexivity. }
  unfold vmean. rewrite M. change (PrimFloat.sqrt (nan / @nnat F (length (map (fun a0 : F => (nabs a0 * nabs a0)%N) v))) = nan).
  rewrite nan_div_l. apply nan_sqrt.
Qed.

Variable f : float -> list float -> list float.
Hypothesis Hf : forall t y, entry_zero i y -> entry_zero i (f t y).

Lemma ez_step tab x t dt k1 : entry_zero i x -> entry_zero i k1 ->
  exists f_new x_new x_err stg, snd (@erk7_step F tab f x t dt (Some k1)) = Ok (Ret4 f_new x_new x_err stg) /\
    entry_zero i x_new /\ entry_zero i x_err.
Proof.
  intros Hx Hk. do 4 eexists. split; [reflexivity|].
  split; repeat first [assumption | apply ez_add | apply ez_scale | apply Hf].
Qed.

Lemma ez_iter (p : aparams F) tab (st : astate F) : p_f p = f -> s_step (p_solver p) = @erk7_step F tab -> p_atol p = 0 -> p_semi p = None ->
  entry_zero i (a_x st) -> entry_zero i (a_k1 st) ->
  exists st', snd (@adaptive_iter F p st) = Ok st' /\ a_t st' = a_t st /\ a_x st' = a_x st /\ a_k1 st' = a_k1 st.
Proof.
  intros Ef Es Ea Em Ex Ek. unfold adaptive_iter. destruct (attempt_dt p st) as [h old]. rewrite Ef, Es.
  destruct (ez_step tab (a_x st) (a_t st) h (a_k1 st) Ex Ek) as (fn & xn & xe & stg & E & Zx & Ze).
  match goal with |- exists st', snd (mbind ?m ?k) = Ok st' /\ ?P =>
    enough (X : exists st' : astate F, snd (k (Ret4 fn xn xe stg)) = Ok st' /\ a_t st' = a_t st /\ a_x st' = a_x st /\ a_k1 st' = a_k1 st) end.
  { destruct X as (st' & X & Y). exists st'. split; [|exact Y]. exact (eq_trans (snd_bind_ok _ _ _ E) X). }
  cbv beta iota zeta. rewrite Ea, Em.
  rewrite (ez_scaled_error (p_rtol p) (a_x st) xn xe Ex Zx Ze).
  replace (@nleb F nan n1) with false by (symmetry; apply nan_leb).
  eexists. split; [reflexivity|]. auto.
Qed.

Lemma ez_loop (p : aparams F) tab : p_f p = f -> s_step (p_solver p) = @erk7_step F tab -> p_atol p = 0 -> p_semi p = None ->
  forall fuel (st : astate F), @nltb F (a_t st) (p_T p) = true -> entry_zero i (a_x st) -> entry_zero i (a_k1 st) ->
  snd (@adaptive_loop F fuel p st) = OutOfFuel.
Proof.
  intros Ef Es Ea Em. induction fuel as [|fuel IH]; intros st Et Ex Ek; cbn [adaptive_loop]; rewrite Et.
  - reflexivity.
  - destruct (ez_iter p tab st Ef Es Ea Em Ex Ek) as (st' & E & E1 & E2 & E3).
    refine (eq_trans (snd_bind_ok _ _ _ E) _). apply IH; [rewrite E1|rewrite E2|rewrite E3]; assumption.
Qed.

Lemma ez_odeint fuel (s : solver F (vec F)) tab x t0 t1 ts T rtol interp all save :
  s_fixed s = false -> s_step s = @erk7_step F tab ->
  (t1 <? t0) = false -> pylast (t0 :: t1 :: ts) = Ok T -> (t0 <? T) = true -> entry_zero i x ->
  snd (@odeint F fuel f x (@TTensor F (t0 :: t1 :: ts)) s 0 rtol interp all save None) = OutOfFuel.
Proof.
  intros Hs Ht Hd HT Hlt Hx. unfold odeint.
  assert (P : @prep_time F f (@TTensor F (t0 :: t1 :: ts)) = Ok (f, t0 :: t1 :: ts)).
  { unfold prep_time. cbn [ts_list pyget nth_error rbind]. change (@nltb F t1 t0) with (t1 <? t0). now rewrite Hd. }
  refine (eq_trans (snd_bind_ok _ _ (f, t0 :: t1 :: ts) _) _); [cbn [mlift snd]; exact P|]. cbv iota beta. rewrite Hs.
  refine (eq_trans (snd_bind_ok _ _ t0 _) _); [reflexivity|].
  refine (eq_trans (snd_bind_ok _ _ (f t0 x) _) _); [reflexivity|].
  assert (I : exists dt, snd (@init_step F f (f t0 x) x t0 (s_order s) 0 rtol) = Ok dt) by (eexists; reflexivity).
  destruct I as (dt & I). refine (eq_trans (snd_bind_ok _ _ dt I) _).
  unfold adaptive_odeint. refine (eq_trans (snd_bind_ok _ _ t0 _) _); [reflexivity|].
  refine (eq_trans (snd_bind_ok _ _ T _) _); [cbn [mlift snd]; exact HT|].
  apply (ez_loop _ tab); try reflexivity; try assumption. cbn [a_k1]. now apply Hf.
Qed.
End Rel.

(** C160, refuted.  For every tolerance rtol, every time grid that goes forward, every state one of whose entries is zero and every
    field that leaves this entry at zero (for instance f(t, x) = -x, or any coupled field for which the entry is an
    equilibrium), a solve by dopri5 or tsit5 with atol = 0 never returns, in double precision: however many iterations it is given.
    The scaled error of the entry is 0/0. *)
Lemma C160_zero_entry_refuted_pf :
  forall (pw : float -> float -> float) (s : solver (FloatOps pw) (list float)),
  s = DormandPrince45 (FloatOps pw) \/ s = Tsitouras45 (FloatOps pw) ->
  forall (f : float -> list float -> list float) (i : nat) (x : list float),
  (forall t y, entry_zero i y -> entry_zero i (f t y)) -> nth_error x i = Some 0 ->
  forall (t0 t1 T : float) (ts : list float), (t1 <? t0) = false -> pylast (t0 :: t1 :: ts) = Ok T -> (t0 <? T) = true ->
  forall (fuel : nat) (rtol : float) (interp all : bool) (save : list float),
  snd (@odeint (FloatOps pw) fuel f x (@TTensor (FloatOps pw) (t0 :: t1 :: ts)) s 0 rtol interp all save None) = OutOfFuel.
Proof.
  intros pw s Hs f i x Hf Hx t0 t1 T ts Hd HT Hlt fuel rtol interp all save.
  assert (Hz : entry_zero i x) by (exists 0; split; [exact Hx|now left]).
  destruct Hs as [-> | ->];
    [apply (ez_odeint pw i f Hf fuel (DormandPrince45 (FloatOps pw)) (construct_dopri5 (FloatOps pw)) x t0 t1 ts T)
    |apply (ez_odeint pw i f Hf fuel (Tsitouras45 (FloatOps pw)) (construct_tsit5 (FloatOps pw)) x t0 t1 ts T)]; try assumption; reflexivity.
Qed.

(** C160, the part that holds: with a positive finite absolute tolerance the scaled error of an entry that is zero, whatever finite
    rtol, is zero, so that the entry adds nothing to the sum of squares that decides about the step. *)
Lemma C160_absolute_partial_pf :
  forall (pw : float -> float -> float) (atol rtol x x' e : float),
  (0 <? atol) = true -> (PrimFloat.abs atol <? infinity) = true -> (PrimFloat.abs rtol <? infinity) = true ->
  (x = 0 \/ x = -0) -> (x' = 0 \/ x' = -0) -> (e = 0 \/ e = -0) ->
  @error_ratio (FloatOps pw) atol rtol None [x] [x'] [e] = 0.
Proof.
  intros pw atol rtol x x' e Ha Hfa Hfr Hx Hx' He.
  assert (X : @nmax (FloatOps pw) (PrimFloat.abs x) (PrimFloat.abs x') = 0) by (destruct Hx as [-> | ->], Hx' as [-> | ->]; reflexivity).
  assert (Z : exists sg, Prim2SF (rtol * 0) = S754_zero sg).
  { rewrite ltb_spec in Hfr. rewrite abs_spec in Hfr. rewrite mul_spec.
    destruct (Prim2SF rtol) as [sg|sg| |sg m ee]; cbn in Hfr |- *; try discriminate; eexists; reflexivity. }
  assert (Sc : atol + rtol * 0 = atol).
  { apply Prim2SF_inj. rewrite add_spec. destruct Z as (sg & ->). rewrite ltb_spec in Ha.
    destruct (Prim2SF atol) as [s1|s1| |s1 m ee]; cbn in Ha |- *; try discriminate; destruct s1; try discriminate; reflexivity. }
  assert (D : e / atol = 0 \/ e / atol = -0).
  { rewrite ltb_spec in Ha, Hfa. rewrite abs_spec in Hfa.
    assert (Q : exists sg, Prim2SF (e / atol) = S754_zero sg).
    { rewrite div_spec. destruct He as [-> | ->]; destruct (Prim2SF atol) as [s1|s1| |s1 m ee]; cbn in Ha, Hfa |- *; try discriminate; eexists; reflexivity. }
    destruct Q as ([] & Q); [right|left]; apply Prim2SF_inj; rewrite Q; reflexivity. }
  change (PrimFloat.sqrt ((0 + PrimFloat.abs (e / (atol + rtol * @nmax (FloatOps pw) (PrimFloat.abs x) (PrimFloat.abs x'))) *
    PrimFloat.abs (e / (atol + rtol * @nmax (FloatOps pw) (PrimFloat.abs x) (PrimFloat.abs x')))) / @nnat (FloatOps pw) 1) = 0).
  rewrite X, Sc. destruct D as [-> | ->]; reflexivity.
Qed.

(** The hypotheses are met by x' = -x from (1, 0) over [0, 1], and the scaled error of a zero entry is zero for atol = rtol = 0.001. *)
Lemma C160_ex_pf :
  forall pw : float -> float -> float,
  (forall fuel, snd (@odeint (FloatOps pw) fuel (fun _ y => map PrimFloat.opp y) [1; 0] (@TTensor (FloatOps pw) [0; 1])
     (DormandPrince45 (FloatOps pw)) 0 0.001 false false [] None) = OutOfFuel) /\
  @error_ratio (FloatOps pw) 0.001 0.001 None [0] [0] [0] = 0.
Proof.
  intros pw. split; [|apply C160_absolute_partial_pf; auto; reflexivity]. intros fuel.
  apply (C160_zero_entry_refuted_pf pw _ (or_introl eq_refl) _ 1%nat) with (T := 1); try reflexivity.
  intros t y (z & Hz & Zz). exists (PrimFloat.opp z). split; [rewrite nth_error_map, Hz; reflexivity|].
  destruct Zz as [-> |[-> | ->]]; [right; left|left|right; right]; reflexivity.
Qed.
