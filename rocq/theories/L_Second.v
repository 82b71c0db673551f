(** Fixed-step solves over two number systems, the second one along curves: the loop argument of Pf_Autograd.v for any relation
    between numbers and curves that respects sums and multiples. *)
From Coq Require Import ZArith QArith Qreals Reals Lra Lia List Bool.
From Verif Require Import Num Py Tensor M_Constants M_SolversOde M_Utils M_Interp M_Odeint M_Autograd.
From Verif Require Import L_Base L_Nan L_Vec Spec_Autograd Pf_Autograd.
Import ListNotations.
Local Notation length := List.length.
Local Open Scope R_scope.

Section Curves.
Variables (E : Type) (D K : NumOps) (T : D -> (E -> K) -> Prop) (ed : R -> D) (ek : R -> K).
Hypothesis T_ext : forall a c d, (forall e, c e = d e) -> T a c -> T a d.
Hypothesis T_add : forall a b c d, T a c -> T b d -> T (nadd a b) (fun e => nadd (c e) (d e)).
Hypothesis T_opp : forall a c, T a c -> T (nopp a) (fun e => nopp (c e)).
Hypothesis T_scale : forall k a c, T a c -> T (nmul (ed k) a) (fun e => nmul (ek k) (c e)).
Hypothesis d_lit : forall q, nQ q = ed (Q2R q).
Hypothesis k_lit : forall q, nQ q = ek (Q2R q).
Hypothesis d_add : forall a b, nadd (ed a) (ed b) = ed (a + b).
Hypothesis k_add : forall a b, nadd (ek a) (ek b) = ek (a + b).
Hypothesis d_sub : forall a b, nsub (ed a) (ed b) = ed (a - b).
Hypothesis k_sub : forall a b, nsub (ek a) (ek b) = ek (a - b).
Hypothesis d_mul : forall a b, nmul (ed a) (ed b) = ed (a * b).
Hypothesis k_mul : forall a b, nmul (ek a) (ek b) = ek (a * b).
Hypothesis d_opp : forall a, nopp (ed a) = ed (- a).
Hypothesis k_opp : forall a, nopp (ek a) = ek (- a).
Hypothesis d_ltb : forall a b, nltb (ed a) (ed b) = Rltb a b.
Hypothesis k_ltb : forall a b, nltb (ek a) (ek b) = Rltb a b.
Hypothesis d_close : forall t l, isclose_count (ed t) (map ed l) = @isclose_count ROps t l.
Hypothesis k_close : forall t l, isclose_count (ek t) (map ek l) = @isclose_count ROps t l.

Definition TV (n : nat) (A : vec D) (a : E -> vec K) : Prop :=
  length A = n /\ (forall e, length (a e) = n) /\ forall i, (i < n)%nat -> T (nth i A (ed 0)) (fun e => nth i (a e) (ek 0)).
Definition TF (n : nat) (F : D -> vec D -> vec D) (f : E -> K -> vec K -> vec K) : Prop :=
  forall t Y y, TV n Y y -> TV n (F (ed t) Y) (fun e => f e (ek t) (y e)).
Definition TS (n : nat) (A : list (vec D)) (a : E -> list (vec K)) : Prop :=
  (forall e, length (a e) = length A) /\ forall k, (k < length A)%nat -> TV n (nth k A []) (fun e => nth k (a e) []).
Definition Tsolve (n : nat) (rd : res (list D * list (vec D))) (rr : E -> res (list K * list (vec K))) : Prop :=
  (exists times A a, rd = Ok (map ed times, A) /\ (forall e, rr e = Ok (map ek times, a e)) /\ TS n A a) \/
  (exists er, rd = Err er /\ forall e, rr e = Err er).

Section Vec.
Variable n : nat.
Lemma TV_ext A (a b : E -> vec K) : (forall e, a e = b e) -> TV n A a -> TV n A b.
Proof.
  intros Ex (L1 & L2 & H). split; [exact L1|]. split; [intros e; now rewrite <- Ex|]. intros i Hi.
  apply (T_ext _ (fun e => nth i (a e) (ek 0))); [intros e; now rewrite Ex|]. now apply H.
Qed.
Lemma TV_add A B a b : TV n A a -> TV n B b -> TV n (vadd A B) (fun e => vadd (a e) (b e)).
Proof.
  intros (L1 & L2 & H) (L3 & L4 & H'). unfold vadd. split; [|split].
  - rewrite map2_length, L1, L3. apply Nat.min_id.
  - intros e. rewrite map2_length, L2, L4. apply Nat.min_id.
  - intros i Hi. rewrite (map2_nth nadd A B i (ed 0) (ed 0) (ed 0)) by lia.
    apply (T_ext _ (fun e => nadd (nth i (a e) (ek 0)) (nth i (b e) (ek 0)))).
    + intros e. symmetry. apply map2_nth; rewrite ?L2, ?L4; exact Hi.
    + apply T_add; auto.
Qed.
Lemma TV_map (op : D -> D) (op' : K -> K) A a : (forall a c, T a c -> T (op a) (fun e => op' (c e))) ->
  TV n A a -> TV n (map op A) (fun e => map op' (a e)).
Proof.
  intros Hop (L1 & L2 & H). split; [|split].
  - now rewrite map_length.
  - intros e. now rewrite map_length.
  - intros i Hi. rewrite (nth_indep (map op A) (ed 0) (op (ed 0))) by (rewrite map_length; lia). rewrite (map_nth op A).
    apply (T_ext _ (fun e => op' (nth i (a e) (ek 0)))).
    + intros e. rewrite (nth_indep (map op' (a e)) (ek 0) (op' (ek 0))) by (rewrite map_length, L2; exact Hi). now rewrite (map_nth op' (a e)).
    + apply Hop. now apply H.
Qed.
Lemma TV_opp A a : TV n A a -> TV n (vopp A) (fun e => vopp (a e)).
Proof. apply TV_map. apply T_opp. Qed.
Lemma TV_scale k k' h A a : k = ed h -> k' = ek h -> TV n A a -> TV n (vscale k A) (fun e => vscale k' (a e)).
Proof. intros -> ->. apply TV_map. apply T_scale. Qed.
Lemma TV_call F f t t' s Y y : TF n F f -> t = ed s -> t' = ek s -> TV n Y y -> TV n (F t Y) (fun e => f e t' (y e)).
Proof. intros HF -> ->. apply HF. Qed.
End Vec.

(** ** Steps *)
Definition Tstep (n : nat) (sd : @step_fun D (vec D)) (sr : E -> @step_fun K (vec K)) : Prop :=
  forall F f X x t h, TF n F f -> TV n X x ->
  exists X' x', snd (sd F X (ed t) (ed h) None) = Ok (Ret3 None X' None) /\
    (forall e, snd (sr e (f e) (x e) (ek t) (ek h) None) = Ok (Ret3 None (x' e) None)) /\ TV n X' x'.

Lemma d_pow a k : npow (ed a) k = ed (@npow ROps a k).
Proof. induction k as [|k IH]; cbn [npow]; [apply d_lit|]. rewrite IH. apply d_mul. Qed.
Lemma k_pow a k : npow (ek a) k = ek (@npow ROps a k).
Proof. induction k as [|k IH]; cbn [npow]; [apply k_lit|]. rewrite IH. apply k_mul. Qed.

Ltac tval := repeat first [rewrite d_lit | rewrite d_add | rewrite d_mul | rewrite d_pow | rewrite k_lit | rewrite k_add | rewrite k_mul | rewrite k_pow].
Ltac tvec := repeat first [eassumption | apply TV_add | (eapply TV_scale; [tval; reflexivity|tval; reflexivity|]) |
  (eapply TV_call; [eassumption|tval; reflexivity|tval; reflexivity|])].
Ltac tstep := do 2 eexists; split; [reflexivity|split; [intros e; reflexivity|]].

Lemma T_euler n : Tstep n (@euler_step D) (fun _ => @euler_step K).
Proof. intros F f X x t h HF HX. cbv [euler_step first_stage mbind call mret fst snd app]. tstep. tvec. Qed.
Lemma T_midpoint n : Tstep n (@midpoint_step D) (fun _ => @midpoint_step K).
Proof. intros F f X x t h HF HX. cbv [midpoint_step first_stage mbind call mret fst snd app]. tstep. tvec. Qed.
Lemma T_rk4 n : Tstep n (@rk4_step D) (fun _ => @rk4_step K).
Proof.
  intros F f X x t h HF HX. cbv [rk4_step first_stage mbind call mret fst snd app construct_rk4 tc ta tb tget aget nth]. tstep. tvec.
Qed.
Lemma T_hyper n sd sr order G g : Tstep n sd sr -> TF n G g ->
  Tstep n (@hyper_step D sd order G) (fun e => @hyper_step K (sr e) order (g e)).
Proof.
  intros Hs HG F f X x t h HF HX. destruct (Hs F f X x t h HF HX) as (X' & x' & E1 & E2 & H).
  exists (vadd X' (vscale (npow (ed h) (order + 1)) (G (ed t) X))), (fun e => vadd (x' e) (vscale (npow (ek h) (order + 1)) (g e (ek t) (x e)))).
  split; [|split].
  - unfold hyper_step. refine (eq_trans (snd_bind_ok _ _ _ E1) _). reflexivity.
  - intros e. unfold hyper_step. refine (eq_trans (snd_bind_ok _ _ _ (E2 e)) _). reflexivity.
  - tvec.
Qed.

(** ** The loop *)
Lemma TS_snoc n A (a : E -> list (vec K)) X x : TS n A a -> TV n X x -> TS n (A ++ [X]) (fun e => a e ++ [x e]).
Proof.
  intros [L H] HX. split.
  - intros e. rewrite !app_length, L. reflexivity.
  - intros k Hk. rewrite app_length in Hk. cbn in Hk. destruct (Nat.lt_ge_cases k (length A)) as [Hl|Hl].
    + rewrite app_nth1 by exact Hl. apply (TV_ext n _ (fun e => nth k (a e) [])); [|now apply H].
      intros e. symmetry. apply app_nth1. now rewrite L.
    + replace k with (length A) by lia. rewrite app_nth2, Nat.sub_diag by lia. cbn [nth].
      apply (TV_ext n _ x); [|exact HX]. intros e. rewrite app_nth2 by (rewrite L; lia). now rewrite L, Nat.sub_diag.
Qed.

Section Loop.
Variables (n : nat) (sd : @step_fun D (vec D)) (sr : E -> @step_fun K (vec K)).
Variables (F : D -> vec D -> vec D) (f : E -> K -> vec K -> vec K).
Hypothesis HF : TF n F f.
Hypothesis Hstep : Tstep n sd sr.

Definition Tout (rd : res (list (vec D))) (rr : E -> res (list (vec K))) : Prop :=
  (exists A a, rd = Ok A /\ (forall e, rr e = Ok (a e)) /\ TS n A a) \/ (exists er, rd = Err er /\ forall e, rr e = Err er).

Lemma loop_T (ts sv : list R) m : forall k X x (t dt : R) A a, TV n X x -> TS n A a ->
  Tout (snd (fixed_loop F sd (map ed ts) (map ed sv) m k X (ed t) (ed dt) A))
    (fun e => snd (fixed_loop (f e) (sr e) (map ek ts) (map ek sv) m k (x e) (ek t) (ek dt) (a e))).
Proof.
  induction m as [|m IH]; intros k X x t dt A a HX HS.
  { left. exists A, a. auto. }
  destruct (Hstep F f X x t dt HF HX) as (X' & x' & E1 & E2 & HX').
  set (A' := if (@isclose_count ROps (t + dt)%R sv =? 0)%nat then A else A ++ [X']).
  set (a' := fun e => if (@isclose_count ROps (t + dt)%R sv =? 0)%nat then a e else a e ++ [x' e]).
  assert (HS' : TS n A' a').
  { unfold A', a'. destruct (_ =? 0)%nat; [exact HS|now apply TS_snoc]. }
  set (r := if (k <? length ts - 1)%nat then rmap (fun tn => tn - (t + dt)) (pyget ts (k + 1)) else Ok dt).
  assert (U1 : snd (fixed_loop F sd (map ed ts) (map ed sv) (S m) k X (ed t) (ed dt) A) =
    match r with Ok d => snd (fixed_loop F sd (map ed ts) (map ed sv) m (k + 1) X' (ed (t + dt)) (ed d) A')
    | Err er => Err er | OutOfFuel => OutOfFuel end).
  { cbn [fixed_loop]. refine (eq_trans (snd_bind_ok _ _ _ E1) _). cbv iota zeta. rewrite d_add, d_close, map_length.
    fold A'. rewrite snd_mbind. unfold r. destruct (k <? length ts - 1)%nat.
    - rewrite snd_mbind, snd_mlift, pyget_map. destruct (pyget ts (k + 1)); cbn [rmap rbind snd mret]; try reflexivity.
      now rewrite d_sub.
    - reflexivity. }
  assert (U2 : forall e, snd (fixed_loop (f e) (sr e) (map ek ts) (map ek sv) (S m) k (x e) (ek t) (ek dt) (a e)) =
    match r with Ok d => snd (fixed_loop (f e) (sr e) (map ek ts) (map ek sv) m (k + 1) (x' e) (ek (t + dt)) (ek d) (a' e))
    | Err er => Err er | OutOfFuel => OutOfFuel end).
  { intros e. cbn [fixed_loop]. refine (eq_trans (snd_bind_ok _ _ _ (E2 e)) _). cbv iota zeta. rewrite k_add, k_close, map_length.
    rewrite snd_mbind. unfold r. destruct (k <? length ts - 1)%nat.
    - rewrite snd_mbind, snd_mlift, pyget_map. destruct (pyget ts (k + 1)); cbn [rmap rbind snd mret]; try reflexivity.
      now rewrite k_sub.
    - reflexivity. }
  assert (Hr : r <> OutOfFuel).
  { unfold r. destruct (_ <? _)%nat; [|discriminate]. unfold pyget. destruct (nth_error _ _); discriminate. }
  clearbody r. destruct r as [d|er|]; [|right; exists er; auto|congruence].
  destruct (IH (k + 1)%nat X' x' (t + dt) d A' a' HX' HS') as [(B & b & G1 & G2 & G3)|(er & G1 & G2)].
  - left. exists B, b. split; [now rewrite U1|]. split; [|exact G3]. intros e. rewrite U2. apply G2.
  - right. exists er. split; [now rewrite U1|]. intros e. rewrite U2. apply G2.
Qed.

Lemma fixed_T X x (ts sv : list R) : TV n X x ->
  Tsolve n (snd (fixed_odeint F X (map ed ts) sd (map ed sv))) (fun e => snd (fixed_odeint (f e) (x e) (map ek ts) (sr e) (map ek sv))).
Proof.
  intros HX. set (sv' := match sv with [] => ts | _ => sv end).
  assert (Ed : match map ed sv with [] => map ed ts | _ => map ed sv end = map ed sv') by (unfold sv'; now destruct sv).
  assert (Ek : match map ek sv with [] => map ek ts | _ => map ek sv end = map ek sv') by (unfold sv'; now destruct sv).
  set (ok := forallb (fun t : R => (@isclose_count ROps t sv' =? 1)%nat) sv').
  assert (Ad : forallb (fun t => (isclose_count t (map ed sv') =? 1)%nat) (map ed sv') = ok).
  { rewrite forallb_map. apply forallb_ext. intros t. now rewrite d_close. }
  assert (Ak : forallb (fun t => (isclose_count t (map ek sv') =? 1)%nat) (map ek sv') = ok).
  { rewrite forallb_map. apply forallb_ext. intros t. now rewrite k_close. }
  assert (E1 : snd (fixed_odeint F X (map ed ts) sd (map ed sv)) =
    if negb ok then Err AssertionError else
    rbind (pyget ts 0) (fun t0 : R => rbind (pylast ts) (fun _ => rbind (pyget ts 1) (fun t1 : R =>
    rbind (snd (fixed_loop F sd (map ed ts) (map ed sv') (length ts - 1) 1 X (ed t0) (ed (t1 - t0)) (if (@isclose_count ROps t0 sv' =? 0)%nat then [] else [X])))
      (final_sol (map ed sv')))))).
  { rewrite fixed_odeint_snd. cbv zeta. rewrite Ed, Ad, !pyget_map, pylast_map, map_length. destruct (negb ok); [reflexivity|].
    destruct (pyget ts 0) as [t0| |]; cbn [rmap rbind]; try reflexivity.
    destruct (pylast ts) as [tl| |]; cbn [rmap rbind]; try reflexivity.
    destruct (pyget ts 1) as [t1| |]; cbn [rmap rbind]; try reflexivity. now rewrite d_sub, d_close. }
  assert (E2 : forall e, snd (fixed_odeint (f e) (x e) (map ek ts) (sr e) (map ek sv)) =
    if negb ok then Err AssertionError else
    rbind (pyget ts 0) (fun t0 : R => rbind (pylast ts) (fun _ => rbind (pyget ts 1) (fun t1 : R =>
    rbind (snd (fixed_loop (f e) (sr e) (map ek ts) (map ek sv') (length ts - 1) 1 (x e) (ek t0) (ek (t1 - t0)) (if (@isclose_count ROps t0 sv' =? 0)%nat then [] else [x e])))
      (final_sol (map ek sv')))))).
  { intros e. rewrite fixed_odeint_snd. cbv zeta. rewrite Ek, Ak, !pyget_map, pylast_map, map_length. destruct (negb ok); [reflexivity|].
    destruct (pyget ts 0) as [t0| |]; cbn [rmap rbind]; try reflexivity.
    destruct (pylast ts) as [tl| |]; cbn [rmap rbind]; try reflexivity.
    destruct (pyget ts 1) as [t1| |]; cbn [rmap rbind]; try reflexivity. now rewrite k_sub, k_close. }
  clearbody ok. unfold Tsolve. destruct ok; cbn [negb] in *.
  2:{ right. exists AssertionError. auto. }
  destruct (pyget ts 0) as [t0|er|] eqn:P0; cbn [rbind] in *; [|right; exists er; auto|unfold pyget in P0; destruct (nth_error ts 0); discriminate].
  destruct (pylast ts) as [tl|er|] eqn:P1; cbn [rbind] in *; [|right; exists er; auto|unfold pylast in P1; destruct (rev ts); discriminate].
  destruct (pyget ts 1) as [t1|er|] eqn:P2; cbn [rbind] in *; [|right; exists er; auto|unfold pyget in P2; destruct (nth_error ts 1); discriminate].
  assert (HS : TS n (if (@isclose_count ROps t0 sv' =? 0)%nat then [] else [X]) (fun e => if (@isclose_count ROps t0 sv' =? 0)%nat then [] else [x e])).
  { destruct (_ =? 0)%nat; [split; [reflexivity|intros k Hk; cbn in Hk; lia]|].
    apply (TS_snoc n [] (fun _ => []) X x); [split; [reflexivity|intros k Hk; cbn in Hk; lia]|exact HX]. }
  destruct (loop_T ts sv' (length ts - 1) 1 X x t0 (t1 - t0) _ _ HX HS) as [(A & a & G1 & G2 & G3)|(er & G1 & G2)].
  - rewrite G1 in E1. cbn [rbind] in E1. assert (E2' := fun e => eq_trans (E2 e) (f_equal (fun r => rbind r _) (G2 e))). cbn [rbind] in E2'.
    destruct A as [|A0 A].
    + right. exists IndexError. split; [exact E1|]. intros e. rewrite E2'. destruct G3 as [L _]. specialize (L e). destruct (a e); [reflexivity|discriminate].
    + left. exists sv', (A0 :: A), a. split; [exact E1|]. split; [|exact G3]. intros e. rewrite E2'. destruct G3 as [L _]. specialize (L e). destruct (a e); [discriminate|reflexivity].
  - right. exists er. split; [now rewrite E1, G1|]. intros e. rewrite E2, G2. reflexivity.
Qed.
End Loop.

Lemma neg_T n F f : TF n F f -> TF n (neg_field F) (fun e => neg_field (f e)).
Proof.
  intros HF t Y y HY. unfold neg_field. apply TV_opp. eapply TV_call; [exact HF|apply d_opp|apply k_opp|exact HY].
Qed.

Inductive Tfamily (n : nat) : solver D (vec D) -> (E -> solver K (vec K)) -> Prop :=
| tf_euler : Tfamily n (Euler D) (fun _ => Euler K)
| tf_midpoint : Tfamily n (Midpoint D) (fun _ => Midpoint K)
| tf_rk4 : Tfamily n (RungeKutta4 D) (fun _ => RungeKutta4 K)
| tf_hyper_euler G g : TF n G g -> Tfamily n (@HyperEuler D G) (fun e => @HyperEuler K (g e))
| tf_hyper_midpoint G g : TF n G g -> Tfamily n (@HyperMidpoint D G) (fun e => @HyperMidpoint K (g e))
| tf_hyper_rk4 G g : TF n G g -> Tfamily n (@HyperRungeKutta4 D G) (fun e => @HyperRungeKutta4 K (g e)).

Lemma family_T n sd sr : Tfamily n sd sr -> s_fixed sd = true /\ (forall e, s_fixed (sr e) = true) /\ Tstep n (s_step sd) (fun e => s_step (sr e)).
Proof.
  intros H. destruct H; (split; [reflexivity|]; split; [reflexivity|]); cbn [s_step Euler Midpoint RungeKutta4 HyperEuler HyperMidpoint HyperRungeKutta4 mk_solver].
  - apply T_euler. - apply T_midpoint. - apply T_rk4.
  - apply (T_hyper n _ (fun _ => @euler_step K)); [apply T_euler|assumption].
  - apply (T_hyper n _ (fun _ => @midpoint_step K)); [apply T_midpoint|assumption].
  - apply (T_hyper n _ (fun _ => @rk4_step K)); [apply T_rk4|assumption].
Qed.

Lemma odeint_T dk rk fuel fuel' n sd sr F f X x ts save_at atol rtol atol' rtol' interp all semi :
  Tfamily n sd sr -> TF n F f -> TV n X x ->
  Tsolve n (snd (@odeint_ad D dk fuel F X (TTensor (map ed ts)) sd atol' rtol' interp all (map ed save_at) semi))
    (fun e => snd (@odeint_ad K rk fuel' (f e) (x e) (TTensor (map ek ts)) (sr e) atol rtol interp all (map ek save_at) semi)).
Proof.
  intros Hfam HF HX. destruct (family_T n sd sr Hfam) as (H1 & H2 & Hst). unfold odeint_ad. rewrite H1.
  assert (P : (exists er, prep_time F (TTensor (map ed ts)) = Err er /\ forall e, prep_time (f e) (TTensor (map ek ts)) = Err er) \/
    exists F' f' ts', TF n F' f' /\ prep_time F (TTensor (map ed ts)) = Ok (F', map ed ts') /\
      forall e, prep_time (f e) (TTensor (map ek ts)) = Ok (f' e, map ek ts')).
  { unfold prep_time. cbn [ts_list]. rewrite !pyget_map. unfold pyget. destruct ts as [|t0 [|t1 ts]]; cbn [nth_error rmap rbind].
    - left. exists IndexError. auto.
    - left. exists IndexError. auto.
    - right. rewrite d_ltb, k_ltb. destruct (Rltb t1 t0).
      + exists (neg_field F), (fun e => neg_field (f e)), (map Ropp (t0 :: t1 :: ts)). split; [now apply neg_T|].
        split; [|intros e]; rewrite !map_map; do 2 f_equal; apply map_ext; intros a; [apply d_opp|apply k_opp].
      + exists F, f, (t0 :: t1 :: ts). split; [exact HF|]. split; reflexivity. }
  destruct P as [(er & P1 & P2)|(F' & f' & ts' & HF' & P1 & P2)].
  - right. exists er. split.
    + rewrite snd_mbind, snd_mlift, P1. reflexivity.
    + intros e. rewrite snd_mbind, snd_mlift, P2. reflexivity.
  - destruct (fixed_T n _ _ F' f' HF' Hst X x ts' save_at HX) as [(times & A & a & G1 & G2 & G3)|(er & G1 & G2)].
    + left. exists times, A, a. split; [|split; [|exact G3]].
      * rewrite snd_mbind, snd_mlift, P1. exact G1.
      * intros e. rewrite snd_mbind, snd_mlift, P2. cbn [rbind]. rewrite H2. exact (G2 e).
    + right. exists er. split.
      * rewrite snd_mbind, snd_mlift, P1. exact G1.
      * intros e. rewrite snd_mbind, snd_mlift, P2. cbn [rbind]. rewrite H2. exact (G2 e).
Qed.
End Curves.
