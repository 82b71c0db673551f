(** Computations that read a function only through logged calls. *)
From Coq Require Import List Bool.
From Verif Require Import Num Py Tensor M_Constants M_SolversOde M_Utils M_Interp M_Odeint.
Import ListNotations.
Local Open Scope nat_scope.

Definition agr {L A} (P : L -> Prop) (m m' : M L A) : Prop := (forall p, In p (fst m) -> P p) -> m' = m.

Lemma agr_refl {L A} (P : L -> Prop) (m : M L A) : agr P m m.
Proof. intros _. reflexivity. Qed.
Lemma agr_call {T X Y} (P : T * X -> Prop) (f g : T -> X -> Y) t x : (P (t, x) -> g t x = f t x) -> agr P (call f t x) (call g t x).
Proof. intros E H. unfold call. rewrite E; [reflexivity|]. apply H. now left. Qed.
Lemma agr_bind {L A B} (P : L -> Prop) (m m' : M L A) (k k' : A -> M L B) :
  agr P m m' -> (forall a, agr P (k a) (k' a)) -> agr P (mbind m k) (mbind m' k').
Proof.
  intros Hm Hk H. assert (E : m' = m).
  { apply Hm. intros p Hp. apply H. unfold mbind. destruct (snd m); cbn [fst]; auto. apply in_or_app. now left. }
  rewrite E. unfold mbind in *. destruct (snd m) as [a| |]; auto.
  rewrite (Hk a); auto. intros p Hp. apply H. cbn [fst]. apply in_or_app. now right.
Qed.
Lemma agr_lift_bind {L A B} (P : L -> Prop) (r r' : res A) (k k' : A -> M L B) :
  (forall a, r = Ok a -> exists a', r' = Ok a' /\ agr P (k a) (k' a')) -> ((forall a, r <> Ok a) -> r' = r) ->
  agr P (mbind (mlift r) k) (mbind (mlift r') k').
Proof.
  intros Hk Hn H. unfold mbind, mlift in *. cbn [fst snd app] in *. destruct r as [a|e|].
  - destruct (Hk a eq_refl) as [a' [-> E]]. rewrite E; auto.
  - rewrite Hn by discriminate. reflexivity.
  - rewrite Hn by discriminate. reflexivity.
Qed.

Ltac agr_go tac :=
  cbv zeta;
  first
  [ apply agr_refl
  | tac
  | match goal with
    | |- agr _ (mbind _ _) (mbind _ _) => apply agr_bind; [agr_go tac | intros ?; agr_go tac]
    | |- agr _ (match ?r with _ => _ end) (match ?r with _ => _ end) => destruct r; agr_go tac
    end ].

Section Fields.
Context {K : NumOps}.
Notation V := (vec K).
Variable P : K * V -> Prop.
Variables f g : K -> V -> V.
Hypothesis Hfg : forall t x, P (t, x) -> g t x = f t x.

Lemma agr_f t x : agr P (call f t x) (call g t x).
Proof. apply agr_call. auto. Qed.
Lemma agr_first x t k1 : agr P (first_stage f x t k1) (first_stage g x t k1).
Proof. destruct k1; [apply agr_refl|apply agr_f]. Qed.
Ltac af := first [apply agr_f | apply agr_first].

(** solvers whose step reads the field only by calling it *)
Definition agr_step (st : step_fun V) : Prop := forall x t h k1, agr P (st f x t h k1) (st g x t h k1).

Lemma agr_euler : agr_step euler_step.
Proof. intros x t h k1. unfold euler_step. agr_go af. Qed.
Lemma agr_midpoint : agr_step midpoint_step.
Proof. intros x t h k1. unfold midpoint_step. agr_go af. Qed.
Lemma agr_rk4 : agr_step rk4_step.
Proof. intros x t h k1. unfold rk4_step. agr_go af. Qed.
Lemma agr_alf b : agr_step (alf_step b).
Proof. intros x t h k1. unfold alf_step. agr_go af. Qed.
Lemma agr_erk7 tab : agr_step (erk7_step tab).
Proof. intros x t h k1. unfold erk7_step. agr_go af. Qed.
Lemma agr_hyper base o net : agr_step base -> agr_step (hyper_step base o net).
Proof. intros H x t h k1. unfold hyper_step. agr_go ltac:(apply H). Qed.

Lemma agr_init f0 x0 t0 o atol rtol : agr P (init_step f f0 x0 t0 o atol rtol) (init_step g f0 x0 t0 o atol rtol).
Proof. unfold init_step. agr_go af. Qed.

Section Loops.
Variable s : solver K V.
Hypothesis Hs : agr_step (s_step s).

Lemma agr_fixed_loop t_span save_at n : forall steps x t dt sol,
  agr P (fixed_loop f (s_step s) t_span save_at n steps x t dt sol) (fixed_loop g (s_step s) t_span save_at n steps x t dt sol).
Proof.
  induction n as [|n IH]; intros; cbn [fixed_loop]; [apply agr_refl|].
  apply agr_bind; [apply Hs|]. intros [fn x' e|fn x' e sg]; [|apply agr_refl]. cbv zeta.
  apply agr_bind; [apply agr_refl|]. intros dt'. apply IH.
Qed.
Lemma agr_fixed x t_span save_at : agr P (fixed_odeint f x t_span (s_step s) save_at) (fixed_odeint g x t_span (s_step s) save_at).
Proof.
  unfold fixed_odeint. cbv zeta.
  match goal with |- agr _ (if ?b then _ else _) _ => destruct b end; [apply agr_refl|].
  repeat (apply agr_bind; [apply agr_refl|intros ?]).
  apply agr_bind; [apply agr_fixed_loop|]. intros sol. apply agr_refl.
Qed.

Definition with_f (p : aparams K) (h : K -> V -> V) : aparams K :=
  MkP h (p_solver p) (p_T p) (p_t_eval p) (p_atol p) (p_rtol p) (p_interp p) (p_all p) (p_semi p).
Lemma agr_iter T te atol rtol i all semi st :
  agr P (adaptive_iter (MkP f s T te atol rtol i all semi) st) (adaptive_iter (MkP g s T te atol rtol i all semi) st).
Proof.
  unfold adaptive_iter.
  change (attempt_dt (MkP g s T te atol rtol i all semi) st) with (attempt_dt (MkP f s T te atol rtol i all semi) st).
  destruct (attempt_dt (MkP f s T te atol rtol i all semi) st) as [dt old].
  apply agr_bind; [apply Hs|]. intros r. destruct r; apply agr_refl.
Qed.
Lemma agr_adaptive_loop T te atol rtol i all semi fuel : forall st,
  agr P (adaptive_loop fuel (MkP f s T te atol rtol i all semi) st) (adaptive_loop fuel (MkP g s T te atol rtol i all semi) st).
Proof.
  induction fuel as [|fuel IH]; intros st; cbn [adaptive_loop p_T].
  - apply agr_refl.
  - destruct (a_t st <? T)%N; [|apply agr_refl]. apply agr_bind; [apply agr_iter|]. intros st'. apply IH.
Qed.
Lemma agr_adaptive fuel k1 x dt t_span atol rtol i all semi :
  agr P (adaptive_odeint fuel f k1 x dt t_span s atol rtol i all semi) (adaptive_odeint fuel g k1 x dt t_span s atol rtol i all semi).
Proof. unfold adaptive_odeint. agr_go ltac:(apply agr_adaptive_loop). Qed.

Lemma agr_bisect cbs es tol dt n : forall ti di xi k1 fl,
  agr P (bisect n f s cbs es tol dt ti di xi k1 fl) (bisect n g s cbs es tol dt ti di xi k1 fl).
Proof.
  induction n as [|n IH]; intros; cbn [bisect]; [apply agr_refl|].
  destruct (tol <? di)%N; [|apply agr_refl]. cbv zeta. apply agr_bind; [apply Hs|].
  intros r; destruct r as [fn x' e|fn x' e sg]; [apply agr_refl|].
  destruct (triggered _ es); apply IH.
Qed.
Lemma agr_hiter cbs T te atol rtol etol semi st :
  agr P (hybrid_iter (MkHP f s cbs T te atol rtol etol semi) st) (hybrid_iter (MkHP g s cbs T te atol rtol etol semi) st).
Proof.
  unfold hybrid_iter.
  change (hybrid_attempt (MkHP g s cbs T te atol rtol etol semi) st) with (hybrid_attempt (MkHP f s cbs T te atol rtol etol semi) st).
  destruct (hybrid_attempt (MkHP f s cbs T te atol rtol etol semi) st) as [[dt old] ck]. cbv zeta.
  apply agr_bind; [apply Hs|]. intros r. destruct r as [fn x' e|fn x' e sg]; [apply agr_refl|].
  cbn [hp_cbs]. destruct (triggered _ _); [|apply agr_refl].
  apply agr_bind; [apply agr_bisect|]. intros [[[t' x''] k'] fl']. apply agr_refl.
Qed.
Lemma agr_hloop cbs T te atol rtol etol semi fuel : forall j js st,
  agr P (hybrid_loop fuel (MkHP f s cbs T te atol rtol etol semi) j js st) (hybrid_loop fuel (MkHP g s cbs T te atol rtol etol semi) j js st).
Proof.
  induction fuel as [|fuel IH]; intros j js st; cbn [hybrid_loop hp_T].
  - apply agr_refl.
  - destruct ((h_t st <? T)%N && Nat.ltb j js)%bool; [|apply agr_refl]. apply agr_bind; [apply agr_hiter|]. intros st'. apply IH.
Qed.
Lemma agr_hybrid fuel x ts js cbs atol rtol etol jf semi :
  agr P (odeint_hybrid fuel f x ts js s cbs atol rtol etol jf semi) (odeint_hybrid fuel g x ts js s cbs atol rtol etol jf semi).
Proof.
  unfold odeint_hybrid.
  apply agr_bind; [apply agr_refl|intros t]. apply agr_bind; [apply agr_refl|intros T]. cbv zeta.
  apply agr_bind; [apply agr_refl|intros [x' jn]].
  apply agr_bind; [apply agr_f|intros k1]. apply agr_bind; [apply agr_init|intros dt]. apply agr_hloop.
Qed.
End Loops.
End Fields.

(** the solve, in either direction of time *)
Lemma agr_odeint {K : NumOps} (P : K * vec K -> Prop) (f g : K -> vec K -> vec K) fuel x ts s atol rtol interp all save_at semi :
  (forall t y, P (t, y) -> g t y = f t y) ->
  (forall t0 t1 l, ts_list ts = t0 :: t1 :: l -> (t1 <? t0)%N = true -> forall t y, P (t, y) -> g (nopp t) y = f (nopp t) y) ->
  (forall u v, (forall t y, P (t, y) -> v t y = u t y) -> agr_step P u v (s_step s)) ->
  agr P (odeint fuel f x ts s atol rtol interp all save_at semi) (odeint fuel g x ts s atol rtol interp all save_at semi).
Proof.
  intros Hfg Hneg Hs. unfold odeint. apply agr_lift_bind.
  - intros [u l] E. unfold prep_time in *.
    assert (Hex : exists v, prep_time g ts = Ok (v, l) /\ forall t y, P (t, y) -> v t y = u t y).
    { unfold prep_time in *. unfold pyget in *. destruct (ts_list ts) as [|t0 [|t1 l']] eqn:El; cbn [nth_error rbind] in *; try discriminate.
      destruct (t1 <? t0)%N eqn:Et.
      - destruct ts; [|discriminate]. injection E as <- <-. eexists. split; [reflexivity|].
        intros t y Hp. unfold neg_field. now rewrite (Hneg t0 t1 l').
      - injection E as <- <-. exists g. split; auto. }
    destruct Hex as [v [Ev Hv]]. exists (v, l). split; [exact Ev|]. cbv zeta.
    destruct (s_fixed s); [apply agr_fixed; auto|].
    apply agr_bind; [apply agr_refl|intros t]. apply agr_bind; [now apply agr_f|intros k1].
    apply agr_bind; [now apply agr_init|intros dt]. apply agr_adaptive; auto.
  - unfold prep_time, pyget. destruct (nth_error (ts_list ts) 1), (nth_error (ts_list ts) 0); cbn [rbind]; auto.
    destruct (_ <? _)%N; [destruct ts; auto|]; intros H; exfalso; eapply H; reflexivity.
Qed.
