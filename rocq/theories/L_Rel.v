(** Solves over two number systems whose operations and comparisons are related step by step. *)
From Coq Require Import ZArith QArith List Bool.
From Verif Require Import Num Py Tensor M_Constants M_SolversOde M_Utils M_Interp M_Odeint M_Autograd.
Import ListNotations.
Local Notation length := List.length.
Local Open Scope nat_scope.

Record related (K L : NumOps) (r : K -> L -> Prop) : Prop := {
  r_Q : forall q, r (nQ q) (nQ q);
  r_add : forall a a' b b', r a a' -> r b b' -> r (nadd a b) (nadd a' b');
  r_sub : forall a a' b b', r a a' -> r b b' -> r (nsub a b) (nsub a' b');
  r_mul : forall a a' b b', r a a' -> r b b' -> r (nmul a b) (nmul a' b');
  r_div : forall a a' b b', r a a' -> r b b' -> r (ndiv a b) (ndiv a' b');
  r_opp : forall a a', r a a' -> r (nopp a) (nopp a');
  r_abs : forall a a', r a a' -> r (nabs a) (nabs a');
  r_sqrt : forall a a', r a a' -> r (nsqrt a) (nsqrt a');
  r_powr : forall a a' b b', r a a' -> r b b' -> r (npowr a b) (npowr a' b');
  r_max : forall a a' b b', r a a' -> r b b' -> r (nmax a b) (nmax a' b');
  r_min : forall a a' b b', r a a' -> r b b' -> r (nmin a b) (nmin a' b');
  r_ltb : forall a a' b b', r a a' -> r b b' -> nltb a b = nltb a' b';
  r_leb : forall a a' b b', r a a' -> r b b' -> nleb a b = nleb a' b';
  r_eqb : forall a a' b b', r a a' -> r b b' -> neqb a b = neqb a' b' }.

Section Rel.
Context {K L : NumOps} (r : K -> L -> Prop) (HR : related K L r).
Notation rv := (Forall2 r).

(** Related results of computations *)
Definition rel_res {A B} (P : A -> B -> Prop) (a : res A) (b : res B) : Prop :=
  match a, b with Ok x, Ok y => P x y | Err e, Err e' => e = e' | OutOfFuel, OutOfFuel => True | _, _ => False end.
Definition rel_call {X Y} (PX : X -> Y -> Prop) (a : K * X) (b : L * Y) : Prop := r (fst a) (fst b) /\ PX (snd a) (snd b).
Definition rel_m {X Y A B} (PX : X -> Y -> Prop) (P : A -> B -> Prop) (a : M (K * X) A) (b : M (L * Y) B) : Prop :=
  Forall2 (rel_call PX) (fst a) (fst b) /\ rel_res P (snd a) (snd b).
Definition rel_opt {A B} (P : A -> B -> Prop) (a : option A) (b : option B) : Prop :=
  match a, b with Some x, Some y => P x y | None, None => True | _, _ => False end.
Definition rel_pair {A B C D} (P : A -> B -> Prop) (Q : C -> D -> Prop) (a : A * C) (b : B * D) : Prop := P (fst a) (fst b) /\ Q (snd a) (snd b).
Definition rel_field {X Y} (PX : X -> Y -> Prop) (f : K -> X -> X) (g : L -> Y -> Y) : Prop :=
  forall t t' x x', r t t' -> PX x x' -> PX (f t x) (g t' x').
Definition rel_ret {X Y} (PX : X -> Y -> Prop) (a : step_ret X) (b : step_ret Y) : Prop :=
  match a, b with
  | Ret3 f x e, Ret3 f' x' e' => rel_opt PX f f' /\ PX x x' /\ rel_opt PX e e'
  | Ret4 f x e s, Ret4 f' x' e' s' => PX f f' /\ PX x x' /\ PX e e' /\ Forall2 PX s s'
  | _, _ => False
  end.
Definition rel_step {X Y} (PX : X -> Y -> Prop) (s : @step_fun K X) (s' : @step_fun L Y) : Prop :=
  forall f f' x x' t t' h h' k k', rel_field PX f f' -> PX x x' -> r t t' -> r h h' -> rel_opt PX k k' ->
  rel_m PX (rel_ret PX) (s f x t h k) (s' f' x' t' h' k').

Section Monad.
Context {X Y : Type} (PX : X -> Y -> Prop).
Lemma rel_bind {A B C D} (P : A -> B -> Prop) (Q : C -> D -> Prop) m m' (k : A -> M (K * X) C) (k' : B -> M (L * Y) D) :
  rel_m PX P m m' -> (forall a b, P a b -> rel_m PX Q (k a) (k' b)) -> rel_m PX Q (mbind m k) (mbind m' k').
Proof.
  intros [H1 H2] Hk. unfold mbind. destruct m as [lg v], m' as [lg' v']. cbn [fst snd] in *.
  destruct v as [a|e|], v' as [b|e'|]; cbn [rel_res] in H2; try contradiction.
  - destruct (Hk a b H2) as [G1 G2]. split; cbn [fst snd]; [now apply Forall2_app|exact G2].
  - split; cbn [fst snd]; [exact H1|exact H2].
  - split; cbn [fst snd]; [exact H1|exact H2].
Qed.
Lemma rel_mret {A B} (P : A -> B -> Prop) a b : P a b -> rel_m PX P (mret a) (mret b).
Proof. intros H. split; [constructor|exact H]. Qed.
Lemma rel_mlift {A B} (P : A -> B -> Prop) a b : rel_res P a b -> rel_m PX P (mlift a) (mlift b).
Proof. intros H. split; [constructor|exact H]. Qed.
Lemma rel_mraise {A B} (P : A -> B -> Prop) e : rel_m PX P (mraise e) (mraise e).
Proof. split; [constructor|reflexivity]. Qed.
Lemma rel_mfuel {A B} (P : A -> B -> Prop) : rel_m PX P mfuel mfuel.
Proof. split; [constructor|exact I]. Qed.
Lemma rel_mcall f g t t' x x' : rel_field PX f g -> r t t' -> PX x x' -> rel_m PX PX (call f t x) (call g t' x').
Proof. intros Hf Ht Hx. split; cbn; [constructor; [split; assumption|constructor]|]. apply Hf; assumption. Qed.
Lemma rel_first f g x x' t t' k k' : rel_field PX f g -> PX x x' -> r t t' -> rel_opt PX k k' ->
  rel_m PX PX (first_stage f x t k) (first_stage g x' t' k').
Proof. intros Hf Hx Ht Hk. unfold first_stage. destruct k, k'; cbn in Hk; try contradiction; [now apply rel_mret|now apply rel_mcall]. Qed.
End Monad.

Lemma rel_rbind {A B C D} (P : A -> B -> Prop) (Q : C -> D -> Prop) m m' (k : A -> res C) (k' : B -> res D) :
  rel_res P m m' -> (forall a b, P a b -> rel_res Q (k a) (k' b)) -> rel_res Q (rbind m k) (rbind m' k').
Proof. intros H Hk. destruct m, m'; cbn in *; try contradiction; auto. Qed.
Lemma rel_pyget {A B} (P : A -> B -> Prop) l l' i : Forall2 P l l' -> rel_res P (pyget l i) (pyget l' i).
Proof. intros H. revert i. induction H as [|a b l l' Hab _ IH]; intros [|i]; cbn; auto. apply IH. Qed.
Lemma rel_nth_error {A B} (P : A -> B -> Prop) l l' i : Forall2 P l l' -> rel_opt P (nth_error l i) (nth_error l' i).
Proof. intros H. revert i. induction H as [|a b l l' Hab _ IH]; intros [|i]; cbn; auto. Qed.
Lemma F2_rev {A B} (P : A -> B -> Prop) l l' : Forall2 P l l' -> Forall2 P (rev l) (rev l').
Proof. intros H. induction H; cbn; [constructor|]. apply Forall2_app; [assumption|]. constructor; [assumption|constructor]. Qed.
Lemma rel_pylast {A B} (P : A -> B -> Prop) l l' : Forall2 P l l' -> rel_res P (pylast l) (pylast l').
Proof. intros H. unfold pylast. apply F2_rev in H. destruct H; cbn; auto. Qed.
Lemma F2_map {A B C D} (P : A -> B -> Prop) (Q : C -> D -> Prop) g g' l l' : (forall a b, P a b -> Q (g a) (g' b)) ->
  Forall2 P l l' -> Forall2 Q (map g l) (map g' l').
Proof. intros Hg H. induction H; cbn; constructor; auto. Qed.
Lemma F2_map2 {A B C D E F} (P : A -> B -> Prop) (Q : C -> D -> Prop) (S : E -> F -> Prop) g g' l l' m m' :
  (forall a b c d, P a b -> Q c d -> S (g a c) (g' b d)) ->
  Forall2 P l l' -> Forall2 Q m m' -> Forall2 S (map2 g l m) (map2 g' l' m').
Proof. intros Hg H. revert m m'. induction H; intros m m' Hm; cbn; [constructor|]. destruct Hm; constructor; auto. Qed.
Lemma F2_len {A B} (P : A -> B -> Prop) l l' : Forall2 P l l' -> length l = length l'.
Proof. intros H. induction H; cbn; auto. Qed.
Lemma F2_firstn {A B} (P : A -> B -> Prop) n : forall l l', Forall2 P l l' -> Forall2 P (firstn n l) (firstn n l').
Proof. induction n; intros l l' H; cbn; [constructor|]. destruct H; constructor; auto. Qed.
Lemma F2_skipn {A B} (P : A -> B -> Prop) n : forall l l', Forall2 P l l' -> Forall2 P (skipn n l) (skipn n l').
Proof. induction n; intros l l' H; cbn; [exact H|]. destruct H; [constructor|auto]. Qed.
Lemma F2_nth {A B} (P : A -> B -> Prop) l l' d d' i : P d d' -> Forall2 P l l' -> P (nth i l d) (nth i l' d').
Proof. intros Hd H. revert i. induction H; intros [|i]; cbn; auto. Qed.
Lemma F2_snoc {A B} (P : A -> B -> Prop) l l' a b : Forall2 P l l' -> P a b -> Forall2 P (l ++ [a]) (l' ++ [b]).
Proof. intros H1 H2. apply Forall2_app; [assumption|]. constructor; [assumption|constructor]. Qed.

(** Vectors *)
Lemma rv_add a a' b b' : rv a a' -> rv b b' -> rv (vadd a b) (vadd a' b').
Proof. apply F2_map2. intros. now apply (r_add _ _ _ HR). Qed.
Lemma rv_sub a a' b b' : rv a a' -> rv b b' -> rv (vsub a b) (vsub a' b').
Proof. apply F2_map2. intros. now apply (r_sub _ _ _ HR). Qed.
Lemma rv_div a a' b b' : rv a a' -> rv b b' -> rv (vdiv a b) (vdiv a' b').
Proof. apply F2_map2. intros. now apply (r_div _ _ _ HR). Qed.
Lemma rv_max a a' b b' : rv a a' -> rv b b' -> rv (vmax a b) (vmax a' b').
Proof. apply F2_map2. intros. now apply (r_max _ _ _ HR). Qed.
Lemma rv_opp a a' : rv a a' -> rv (vopp a) (vopp a').
Proof. apply F2_map. intros. now apply (r_opp _ _ _ HR). Qed.
Lemma rv_abs a a' : rv a a' -> rv (vabs a) (vabs a').
Proof. apply F2_map. intros. now apply (r_abs _ _ _ HR). Qed.
Lemma rv_scale c c' a a' : r c c' -> rv a a' -> rv (vscale c a) (vscale c' a').
Proof. intros H. apply F2_map. intros. now apply (r_mul _ _ _ HR). Qed.
Lemma rv_adds c c' a a' : r c c' -> rv a a' -> rv (vadds c a) (vadds c' a').
Proof. intros H. apply F2_map. intros. now apply (r_add _ _ _ HR). Qed.
Lemma rv_zeros n : rv (vzeros n) (vzeros n).
Proof. induction n; cbn; constructor; auto. apply (r_Q _ _ _ HR). Qed.
Lemma r_fold_add l l' : rv l l' -> forall a a', r a a' -> r (fold_left nadd l a) (fold_left nadd l' a').
Proof. intros H. induction H; intros a a' Ha; cbn; [exact Ha|]. apply IHForall2. now apply (r_add _ _ _ HR). Qed.
Lemma r_sum a a' : rv a a' -> r (vsum a) (vsum a').
Proof. intros H. apply r_fold_add; [exact H|apply (r_Q _ _ _ HR)]. Qed.
Lemma r_nnat n : r (nnat n) (nnat n).
Proof. apply (r_Q _ _ _ HR). Qed.
Lemma r_mean a a' : rv a a' -> r (vmean a) (vmean a').
Proof. intros H. unfold vmean. rewrite (F2_len _ _ _ H). apply (r_div _ _ _ HR); [now apply r_sum|apply r_nnat]. Qed.
Lemma r_pow a a' n : r a a' -> r (npow a n) (npow a' n).
Proof. intros H. induction n; cbn; [apply (r_Q _ _ _ HR)|now apply (r_mul _ _ _ HR)]. Qed.
Lemma r_pymax a a' b b' : r a a' -> r b b' -> r (pymax a b) (pymax a' b').
Proof. intros H1 H2. unfold pymax. rewrite (r_ltb _ _ _ HR a a' b b' H1 H2). destruct (nltb a' b'); assumption. Qed.
Lemma r_hairer a a' : rv a a' -> r (hairer_norm a) (hairer_norm a').
Proof.
  intros H. apply (r_sqrt _ _ _ HR), r_mean. revert H. apply F2_map. intros. apply (r_mul _ _ _ HR); now apply (r_abs _ _ _ HR).
Qed.

(** Tableaux *)
Definition rel_tab (a : tableau K) (b : tableau L) : Prop :=
  rv (tc a) (tc b) /\ Forall2 rv (ta a) (ta b) /\ rv (tb a) (tb b) /\ rv (te a) (te b).
Ltac lits := repeat first [apply Forall2_nil | apply Forall2_cons | apply (r_Q _ _ _ HR)].
Lemma rk4_tab : rel_tab (construct_rk4 K) (construct_rk4 L).
Proof. repeat split; unfold construct_rk4; cbn [tc ta tb te]; lits. Qed.
Lemma dopri5_tab : rel_tab (construct_dopri5 K) (construct_dopri5 L).
Proof. repeat split; unfold construct_dopri5; cbn [tc ta tb te]; try apply rv_sub; lits. Qed.
Lemma tsit5_tab : rel_tab (construct_tsit5 K) (construct_tsit5 L).
Proof. repeat split; unfold construct_tsit5; cbn [tc ta tb te]; try apply rv_sub; lits. Qed.
Lemma fourth_tab : rv (construct_4th K) (construct_4th L).
Proof. unfold construct_4th. lits. Qed.
Lemma r_tget l l' i : rv l l' -> r (tget l i) (tget l' i).
Proof. apply F2_nth. apply (r_Q _ _ _ HR). Qed.
Lemma r_aget l l' i j : Forall2 rv l l' -> r (aget l i j) (aget l' i j).
Proof. intros H. unfold aget. apply r_tget. apply F2_nth; [constructor|exact H]. Qed.

(** Steps *)
Ltac num := repeat first [assumption | apply rv_add | apply rv_sub | apply rv_scale | apply rv_opp | apply (r_Q _ _ _ HR) | apply (r_add _ _ _ HR)
  | apply (r_mul _ _ _ HR) | apply r_aget | apply r_tget | apply rv_zeros].
Lemma euler_rel : rel_step rv (@euler_step K) (@euler_step L).
Proof.
  intros f f' x x' t t' h h' k k' Hf Hx Ht Hh Hk. unfold euler_step.
  eapply rel_bind; [now apply rel_first|]. intros k1 k1' H1. apply rel_mret. cbn. repeat split; num.
Qed.
Lemma midpoint_rel : rel_step rv (@midpoint_step K) (@midpoint_step L).
Proof.
  intros f f' x x' t t' h h' k k' Hf Hx Ht Hh Hk. unfold midpoint_step.
  eapply rel_bind; [now apply rel_first|]. intros k1 k1' H1. cbv zeta.
  eapply rel_bind; [apply rel_mcall; num|]. intros k2 k2' H2. apply rel_mret. cbn. repeat split; num.
Qed.
Lemma rk4_rel : rel_step rv (@rk4_step K) (@rk4_step L).
Proof.
  intros f f' x x' t t' h h' k k' Hf Hx Ht Hh Hk. unfold rk4_step. cbv zeta.
  destruct rk4_tab as (C & A & B & _).
  eapply rel_bind; [now apply rel_first|]. intros k1 k1' H1.
  eapply rel_bind; [apply rel_mcall; num|]. intros k2 k2' H2.
  eapply rel_bind; [apply rel_mcall; num|]. intros k3 k3' H3.
  eapply rel_bind; [apply rel_mcall; num|]. intros k4 k4' H4.
  apply rel_mret. split; [exact I|]. split; [num|exact I].
Qed.
Lemma erk7_rel tab tab' : rel_tab tab tab' -> rel_step rv (erk7_step tab) (erk7_step tab').
Proof.
  intros (C & A & B & E) f f' x x' t t' h h' k k' Hf Hx Ht Hh Hk. unfold erk7_step. cbv beta zeta.
  eapply rel_bind; [now apply rel_first|]. intros k1 k1' H1.
  eapply rel_bind; [apply rel_mcall; num|]. intros k2 k2' H2.
  eapply rel_bind; [apply rel_mcall; num|]. intros k3 k3' H3.
  eapply rel_bind; [apply rel_mcall; num|]. intros k4 k4' H4.
  eapply rel_bind; [apply rel_mcall; num|]. intros k5 k5' H5.
  eapply rel_bind; [apply rel_mcall; num|]. intros k6 k6' H6.
  eapply rel_bind; [apply rel_mcall; num|]. intros k7 k7' H7.
  apply rel_mret. split; [assumption|]. split; [num|]. split; [num|]. repeat (constructor; [assumption|]). constructor.
Qed.
Lemma alf_rel a : rel_step rv (@alf_step K a) (@alf_step L a).
Proof.
  intros f f' x x' t t' h h' k k' Hf Hx Ht Hh Hk. unfold alf_step. cbv zeta.
  rewrite (F2_len _ _ _ Hx).
  assert (Hx1 : rv (firstn (length x' / 2) x) (firstn (length x' / 2) x')) by now apply F2_firstn.
  assert (Hx2 : rv (skipn (length x' / 2) x) (skipn (length x' / 2) x')) by now apply F2_skipn.
  eapply rel_bind; [now apply rel_first|]. intros _ _ _.
  eapply rel_bind; [apply rel_mcall; num|]. intros v1 v1' Hv.
  apply rel_mret. split; [exact I|]. split; [apply Forall2_app; num|].
  destruct a; [|exact I]. cbn [rel_opt]. rewrite (F2_len _ _ _ Hx1). apply Forall2_app; num.
Qed.
Lemma hyper_rel b b' o g g' : rel_step rv b b' -> rel_field rv g g' -> rel_step rv (hyper_step b o g) (hyper_step b' o g').
Proof.
  intros Hb Hg f f' x x' t t' h h' k k' Hf Hx Ht Hh Hk. unfold hyper_step.
  eapply rel_bind; [now apply Hb|]. intros a a' Ha. destruct a, a'; cbn in Ha; try contradiction; [|apply rel_mraise].
  destruct Ha as (_ & Ha & _). apply rel_mret. split; [exact I|]. split; [|exact I]. num; [now apply r_pow|now apply Hg].
Qed.

Definition rel_solver (s : solver K (vec K)) (s' : solver L (vec L)) : Prop :=
  s_order s = s_order s' /\ s_fixed s = s_fixed s' /\ s_is_tsit5 s = s_is_tsit5 s' /\
  r (s_min_factor s) (s_min_factor s') /\ r (s_max_factor s) (s_max_factor s') /\ r (s_safety s) (s_safety s') /\
  rel_step rv (s_step s) (s_step s').
Lemma mk_rel o a b st st' : rel_step rv st st' -> rel_solver (mk_solver o a b st) (mk_solver o a b st').
Proof. intros H. unfold rel_solver, mk_solver. cbn [s_order s_fixed s_is_tsit5 s_min_factor s_max_factor s_safety s_step]. do 3 (split; [reflexivity|]). do 3 (split; [apply (r_Q _ _ _ HR)|]). exact H. Qed.

(** Grids *)
Lemma isclose_rel a a' b b' : r a a' -> r b b' -> isclose a b = isclose a' b'.
Proof.
  intros Ha Hb. unfold isclose. f_equal; [now apply (r_eqb _ _ _ HR)|]. apply (r_leb _ _ _ HR).
  - apply (r_abs _ _ _ HR), (r_sub _ _ _ HR); assumption.
  - apply (r_add _ _ _ HR); [apply (r_Q _ _ _ HR)|]. apply (r_mul _ _ _ HR); [apply (r_Q _ _ _ HR)|]. now apply (r_abs _ _ _ HR).
Qed.
Lemma count_rel a a' l l' : r a a' -> rv l l' -> isclose_count a l = isclose_count a' l'.
Proof.
  intros Ha H. unfold isclose_count. f_equal. induction H; cbn; [reflexivity|]. f_equal; [now apply isclose_rel|assumption].
Qed.
Lemma all_once l l' m m' : rv l l' -> rv m m' -> forallb (fun t => (isclose_count t m =? 1)%nat) l = forallb (fun t => (isclose_count t m' =? 1)%nat) l'.
Proof. intros H Hm. induction H; cbn; [reflexivity|]. now rewrite (count_rel _ _ _ _ H Hm), IHForall2. Qed.

(** Fixed-step solves, for any type of states *)
Section Fixed.
Context {X Y : Type} (PX : X -> Y -> Prop).
Lemma fixed_loop_rel f f' s s' ts ts' sv sv' : rel_field PX f f' -> rel_step PX s s' -> rv ts ts' -> rv sv sv' ->
  forall n k x x' t t' dt dt' sol sol', PX x x' -> r t t' -> r dt dt' -> Forall2 PX sol sol' ->
  rel_m PX (Forall2 PX) (fixed_loop f s ts sv n k x t dt sol) (fixed_loop f' s' ts' sv' n k x' t' dt' sol').
Proof.
  intros Hf Hs Hts Hsv. induction n as [|n IH]; intros k x x' t t' dt dt' sol sol' Hx Ht Hdt Hsol; cbn [fixed_loop].
  - now apply rel_mret.
  - eapply rel_bind; [apply Hs; auto; exact I|]. intros a a' Ha. destruct a, a'; cbn in Ha; try contradiction; [|apply rel_mraise].
    destruct Ha as (_ & Ha & _). cbv zeta.
    assert (Ht2 : r (nadd t dt) (nadd t' dt')) by now apply (r_add _ _ _ HR).
    rewrite (count_rel _ _ _ _ Ht2 Hsv), (F2_len _ _ _ Hts).
    eapply (rel_bind PX r).
    + destruct (k <? length ts' - 1)%nat; [|now apply rel_mret]. eapply rel_bind; [apply rel_mlift, rel_pyget, Hts|].
      intros u u' Hu. apply rel_mret. now apply (r_sub _ _ _ HR).
    + intros d d' Hd. apply IH; auto. destruct (_ =? 0)%nat; [assumption|now apply F2_snoc].
Qed.
Lemma fixed_rel f f' s s' ts ts' sv sv' x x' : rel_field PX f f' -> rel_step PX s s' -> rv ts ts' -> rv sv sv' -> PX x x' ->
  rel_m PX (rel_pair rv (Forall2 PX)) (fixed_odeint f x ts s sv) (fixed_odeint f' x' ts' s' sv').
Proof.
  intros Hf Hs Hts Hsv Hx. unfold fixed_odeint. cbv zeta.
  set (S := match sv with [] => ts | _ => sv end). set (S' := match sv' with [] => ts' | _ => sv' end).
  assert (HS : rv S S') by (subst S S'; destruct Hsv; [assumption|constructor; assumption]).
  assert (E : (match sv with [] => ts | p :: l => p :: l end) = S) by (subst S; now destruct sv).
  assert (E' : (match sv' with [] => ts' | p :: l => p :: l end) = S') by (subst S'; now destruct sv').
  try rewrite !E. try rewrite !E'. rewrite (all_once _ _ _ _ HS HS). destruct (negb _); [apply rel_mraise|].
  eapply rel_bind; [apply rel_mlift, rel_pyget, Hts|]. intros t0 t0' H0.
  eapply rel_bind; [apply rel_mlift, rel_pylast, Hts|]. intros tl tl' _.
  eapply rel_bind; [apply rel_mlift, rel_pyget, Hts|]. intros t1 t1' H1.
  rewrite (count_rel _ _ _ _ H0 HS), (F2_len _ _ _ Hts).
  eapply rel_bind.
  - apply fixed_loop_rel; auto; [now apply (r_sub _ _ _ HR)|]. destruct (_ =? 0)%nat; [constructor|constructor; [assumption|constructor]].
  - intros sol sol' Hsol. destruct Hsol; [apply rel_mraise|]. apply rel_mret. split; [exact HS|constructor; assumption].
Qed.
End Fixed.

(** Step size control *)
Lemma init_rel f f' k k' x x' t t' o a a' b b' : rel_field rv f f' -> rv k k' -> rv x x' -> r t t' -> r a a' -> r b b' ->
  rel_m rv r (init_step f k x t o a b) (init_step f' k' x' t' o a' b').
Proof.
  intros Hf Hk Hx Ht Ha Hb. unfold init_step. cbv zeta.
  set (sc := map _ x). set (sc' := map _ x').
  assert (Hsc : rv sc sc').
  { subst sc sc'. revert Hx. apply F2_map. intros u u' Hu. apply (r_add _ _ _ HR); [assumption|]. apply (r_mul _ _ _ HR); [now apply (r_abs _ _ _ HR)|assumption]. }
  assert (D0 : r (hairer_norm (vdiv x sc)) (hairer_norm (vdiv x' sc'))) by (apply r_hairer, rv_div; assumption).
  assert (D1 : r (hairer_norm (vdiv k sc)) (hairer_norm (vdiv k' sc'))) by (apply r_hairer, rv_div; assumption).
  set (d0 := hairer_norm (vdiv x sc)) in *. set (d0' := hairer_norm (vdiv x' sc')) in *.
  set (d1 := hairer_norm (vdiv k sc)) in *. set (d1' := hairer_norm (vdiv k' sc')) in *.
  rewrite (r_ltb _ _ _ HR d0 d0' _ _ D0 (r_Q _ _ _ HR _)), (r_ltb _ _ _ HR d1 d1' _ _ D1 (r_Q _ _ _ HR _)).
  match goal with |- context [(if ?c then nQ ?q else @ndiv K ?u ?v)] => set (h0 := if c then nQ q else @ndiv K u v) end.
  match goal with |- context [(if ?c then nQ ?q else @ndiv L ?u ?v)] => set (h0' := if c then nQ q else @ndiv L u v) end.
  assert (H0 : r h0 h0').
  { subst h0 h0'. destruct (_ || _)%bool; [apply (r_Q _ _ _ HR)|]. apply (r_div _ _ _ HR); [|assumption]. apply (r_mul _ _ _ HR); [apply (r_Q _ _ _ HR)|assumption]. }
  eapply rel_bind; [apply rel_mcall; num|]. intros fn fn' Hfn.
  assert (D2 : r (ndiv (hairer_norm (vdiv (vsub fn k) sc)) h0) (ndiv (hairer_norm (vdiv (vsub fn' k') sc')) h0')).
  { apply (r_div _ _ _ HR); [|assumption]. apply r_hairer, rv_div; [now apply rv_sub|assumption]. }
  apply rel_mret. apply (r_min _ _ _ HR); [num|].
  rewrite (r_leb _ _ _ HR d1 d1' _ _ D1 (r_Q _ _ _ HR _)), (r_leb _ _ _ HR _ _ _ _ D2 (r_Q _ _ _ HR _)).
  destruct (_ && _)%bool.
  - apply (r_max _ _ _ HR); num.
  - apply (r_powr _ _ _ HR).
    + apply (r_div _ _ _ HR); [apply (r_Q _ _ _ HR)|]. now apply r_pymax.
    + apply (r_div _ _ _ HR); [apply (r_Q _ _ _ HR)|apply r_nnat].
Qed.
Lemma adapt_rel dt dt' e e' s s' m m' x x' o : r dt dt' -> r e e' -> r s s' -> r m m' -> r x x' ->
  r (adapt_step dt e s m x o) (adapt_step dt' e' s' m' x' o).
Proof.
  intros Hd He Hs Hm Hx. unfold adapt_step. cbv zeta.
  rewrite (r_eqb _ _ _ HR e e' _ _ He (r_Q _ _ _ HR _)), (r_ltb _ _ _ HR e e' _ _ He (r_Q _ _ _ HR _)).
  destruct (neqb _ _); [now apply (r_mul _ _ _ HR)|]. apply (r_mul _ _ _ HR); [assumption|]. apply (r_min _ _ _ HR); [assumption|].
  apply (r_max _ _ _ HR).
  - apply (r_div _ _ _ HR); [assumption|]. apply (r_powr _ _ _ HR); [assumption|]. apply (r_div _ _ _ HR); [apply (r_Q _ _ _ HR)|apply r_nnat].
  - destruct (nltb _ _); [apply (r_Q _ _ _ HR)|assumption].
Qed.
Lemma ratio_rel a a' b b' semi x x' y y' e e' : r a a' -> r b b' -> rv x x' -> rv y y' -> rv e e' ->
  r (error_ratio a b semi x y e) (error_ratio a' b' semi x' y' e').
Proof.
  intros Ha Hb Hx Hy He. unfold error_ratio. cbv zeta.
  assert (C : forall l l', rv l l' -> rv (match semi with Some d => firstn d l | None => l end) (match semi with Some d => firstn d l' | None => l' end)).
  { intros l l' H. destruct semi; [now apply F2_firstn|assumption]. }
  apply r_hairer, rv_div; [now apply C|]. eapply F2_map; [|apply rv_max; apply rv_abs, C; eassumption].
  intros u u' Hu. apply (r_add _ _ _ HR); [assumption|]. now apply (r_mul _ _ _ HR).
Qed.

(** Interpolation *)
Lemma eval_rel c c' t0 t0' t1 t1' t t' : Forall2 rv c c' -> r t0 t0' -> r t1 t1' -> r t t' ->
  rel_res rv (interp_evaluate c t0 t1 t) (interp_evaluate c' t0' t1' t').
Proof.
  intros Hc H0 H1 Ht. unfold interp_evaluate. cbv zeta.
  destruct Hc as [|c0 c0' l l' Hc0 Hl]; [reflexivity|]. destruct Hl as [|c1 c1' m m' Hc1 Hm]; [reflexivity|]. cbn [rel_res].
  set (th := ndiv (nsub t t0) _). set (th' := ndiv (nsub t' t0') _).
  assert (Hth : r th th') by (apply (r_div _ _ _ HR); now apply (r_sub _ _ _ HR)).
  assert (G : forall A A', rv (fst A) (fst A') -> r (snd A) (snd A') ->
    rv (fst (fold_left (fun (acc : vec K * K) coef => let p := nmul (snd acc) th in ((fst acc + p * coef)%V, p)) m A))
       (fst (fold_left (fun (acc : vec L * L) coef => let p := nmul (snd acc) th' in ((fst acc + p * coef)%V, p)) m' A'))).
  { induction Hm as [|u u' m m' Hu _ IH]; intros A A' HA HA'; cbn [fold_left]; [exact HA|]. apply IH; cbn; num. }
  apply G; cbn [fst snd]; num.
Qed.
Lemma fit_rel dt dt' f0 f0' f1 f1' x0 x0' x1 x1' xm xm' : r dt dt' -> rv f0 f0' -> rv f1 f1' -> rv x0 x0' -> rv x1 x1' -> rv xm xm' ->
  Forall2 rv (fourth_fit dt f0 f1 x0 x1 xm) (fourth_fit dt' f0' f1' x0' x1' xm').
Proof. intros. unfold fourth_fit. repeat constructor; num. Qed.
Lemma bmid_rel b b' s s' : rv b b' -> Forall2 rv s s' -> rel_res rv (bmid_sum b s) (bmid_sum b' s').
Proof.
  intros Hb Hs. unfold bmid_sum. eapply rel_rbind with (P := Forall2 rv).
  - revert b b' Hb. induction Hs as [|u u' s s' Hu _ IH]; intros b b' Hb; cbn [bmid_terms]; [destruct Hb; cbn; constructor|]. destruct Hb as [|c c' b b' Hc Hb]; [reflexivity|].
    unfold rmap. eapply rel_rbind; [now apply IH|]. intros l l' Hl. cbn. constructor; [|exact Hl]. num.
  - intros l l' Hl. destruct Hl as [|u u' l l' Hu Hl]; cbn; [constructor|].
    assert (G : rv (vadds n0 u) (vadds n0 u')) by (apply rv_adds; num). revert G. generalize (vadds n0 u) (vadds n0 u').
    induction Hl as [|w w' l l' Hw _ IH]; intros a a' G; cbn; [exact G|]. apply IH. num.
Qed.
Notation rel_out := (rel_pair (rel_pair (@eq nat) rv) (Forall2 rv)).
Lemma interp_rel b b' te te' t t' dt dt' x x' k k' fn fn' xn xn' st st' : rv b b' -> rv te te' -> r t t' -> r dt dt' -> rv x x' -> rv k k' ->
  rv fn fn' -> rv xn xn' -> Forall2 rv st st' -> forall n ck times times' sol sol', rv times times' -> Forall2 rv sol sol' ->
  rel_res rel_out (interp_loop n b te t dt x k fn xn st ck times sol) (interp_loop n b' te' t' dt' x' k' fn' xn' st' ck times' sol').
Proof.
  intros Hb Hte Ht Hdt Hx Hk Hfn Hxn Hst. induction n as [|n IH]; intros ck times times' sol sol' Htm Hsol; cbn [interp_loop]; [repeat split; assumption|].
  pose proof (rel_nth_error _ _ _ ck Hte) as G. destruct (nth_error te ck), (nth_error te' ck); cbn in G; try contradiction; [|repeat split; assumption].
  rewrite (r_ltb _ _ _ HR _ _ _ _ G (r_add _ _ _ HR _ _ _ _ Ht Hdt)). destruct (nltb _ _); [|repeat split; assumption].
  eapply rel_rbind; [now apply bmid_rel|]. intros s s' Hs. cbv zeta.
  eapply rel_rbind; [apply eval_rel; num; apply fit_rel; num|]. intros y y' Hy. apply IH; now apply F2_snoc.
Qed.

(** Adaptive solves *)
Variables (dk : K -> K) (Hdk : forall a b, r a b -> r (dk a) b).
Definition rel_params (p : aparams K) (q : aparams L) : Prop :=
  rel_field rv (p_f p) (p_f q) /\ rel_solver (p_solver p) (p_solver q) /\ r (p_T p) (p_T q) /\ rv (p_t_eval p) (p_t_eval q) /\
  r (p_atol p) (p_atol q) /\ r (p_rtol p) (p_rtol q) /\ rel_opt rv (p_interp p) (p_interp q) /\ p_all p = p_all q /\ p_semi p = p_semi q.
Definition rel_state (s : astate K) (s' : astate L) : Prop :=
  r (a_t s) (a_t s') /\ r (a_dt s) (a_dt s') /\ rv (a_x s) (a_x s') /\ rv (a_k1 s) (a_k1 s') /\ a_ck s = a_ck s' /\
  rv (a_times s) (a_times s') /\ Forall2 rv (a_sol s) (a_sol s').
Lemma attempt_rel p q s s' : rel_params p q -> rel_state s s' -> rel_pair r (rel_opt r) (attempt_dt p s) (attempt_dt q s').
Proof.
  intros (_ & _ & HT & Hte & _ & _ & Hi & _) (Ht & Hd & _ & _ & Hck & _). unfold attempt_dt. cbv zeta.
  rewrite (r_ltb _ _ _ HR _ _ _ _ HT (r_add _ _ _ HR _ _ _ _ Ht Hd)).
  match goal with |- context [if ?c then nsub (p_T p) ?u else ?v] => set (d := if c then nsub (p_T p) u else v) end.
  match goal with |- context [if ?c then nsub (p_T q) ?u else ?v] => set (d' := if c then nsub (p_T q) u else v) end.
  assert (Hdd : r d d') by (subst d d'; destruct (nltb _ _); [now apply (r_sub _ _ _ HR)|assumption]).
  rewrite Hck. pose proof (rel_nth_error _ _ _ (a_ck s') Hte) as G.
  destruct (nth_error (p_t_eval p) _), (nth_error (p_t_eval q) _); cbn in G; try contradiction; [|split; [exact Hdd|exact I]].
  clearbody d d'. rewrite (r_ltb _ _ _ HR _ _ _ _ G (r_add _ _ _ HR _ _ _ _ Ht Hdd)). match goal with |- context [nltb ?u ?v] => destruct (nltb u v) end; [|split; [exact Hdd|exact I]].
  destruct (p_interp p), (p_interp q); cbn in Hi; try contradiction; (split; cbn; [|first [exact I|exact Hdd]]); [exact Hdd|now apply (r_sub _ _ _ HR)].
Qed.
Lemma accept_rel p q s s' dt dt' fn fn' xn xn' st st' : rel_params p q -> rel_state s s' -> r dt dt' -> rv fn fn' -> rv xn xn' -> Forall2 rv st st' ->
  rel_res rel_out (accept_out p s dt fn xn st) (accept_out q s' dt' fn' xn' st').
Proof.
  intros (_ & _ & HT & Hte & _ & _ & Hi & Hall & _) (Ht & Hd & Hx & Hk & Hck & Htm & Hsol) Hdt Hfn Hxn Hst. unfold accept_out. cbv zeta.
  eapply (rel_rbind rel_out).
  - destruct (p_interp p), (p_interp q); cbn in Hi; try contradiction.
    + rewrite Hck, (F2_len _ _ _ Hte). now apply interp_rel.
    + repeat split; assumption.
  - intros [[ck tm] sl] [[ck' tm'] sl'] [[E Htm2] Hsl2]. cbn [fst snd] in *. subst ck'.
    eapply rel_rbind; [apply rel_pyget, Hte|]. intros tc tc' Htc.
    assert (H2 : r (nadd (a_t s) dt) (nadd (a_t s') dt')) by now apply (r_add _ _ _ HR).
    rewrite (r_eqb _ _ _ HR _ _ _ _ H2 Htc), Hall. destruct (_ || _)%bool; (split; [split|]); cbn [fst snd]; auto; now apply F2_snoc.
Qed.
Lemma iter_rel p q s s' : rel_params p q -> rel_state s s' -> rel_m rv rel_state (adaptive_iter_ad dk p s) (adaptive_iter q s').
Proof.
  intros Hp Hs. unfold adaptive_iter_ad, adaptive_iter. pose proof (attempt_rel _ _ _ _ Hp Hs) as Hatt.
  destruct (attempt_dt p s) as [dt od], (attempt_dt q s') as [dt' od']. destruct Hatt as [Hdt Hod]. cbn [fst snd] in *.
  pose proof Hp as (Hf & (Ho & Hfx & Hts & Hmin & Hmax & Hsaf & Hst) & HT & Hte & Hat & Hrt & Hi & Hall & Hse).
  pose proof Hs as (Ht & Hd & Hx & Hk & Hck & Htm & Hsol).
  eapply rel_bind; [apply Hst; auto|]. intros a a' Ha. destruct a as [|fn xn xe stg], a' as [|fn' xn' xe' stg']; cbn in Ha; try contradiction; [apply rel_mraise|].
  destruct Ha as (Hfn & Hxn & Hxe & Hstg). cbv zeta.
  rewrite <- Hse. assert (Hra := ratio_rel _ _ _ _ (p_semi p) _ _ _ _ _ _ Hat Hrt Hx Hxn Hxe).
  set (ra := error_ratio (p_atol p) _ _ _ _ _) in *. set (ra' := error_ratio (p_atol q) _ _ _ _ _) in *.
  rewrite (r_leb _ _ _ HR _ _ _ _ Hra (r_Q _ _ _ HR _)).
  eapply (rel_bind _ rel_out).
  - destruct (nleb _ _); [apply rel_mlift; now apply accept_rel|]. apply rel_mret. repeat split; assumption.
  - intros [[ck tm] sl] [[ck' tm'] sl'] [[E Htm2] Hsl2]. cbn [fst snd] in *. subst ck'. apply rel_mret.
    unfold rel_state. cbn [a_t a_dt a_x a_k1 a_ck a_times a_sol]. repeat split; try assumption.
    + destruct (nleb _ _); [now apply (r_add _ _ _ HR)|assumption].
    + unfold adapt_step_ad. apply Hdk. rewrite Ho. apply adapt_rel; try assumption.
      destruct od, od'; cbn in Hod; try contradiction; [now apply (r_sub _ _ _ HR)|assumption].
    + destruct (nleb _ _); assumption.
    + destruct (nleb _ _); assumption.
Qed.
Notation rel_sol := (rel_pair rv (Forall2 rv)).
Lemma loop_rel p q : rel_params p q -> forall fuel s s', rel_state s s' -> rel_m rv rel_sol (adaptive_loop_ad dk fuel p s) (adaptive_loop fuel q s').
Proof.
  intros Hp. pose proof Hp as (_ & _ & HT & _). induction fuel as [|fuel IH]; intros s s' Hs; pose proof Hs as (Ht & _ & _ & _ & _ & Htm & Hsol);
    cbn [adaptive_loop_ad adaptive_loop]; rewrite (r_ltb _ _ _ HR _ _ _ _ Ht HT); (destruct (nltb _ _); [|apply rel_mret; split; assumption]).
  - apply rel_mfuel.
  - eapply rel_bind; [now apply iter_rel|]. apply IH.
Qed.

Definition rel_tspan (a : tspan K) (b : tspan L) : Prop :=
  match a, b with TTensor l, TTensor l' => rv l l' | TList l, TList l' => rv l l' | _, _ => False end.
Lemma ts_rel a b : rel_tspan a b -> rv (ts_list a) (ts_list b).
Proof. destruct a, b; cbn; auto; contradiction. Qed.
Lemma neg_rel f f' : rel_field rv f f' -> rel_field rv (neg_field f) (neg_field f').
Proof. intros Hf t t' x x' Ht Hx. unfold neg_field. apply rv_opp, Hf; [now apply (r_opp _ _ _ HR)|assumption]. Qed.
Lemma prep_rel f f' ts ts' : rel_field rv f f' -> rel_tspan ts ts' -> rel_res (rel_pair (rel_field rv) rv) (prep_time f ts) (prep_time f' ts').
Proof.
  intros Hf Hts. pose proof (ts_rel _ _ Hts) as Hl. unfold prep_time.
  eapply rel_rbind; [apply rel_pyget, Hl|]. intros t1 t1' H1.
  eapply rel_rbind; [apply rel_pyget, Hl|]. intros t0 t0' H0.
  rewrite (r_ltb _ _ _ HR _ _ _ _ H1 H0). destruct (nltb _ _); [|split; assumption].
  destruct ts, ts'; cbn in Hts; try contradiction; [|reflexivity]. split; [now apply neg_rel|]. cbn [snd].
  eapply F2_map; [|exact Hts]. intros. now apply (r_opp _ _ _ HR).
Qed.
Lemma odeint_rel fuel f f' x x' ts ts' s s' a a' b b' interp all sv sv' semi :
  rel_field rv f f' -> rv x x' -> rel_tspan ts ts' -> rel_solver s s' -> r a a' -> r b b' -> rv sv sv' ->
  rel_m rv rel_sol (odeint_ad dk fuel f x ts s a b interp all sv semi) (odeint fuel f' x' ts' s' a' b' interp all sv' semi).
Proof.
  intros Hf Hx Hts Hs Ha Hb Hsv. unfold odeint_ad, odeint.
  eapply rel_bind; [apply rel_mlift; now apply prep_rel|]. intros [f_ l] [f_' l'] [Hf_ Hl]. cbn [fst snd] in *. cbv zeta.
  pose proof Hs as (Ho & Hfx & Htt & _ & _ & _ & Hst). rewrite Hfx, Htt, Ho. destruct (s_fixed s'); [now apply fixed_rel|].
  eapply rel_bind; [apply rel_mlift, rel_pyget, Hl|]. intros t t' Ht.
  eapply rel_bind; [now apply rel_mcall|]. intros k k' Hk.
  eapply rel_bind; [now apply init_rel|]. intros dt dt' Hdt.
  unfold adaptive_odeint_ad, adaptive_odeint.
  eapply rel_bind; [apply rel_mlift, rel_pyget, Hl|]. intros t0 t0' Ht0.
  eapply rel_bind; [apply rel_mlift, rel_pylast, Hl|]. intros T T' HT.
  apply loop_rel.
  - unfold rel_params. cbn [p_f p_solver p_T p_t_eval p_atol p_rtol p_interp p_all p_semi]. split; [assumption|]. split; [exact Hs|].
    split; [assumption|]. split; [now apply F2_skipn|]. split; [assumption|]. split; [assumption|]. split; [|split; reflexivity].
    destruct (s_is_tsit5 s'); [exact I|]. destruct interp; [apply fourth_tab|exact I].
  - unfold rel_state. cbn [a_t a_dt a_x a_k1 a_ck a_times a_sol]. repeat split; auto; constructor; auto.
Qed.

(** Hybrid solves *)
Variables (dv : vec K -> vec K) (Hdv : forall a b, rv a b -> rv (dv a) b).
Definition rel_cb (c : callback K) (c' : callback L) : Prop :=
  (forall t t' x x', r t t' -> rv x x' -> check_event c t x = check_event c' t' x') /\ rel_field rv (jump_map c) (jump_map c').
Lemma flags_rel cs cs' t t' x x' : Forall2 rel_cb cs cs' -> r t t' -> rv x x' -> event_flags cs t x = event_flags cs' t' x'.
Proof. intros H Ht Hx. unfold event_flags. induction H as [|c c' cs cs' [Hc _] _ IH]; cbn; [reflexivity|]. f_equal; [now apply Hc|exact IH]. Qed.
Notation rel_bis := (rel_pair (rel_pair (rel_pair r rv) (rel_opt rv)) (@eq (list bool))).
Lemma bisect_rel f f' s s' cs cs' es et et' dt dt' : rel_field rv f f' -> rel_solver s s' -> Forall2 rel_cb cs cs' -> r et et' -> r dt dt' ->
  forall n ti ti' di di' xi xi' k k' fl, r ti ti' -> r di di' -> rv xi xi' -> rel_opt rv k k' ->
  rel_m rv rel_bis (bisect_ad dk dv n f s cs es et dt ti di xi k fl) (bisect n f' s' cs' es et' dt' ti' di' xi' k' fl).
Proof.
  intros Hf Hs Hcs Het Hdt. pose proof Hs as (_ & _ & _ & _ & _ & _ & Hst).
  induction n as [|n IH]; intros ti ti' di di' xi xi' k k' fl Hti Hdi Hxi Hk; cbn [bisect_ad bisect]; [apply rel_mret; repeat split; assumption|].
  rewrite (r_ltb _ _ _ HR _ _ _ _ Het Hdi). destruct (nltb _ _); [|apply rel_mret; repeat split; assumption]. cbv zeta.
  assert (Hd2 : r (dk (ndiv di (nQ 2))) (ndiv di' (nQ 2))) by (apply Hdk, (r_div _ _ _ HR); [assumption|apply (r_Q _ _ _ HR)]).
  eapply rel_bind; [now apply Hst|]. intros a a' Ha. destruct a as [|fn xn xe stg], a' as [|fn' xn' xe' stg']; cbn in Ha; try contradiction; [apply rel_mraise|].
  destruct Ha as (Hfn & Hxn & _ & _).
  assert (Ht2 := r_add _ _ _ HR _ _ _ _ Hti Hd2). rewrite (flags_rel _ _ _ _ _ _ Hcs Ht2 (Hdv _ _ Hxn)).
  destruct (triggered _ _); apply IH; auto. cbn. auto.
Qed.
Definition rel_hparams (p : hparams K) (q : hparams L) : Prop :=
  rel_field rv (hp_f p) (hp_f q) /\ rel_solver (hp_solver p) (hp_solver q) /\ Forall2 rel_cb (hp_cbs p) (hp_cbs q) /\ r (hp_T p) (hp_T q) /\
  rv (hp_t_eval p) (hp_t_eval q) /\ r (hp_atol p) (hp_atol q) /\ r (hp_rtol p) (hp_rtol q) /\ r (hp_etol p) (hp_etol q) /\ hp_semi p = hp_semi q.
Definition rel_hstate (s : hstate K) (s' : hstate L) : Prop :=
  r (h_t s) (h_t s') /\ r (h_dt s) (h_dt s') /\ rv (h_x s) (h_x s') /\ rel_opt rv (h_k1 s) (h_k1 s') /\ h_ck s = h_ck s' /\
  rel_opt r (h_old s) (h_old s') /\ rv (h_times s) (h_times s') /\ Forall2 rv (h_sol s) (h_sol s').
Lemma hattempt_rel p q s s' : rel_hparams p q -> rel_hstate s s' ->
  rel_pair (rel_pair r (rel_opt r)) (@eq nat) (hybrid_attempt p s) (hybrid_attempt q s').
Proof.
  intros (_ & _ & _ & HT & Hte & _) (Ht & Hd & _ & _ & Hck & Hold & _). unfold hybrid_attempt. cbv zeta.
  rewrite (r_ltb _ _ _ HR _ _ _ _ HT (r_add _ _ _ HR _ _ _ _ Ht Hd)).
  match goal with |- context [if ?c then nsub (hp_T p) ?u else ?v] => set (d := if c then nsub (hp_T p) u else v) end.
  match goal with |- context [if ?c then nsub (hp_T q) ?u else ?v] => set (d' := if c then nsub (hp_T q) u else v) end.
  assert (Hdd : r d d') by (subst d d'; destruct (nltb _ _); [now apply (r_sub _ _ _ HR)|assumption]).
  rewrite Hck. pose proof (rel_nth_error _ _ _ (h_ck s') Hte) as G.
  destruct (nth_error (hp_t_eval p) _), (nth_error (hp_t_eval q) _); cbn in G; try contradiction; [|repeat split; assumption].
  clearbody d d'. rewrite (r_ltb _ _ _ HR _ _ _ _ G (r_add _ _ _ HR _ _ _ _ Ht Hdd)). match goal with |- context [nltb ?u ?v] => destruct (nltb u v) end; [|repeat split; assumption].
  repeat split; cbn; auto. now apply (r_sub _ _ _ HR).
Qed.
Lemma hiter_rel p q s s' : rel_hparams p q -> rel_hstate s s' -> rel_m rv rel_hstate (hybrid_iter_ad dk dv p s) (hybrid_iter q s').
Proof.
  intros Hp Hs. unfold hybrid_iter_ad, hybrid_iter. pose proof (hattempt_rel _ _ _ _ Hp Hs) as Hatt.
  destruct (hybrid_attempt p s) as [[dt od] ck], (hybrid_attempt q s') as [[dt' od'] ck']. destruct Hatt as [[Hdt Hod] Eck]. cbn [fst snd] in *. subst ck'.
  pose proof Hp as (Hf & Hsol & Hcs & HT & Hte & Hat & Hrt & Het & Hse).
  pose proof Hsol as (Ho & Hfx & Hts & Hmin & Hmax & Hsaf & Hst).
  pose proof Hs as (Ht & Hd & Hx & Hk & Hck & Hold & Htm & Hsl). cbv zeta.
  eapply rel_bind; [now apply Hst|]. intros a a' Ha. destruct a as [|fn xn xe stg], a' as [|fn' xn' xe' stg']; cbn in Ha; try contradiction; [apply rel_mraise|].
  destruct Ha as (Hfn & Hxn & Hxe & _).
  assert (Ht2 := r_add _ _ _ HR _ _ _ _ Ht Hdt). rewrite (flags_rel _ _ _ _ _ _ Hcs Ht2 Hxn).
  assert (Ees : map (fun _ : callback K => false) (hp_cbs p) = map (fun _ : callback L => false) (hp_cbs q)).
  { clear -Hcs. induction Hcs; cbn; [reflexivity|]. now f_equal. }
  rewrite Ees. destruct (triggered _ _).
  - eapply rel_bind; [now apply bisect_rel|]. intros [[[t1 x1] k1] f1] [[[t1' x1'] k1'] f1'] [[[H1 H2] _] E]. cbn [fst snd] in *. subst f1'.
    eapply (rel_bind rv eq); [apply rel_mlift; destruct (first_true f1); reflexivity|]. intros i i' <-.
    eapply rel_bind; [apply rel_mlift, rel_pyget, Hcs|]. intros c c' [_ Hj]. cbv zeta.
    apply rel_mret. unfold rel_hstate. cbn [h_t h_dt h_x h_k1 h_ck h_old h_times h_sol]. repeat split; auto.
    + apply Forall2_app; [assumption|]. repeat (constructor; auto).
    + apply Forall2_app; [assumption|]. repeat (constructor; auto).
  - rewrite <- Hse. assert (Hra := ratio_rel _ _ _ _ (hp_semi p) _ _ _ _ _ _ Hat Hrt Hx Hxn Hxe).
    set (ra := error_ratio (hp_atol p) _ _ _ _ _) in *. set (ra' := error_ratio (hp_atol q) _ _ _ _ _) in *.
    rewrite (r_leb _ _ _ HR _ _ _ _ Hra (r_Q _ _ _ HR _)). unfold adapt_step_ad. rewrite Ho.
    assert (Had : forall u u', r u u' -> r (dk (adapt_step u ra (s_safety (hp_solver p)) (s_min_factor (hp_solver p)) (s_max_factor (hp_solver p)) (s_order (hp_solver q))))
      (adapt_step u' ra' (s_safety (hp_solver q)) (s_min_factor (hp_solver q)) (s_max_factor (hp_solver q)) (s_order (hp_solver q)))).
    { intros u u' Hu. apply Hdk, adapt_rel; assumption. }
    assert (Hoo : r (match od with Some o => nsub o dt | None => dt end) (match od' with Some o => nsub o dt' | None => dt' end)).
    { destruct od, od'; cbn in Hod; try contradiction; [now apply (r_sub _ _ _ HR)|assumption]. }
    apply rel_mret. destruct (nleb _ _); unfold rel_hstate; cbn [h_t h_dt h_x h_k1 h_ck h_old h_times h_sol]; repeat split; auto; now apply F2_snoc.
Qed.
Lemma hloop_rel p q j js : rel_hparams p q -> forall fuel s s', rel_hstate s s' ->
  rel_m rv rel_sol (hybrid_loop_ad dk dv fuel p j js s) (hybrid_loop fuel q j js s').
Proof.
  intros Hp. pose proof Hp as (_ & _ & _ & HT & _). induction fuel as [|fuel IH]; intros s s' Hs; pose proof Hs as (Ht & _ & _ & _ & _ & _ & Htm & Hsol);
    cbn [hybrid_loop_ad hybrid_loop]; rewrite (r_ltb _ _ _ HR _ _ _ _ Ht HT); (destruct (_ && _)%bool; [|apply rel_mret; split; assumption]).
  - apply rel_mfuel.
  - eapply rel_bind; [now apply hiter_rel|]. apply IH.
Qed.
Lemma hybrid_rel fuel f f' x x' ts ts' j s s' cs cs' a a' b b' e e' jf semi :
  rel_field rv f f' -> rv x x' -> rv ts ts' -> rel_solver s s' -> Forall2 rel_cb cs cs' -> r a a' -> r b b' -> r e e' ->
  rel_m rv rel_sol (odeint_hybrid_ad dk dv fuel f x ts j s cs a b e jf semi) (odeint_hybrid fuel f' x' ts' j s' cs' a' b' e' jf semi).
Proof.
  intros Hf Hx Hts Hs Hcs Ha Hb He. unfold odeint_hybrid_ad, odeint_hybrid.
  eapply rel_bind; [apply rel_mlift, rel_pyget, Hts|]. intros t t' Ht.
  eapply rel_bind; [apply rel_mlift, rel_pylast, Hts|]. intros T T' HT. cbv zeta.
  assert (Ees : map (fun _ : callback K => false) cs = map (fun _ : callback L => false) cs').
  { clear -Hcs. induction Hcs; cbn; [reflexivity|]. now f_equal. }
  rewrite Ees, (flags_rel _ _ _ _ _ _ Hcs Ht Hx).
  eapply (rel_bind _ (rel_pair rv (@eq nat))).
  - destruct jf; [|apply rel_mret; split; [assumption|reflexivity]]. destruct (triggered _ _); [|apply rel_mret; split; [assumption|reflexivity]].
    eapply (rel_bind rv eq); [apply rel_mlift; destruct (first_true _); reflexivity|]. intros i i' <-.
    eapply rel_bind; [apply rel_mlift, rel_pyget, Hcs|]. intros c c' [_ Hj]. apply rel_mret. split; [now apply Hj|reflexivity].
  - intros [y n] [y' n'] [Hy En]. cbn [fst snd] in *. subst n'. pose proof Hs as (Ho & _). rewrite Ho.
    eapply rel_bind; [now apply rel_mcall|]. intros k k' Hk.
    eapply rel_bind; [now apply init_rel|]. intros dt dt' Hdt.
    apply hloop_rel.
    + unfold rel_hparams. cbn [hp_f hp_solver hp_cbs hp_T hp_t_eval hp_atol hp_rtol hp_etol hp_semi]. do 4 (split; [assumption|]). split; [now apply F2_skipn|]. do 3 (split; [assumption|]). reflexivity.
    + unfold rel_hstate. cbn [h_t h_dt h_x h_k1 h_ck h_old h_times h_sol]. repeat split; auto; constructor; auto.
Qed.
End Rel.
