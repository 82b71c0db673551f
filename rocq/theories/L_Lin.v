(** Solves whose states are related by a relation that the vector operations preserve, and whose error norms agree:
    the times, the accepted steps and the exceptions are the same. *)
From Coq Require Import ZArith QArith List Bool.
From Verif Require Import Num Py Tensor M_Constants M_SolversOde M_Utils M_Interp M_Odeint L_Rel.
Import ListNotations.
Local Notation length := List.length.
Local Open Scope nat_scope.

Lemma related_eq (K : NumOps) : related K K eq.
Proof. constructor; intros; subst; reflexivity. Qed.
Lemma F2_eq {A} (l : list A) : Forall2 eq l l.
Proof. induction l; constructor; auto. Qed.

Section Lin.
Context {K : NumOps} (P : vec K -> vec K -> Prop).
Hypothesis P_add : forall a a' b b', P a a' -> P b b' -> P (vadd a b) (vadd a' b').
Hypothesis P_sub : forall a a' b b', P a a' -> P b b' -> P (vsub a b) (vsub a' b').
Hypothesis P_scale : forall (c : K) a a', P a a' -> P (vscale c a) (vscale c a').
Hypothesis P_opp : forall a a', P a a' -> P (vopp a) (vopp a').
Hypothesis P_zero : forall a a', P a a' -> P (vadds n0 a) (vadds n0 a').

Notation fld := (rel_field (@eq K) P).
Notation stp := (rel_step (@eq K) P).
Notation mon := (rel_m (@eq K) P).
Notation ret := (rel_ret P).

Ltac lin := repeat first [assumption | apply P_add | apply P_sub | apply P_scale | apply P_opp | reflexivity].
Ltac nums := intros; subst; try reflexivity.

Lemma rel_value {A B} (Q : A -> B -> Prop) (N : A -> Prop) m m' : mon Q m m' -> (forall a, snd m = Ok a -> N a) -> mon (fun a b => Q a b /\ N a) m m'.
Proof. intros [H1 H2] HN. split; [exact H1|]. destruct (snd m), (snd m'); cbn in *; auto. Qed.

Lemma lin_euler : stp (@euler_step K) (@euler_step K).
Proof.
  intros f f' x x' t t' h h' k k' Hf Hx <- <- Hk. unfold euler_step.
  eapply rel_bind; [now apply rel_first|]. intros k1 k1' H1. apply rel_mret. cbn. split; [exact I|]. split; [lin|exact I].
Qed.
Lemma lin_midpoint : stp (@midpoint_step K) (@midpoint_step K).
Proof.
  intros f f' x x' t t' h h' k k' Hf Hx <- <- Hk. unfold midpoint_step.
  eapply rel_bind; [now apply rel_first|]. intros k1 k1' H1. cbv zeta.
  eapply rel_bind; [apply rel_mcall; lin|]. intros k2 k2' H2. apply rel_mret. cbn. split; [exact I|]. split; [lin|exact I].
Qed.
Lemma lin_rk4 : stp (@rk4_step K) (@rk4_step K).
Proof.
  intros f f' x x' t t' h h' k k' Hf Hx <- <- Hk. unfold rk4_step. cbv zeta.
  eapply rel_bind; [now apply rel_first|]. intros k1 k1' H1.
  eapply rel_bind; [apply rel_mcall; lin|]. intros k2 k2' H2.
  eapply rel_bind; [apply rel_mcall; lin|]. intros k3 k3' H3.
  eapply rel_bind; [apply rel_mcall; lin|]. intros k4 k4' H4.
  apply rel_mret. split; [exact I|]. split; [lin|exact I].
Qed.
Lemma lin_erk7 tab : stp (@erk7_step K tab) (@erk7_step K tab).
Proof.
  intros f f' x x' t t' h h' k k' Hf Hx <- <- Hk. unfold erk7_step. cbv beta zeta.
  eapply rel_bind; [now apply rel_first|]. intros k1 k1' H1.
  eapply rel_bind; [apply rel_mcall; lin|]. intros k2 k2' H2.
  eapply rel_bind; [apply rel_mcall; lin|]. intros k3 k3' H3.
  eapply rel_bind; [apply rel_mcall; lin|]. intros k4 k4' H4.
  eapply rel_bind; [apply rel_mcall; lin|]. intros k5 k5' H5.
  eapply rel_bind; [apply rel_mcall; lin|]. intros k6 k6' H6.
  eapply rel_bind; [apply rel_mcall; lin|]. intros k7 k7' H7.
  apply rel_mret. split; [assumption|]. split; [lin|]. split; [lin|]. repeat (constructor; [assumption|]). constructor.
Qed.
Lemma lin_hyper b b' o g g' : stp b b' -> fld g g' -> stp (hyper_step b o g) (hyper_step b' o g').
Proof.
  intros Hb Hg f f' x x' t t' h h' k k' Hf Hx <- <- Hk. unfold hyper_step.
  eapply rel_bind; [now apply Hb|]. intros a a' Ha. destruct a, a'; cbn in Ha; try contradiction; [|apply rel_mraise].
  destruct Ha as (_ & Ha & _). apply rel_mret. split; [exact I|]. split; [|exact I]. lin. now apply Hg.
Qed.

(** the same method on both sides *)
Definition lin_solver (s s' : solver K (vec K)) : Prop :=
  s_order s = s_order s' /\ s_fixed s = s_fixed s' /\ s_is_tsit5 s = s_is_tsit5 s' /\
  s_min_factor s = s_min_factor s' /\ s_max_factor s = s_max_factor s' /\ s_safety s = s_safety s' /\ stp (s_step s) (s_step s').
Lemma lin_mk o a b st st' : stp st st' -> lin_solver (mk_solver o a b st) (mk_solver o a b st').
Proof. intros H. unfold lin_solver, mk_solver. cbn [s_order s_fixed s_is_tsit5 s_min_factor s_max_factor s_safety s_step]. do 6 (split; [reflexivity|]). exact H. Qed.

(** Interpolation *)
Lemma lin_eval c c' t0 t1 t : Forall2 P c c' -> rel_res P (interp_evaluate c t0 t1 t) (interp_evaluate c' t0 t1 t).
Proof.
  intros Hc. unfold interp_evaluate. cbv zeta.
  destruct Hc as [|c0 c0' l l' Hc0 Hl]; [reflexivity|]. destruct Hl as [|c1 c1' m m' Hc1 Hm]; [reflexivity|]. cbn [rel_res].
  set (th := ndiv (nsub t t0) _).
  assert (G : forall A A', P (fst A) (fst A') -> snd A = snd A' ->
    P (fst (fold_left (fun (acc : vec K * K) coef => let p := nmul (snd acc) th in ((fst acc + p * coef)%V, p)) m A))
      (fst (fold_left (fun (acc : vec K * K) coef => let p := nmul (snd acc) th in ((fst acc + p * coef)%V, p)) m' A'))).
  { induction Hm as [|u u' m m' Hu _ IH]; intros A A' HA HA'; cbn [fold_left]; [exact HA|]. apply IH; cbn; rewrite <- HA'; lin. }
  apply G; cbn [fst snd]; lin.
Qed.
Lemma lin_fit dt f0 f0' f1 f1' x0 x0' x1 x1' xm xm' : P f0 f0' -> P f1 f1' -> P x0 x0' -> P x1 x1' -> P xm xm' ->
  Forall2 P (fourth_fit dt f0 f1 x0 x1 xm) (fourth_fit dt f0' f1' x0' x1' xm').
Proof. intros. unfold fourth_fit. repeat constructor; lin. Qed.
Lemma lin_bmid b s s' : P [] [] \/ s <> [] -> Forall2 P s s' -> rel_res P (bmid_sum b s) (bmid_sum b s').
Proof.
  intros Hne Hs. unfold bmid_sum. eapply rel_rbind with (P := fun l l' => (P [] [] \/ l <> []) /\ Forall2 P l l').
  - assert (G : forall s s', Forall2 P s s' -> forall b, rel_res (fun l l' => (l = [] -> s = []) /\ Forall2 P l l') (bmid_terms b s) (bmid_terms b s')).
    { clear s s' Hne Hs b. intros s s' Hs. induction Hs as [|u u' s s' Hu _ IH]; intros b0; cbn [bmid_terms]; [destruct b0; cbn; auto|]. destruct b0 as [|c b0]; [reflexivity|].
      unfold rmap. eapply rel_rbind; [now apply IH|]. intros l l' [_ Hl]. cbn. split; [intros E; discriminate E|]. constructor; [|exact Hl]. lin. }
    specialize (G s s' Hs b). destruct (bmid_terms b s) as [l| |], (bmid_terms b s') as [l'| |]; cbn in G |- *; try contradiction; try exact G. destruct G as [G1 G2]. split; [|exact G2].
    destruct Hne as [Hn|Hn]; [now left|]. right. intros E. apply Hn, G1, E.
  - intros l l' [Hn Hl]. destruct Hl as [|u u' l l' Hu Hl]; cbn; [destruct Hn as [Hn|Hn]; [exact Hn|now destruct Hn]|].
    clear Hn. assert (G : P (vadds n0 u) (vadds n0 u')) by now apply P_zero. revert G. generalize (vadds n0 u) (vadds n0 u').
    induction Hl as [|w w' l l' Hw _ IH]; intros a a' G; cbn; [exact G|]. apply IH. lin.
Qed.
Notation lin_out := (rel_pair (@eq (nat * list K)) (Forall2 P)).
Lemma lin_interp b te t dt x x' k k' fn fn' xn xn' st st' : P x x' -> P k k' ->
  P fn fn' -> P xn xn' -> P [] [] \/ st <> [] -> Forall2 P st st' -> forall n ck times sol sol', Forall2 P sol sol' ->
  rel_res lin_out (interp_loop n b te t dt x k fn xn st ck times sol) (interp_loop n b te t dt x' k' fn' xn' st' ck times sol').
Proof.
  intros Hx Hk Hfn Hxn Hne Hst. induction n as [|n IH]; intros ck times sol sol' Hsol; cbn [interp_loop]; [split; [reflexivity|assumption]|].
  destruct (nth_error te ck) as [tc|]; [|split; [reflexivity|assumption]].
  destruct (nltb _ _); [|split; [reflexivity|assumption]].
  eapply rel_rbind; [now apply lin_bmid|]. intros s s' Hs. cbv zeta.
  eapply rel_rbind; [apply lin_eval, lin_fit; lin|]. intros y y' Hy. apply IH; now apply F2_snoc.
Qed.

(** Step size control: hypotheses about the norms *)
Variables (atol atol' rtol rtol' : K) (semi : option nat) (f f' : K -> vec K -> vec K).
Hypothesis H_ratio : forall x x' y y' e e', P x x' -> P y y' -> P e e' ->
  error_ratio atol rtol semi x y e = error_ratio atol' rtol' semi x' y' e'.
Hypothesis H_norm : forall x x' k k', P x x' -> P k k' ->
  hairer_norm (vdiv k (map (fun a => atol + nabs a * rtol)%N x)) = hairer_norm (vdiv k' (map (fun a => atol' + nabs a * rtol')%N x')).

Lemma lin_init o k k' x x' t g g' : fld g g' -> P k k' -> P x x' -> mon eq (init_step g k x t o atol rtol) (init_step g' k' x' t o atol' rtol').
Proof.
  intros Hf Hk Hx. unfold init_step. cbv zeta.
  rewrite <- (H_norm x x' x x' Hx Hx), <- (H_norm x x' k k' Hx Hk).
  set (sc := map _ x). set (sc' := map _ x').
  match goal with |- context [(if ?c then nQ ?q else @ndiv K ?u ?v)] => set (h0 := if c then nQ q else @ndiv K u v) end.
  eapply rel_bind; [apply rel_mcall; lin|]. intros fn fn' Hfn.
  assert (D2 : hairer_norm (vdiv (vsub fn k) sc) = hairer_norm (vdiv (vsub fn' k') sc')) by (apply H_norm; lin).
  rewrite <- D2. apply rel_mret. reflexivity.
Qed.

(** Adaptive solves *)
Variables (s s' : solver K (vec K)).
Hypothesis Hsolver : lin_solver s s'.
Hypothesis H_stages : P [] [] \/ forall g x t h k fn xn xe st, snd (s_step s g x t h k) = Ok (Ret4 fn xn xe st) -> st <> [].
Hypothesis Hfield : fld f f'.
Definition lin_state (a a' : astate K) : Prop :=
  a_t a = a_t a' /\ a_dt a = a_dt a' /\ P (a_x a) (a_x a') /\ P (a_k1 a) (a_k1 a') /\ a_ck a = a_ck a' /\
  a_times a = a_times a' /\ Forall2 P (a_sol a) (a_sol a').
Notation lin_sol := (rel_pair (@eq (list K)) (Forall2 P)).
Section Loop.
Variables (g g' : K -> vec K -> vec K) (T : K) (te : list K) (bmid : option (list K)) (all : bool).
Hypothesis Hg : fld g g'.
Notation p := (MkP g s T te atol rtol bmid all semi).
Notation q := (MkP g' s' T te atol' rtol' bmid all semi).
Lemma lin_attempt a a' : lin_state a a' -> attempt_dt p a = attempt_dt q a'.
Proof.
  intros (Ht & Hd & _ & _ & Hck & _). unfold attempt_dt. cbn [p_T p_t_eval p_interp]. now rewrite Ht, Hd, Hck.
Qed.
Lemma lin_accept a a' dt fn fn' xn xn' st st' : lin_state a a' -> P fn fn' -> P xn xn' -> P [] [] \/ st <> [] -> Forall2 P st st' ->
  rel_res lin_out (accept_out p a dt fn xn st) (accept_out q a' dt fn' xn' st').
Proof.
  intros (Ht & Hd & Hx & Hk & Hck & Htm & Hsol) Hfn Hxn Hne Hst. unfold accept_out. cbv zeta. cbn [p_T p_t_eval p_interp p_all].
  rewrite Ht, Hck, Htm.
  eapply (rel_rbind lin_out).
  - destruct bmid; [now apply lin_interp|]. split; [reflexivity|assumption].
  - intros [[ck tm] sl] [[ck' tm'] sl'] [E Hsl2]. cbn [fst snd] in *. injection E as <- <-.
    destruct (pyget te ck); cbn [rbind]; [|reflexivity|exact I].
    destruct (_ || _)%bool; (split; [reflexivity|]); cbn [fst snd]; auto; now apply F2_snoc.
Qed.
Lemma lin_iter a a' : lin_state a a' -> mon lin_state (adaptive_iter p a) (adaptive_iter q a').
Proof.
  intros Ha. unfold adaptive_iter. rewrite (lin_attempt _ _ Ha). destruct (attempt_dt q a') as [dt od].
  pose proof Hsolver as (Ho & Hfx & Hts & Hmin & Hmax & Hsaf & Hst).
  pose proof Ha as (Ht & Hd & Hx & Hk & Hck & Htm & Hsol). cbn [p_solver p_f p_atol p_rtol p_semi].
  eapply rel_bind; [apply rel_value with (N := fun r => P [] [] \/ forall fn xn xe st, r = Ret4 fn xn xe st -> st <> []); [apply Hst; auto|]|].
  { intros a0 E0. destruct H_stages as [Hn|Hn]; [now left|right]. intros fn xn xe st ->. exact (Hn _ _ _ _ _ _ _ _ _ E0). }
  intros b b' [Hb Hne]. destruct b as [|fn xn xe stg], b' as [|fn' xn' xe' stg']; cbn in Hb; try contradiction; [apply rel_mraise|].
  destruct Hb as (Hfn & Hxn & Hxe & Hstg). cbv zeta.
  assert (Hne' : P [] [] \/ stg <> []) by (destruct Hne as [Hne|Hne]; [now left|right; exact (Hne _ _ _ _ eq_refl)]).
  rewrite (H_ratio _ _ _ _ _ _ Hx Hxn Hxe). set (ra := error_ratio atol' _ _ _ _ _).
  eapply (rel_bind _ _ lin_out).
  - destruct (nleb _ _); [apply rel_mlift; now apply lin_accept|]. apply rel_mret. split; [cbn; congruence|assumption].
  - intros [[ck tm] sl] [[ck' tm'] sl'] [E Hsl2]. cbn [fst snd] in *. injection E as <- <-. apply rel_mret.
    unfold lin_state. cbn [a_t a_dt a_x a_k1 a_ck a_times a_sol]. rewrite Ht, Ho, Hmin, Hmax, Hsaf.
    destruct (nleb _ _); repeat split; try assumption.
Qed.
Lemma lin_loop : forall fuel a a', lin_state a a' -> mon lin_sol (adaptive_loop fuel p a) (adaptive_loop fuel q a').
Proof.
  induction fuel as [|fuel IH]; intros a a' Ha; pose proof Ha as (Ht & _ & _ & _ & _ & Htm & Hsol);
    cbn [adaptive_loop p_T]; rewrite Ht; (destruct (nltb _ _); [|apply rel_mret; split; assumption]).
  - apply rel_mfuel.
  - eapply rel_bind; [now apply lin_iter|]. apply IH.
Qed.
End Loop.

Lemma lin_neg g g' : fld g g' -> fld (neg_field g) (neg_field g').
Proof. intros Hf t t' x x' <- Hx. unfold neg_field. apply P_opp, Hf; [reflexivity|assumption]. Qed.
Lemma lin_prep ts : rel_res (rel_pair fld eq) (prep_time f ts) (prep_time f' ts).
Proof.
  unfold prep_time. destruct (pyget (ts_list ts) 1) as [t1| |]; cbn [rbind]; [|reflexivity|exact I].
  destruct (pyget (ts_list ts) 0) as [t0| |]; cbn [rbind]; [|reflexivity|exact I].
  destruct (nltb _ _); [|split; [exact Hfield|reflexivity]].
  destruct ts; [|reflexivity]. split; [now apply lin_neg|reflexivity].
Qed.
Lemma mlift_eq {A} (a : res A) : mon eq (mlift a) (mlift a).
Proof. apply rel_mlift. destruct a; reflexivity. Qed.
Lemma lin_odeint fuel x x' ts interp all sv : P x x' ->
  mon lin_sol (odeint fuel f x ts s atol rtol interp all sv semi) (odeint fuel f' x' ts s' atol' rtol' interp all sv semi).
Proof.
  intros Hx. unfold odeint.
  eapply rel_bind; [apply rel_mlift, lin_prep|]. intros [f_ l] [f_' l'] [Hf_ Hl]. cbn [fst snd] in *. subst l'. cbv zeta.
  pose proof Hsolver as (Ho & Hfx & Htt & _ & _ & _ & Hst). rewrite Hfx, Htt, Ho. destruct (s_fixed s').
  { pose proof (fixed_rel eq (related_eq K) P f_ f_' (s_step s) (s_step s') l l sv sv x x' Hf_ Hst (F2_eq l) (F2_eq sv) Hx) as [G1 G2].
    split; [exact G1|]. destruct (snd (fixed_odeint f_ x l _ _)) as [[u v]| |], (snd (fixed_odeint f_' x' l _ _)) as [[u' v']| |]; cbn in G2 |- *; try contradiction; auto.
    destruct G2 as [E G2]. split; [|exact G2]. clear -E. cbn in *. induction E; congruence. }
  eapply rel_bind; [apply mlift_eq|]. intros t t' <-.
  eapply rel_bind; [now apply rel_mcall|]. intros k k' Hk.
  eapply rel_bind; [now apply lin_init|]. intros dt dt' <-.
  unfold adaptive_odeint.
  eapply rel_bind; [apply mlift_eq|]. intros t0 t0' <-.
  eapply rel_bind; [apply mlift_eq|]. intros T T' <-.
  apply lin_loop; [assumption|]. unfold lin_state. cbn [a_t a_dt a_x a_k1 a_ck a_times a_sol]. repeat split; auto; constructor; auto.
Qed.

(** Hybrid solves *)
Definition lin_cb (c c' : callback K) : Prop :=
  (forall t x x', P x x' -> check_event c t x = check_event c' t x') /\ fld (jump_map c) (jump_map c').
Variables (cs cs' : list (callback K)).
Hypothesis Hcs : Forall2 lin_cb cs cs'.
Lemma lin_flags t x x' : P x x' -> event_flags cs t x = event_flags cs' t x'.
Proof.
  intros Hx. assert (G : forall l l', Forall2 lin_cb l l' -> event_flags l t x = event_flags l' t x'); [|now apply G].
  intros l l' H. unfold event_flags. induction H as [|c c' l l' [Hc _] _ IH]; cbn; [reflexivity|]. f_equal; [now apply Hc|exact IH].
Qed.
Lemma lin_len : map (fun _ : callback K => false) cs = map (fun _ : callback K => false) cs'.
Proof.
  assert (G : forall l l', Forall2 lin_cb l l' -> map (fun _ : callback K => false) l = map (fun _ : callback K => false) l'); [|now apply G].
  intros l l' H. induction H; cbn; congruence.
Qed.
Notation lin_bis := (fun a b : K * vec K * option (vec K) * list bool =>
  fst (fst (fst a)) = fst (fst (fst b)) /\ P (snd (fst (fst a))) (snd (fst (fst b))) /\ snd a = snd b).
Lemma lin_bisect es et dt : forall n ti di xi xi' k k' fl, P xi xi' -> rel_opt P k k' ->
  mon lin_bis (bisect n f s cs es et dt ti di xi k fl) (bisect n f' s' cs' es et dt ti di xi' k' fl).
Proof.
  pose proof Hsolver as (_ & _ & _ & _ & _ & _ & Hst).
  induction n as [|n IH]; intros ti di xi xi' k k' fl Hxi Hk; cbn [bisect]; [apply rel_mret; repeat split; assumption|].
  destruct (nltb _ _); [|apply rel_mret; repeat split; assumption]. cbv zeta.
  eapply rel_bind; [now apply Hst|]. intros a a' Ha. destruct a as [|fn xn xe stg], a' as [|fn' xn' xe' stg']; cbn in Ha; try contradiction; [apply rel_mraise|].
  destruct Ha as (Hfn & Hxn & _ & _). rewrite (lin_flags _ _ _ Hxn). destruct (triggered _ _); apply IH; auto.
Qed.
Definition lin_hstate (a a' : hstate K) : Prop :=
  h_t a = h_t a' /\ h_dt a = h_dt a' /\ P (h_x a) (h_x a') /\ rel_opt P (h_k1 a) (h_k1 a') /\ h_ck a = h_ck a' /\
  h_old a = h_old a' /\ h_times a = h_times a' /\ Forall2 P (h_sol a) (h_sol a').
Section HLoop.
Variables (T : K) (te : list K) (etol : K).
Notation p := (MkHP f s cs T te atol rtol etol semi).
Notation q := (MkHP f' s' cs' T te atol' rtol' etol semi).
Lemma lin_hiter a a' : lin_hstate a a' -> mon lin_hstate (hybrid_iter p a) (hybrid_iter q a').
Proof.
  intros Ha. pose proof Hsolver as (Ho & Hfx & Hts & Hmin & Hmax & Hsaf & Hst).
  pose proof Ha as (Ht & Hd & Hx & Hk & Hck & Hold & Htm & Hsl). unfold hybrid_iter.
  assert (hybrid_attempt p a = hybrid_attempt q a') as ->.
  { unfold hybrid_attempt. cbn [hp_T hp_t_eval]. now rewrite Ht, Hd, Hck, Hold. }
  destruct (hybrid_attempt q a') as [[dt od] ck]. cbv zeta. cbn [hp_f hp_solver hp_cbs hp_T hp_t_eval hp_atol hp_rtol hp_etol hp_semi].
  eapply rel_bind; [now apply Hst|]. intros b b' Hb. destruct b as [|fn xn xe stg], b' as [|fn' xn' xe' stg']; cbn in Hb; try contradiction; [apply rel_mraise|].
  destruct Hb as (Hfn & Hxn & Hxe & _). rewrite (lin_flags _ _ _ Hxn), lin_len, Ht.
  match goal with |- context [triggered ?u ?v] => destruct (triggered u v) end.
  - eapply rel_bind; [now apply lin_bisect|]. intros [[[t1 x1] k1] f1] [[[t1' x1'] k1'] f1'] (H1 & H2 & E). cbn [fst snd] in *. subst f1' t1'.
    eapply rel_bind; [apply mlift_eq|]. intros i i' <-.
    eapply rel_bind; [apply rel_mlift, rel_pyget, Hcs|]. intros c c' [_ Hj]. cbv zeta.
    apply rel_mret. unfold lin_hstate. cbn [h_t h_dt h_x h_k1 h_ck h_old h_times h_sol]. repeat split; auto; [congruence|].
    apply Forall2_app; [assumption|]. repeat (constructor; auto).
  - rewrite (H_ratio _ _ _ _ _ _ Hx Hxn Hxe), Ho, Hmin, Hmax, Hsaf.
    apply rel_mret. destruct (nleb _ _); unfold lin_hstate; cbn [h_t h_dt h_x h_k1 h_ck h_old h_times h_sol]; repeat split; auto; try congruence; now apply F2_snoc.
Qed.
Lemma lin_hloop j js : forall fuel a a', lin_hstate a a' -> mon lin_sol (hybrid_loop fuel p j js a) (hybrid_loop fuel q j js a').
Proof.
  induction fuel as [|fuel IH]; intros a a' Ha; pose proof Ha as (Ht & _ & _ & _ & _ & _ & Htm & Hsol);
    cbn [hybrid_loop hp_T]; rewrite Ht; (destruct (_ && _)%bool; [|apply rel_mret; split; assumption]).
  - apply rel_mfuel.
  - eapply rel_bind; [now apply lin_hiter|]. apply IH.
Qed.
End HLoop.
Lemma lin_hybrid fuel x x' ts j etol jf : P x x' ->
  mon lin_sol (odeint_hybrid fuel f x ts j s cs atol rtol etol jf semi) (odeint_hybrid fuel f' x' ts j s' cs' atol' rtol' etol jf semi).
Proof.
  intros Hx. unfold odeint_hybrid.
  eapply rel_bind; [apply mlift_eq|]. intros t t' <-.
  eapply rel_bind; [apply mlift_eq|]. intros T T' <-. cbv zeta.
  rewrite lin_len, (lin_flags _ _ _ Hx).
  eapply (rel_bind _ _ (rel_pair P (@eq nat))).
  - destruct jf; [|apply rel_mret; split; [assumption|reflexivity]]. destruct (triggered _ _); [|apply rel_mret; split; [assumption|reflexivity]].
    eapply rel_bind; [apply mlift_eq|]. intros i i' <-.
    eapply rel_bind; [apply rel_mlift, rel_pyget, Hcs|]. intros c c' [_ Hj]. apply rel_mret. split; [now apply Hj|reflexivity].
  - intros [y n] [y' n'] [Hy En]. cbn [fst snd] in *. subst n'. pose proof Hsolver as (Ho & _). rewrite Ho.
    eapply rel_bind; [now apply rel_mcall|]. intros k k' Hk.
    eapply rel_bind; [now apply lin_init|]. intros dt dt' <-.
    apply lin_hloop. unfold lin_hstate. cbn [h_t h_dt h_x h_k1 h_ck h_old h_times h_sol]. repeat split; auto; constructor; auto.
Qed.
End Lin.
