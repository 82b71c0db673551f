(** Proofs of the property about SDEs made of independent blocks. *)
From Coq Require Import ZArith QArith Lia String List Bool Floats.
From Verif Require Import Num Py Tensor M_SolversOde M_Odeint M_Sde.
Import ListNotations.
Local Notation length := List.length.
Local Open Scope nat_scope.

(** the SDE whose state is a state of [s1], of size [n], followed by a state of [s2], and the Brownian path made of two paths *)
Definition block_sde {K : NumOps} (n : nat) (s1 s2 : sde_func K) : sde_func K :=
  MkSde (fun t y => sde_f s1 t (firstn n y) ++ sde_f s2 t (skipn n y)) (fun t y => sde_g s1 t (firstn n y) ++ sde_g s2 t (skipn n y)) (sde_noise s1) (sde_type s1).
Definition block_bm {K : NumOps} (b1 b2 : brownian K) : brownian K := fun s t => b1 s t ++ b2 s t.
Definition sized_k {K : NumOps} (n : nat) (sde : sde_func K) (bm : brownian K) : Prop :=
  (forall t x, length x = n -> length (sde_f sde t x) = n) /\ (forall t x, length x = n -> length (sde_g sde t x) = n) /\ forall s t, length (bm s t) = n.

Section B.
Context {K : NumOps}.
Notation V := (vec K).
Lemma map2_app2 {A B C} (f : A -> B -> C) : forall a c b d, length a = length c -> map2 f (a ++ b) (c ++ d) = map2 f a c ++ map2 f b d.
Proof. induction a as [|x a IH]; intros [|y c] b d H; try discriminate; [reflexivity|]. cbn. f_equal. apply IH. now injection H. Qed.
Lemma map2_len2 {A B C} (f : A -> B -> C) n : forall a c, length a = n -> length c = n -> length (map2 f a c) = n.
Proof. induction n as [|n IH]; intros [|x a] [|y c] Ha Hc; try discriminate; cbn; auto. Qed.
Lemma firstn_b n (a b : V) : length a = n -> firstn n (a ++ b) = a.
Proof. intros <-. rewrite firstn_app, firstn_all, Nat.sub_diag. cbn. apply app_nil_r. Qed.
Lemma skipn_b n (a b : V) : length a = n -> skipn n (a ++ b) = b.
Proof. intros <-. rewrite skipn_app, skipn_all, Nat.sub_diag. reflexivity. Qed.

Variables (n : nat) (s1 s2 : sde_func K) (b1 b2 : brownian K).
Hypothesis HZ : sized_k n s1 b1.
Notation s12 := (block_sde n s1 s2).
Notation b12 := (block_bm b1 b2).
Lemma bf t a b : length a = n -> sde_f s12 t (a ++ b) = sde_f s1 t a ++ sde_f s2 t b.
Proof. intros H. cbn. now rewrite firstn_b, skipn_b. Qed.
Lemma bg t a b : length a = n -> sde_g s12 t (a ++ b) = sde_g s1 t a ++ sde_g s2 t b.
Proof. intros H. cbn. now rewrite firstn_b, skipn_b. Qed.

Lemma em_block a b t d : length a = n -> em_step s12 b12 (a ++ b) t d = em_step s1 b1 a t d ++ em_step s2 b2 b t d /\ length (em_step s1 b1 a t d) = n.
Proof.
  intros Ha. destruct HZ as (Hf & Hg & Hb). unfold em_step. cbv zeta. rewrite bf, bg by auto. unfold vscale, vadd, vmul, block_bm. rewrite map_app. split.
  - rewrite !map2_app2; auto; repeat (rewrite (map2_len2 _ n) || rewrite map_length); auto; rewrite ?Hf, ?Hg, ?Hb; auto.
  - repeat (apply map2_len2 || rewrite map_length); auto.
Qed.
Lemma heun_block a b t d : length a = n -> heun_step s12 b12 (a ++ b) t d = heun_step s1 b1 a t d ++ heun_step s2 b2 b t d /\ length (heun_step s1 b1 a t d) = n.
Proof.
  intros Ha. destruct HZ as (Hf & Hg & Hb). unfold heun_step. cbv zeta. rewrite bf, !bg by auto.
  assert (L1 : length (vmul (sde_g s1 t a) (b1 t (t + d)%N)) = n) by (apply map2_len2; auto).
  assert (Lp : length (vadd a (vmul (sde_g s1 t a) (b1 t (t + d)%N))) = n) by (apply map2_len2; auto).
  assert (Ep : vadd (a ++ b) (vmul (sde_g s1 t a ++ sde_g s2 t b) (b12 t (t + d)%N)) =
    vadd a (vmul (sde_g s1 t a) (b1 t (t + d)%N)) ++ vadd b (vmul (sde_g s2 t b) (b2 t (t + d)%N))).
  { unfold vadd, vmul, block_bm in *. rewrite !map2_app2; auto; rewrite ?L1, ?Hg, ?Hb; auto. }
  rewrite Ep, bg by exact Lp. set (p := vadd a _) in *. set (q := vadd b _). split.
  - unfold vscale, vadd, vmul, block_bm. rewrite !map_app.
    rewrite (map2_app2 nadd (sde_g s1 t a)) by (rewrite !Hg; auto). rewrite map_app.
    rewrite !map2_app2; auto; repeat (rewrite (map2_len2 _ n) || rewrite map_length); auto; rewrite ?Hf, ?Hg, ?Hb; auto.
  - repeat (apply map2_len2 || unfold vscale; rewrite ?map_length); auto.
Qed.
Lemma mil_block v a b t d : (forall u w k, length u = n -> v (u ++ w) k = v u k ++ v w k /\ length (v u k) = n) -> length a = n ->
  milstein_step v s12 b12 (a ++ b) t d = milstein_step v s1 b1 a t d ++ milstein_step v s2 b2 b t d /\ length (milstein_step v s1 b1 a t d) = n.
Proof.
  intros Hv Ha. destruct HZ as (Hf & Hg & Hb). unfold milstein_step. cbv zeta. rewrite bf, !bg by auto.
  assert (L1 : length (vadd a (vscale d (sde_f s1 t a))) = n) by (apply map2_len2; unfold vscale; rewrite ?map_length; auto).
  assert (Lp : length (vadd (vadd a (vscale d (sde_f s1 t a))) (vscale (nsqrt d) (sde_g s1 t a))) = n) by (apply map2_len2; unfold vscale; rewrite ?map_length; auto).
  assert (E1 : vadd (a ++ b) (vscale d (sde_f s1 t a ++ sde_f s2 t b)) = vadd a (vscale d (sde_f s1 t a)) ++ vadd b (vscale d (sde_f s2 t b))).
  { unfold vadd, vscale. rewrite map_app. apply map2_app2. rewrite map_length, Hf; auto. }
  assert (Ep : vadd (vadd (a ++ b) (vscale d (sde_f s1 t a ++ sde_f s2 t b))) (vscale (nsqrt d) (sde_g s1 t a ++ sde_g s2 t b)) =
    vadd (vadd a (vscale d (sde_f s1 t a))) (vscale (nsqrt d) (sde_g s1 t a)) ++ vadd (vadd b (vscale d (sde_f s2 t b))) (vscale (nsqrt d) (sde_g s2 t b))).
  { rewrite E1. unfold vadd at 1, vscale at 3. rewrite map_app. rewrite map2_app2; [reflexivity|]. etransitivity; [exact L1|]. symmetry. rewrite map_length. auto. }
  rewrite Ep, E1, bg by exact Lp. set (p := vadd (vadd a _) _) in *. set (q := vadd (vadd b _) _).
  set (u := vadd a _) in *. set (w := vadd b _).
  destruct (Hv (b1 t (t + d)%N) (b2 t (t + d)%N) d (Hb _ _)) as (Ev & Lv). unfold block_bm at 1 2. rewrite Ev.
  assert (Lg : length (vsub (sde_g s1 t p) (sde_g s1 t a)) = n) by (apply map2_len2; auto).
  split.
  - assert (Eg : vsub (sde_g s1 t p ++ sde_g s2 t q) (sde_g s1 t a ++ sde_g s2 t b) = vsub (sde_g s1 t p) (sde_g s1 t a) ++ vsub (sde_g s2 t q) (sde_g s2 t b)).
    { apply map2_app2. rewrite !Hg; auto. }
    rewrite Eg, map_app.
    assert (A1 : forall x1 x2 y1 y2 : V, length x1 = n -> length y1 = n -> vmul (x1 ++ x2) (y1 ++ y2) = vmul x1 y1 ++ vmul x2 y2) by (intros; apply map2_app2; congruence).
    assert (A2 : forall x1 x2 y1 y2 : V, length x1 = n -> length y1 = n -> vadd (x1 ++ x2) (y1 ++ y2) = vadd x1 y1 ++ vadd x2 y2) by (intros; apply map2_app2; congruence).
    rewrite (A1 (sde_g s1 t a)), (A1 (map _ _)), A2, A2; auto; try (rewrite map_length; exact Lg); repeat apply map2_len2; auto; try (rewrite map_length; exact Lg); unfold vscale; rewrite map_length; auto.
  - repeat apply map2_len2; auto; [unfold vscale; rewrite map_length; auto|]. rewrite map_length. exact Lg.
Qed.

Lemma step_block name q1 q2 : sde_str_to_solver name s1 b1 = Ok q1 -> sde_str_to_solver name s2 b2 = Ok q2 ->
  exists q, sde_str_to_solver name s12 b12 = Ok q /\ ss_fixed q = true /\ ss_fixed q1 = true /\ ss_fixed q2 = true /\
    forall a b t d, length a = n -> ss_step q (a ++ b) t d = ss_step q1 a t d ++ ss_step q2 b t d /\ length (ss_step q1 a t d) = n.
Proof.
  unfold sde_str_to_solver. destruct (name =? "euler")%string.
  { unfold EulerMaruyama. change (check_types s12) with (check_types s1). destruct (check_types s1 "ito" all_noises); cbn [rbind]; try discriminate.
    destruct (check_types s2 "ito" all_noises); cbn [rbind]; try discriminate. intros [= <-] [= <-]. eexists. split; [reflexivity|]. repeat split; apply em_block; auto. }
  destruct (name =? "eulerHeun")%string.
  { unfold EulerHeun. change (check_types s12) with (check_types s1). destruct (check_types s1 "stratonovich" all_noises); cbn [rbind]; try discriminate.
    destruct (check_types s2 "stratonovich" all_noises); cbn [rbind]; try discriminate. intros [= <-] [= <-]. eexists. split; [reflexivity|]. repeat split; apply heun_block; auto. }
  destruct (name =? "midpoint")%string; [discriminate|].
  destruct (name =? "milstein_ito")%string.
  { intros [= <-] [= <-]. eexists. split; [reflexivity|]. repeat split; apply mil_block; auto; intros u w k Hu; unfold v_ito; rewrite map_app, map_length; auto. }
  destruct (name =? "milstein_stratonovich")%string; [|discriminate].
  intros [= <-] [= <-]. eexists. split; [reflexivity|]. repeat split; apply mil_block; auto; intros u w k Hu; unfold v_strat; rewrite map_app, map_length; auto.
Qed.

Lemma loop_block st1 st2 st ts sv : (forall a b t d, length a = n -> st (a ++ b) t d = st1 a t d ++ st2 b t d /\ length (st1 a t d) = n) ->
  forall k m a b t d l1 l2 o1 o2, length a = n -> length l1 = length l2 -> sde_loop st1 ts sv k m a t d l1 = Ok o1 -> sde_loop st2 ts sv k m b t d l2 = Ok o2 ->
  sde_loop st ts sv k m (a ++ b) t d (map2 (@app K) l1 l2) = Ok (map2 (@app K) o1 o2) /\ length o1 = length o2.
Proof.
  intros H. induction k as [|k IH]; intros m a b t d l1 l2 o1 o2 Ha Hl E1 E2; cbn [sde_loop] in *.
  - injection E1 as <-. injection E2 as <-. auto.
  - destruct (H a b t d Ha) as (Es & Ln). rewrite Es.
    match type of E1 with rbind ?q _ = _ => destruct q as [d'|e|] end; cbn [rbind] in *; try discriminate.
    match type of E1 with context [if ?q then _ else _] => destruct q end.
    + apply (IH (m + 1) _ _ _ _ l1 l2); auto.
    + assert (Em : map2 (@app K) l1 l2 ++ [st1 a t d ++ st2 b t d] = map2 (@app K) (l1 ++ [st1 a t d]) (l2 ++ [st2 b t d])) by (rewrite map2_app2; auto).
      match goal with |- sde_loop _ _ _ _ _ _ _ _ ?l = _ /\ _ => change l with (map2 (@app K) l1 l2 ++ [st1 a t d ++ st2 b t d]) end. rewrite Em. apply (IH (m + 1) _ _ _ _ (l1 ++ [st1 a t d]) (l2 ++ [st2 b t d])); auto. rewrite !app_length. cbn. lia.
Qed.
End B.

(** For every arithmetic (reals, binary64), SDEs, states, Brownian paths, solver name, grid and save_at: solving two SDEs as the two blocks of one
    state returns at every time the two separate solutions one after the other. The entries of one block, also NaN, do not reach the other. *)
Lemma C198_blocks_pf :
  forall (K : NumOps) n (s1 s2 : sde_func K) (b1 b2 : brownian K) x1 x2 ts name save_at times xs1 times2 xs2, sized_k n s1 b1 -> length x1 = n ->
  sdeint s1 x1 ts name b1 save_at = Ok (times, xs1) -> sdeint s2 x2 ts name b2 save_at = Ok (times2, xs2) ->
  sdeint (block_sde n s1 s2) (x1 ++ x2) ts name (block_bm b1 b2) save_at = Ok (times, map2 (@app K) xs1 xs2) /\ length xs1 = length xs2.
Proof.
  intros K n s1 s2 b1 b2 x1 x2 ts name sv times xs1 times2 xs2 HZ Hx H1 H2. unfold sdeint in *.
  destruct (sde_str_to_solver name s1 b1) as [q1|e|] eqn:Q1; cbn [rbind] in H1; try discriminate.
  destruct (sde_str_to_solver name s2 b2) as [q2|e|] eqn:Q2; cbn [rbind] in H2; try discriminate.
  destruct (step_block n s1 s2 b1 b2 HZ name q1 q2 Q1 Q2) as (q & Q & F & F1 & F2 & Hs). rewrite Q. cbn [rbind]. rewrite F. rewrite F1 in H1. rewrite F2 in H2.
  set (sv' := match sv with [] => ts | _ => sv end) in *. unfold fixed_sdeint in *.
  destruct (pyget ts 0) as [t0|e|]; cbn [rbind] in *; try discriminate.
  destruct (pylast ts) as [z|e|]; cbn [rbind] in *; try discriminate.
  destruct (pyget ts 1) as [t1|e|]; cbn [rbind] in *; try discriminate.
  destruct (sde_loop (ss_step q1) _ _ _ _ _ _ _ _) as [o1|e|] eqn:L1; cbn [rbind] in H1; try discriminate.
  destruct (sde_loop (ss_step q2) _ _ _ _ _ _ _ _) as [o2|e|] eqn:L2; cbn [rbind] in H2; try discriminate.
  assert (Hl : length (if (isclose_count t0 sv' =? 0)%nat then [] else [x1]) = length (if (isclose_count t0 sv' =? 0)%nat then [] else [x2])) by (destruct (_ =? 0)%nat; reflexivity).
  destruct (loop_block n _ _ _ ts sv' Hs _ _ _ _ _ _ _ _ o1 o2 Hx Hl L1 L2) as (E & Lo).
  assert (Ei : (if (isclose_count t0 sv' =? 0)%nat then [] else [x1 ++ x2]) =
    map2 (@app K) (if (isclose_count t0 sv' =? 0)%nat then [] else [x1]) (if (isclose_count t0 sv' =? 0)%nat then [] else [x2])) by (destruct (_ =? 0)%nat; reflexivity).
  assert (E' : sde_loop (ss_step q) ts sv' (length ts - 1) 1 (x1 ++ x2) t0 (t1 - t0)%N (if (isclose_count t0 sv' =? 0)%nat then [] else [x1 ++ x2]) = Ok (map2 (@app K) o1 o2)).
  { etransitivity; [|exact E]. f_equal. exact Ei. }
  match goal with |- rbind ?l _ = _ /\ _ => replace l with (@Ok (list (vec K)) (map2 (@app K) o1 o2)) by (symmetry; exact E') end.
  cbn [rbind]. destruct o1 as [|u o1]; [discriminate|]. destruct o2 as [|w o2]; [discriminate|]. injection H1 as <- <-. injection H2 as <- <-. split; [reflexivity|exact Lo].
Qed.

(** A run in binary64: dX = X dW from 1 beside dX = X dW from NaN, along different paths. *)
Lemma C198_ex_pf :
  forall pw, let sde := @MkSde (FloatOps pw) (fun _ x => map (fun _ => 0%float) x) (fun _ x => x) (Some "diagonal"%string) (Some "ito"%string) in
  sized_k 1 sde (fun s t => [PrimFloat.sub t s]) /\
  @sdeint (FloatOps pw) sde [1%float] [0%float; 1%float] "euler" (fun s t => [PrimFloat.sub t s]) [] = Ok ([0%float; 1%float], [[1%float]; [2%float]]) /\
  @sdeint (FloatOps pw) sde [nan] [0%float; 1%float] "euler" (fun _ _ => [0.5%float]) [] = Ok ([0%float; 1%float], [[nan]; [nan]]) /\
  @sdeint (FloatOps pw) (block_sde 1 sde sde) [1%float; nan] [0%float; 1%float] "euler" (block_bm (K := FloatOps pw) (fun s t => [PrimFloat.sub t s]) (fun _ _ => [0.5%float])) [] =
    Ok ([0%float; 1%float], [[1%float; nan]; [2%float; nan]]).
Proof.
  intros pw sde. split; [|split; [|split]]; [|vm_compute; reflexivity..].
  split; [|split]; intros; cbn [sde sde_f sde_g]; rewrite ?map_length; auto.
Qed.
