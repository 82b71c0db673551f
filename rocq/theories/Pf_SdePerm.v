(** Proofs of the property about reordering and copying the components of an SDE. *)
From Coq Require Import ZArith QArith Lia String List Bool Floats.
From Verif Require Import Num Py Tensor M_SolversOde M_Odeint M_Sde.
From Verif Require Import Pf_SdeBlock.
Import ListNotations.
Local Notation length := List.length.
Local Open Scope nat_scope.

(** component j of the result is component [nth j idx] of y *)
Definition pick {K : NumOps} (idx : list nat) (y : vec K) : vec K := map (fun j => nth j y n0) idx.

Section P.
Context {K : NumOps}.
Notation V := (vec K).
Variables (n : nat) (idx : list nat).
Hypothesis Hi : forall j, In j idx -> j < n.
Lemma nth_map2 (f : K -> K -> K) : forall m a c j, length a = m -> length c = m -> j < m -> nth j (map2 f a c) n0 = f (nth j a n0) (nth j c n0).
Proof.
  induction m as [|m IH]; intros [|x a] [|y c] j Ha Hc Hj; try discriminate; [lia|]. destruct j as [|j]; [reflexivity|]. cbn. apply IH; try (now injection Ha); try (now injection Hc); lia.
Qed.
Lemma nth_mapk (f : K -> K) : forall m a j, length a = m -> j < m -> nth j (map f a) n0 = f (nth j a n0).
Proof. induction m as [|m IH]; intros [|x a] j Ha Hj; try discriminate; [lia|]. destruct j as [|j]; [reflexivity|]. cbn. apply IH; [now injection Ha|lia]. Qed.
Lemma map2_same (f : K -> K -> K) (u v : nat -> K) l : map2 f (map u l) (map v l) = map (fun j => f (u j) (v j)) l.
Proof. induction l as [|j l IH]; [reflexivity|]. cbn. now f_equal. Qed.
Lemma pick2 (f : K -> K -> K) a c : length a = n -> length c = n -> pick idx (map2 f a c) = map2 f (pick idx a) (pick idx c).
Proof. intros Ha Hc. unfold pick. rewrite map2_same. apply map_ext_in. intros j Hj. apply (nth_map2 f n); auto. Qed.
Lemma pick1 (f : K -> K) a : length a = n -> pick idx (map f a) = map f (pick idx a).
Proof. intros Ha. unfold pick. rewrite map_map. apply map_ext_in. intros j Hj. apply (nth_mapk f n); auto. Qed.

Variables (s s' : sde_func K) (bm bm' : brownian K).
Hypothesis HZ : sized_k n s bm.
Hypothesis Hf' : forall t y, length y = n -> sde_f s' t (pick idx y) = pick idx (sde_f s t y).
Hypothesis Hg' : forall t y, length y = n -> sde_g s' t (pick idx y) = pick idx (sde_g s t y).
Hypothesis Hb' : forall u t, bm' u t = pick idx (bm u t).
Hypothesis Ht : sde_type s' = sde_type s.
Hypothesis Hno : sde_noise s' = sde_noise s.

Ltac len := unfold vadd, vmul, vsub, vscale; repeat first [apply map2_len2 | rewrite map_length]; auto.
Ltac pk := unfold vadd, vmul, vsub, vscale; repeat first [rewrite pick2 by len | rewrite pick1 by len].
Lemma em_pick a t d : length a = n -> em_step s' bm' (pick idx a) t d = pick idx (em_step s bm a t d) /\ length (em_step s bm a t d) = n.
Proof. intros Ha. destruct HZ as (Hf & Hg & Hb). unfold em_step. cbv zeta. rewrite Hf', Hg', Hb' by auto. split; [pk; reflexivity|len]. Qed.
Lemma heun_pick a t d : length a = n -> heun_step s' bm' (pick idx a) t d = pick idx (heun_step s bm a t d) /\ length (heun_step s bm a t d) = n.
Proof.
  intros Ha. destruct HZ as (Hf & Hg & Hb). unfold heun_step. cbv zeta. rewrite Hf', Hg', !Hb' by auto.
  assert (Lp : length (vadd a (vmul (sde_g s t a) (bm t (t + d)%N))) = n) by len.
  assert (Ep : vadd (pick idx a) (vmul (pick idx (sde_g s t a)) (pick idx (bm t (t + d)%N))) = pick idx (vadd a (vmul (sde_g s t a) (bm t (t + d)%N)))) by (pk; reflexivity).
  rewrite Ep, Hg' by exact Lp. set (p := vadd a _) in *. clearbody p. split; [pk; reflexivity|len].
Qed.
Lemma mil_pick v a t d : (forall u k, length u = n -> v (pick idx u) k = pick idx (v u k) /\ length (v u k) = n) -> length a = n ->
  milstein_step v s' bm' (pick idx a) t d = pick idx (milstein_step v s bm a t d) /\ length (milstein_step v s bm a t d) = n.
Proof.
  intros Hv Ha. destruct HZ as (Hf & Hg & Hb). unfold milstein_step. cbv zeta. rewrite Hf', Hg', !Hb' by auto.
  assert (Lp : length (vadd (vadd a (vscale d (sde_f s t a))) (vscale (nsqrt d) (sde_g s t a))) = n) by len.
  assert (Ep : vadd (vadd (pick idx a) (vscale d (pick idx (sde_f s t a)))) (vscale (nsqrt d) (pick idx (sde_g s t a))) =
    pick idx (vadd (vadd a (vscale d (sde_f s t a))) (vscale (nsqrt d) (sde_g s t a)))) by (pk; reflexivity).
  rewrite Ep, Hg' by exact Lp. set (p := vadd (vadd a _) _) in *. clearbody p.
  destruct (Hv (bm t (t + d)%N) d (Hb _ _)) as (Ev & Lv). rewrite Ev. set (w := v (bm t (t + d)%N) d) in *. clearbody w. split; [pk; reflexivity|len].
Qed.
Lemma v_pick (u : V) (k : K) : length u = n -> (v_ito (pick idx u) k = pick idx (v_ito u k) /\ length (v_ito u k) = n) /\ (v_strat (pick idx u) k = pick idx (v_strat u k) /\ length (v_strat u k) = n).
Proof. intros Hu. unfold v_ito, v_strat. rewrite !map_length. repeat split; auto; now rewrite pick1. Qed.

Lemma step_pick name q : sde_str_to_solver name s bm = Ok q ->
  exists q', sde_str_to_solver name s' bm' = Ok q' /\ ss_fixed q = true /\ ss_fixed q' = true /\
    forall a t d, length a = n -> ss_step q' (pick idx a) t d = pick idx (ss_step q a t d) /\ length (ss_step q a t d) = n.
Proof.
  assert (Hct : forall a b, check_types s' a b = check_types s a b) by (intros; unfold check_types; now rewrite Ht, Hno).
  unfold sde_str_to_solver. destruct (name =? "euler")%string.
  { unfold EulerMaruyama. rewrite Hct. destruct (check_types s "ito" all_noises); cbn [rbind]; try discriminate. intros [= <-]. eexists. split; [reflexivity|]. repeat split; apply em_pick; auto. }
  destruct (name =? "eulerHeun")%string.
  { unfold EulerHeun. rewrite Hct. destruct (check_types s "stratonovich" all_noises); cbn [rbind]; try discriminate. intros [= <-]. eexists. split; [reflexivity|]. repeat split; apply heun_pick; auto. }
  destruct (name =? "midpoint")%string; [discriminate|].
  destruct (name =? "milstein_ito")%string.
  { intros [= <-]. eexists. split; [reflexivity|]. repeat split; apply mil_pick; auto; intros; now apply v_pick. }
  destruct (name =? "milstein_stratonovich")%string; [|discriminate].
  intros [= <-]. eexists. split; [reflexivity|]. repeat split; apply mil_pick; auto; intros; now apply v_pick.
Qed.

Lemma loop_pick (st st' : V -> K -> K -> V) (ts sv : list K) : (forall a t d, length a = n -> st' (pick idx a) t d = pick idx (st a t d) /\ length (st a t d) = n) ->
  forall k m a t d (l : list V), length a = n -> sde_loop st' ts sv k m (pick idx a) t d (map (pick idx) l) = rmap (map (pick idx)) (sde_loop st ts sv k m a t d l).
Proof.
  intros H. induction k as [|k IH]; intros m a t d l Ha; cbn [sde_loop]; [reflexivity|].
  destruct (H a t d Ha) as (Es & Ln). rewrite Es.
  match goal with |- rbind ?q _ = _ => destruct q as [d'|e|] end; cbn [rbind rmap]; [|reflexivity..].
  match goal with |- context [if ?q then _ else _] => destruct q end; [now apply IH|].
  rewrite <- IH by auto. now rewrite map_app.
Qed.
End P.

(** For every arithmetic (reals, binary64): if the components of an SDE and of its Brownian path are reordered, dropped or copied, the solution is
    reordered, dropped or copied in the same way, for every accepted solver name, grid and save_at. *)
Lemma C199_reorder_pf :
  forall (K : NumOps) n idx (s s' : sde_func K) (bm bm' : brownian K) q x ts name save_at, (forall j, In j idx -> j < n) -> sized_k n s bm -> length x = n ->
  (forall t y, length y = n -> sde_f s' t (pick idx y) = pick idx (sde_f s t y)) -> (forall t y, length y = n -> sde_g s' t (pick idx y) = pick idx (sde_g s t y)) ->
  (forall u t, bm' u t = pick idx (bm u t)) -> sde_type s' = sde_type s -> sde_noise s' = sde_noise s -> sde_str_to_solver name s bm = Ok q ->
  sdeint s' (pick idx x) ts name bm' save_at = rmap (fun r => (fst r, map (pick idx) (snd r))) (sdeint s x ts name bm save_at).
Proof.
  intros K n idx s s' bm bm' q x ts name sv Hi HZ Hx Hf Hg Hb Ht Hno Q. destruct (step_pick n idx Hi s s' bm bm' HZ Hf Hg Hb Ht Hno name q Q) as (q' & Q' & F & F' & Hs).
  unfold sdeint. rewrite Q, Q'. cbn [rbind]. rewrite F, F'. set (sv' := match sv with [] => ts | _ => sv end). unfold fixed_sdeint.
  destruct (pyget ts 0) as [t0|e|]; cbn [rbind rmap]; [|reflexivity..].
  destruct (pylast ts) as [z|e|]; cbn [rbind rmap]; [|reflexivity..].
  destruct (pyget ts 1) as [t1|e|]; cbn [rbind rmap]; [|reflexivity..].
  pose proof (loop_pick n idx _ _ ts sv' Hs (length ts - 1) 1 x t0 (t1 - t0)%N (if (isclose_count t0 sv' =? 0)%nat then [] else [x]) Hx) as E.
  assert (Ei : map (pick idx) (if (isclose_count t0 sv' =? 0)%nat then [] else [x]) = (if (isclose_count t0 sv' =? 0)%nat then [] else [pick idx x])) by (destruct (_ =? 0)%nat; reflexivity).
  rewrite Ei in E.
  match type of E with ?a = rmap _ ?c => transitivity (rbind a (fun sol : list (vec K) => match sol with [] => Err IndexError | _ :: _ => Ok (sv', sol) end)); [reflexivity|]; rewrite E; clear E;
    match goal with |- _ = rmap _ (rbind ?c2 _) => change c2 with c end; generalize c; intros [o|e|] end;
    cbn [rbind rmap]; [|reflexivity..]. destruct o; reflexivity.
Qed.

(** The hypotheses are met: two components of which the second drives the first, swapped, with the second copied. *)
Lemma C199_ex_pf :
  forall K : NumOps, let s := @MkSde K (fun _ y => [nth 1 y n0; n0]) (fun _ y => [n1; nth 1 y n0]) (Some "diagonal"%string) (Some "ito"%string) in
  let s' := @MkSde K (fun _ y => [n0; nth 0 y n0; n0]) (fun _ y => [nth 0 y n0; n1; nth 0 y n0]) (Some "diagonal"%string) (Some "ito"%string) in
  (forall j, In j [1; 0; 1] -> j < 2) /\ (forall t y, length y = 2 -> sde_f s' t (pick [1; 0; 1] y) = pick [1; 0; 1] (sde_f s t y)) /\
  (forall t y, length y = 2 -> sde_g s' t (pick [1; 0; 1] y) = pick [1; 0; 1] (sde_g s t y)) /\ sized_k 2 s (fun u t => [(t - u)%N; n1]) /\
  exists q, sde_str_to_solver "euler" s (fun u t => [(t - u)%N; n1]) = Ok q.
Proof.
  intros K s s'. split; [|split; [|split; [|split]]].
  - intros j Hj. cbn in Hj. lia.
  - intros t y Hy. reflexivity.
  - intros t y Hy. reflexivity.
  - repeat split; reflexivity.
  - eexists. reflexivity.
Qed.
