(** Proofs of the property about the noise of the data sets. *)
From Coq Require Import ZArith QArith Qreals Reals Lra Lia String List Bool.
From Verif Require Import Num Py Tensor M_Nn M_Data Spec_Root Spec_Models Spec_Data L_Base L_Root L_Models Pf_Gal Pf_Basis Pf_Data.
Import ListNotations.
Local Notation length := List.length.
Local Open Scope R_scope.

(** generate_concentric_spheres with an even number of samples: point i is its point on the sphere, which does not depend on the
    noise, plus noise times its own draw, in every coordinate. *)
Lemma C184_spheres_partial_pf :
  forall h dim inner outer v1 v2, (1 <= h)%nat -> 0 <= inner -> 0 <= outer ->
  (forall i, nonzero_draw dim (v1 i)) -> (forall i, nonzero_draw dim (v2 i)) ->
  exists s1 s2 : nat -> list R, (forall i, on_sphere inner (s1 i)) /\ (forall i, on_sphere outer (s2 i)) /\
  forall noise e1 e2, 0 <= noise -> exists D, @generate_concentric_spheres ROps (2 * h) noise dim inner outer v1 e1 v2 e2 = Ok D /\
    forall i, (i < h)%nat -> point D i = plus_vec (s1 i) (times noise (draw dim (e1 i))) /\
                             point D (h + i) = plus_vec (s2 i) (times noise (draw dim (e2 i))).
Proof.
  intros h dim inner outer v1 v2 Hh Hi Ho H1 H2.
  exists (fun i => sphere_pt dim inner (v1 i)), (fun i => sphere_pt dim outer (v2 i)).
  split; [intros i; now apply sphere_on|]. split; [intros i; now apply sphere_on|].
  intros noise e1 e2 Hn. unfold generate_concentric_spheres.
  assert (E : (2 * h / 2 = h)%nat) by (rewrite Nat.mul_comm; apply Nat.div_mul; lia). rewrite E.
  replace (2 * h - h)%nat with h by lia. rewrite !sphere_half_ok by auto. cbn [rbind].
  eexists. split; [reflexivity|]. intros i Hi'. unfold point. cbn [fst]. split.
  - rewrite app_nth1 by (rewrite map_length, seq_length; lia). now rewrite nth_map_seq.
  - rewrite app_nth2 by (rewrite map_length, seq_length; lia). rewrite map_length, seq_length.
    replace (h + i - h)%nat with i by lia. now rewrite nth_map_seq.
Qed.

(** generate_moons: the noise moves every point along the diagonal only, and never down or left. *)
Lemma C184_moons_refuted_pf :
  forall n s u, 0 <= s -> (forall i, 0 <= u i <= 1) ->
  exists D0 D, @generate_moons ROps cos sin PI n None u = Ok D0 /\ @generate_moons ROps cos sin PI n (Some s) u = Ok D /\
  forall i, (i < n)%nat -> exists x y delta, delta = s * u i /\ 0 <= delta <= s /\ point D0 i = [x; y] /\ point D i = [x + delta; y + delta].
Proof.
  intros n s u Hs Hu. unfold generate_moons.
  replace (_ ++ _) with (moon_rows n).
  2:{ unfold moon_rows. cbn. rewrite Q2R_0', Q2R_1'. f_equal. apply map_ext. intros a. rewrite Q2R_lit. f_equal. f_equal. lra. }
  do 2 eexists. split; [reflexivity|]. split; [reflexivity|]. intros i Hi. unfold point. cbn [fst].
  destruct (moon_rows_nth n i Hi) as (t & Ht & E).
  assert (X : exists x y, moon (moon_label n i) t = [x; y]) by (unfold moon; destruct (_ =? _)%nat; eauto). destruct X as (x & y & EX).
  exists x, y, (u i * s). split; [ring|]. split; [specialize (Hu i); nra|]. split; [exact (eq_trans E EX)|].
  refine (eq_trans (noisy_nth _ _ (fun i row => @vadds ROps (u i * s) row) i (moon_rows_len n) Hi) _). unfold vadds.
  refine (eq_trans (f_equal (map (Rplus (u i * s))) (eq_trans E EX)) _). cbn. f_equal; [ring|f_equal; ring].
Qed.

(** generate_spirals: the noise is never negative on the first arm, and the second arm has the opposite noise. *)
Lemma C184_spirals_refuted_pf :
  forall n s u e1 e2, 0 <= s -> (forall i, 0 <= e1 i <= 1) -> (forall i, 0 <= e2 i <= 1) ->
  exists D0 D, @generate_spirals ROps cos sin PI n 0 u e1 e2 = Ok D0 /\ @generate_spirals ROps cos sin PI n s u e1 e2 = Ok D /\
  forall i, (i < n)%nat -> exists x y a b, a = s * e1 i /\ b = s * e2 i /\ 0 <= a <= s /\ 0 <= b <= s /\ point D0 i = [x; y] /\ point D i = [x + a; y + b] /\
    point D0 (n + i) = [- x; - y] /\ point D (n + i) = [- x - a; - y - b].
Proof.
  intros n s u e1 e2 Hs H1 H2. do 2 eexists. split; [reflexivity|]. split; [reflexivity|]. intros i Hi. unfold point. cbn [fst].
  assert (A1 : forall l m : list (list R), length l = n -> nth i (l ++ m) [] = nth i l []) by (intros l m Hl; apply app_nth1; lia).
  assert (A2 : forall l m : list (list R), length l = n -> nth (n + i) (l ++ m) [] = nth i m []) by (intros l m Hl; rewrite app_nth2 by lia; f_equal; lia).
  rewrite !A1, !A2 by (now rewrite map_length, seq_length). rewrite !nth_map_seq by exact Hi.
  set (th := @ndiv ROps _ _). exists (- cos th * th), (sin th * th), (e1 i * s), (e2 i * s).
  assert (EQ : forall a b a' b' : R, a = a' -> b = b' -> [a; b] = [a'; b']) by (intros; subst; reflexivity).
  split; [ring|]. split; [ring|]. split; [specialize (H1 i); nra|]. split; [specialize (H2 i); nra|].
  repeat split; apply EQ; cbn; ring.
Qed.

(** generate_gaussians and generate_gaussians_spiral: all points of a Gaussian are moved by the same vector. *)
Lemma plus_zero (a : list R) (z : nat -> R) : length a = 2%nat -> plus_vec a (times 0 (draw 2 z)) = a.
Proof. destruct a as [|a0 [|a1 [|]]]; try discriminate. intros _. unfold plus_vec, times, draw. cbn. f_equal; [ring|f_equal; ring]. Qed.

Lemma C184_gaussians_refuted_pf :
  forall n k radius std noise z w, 0 < std ->
  exists D0 D, @generate_gaussians ROps cos sin PI n k 2 radius std 0 z w = Ok D0 /\ @generate_gaussians ROps cos sin PI n k 2 radius std noise z w = Ok D /\
  forall i, (i < k)%nat -> forall r, (r < n)%nat -> point D (i * n + r) = plus_vec (point D0 (i * n + r)) (times noise (draw 2 (w i))).
Proof.
  intros n k radius std noise z w Hs.
  destruct (C56_gaussians_partial_pf n k radius std 0 z w Hs) as (D0 & E0 & _ & P0).
  destruct (C56_gaussians_partial_pf n k radius std noise z w Hs) as (D & E & _ & P).
  exists D0, D. split; [exact E0|]. split; [exact E|]. intros i Hi. 
  intros r Hr. rewrite (proj2 (P i r Hi Hr)), (proj2 (P0 i r Hi Hr)). now rewrite plus_zero.
Qed.

Lemma C184_gaussians_spiral_refuted_pf :
  forall n k per_loop r0 r1 s0 s1 noise z w, (1 <= k)%nat -> (1 <= per_loop)%nat -> 0 < s0 -> 0 <= s1 ->
  exists D0 D, @generate_gaussians_spiral ROps cos sin PI n k per_loop 2 r0 r1 s0 s1 0 z w = Ok D0 /\
    @generate_gaussians_spiral ROps cos sin PI n k per_loop 2 r0 r1 s0 s1 noise z w = Ok D /\
  forall i, (i < k)%nat -> forall r, (r < n)%nat -> point D (i * n + r) = plus_vec (point D0 (i * n + r)) (times noise (draw 2 (w i))).
Proof.
  intros n k per_loop r0 r1 s0 s1 noise z w Hk Hp H0 H1.
  destruct (C56_gaussians_spiral_partial_pf n k per_loop r0 r1 s0 s1 0 z w Hk Hp H0 H1) as (D0 & E0 & _ & P0).
  destruct (C56_gaussians_spiral_partial_pf n k per_loop r0 r1 s0 s1 noise z w Hk Hp H0 H1) as (D & E & _ & P).
  exists D0, D. split; [exact E0|]. split; [exact E|]. intros i Hi. 
  intros r Hr. rewrite (proj2 (P i r Hi Hr)), (proj2 (P0 i r Hi Hr)). now rewrite plus_zero.
Qed.

(** Draws that meet the hypotheses. *)
Lemma C184_ex_pf : nonzero_draw 2 (fun _ => 1) /\ (forall i : nat, 0 <= / INR (S i) <= 1).
Proof.
  split; [exists 0%nat; split; [lia|lra]|]. intros i. pose proof (pos_INR i). rewrite S_INR. split; [left; apply Rinv_0_lt_compat; lra|].
  rewrite <- Rinv_1. apply Rinv_le_contravar; lra.
Qed.
