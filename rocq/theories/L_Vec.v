(** Vector algebra over the reals: lengths, pointwise access, a ring-like tactic. *)
From Coq Require Import ZArith QArith Qreals Reals Lra Lia List Bool.
From Verif Require Import Num Py Tensor Spec_RK L_Base.
Import ListNotations.
Local Open Scope R_scope.

Notation rvec := (list R).

Lemma vadd_len n (a b : rvec) : length a = n -> length b = n -> length (@vadd ROps a b) = n.
Proof. apply map2_length_eq. Qed.
Lemma vsub_len n (a b : rvec) : length a = n -> length b = n -> length (@vsub ROps a b) = n.
Proof. apply map2_length_eq. Qed.
Lemma vmul_len n (a b : rvec) : length a = n -> length b = n -> length (@vmul ROps a b) = n.
Proof. apply map2_length_eq. Qed.
Lemma vdiv_len n (a b : rvec) : length a = n -> length b = n -> length (@vdiv ROps a b) = n.
Proof. apply map2_length_eq. Qed.
Lemma vmax_len n (a b : rvec) : length a = n -> length b = n -> length (@vmax ROps a b) = n.
Proof. apply map2_length_eq. Qed.
Lemma vscale_len n c (a : rvec) : length a = n -> length (@vscale ROps c a) = n.
Proof. unfold vscale; now rewrite map_length. Qed.
Lemma vadds_len n c (a : rvec) : length a = n -> length (@vadds ROps c a) = n.
Proof. unfold vadds; now rewrite map_length. Qed.
Lemma vopp_len n (a : rvec) : length a = n -> length (@vopp ROps a) = n.
Proof. unfold vopp; now rewrite map_length. Qed.
Lemma vabs_len n (a : rvec) : length a = n -> length (@vabs ROps a) = n.
Proof. unfold vabs; now rewrite map_length. Qed.
Lemma vzeros_len n : length (@vzeros ROps n) = n.
Proof. apply repeat_length. Qed.
Lemma map_len {A B} n (g : A -> B) l : length l = n -> length (map g l) = n.
Proof. now rewrite map_length. Qed.

(** Length obligations. *)
Ltac vlen :=
  first
  [ assumption
  | match goal with
    | |- length (@vadd ROps _ _) = _ => apply vadd_len; vlen
    | |- length (@vsub ROps _ _) = _ => apply vsub_len; vlen
    | |- length (@vmul ROps _ _) = _ => apply vmul_len; vlen
    | |- length (@vdiv ROps _ _) = _ => apply vdiv_len; vlen
    | |- length (@vmax ROps _ _) = _ => apply vmax_len; vlen
    | |- length (@vscale ROps _ _) = _ => apply vscale_len; vlen
    | |- length (@vadds ROps _ _) = _ => apply vadds_len; vlen
    | |- length (@vopp ROps _) = _ => apply vopp_len; vlen
    | |- length (@vabs ROps _) = _ => apply vabs_len; vlen
    | |- length (@vzeros ROps _) = _ => apply vzeros_len
    | |- length (map _ _) = _ => apply map_len; vlen
    | H : field_on ?n ?f |- length (?f _ _) = ?n => apply H; vlen
    | H : forall t x, length x = ?n -> length (?f t x) = ?n |- length (?f _ _) = ?n => apply H; vlen
    | |- length ?k = _ => is_var k; subst k; vlen
    end
  | progress rops; vlen ].

Lemma list_ext n (a b : rvec) : length a = n -> length b = n ->
  (forall i, (i < n)%nat -> @nth R i a 0 = @nth R i b 0) -> a = b.
Proof. intros Ha Hb H. apply (nth_ext a b 0 0); [congruence|]. intros i Hi; apply H; congruence. Qed.

Section Nth.
Context (n : nat) (i : nat) (Hi : (i < n)%nat).
Lemma nth_vadd (a b : rvec) : length a = n -> length b = n ->
  @nth R i (@vadd ROps a b) 0 = nth i a 0 + nth i b 0.
Proof. intros Ha Hb. unfold vadd. now rewrite (map2_nth _ _ _ _ 0 0) by congruence. Qed.
Lemma nth_vsub (a b : rvec) : length a = n -> length b = n ->
  @nth R i (@vsub ROps a b) 0 = nth i a 0 - nth i b 0.
Proof. intros Ha Hb. unfold vsub. now rewrite (map2_nth _ _ _ _ 0 0) by congruence. Qed.
Lemma nth_vmul (a b : rvec) : length a = n -> length b = n ->
  @nth R i (@vmul ROps a b) 0 = nth i a 0 * nth i b 0.
Proof. intros Ha Hb. unfold vmul. now rewrite (map2_nth _ _ _ _ 0 0) by congruence. Qed.
Lemma nth_vdiv (a b : rvec) : length a = n -> length b = n ->
  @nth R i (@vdiv ROps a b) 0 = nth i a 0 / nth i b 0.
Proof. intros Ha Hb. unfold vdiv. now rewrite (map2_nth _ _ _ _ 0 0) by congruence. Qed.
Lemma nth_map_R (g : R -> R) (a : rvec) : length a = n -> @nth R i (map g a) 0 = g (nth i a 0).
Proof.
  intros Ha. rewrite (nth_indep _ 0 (g 0)) by (rewrite map_length; congruence).
  apply map_nth.
Qed.
Lemma nth_vscale c (a : rvec) : length a = n -> @nth R i (@vscale ROps c a) 0 = c * nth i a 0.
Proof. intros Ha. unfold vscale. rewrite nth_map_R; auto. Qed.
Lemma nth_vadds c (a : rvec) : length a = n -> @nth R i (@vadds ROps c a) 0 = c + nth i a 0.
Proof. intros Ha. unfold vadds. rewrite nth_map_R; auto. Qed.
Lemma nth_vopp (a : rvec) : length a = n -> @nth R i (@vopp ROps a) 0 = - nth i a 0.
Proof. intros Ha. unfold vopp. rewrite nth_map_R; auto. Qed.
Lemma nth_vzeros m : @nth R i (@vzeros ROps m) 0 = 0.
Proof. unfold vzeros. rewrite nQ0. apply nth_repeat. Qed.
End Nth.

(** Push [nth] through vector operations. *)
Ltac vnth n :=
  repeat match goal with
  | Hi : (?i < n)%nat |- context [@nth _ ?i (@vadd ROps ?a ?b) _] =>
      rewrite (nth_vadd n i Hi a b) by vlen
  | Hi : (?i < n)%nat |- context [@nth _ ?i (@vsub ROps ?a ?b) _] =>
      rewrite (nth_vsub n i Hi a b) by vlen
  | Hi : (?i < n)%nat |- context [@nth _ ?i (@vscale ROps ?c ?a) _] =>
      rewrite (nth_vscale n i Hi c a) by vlen
  | Hi : (?i < n)%nat |- context [@nth _ ?i (@vadds ROps ?c ?a) _] =>
      rewrite (nth_vadds n i Hi c a) by vlen
  | Hi : (?i < n)%nat |- context [@nth _ ?i (@vopp ROps ?a) _] =>
      rewrite (nth_vopp n i Hi a) by vlen
  | Hi : (?i < n)%nat |- context [@nth _ ?i (@vmul ROps ?a ?b) _] =>
      rewrite (nth_vmul n i Hi a b) by vlen
  | Hi : (?i < n)%nat |- context [@nth _ ?i (@vdiv ROps ?a ?b) _] =>
      rewrite (nth_vdiv n i Hi a b) by vlen
  | |- context [@nth _ ?i (@vzeros ROps ?m) _] => rewrite (nth_vzeros i m)
  end.

(** Prove an equality of vectors of length [n] pointwise by [ring]/[field]. *)
Ltac vext n := apply (list_ext n); [vlen | vlen | let i := fresh "i" in let Hi := fresh "Hi" in
  intros i Hi; vnth n; rops; qlit].
