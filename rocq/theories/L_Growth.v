(** Bounds on the stages and steps of a Runge-Kutta method for fields of linear growth. *)
From Coq Require Import Reals Lra Lia List.
From Verif Require Import Tensor Spec_RK Spec_Norm Spec_Adaptive L_Base L_Vec L_Steps L_Steps2 L_Utils.
Import ListNotations.
Local Open Scope R_scope.

Fixpoint sumabs (l : list R) : R := match l with [] => 0 | a :: l' => Rabs a + sumabs l' end.
Lemma sumabs_nn l : 0 <= sumabs l.
Proof. induction l; simpl; [lra|]. pose proof (Rabs_pos a). lra. Qed.

Lemma bounded_le B B' l : B <= B' -> bounded_by B l -> bounded_by B' l.
Proof. intros H Hb a Ha. specialize (Hb a Ha). lra. Qed.

Lemma bounded_axpy a B Bk k x : bounded_by B x -> bounded_by Bk k ->
  bounded_by (B + Rabs a * Bk) (axpy a k x).
Proof.
  intros Hx Hk y Hy. unfold axpy in Hy. apply in_map_iff in Hy. destruct Hy as ([u v] & <- & Hin).
  cbn [fst snd]. pose proof (in_combine_l _ _ _ _ Hin) as H1. pose proof (in_combine_r _ _ _ _ Hin) as H2.
  apply Hx in H1. apply Hk in H2. eapply Rle_trans; [apply Rabs_triang|]. rewrite Rabs_mult.
  apply Rplus_le_compat; auto. apply Rmult_le_compat_l; auto. apply Rabs_pos.
Qed.

Lemma bounded_comb B Bk x h w ks : 0 <= Bk -> bounded_by B x -> (forall k, In k ks -> bounded_by Bk k) ->
  bounded_by (B + Rabs h * sumabs w * Bk) (comb x h w ks).
Proof.
  intros HBk. unfold comb. revert B x w. induction ks as [|k ks IH]; intros B x w Hx Hk.
  - destruct w; cbn [combine fold_left]; apply (bounded_le B); auto;
      assert (0 <= Rabs h * sumabs [] * Bk) by (simpl; lra); try lra.
    assert (0 <= Rabs h * sumabs (r :: w) * Bk); [|lra].
    apply Rmult_le_pos; auto. apply Rmult_le_pos; [apply Rabs_pos|apply sumabs_nn].
  - destruct w as [|w0 w]; cbn [combine fold_left].
    + apply (bounded_le B); auto. simpl. lra.
    + apply (bounded_le (B + Rabs (h * w0) * Bk + Rabs h * sumabs w * Bk)).
      * simpl. rewrite Rabs_mult. right. ring.
      * apply IH; [|intros; apply Hk; now right]. apply bounded_axpy; auto. apply Hk. now left.
Qed.

(** A field of linear growth: |f t x| <= L (1 + |x|), in the largest-entry norm *)
Definition linear_growth (n : nat) (L : R) (f : R -> list R -> list R) : Prop :=
  forall t x B, length x = n -> 0 <= B -> bounded_by B x -> bounded_by (L * (1 + B)) (f t x).

Section G.
Variables (n : nat) (f : R -> list R -> list R) (L H : R).
Hypothesis Hf : field_on n f.
Hypothesis HL : 0 <= L.
Hypothesis HH : 0 <= H.
Hypothesis Hg : linear_growth n L f.

Lemma stages_bound rows : exists C, 0 <= C /\ forall t h x B, length x = n -> 0 <= h <= H -> 0 <= B ->
  bounded_by B x -> forall k, In k (erk_stages rows f t h x) -> bounded_by (C * (1 + B)) k.
Proof.
  induction rows as [|r rows IH] using rev_ind.
  { exists 0. split; [lra|]. intros ? ? ? ? _ _ _ _ k []. }
  destruct IH as (C & HC & IH).
  pose proof (sumabs_nn (snd r)) as Hs.
  assert (HsC : 0 <= H * sumabs (snd r) * C) by (apply Rmult_le_pos; auto; apply Rmult_le_pos; auto).
  exists (Rmax C (L * (1 + H * sumabs (snd r) * C))). split; [apply Rle_trans with C; auto; apply Rmax_l|].
  intros t h x B Hx Hh HB Hb k Hk. unfold erk_stages in Hk. rewrite fold_left_app in Hk. cbn [fold_left] in Hk.
  fold (erk_stages rows f t h x) in Hk. apply in_app_or in Hk.
  pose proof (IH t h x B Hx Hh HB Hb) as IHk. destruct Hk as [Hk|[<-|[]]].
  - apply (bounded_le (C * (1 + B))); auto. apply Rmult_le_compat_r; [lra|apply Rmax_l].
  - set (Bk := C * (1 + B)) in *.
    assert (HBk : 0 <= Bk) by (unfold Bk; apply Rmult_le_pos; lra).
    assert (Hc : bounded_by (B + Rabs h * sumabs (snd r) * Bk) (comb x h (snd r) (erk_stages rows f t h x)))
      by (apply bounded_comb; auto).
    rewrite Rabs_right in Hc by lra.
    assert (Hnn : 0 <= h * sumabs (snd r) * Bk) by (apply Rmult_le_pos; auto; apply Rmult_le_pos; lra).
    apply (bounded_le (L * (1 + (B + h * sumabs (snd r) * Bk)))).
    + apply Rle_trans with (L * (1 + H * sumabs (snd r) * C) * (1 + B)).
      * rewrite (Rmult_assoc L). apply Rmult_le_compat_l; [auto|]. unfold Bk.
        assert (h * sumabs (snd r) * (C * (1 + B)) <= H * sumabs (snd r) * C * (1 + B)).
        { replace (h * sumabs (snd r) * (C * (1 + B))) with (h * (sumabs (snd r) * C * (1 + B))) by ring.
          replace (H * sumabs (snd r) * C * (1 + B)) with (H * (sumabs (snd r) * C * (1 + B))) by ring.
          apply Rmult_le_compat_r; [|lra]. apply Rmult_le_pos; [apply Rmult_le_pos; auto|lra]. }
        lra.
      * apply Rmult_le_compat_r; [lra|apply Rmax_r].
    + apply Hg; [apply comb_len; auto; now apply erk_stages_len|lra|exact Hc].
Qed.

Lemma step_bound rows b : exists C, 0 <= C /\ forall t h x B, length x = n -> 0 <= h <= H -> 0 <= B ->
  bounded_by B x -> bounded_by (B + h * C * (1 + B)) (erk_step rows b f t h x).
Proof.
  destruct (stages_bound rows) as (C & HC & Hk). exists (sumabs b * C).
  split; [apply Rmult_le_pos; auto using sumabs_nn|]. intros t h x B Hx Hh HB Hb.
  assert (HBk : 0 <= C * (1 + B)) by (apply Rmult_le_pos; lra).
  apply (bounded_le (B + Rabs h * sumabs b * (C * (1 + B)))).
  - rewrite Rabs_right by lra. right. ring.
  - apply bounded_comb; auto. intros k Hin. eapply Hk; eauto.
Qed.

Lemma comb_shift x h w ks : length x = n -> (forall k, In k ks -> length k = n) -> forall i,
  nth i (comb x h w ks) 0 = nth i x 0 + nth i (comb (repeat 0 n) h w ks) 0.
Proof.
  assert (G : forall ks w y z, length y = n -> length z = n -> (forall k, In k ks -> length k = n) ->
    forall i, nth i (fold_left (fun acc p => axpy (h * fst p) (snd p) acc) (combine w ks) y) 0 - nth i y 0 =
       nth i (fold_left (fun acc p => axpy (h * fst p) (snd p) acc) (combine w ks) z) 0 - nth i z 0).
  { clear. induction ks as [|k ks IH]; intros [|w0 w] y z Hy Hz Hk i; cbn [combine fold_left]; try lra.
    cbn [fst snd].
    assert (Hlk : length k = n) by (apply Hk; now left).
    assert (Ly : length (axpy (h * w0) k y) = n) by (now apply axpy_len).
    assert (Lz : length (axpy (h * w0) k z) = n) by (now apply axpy_len).
    specialize (IH w (axpy (h * w0) k y) (axpy (h * w0) k z) Ly Lz (fun k' H => Hk k' (or_intror H)) i).
    assert (Ha : forall y, length y = n -> nth i (axpy (h * w0) k y) 0 = nth i y 0 + h * w0 * nth i k 0).
    { intros u Hu. destruct (Nat.lt_ge_cases i n) as [Hi|Hi].
      - rewrite axpy_vadd. rewrite (nth_vadd n i Hi u) by (auto; now apply vscale_len).
        rewrite (nth_vscale n i Hi) by auto. reflexivity.
      - rewrite !nth_overflow by (rewrite ?axpy_len with (n := n); lia). ring. }
    rewrite !Ha in IH by auto. lra. }
  intros Hx Hk i. unfold comb.
  pose proof (G ks w x (repeat 0 n) Hx (repeat_length _ _) Hk i) as E.
  assert (nth i (repeat 0 n) 0 = 0) by (clear; revert i; induction n; destruct i; simpl; auto).
  lra.
Qed.

Lemma error_bound rows b bh : exists C, 0 <= C /\ forall t h x B, length x = n -> 0 <= h <= H -> 0 <= B ->
  bounded_by B x ->
  bounded_by (h * C * (1 + B)) (minus_list (erk_step rows b f t h x) (erk_step rows bh f t h x)).
Proof.
  destruct (stages_bound rows) as (C & HC & Hk). exists ((sumabs b + sumabs bh) * C).
  pose proof (sumabs_nn b). pose proof (sumabs_nn bh).
  split; [apply Rmult_le_pos; lra|]. intros t h x B Hx Hh HB Hb.
  assert (HBk : 0 <= C * (1 + B)) by (apply Rmult_le_pos; lra).
  assert (Hks : forall k, In k (erk_stages rows f t h x) -> length k = n) by (now apply erk_stages_len).
  assert (Hz : bounded_by 0 (repeat 0 n)).
  { intros a Ha. apply repeat_spec in Ha. subst. rewrite Rabs_R0. lra. }
  assert (Hc : forall w, bounded_by (0 + Rabs h * sumabs w * (C * (1 + B))) (comb (repeat 0 n) h w (erk_stages rows f t h x))).
  { intros w. apply bounded_comb; auto. intros k Hin. eapply Hk; eauto. }
  rewrite Rabs_right in Hc by lra.
  intros a Ha. unfold minus_list in Ha. apply in_map_iff in Ha. destruct Ha as ([u v] & <- & Hin). cbn [fst snd].
  apply (In_nth _ _ (0, 0)) in Hin. destruct Hin as (i & Hi & E).
  assert (Lb : forall w, length (erk_step rows w f t h x) = n) by (intros; now apply erk_step_len).
  rewrite combine_length, !Lb, Nat.min_id in Hi.
  rewrite combine_nth in E by (now rewrite !Lb). injection E as <- <-.
  unfold erk_step. rewrite !(comb_shift x) by auto.
  assert (Hi' : forall w, Rabs (nth i (comb (repeat 0 n) h w (erk_stages rows f t h x)) 0) <= h * sumabs w * (C * (1 + B))).
  { intros w. rewrite <- (Rplus_0_l (h * sumabs w * _)). apply Hc. apply nth_In.
    rewrite comb_len with (n := n); auto. apply repeat_length. }
  replace (nth i x 0 + nth i (comb (repeat 0 n) h b (erk_stages rows f t h x)) 0 -
    (nth i x 0 + nth i (comb (repeat 0 n) h bh (erk_stages rows f t h x)) 0)) with
    (nth i (comb (repeat 0 n) h b (erk_stages rows f t h x)) 0 +
     - nth i (comb (repeat 0 n) h bh (erk_stages rows f t h x)) 0) by ring.
  eapply Rle_trans; [apply Rabs_triang|]. rewrite Rabs_Ropp. pose proof (Hi' b). pose proof (Hi' bh).
  apply Rle_trans with (h * sumabs b * (C * (1 + B)) + h * sumabs bh * (C * (1 + B))); [lra|right; ring].
Qed.

End G.

Lemma in_firstn {A} d (l : list A) a : In a (firstn d l) -> In a l.
Proof.
  revert l; induction d as [|d IH]; intros [|b l] H; try contradiction. destruct H as [<-|H]; [now left|right; auto].
Qed.

Lemma scaled_bound atol rtol semi x x' e E : 0 < atol -> 0 <= rtol -> 0 <= E -> bounded_by E e ->
  scaled_error atol rtol semi x x' e <= E / atol.
Proof.
  intros Ha Hr HE Hb. unfold scaled_error. apply rms_le_max.
  - apply Rmult_le_pos; auto. left. now apply Rinv_0_lt_compat.
  - intros q Hq. apply in_map_iff in Hq. destruct Hq as ([u [v w]] & <- & Hin). cbn [fst snd].
    apply in_combine_l in Hin.
    assert (Hu : Rabs u <= E). { destruct semi; [apply in_firstn in Hin|]; auto. }
    assert (Hm : 0 <= Rmax (Rabs v) (Rabs w)) by (apply Rle_trans with (Rabs v); [apply Rabs_pos|apply Rmax_l]).
    assert (Hd : atol <= atol + rtol * Rmax (Rabs v) (Rabs w)) by (pose proof (Rmult_le_pos _ _ Hr Hm); lra).
    unfold Rdiv. rewrite Rabs_mult. rewrite Rabs_inv. rewrite (Rabs_right (atol + _)) by lra.
    apply Rmult_le_compat; auto; try apply Rabs_pos.
    + left. apply Rinv_0_lt_compat. lra.
    + apply Rinv_le_contravar; lra.
Qed.
