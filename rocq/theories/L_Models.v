(** Lemmas on sums, gradients and curves. *)
From Coq Require Import ZArith QArith Qreals Reals Lra Lia String List Bool.
From Verif Require Import Num Py Tensor M_Models Spec_Root Spec_Conv Spec_Models L_Base L_Root.
Import ListNotations.
Local Open Scope R_scope.
Local Notation length := List.length.
Notation rvl := (list R).

Lemma total_fold l : total l = fold_right Rplus 0 l.
Proof. induction l as [|x l IH]; cbn; congruence. Qed.
Lemma vsum_total (l : rvl) : @vsum ROps l = total l.
Proof. rewrite total_fold. apply vsum_fold. Qed.
Lemma total_app a b : total (a ++ b) = total a + total b.
Proof. induction a as [|x a IH]; cbn; [lra|]. rewrite IH. lra. Qed.
Lemma total_zero {A} (l : list A) f : (forall a, In a l -> f a = 0) -> total (map f l) = 0.
Proof. induction l as [|a l IH]; intros H; cbn; [reflexivity|]. rewrite (H a) by (now left). rewrite IH by (intros; apply H; now right). lra. Qed.
Lemma total_plus {A} (l : list A) f g : total (map (fun a => f a + g a) l) = total (map f l) + total (map g l).
Proof. induction l as [|a l IH]; cbn; [lra|]. rewrite IH. lra. Qed.
Lemma total_scal {A} (l : list A) c f : total (map (fun a => c * f a) l) = c * total (map f l).
Proof. induction l as [|a l IH]; cbn; [lra|]. rewrite IH. lra. Qed.
Lemma total_swap {A B} (l : list A) (m : list B) f : total (map (fun a => total (map (fun b => f a b) m)) l) = total (map (fun b => total (map (fun a => f a b) l)) m).
Proof.
  induction l as [|a l IH]; cbn.
  - symmetry. apply total_zero. auto.
  - rewrite IH. rewrite <- total_plus. reflexivity.
Qed.
Lemma total_ext {A} (l : list A) f g : (forall a, In a l -> f a = g a) -> total (map f l) = total (map g l).
Proof. intros H. f_equal. apply map_ext_in. exact H. Qed.
(** only one index contributes *)
Lemma total_one n f i : (i < n)%nat -> (forall j, (j < n)%nat -> j <> i -> f j = 0) -> total (map f (seq 0 n)) = f i.
Proof.
  intros Hi H. replace n with (i + S (n - S i))%nat by lia. rewrite seq_app, map_app, total_app. cbn [seq map total plus].
  rewrite (total_zero (seq 0 i)) by (intros j Hj; apply in_seq in Hj; apply H; lia).
  rewrite (total_zero (seq (S i) _)) by (intros j Hj; apply in_seq in Hj; apply H; lia). lra.
Qed.

Lemma nth_map_seq {A} (f : nat -> A) n i d : (i < n)%nat -> nth i (map f (seq 0 n)) d = f i.
Proof. intros H. rewrite nth_indep with (d' := f 0%nat) by (rewrite map_length, seq_length; auto). rewrite map_nth. now rewrite seq_nth. Qed.

Lemma dot_total : forall (a b : rvl) n, length a = n -> length b = n -> dot a b = total (map (fun i => nth i a 0 * nth i b 0) (seq 0 n)).
Proof.
  induction a as [|x a IH]; intros b n Ha Hb; subst n; destruct b as [|y b]; try discriminate; [reflexivity|].
  rewrite dot_cons, (IH b (length a)) by (cbn in *; auto; lia). cbn [length seq map total nth]. f_equal. rewrite <- seq_shift, map_map. reflexivity.
Qed.

(** ** Bumped vectors *)
Lemma bump_len k h r : (k < length r)%nat -> length (bump k h r) = length r.
Proof. intros H. unfold bump. rewrite app_length. cbn [List.length]. rewrite firstn_length, skipn_length. lia. Qed.
Lemma nth_put {A} (d : A) b v x : (b < length x)%nat -> forall i, nth i (firstn b x ++ v :: skipn (S b) x) d = if (i =? b)%nat then v else nth i x d.
Proof.
  intros Hb. revert x Hb. induction b as [|b IH]; intros [|y x] Hb; cbn in Hb; try lia; intros [|i]; try reflexivity.
  cbn [firstn skipn app nth]. rewrite IH by lia. reflexivity.
Qed.
Lemma nth_bump k h r : (k < length r)%nat -> forall i, nth i (bump k h r) 0 = if (i =? k)%nat then nth k r 0 + h else nth i r 0.
Proof. intros H i. unfold bump. now apply nth_put. Qed.
Lemma nth_bump_row b k h x : (b < length x)%nat -> forall i, nth i (bump_row b k h x) [] = if (i =? b)%nat then bump k h (nth b x []) else nth i x [].
Proof. intros H i. unfold bump_row. now apply nth_put. Qed.
Lemma bump_row_len b k h x : (b < length x)%nat -> length (bump_row b k h x) = length x.
Proof. intros H. unfold bump_row. rewrite app_length. cbn [List.length]. rewrite firstn_length, skipn_length. lia. Qed.
Lemma put_row_len b v x : (b < length x)%nat -> length (put_row b v x) = length x.
Proof. intros H. unfold put_row. rewrite app_length. cbn [List.length]. rewrite firstn_length, skipn_length. lia. Qed.

(** ** The chain rule *)
Lemma derivable_pt_lim_ext' f g t l : (forall s, f s = g s) -> derivable_pt_lim f t l -> derivable_pt_lim g t l.
Proof. intros E H eps He. destruct (H eps He) as (d & Hd). exists d. intros h Hn Hh. rewrite <- !E. now apply Hd. Qed.
Lemma derivable_dot (g : rvl) : forall n (x : R -> rvl) v t, length g = n -> length v = n -> (forall s, length (x s) = n) ->
  (forall i, (i < n)%nat -> derivable_pt_lim (fun s => nth i (x s) 0) t (nth i v 0)) ->
  derivable_pt_lim (fun s => dot g (x s)) t (dot g v).
Proof.
  intros n x v t Hg Hv Hx H.
  assert (E : forall s, dot g (x s) = total (map (fun i => nth i g 0 * nth i (x s) 0) (seq 0 n))) by (intros s; now apply dot_total).
  rewrite (dot_total g v n Hg Hv).
  apply (derivable_pt_lim_ext' (fun s => total (map (fun i => nth i g 0 * nth i (x s) 0) (seq 0 n)))); [intros; symmetry; apply E|].
  assert (H' : forall i, In i (seq 0 n) -> derivable_pt_lim (fun s => nth i (x s) 0) t (nth i v 0)) by (intros i Hi; apply in_seq in Hi; apply H; lia).
  clear - H'. induction (seq 0 n) as [|i l IH]; cbn [map total].
  - apply derivable_pt_lim_const.
  - apply derivable_pt_lim_plus; [apply derivable_pt_lim_scal; apply H'; now left|]. apply IH. intros j Hj. apply H'. now right.
Qed.

Lemma nth_minus i a b : length a = length b -> nth i (minus_vec a b) 0 = nth i a 0 - nth i b 0.
Proof.
  revert a b. induction i as [|i IH]; intros [|x a] [|y b] H; try discriminate; cbn; try lra. apply (IH a b). now injection H.
Qed.
Lemma plus_minus a b : length a = length b -> plus_vec a (minus_vec b a) = b.
Proof.
  revert b. induction a as [|x a IH]; intros [|y b] H; try discriminate; [reflexivity|]. unfold plus_vec, minus_vec in *. cbn. f_equal; [lra|]. apply IH. now injection H.
Qed.
Lemma dot_minus_r g a b : length a = length b -> length g = length a -> dot g (minus_vec a b) = dot g a - dot g b.
Proof.
  revert a b. induction g as [|c g IH]; intros [|x a] [|y b] H1 H2; try discriminate; [unfold dot; cbn; lra|].
  change (minus_vec (x :: a) (y :: b)) with ((x - y) :: minus_vec a b). rewrite !dot_cons, IH by (cbn in *; lia). lra.
Qed.

Lemma derivable_lipschitz f t l : derivable_pt_lim f t l -> exists delta, 0 < delta /\ forall h, Rabs h < delta -> Rabs (f (t + h) - f t) <= (Rabs l + 1) * Rabs h.
Proof.
  intros H. destruct (H 1 Rlt_0_1) as (delta & Hd). exists delta. split; [apply cond_pos|]. intros h Hh.
  destruct (Req_dec h 0) as [->|Hn]; [rewrite Rplus_0_r, Rminus_diag_eq, Rabs_R0 by reflexivity; lra|].
  specialize (Hd h Hn Hh). replace (f (t + h) - f t) with ((f (t + h) - f t) / h * h) by (field; auto). rewrite Rabs_mult.
  apply Rmult_le_compat_r; [apply Rabs_pos|]. replace ((f (t + h) - f t) / h) with (((f (t + h) - f t) / h - l) + l) by ring.
  eapply Rle_trans; [apply Rabs_triang|]. lra.
Qed.

Lemma curve_lipschitz : forall n (x : R -> rvl) v t, (forall s, length (x s) = n) ->
  (forall i, (i < n)%nat -> derivable_pt_lim (fun s => nth i (x s) 0) t (nth i v 0)) ->
  exists C delta, 0 < C /\ 0 < delta /\ forall h, Rabs h < delta -> norm1 (minus_vec (x (t + h)) (x t)) <= C * Rabs h.
Proof.
  intros n x v t Hx H.
  assert (G : forall m, (m <= n)%nat -> exists C delta, 0 < C /\ 0 < delta /\ forall h, Rabs h < delta ->
     total (map (fun i => Rabs (nth i (x (t + h)) 0 - nth i (x t) 0)) (seq 0 m)) <= C * Rabs h).
  { induction m as [|m IH]; intros Hm.
    - exists 1, 1. repeat split; try lra. intros h _. cbn. pose proof (Rabs_pos h). lra.
    - destruct (IH ltac:(lia)) as (C & d & HC & Hd & HB). destruct (derivable_lipschitz _ _ _ (H m ltac:(lia))) as (d' & Hd' & HB').
      exists (C + (Rabs (nth m v 0) + 1)), (Rmin d d'). pose proof (Rabs_pos (nth m v 0)). split; [lra|]. split; [apply Rmin_pos; auto|]. intros h Hh.
      rewrite seq_S, map_app, total_app. cbn [map total plus]. rewrite Rplus_0_r, Rmult_plus_distr_r.
      apply Rplus_le_compat; [apply HB|apply HB']; eapply Rlt_le_trans; eauto; [apply Rmin_l|apply Rmin_r]. }
  destruct (G n ltac:(lia)) as (C & d & HC & Hd & HB). exists C, d. repeat split; auto. intros h Hh. specialize (HB h Hh).
  replace (norm1 (minus_vec (x (t + h)) (x t))) with (total (map (fun i => Rabs (nth i (x (t + h)) 0 - nth i (x t) 0)) (seq 0 n))); auto.
  unfold norm1. f_equal. apply nth_ext with (d := 0) (d' := 0).
  - rewrite !map_length, seq_length. symmetry. apply minus_len; auto.
  - intros i Hi. rewrite map_length, seq_length in Hi. rewrite (nth_map_seq _ n i 0 Hi).
    rewrite (nth_indep (map Rabs _) 0 (Rabs 0)) by (rewrite map_length, (minus_len n); auto). rewrite map_nth. rewrite nth_minus by (now rewrite !Hx). reflexivity.
Qed.

Lemma chain_rule n E (x : R -> rvl) v t g : length v = n -> (forall s, length (x s) = n) ->
  (forall i, (i < n)%nat -> derivable_pt_lim (fun s => nth i (x s) 0) t (nth i v 0)) ->
  gradient E (x t) g -> derivable_pt_lim (fun s => E (x s)) t (dot g v).
Proof.
  intros Hv Hx H (Hg & HG). rewrite Hx in Hg.
  destruct (curve_lipschitz n x v t Hx H) as (C & d1 & HC & Hd1 & HB).
  pose proof (derivable_dot g n x v t Hg Hv Hx H) as HD. intros eps He.
  destruct (HD (eps / 2) ltac:(lra)) as (d2 & HD2).
  assert (He' : 0 < eps / (4 * C)) by (apply Rdiv_lt_0_compat; lra).
  destruct (HG (eps / (4 * C)) He') as (d3 & Hd3 & HG3).
  assert (Hd : 0 < Rmin (Rmin d1 d2) (d3 / C)) by (apply Rmin_pos; [apply Rmin_pos; [auto|apply cond_pos]|apply Rdiv_lt_0_compat; auto]).
  exists (mkposreal _ Hd). cbn [pos]. intros h Hn Hh.
  assert (H1 : Rabs h < d1) by (eapply Rlt_le_trans; [exact Hh|]; eapply Rle_trans; [apply Rmin_l|apply Rmin_l]).
  assert (H2 : Rabs h < d2) by (eapply Rlt_le_trans; [exact Hh|]; eapply Rle_trans; [apply Rmin_l|apply Rmin_r]).
  assert (H3 : C * Rabs h < d3).
  { assert (Hq : Rabs h < d3 / C) by (eapply Rlt_le_trans; [exact Hh|apply Rmin_r]). apply (Rmult_lt_compat_r C) in Hq; auto.
    unfold Rdiv in Hq. rewrite Rmult_assoc, Rinv_l in Hq by lra. lra. }
  specialize (HB h H1). specialize (HD2 h Hn H2).
  set (k := minus_vec (x (t + h)) (x t)) in *.
  assert (Lk : length k = n) by (apply minus_len; auto).
  specialize (HG3 k ltac:(now rewrite Hx) ltac:(lra)).
  assert (Ek : plus_vec (x t) k = x (t + h)) by (apply plus_minus; now rewrite !Hx). rewrite Ek in HG3.
  assert (Dk : dot g k = dot g (x (t + h)) - dot g (x t)) by (apply dot_minus_r; [now rewrite !Hx|now rewrite Hg, Hx]).
  pose proof (Rabs_pos_lt h Hn) as Hp.
  replace ((E (x (t + h)) - E (x t)) / h - dot g v) with ((E (x (t + h)) - E (x t) - dot g k) / h + ((dot g (x (t + h)) - dot g (x t)) / h - dot g v)) by (rewrite Dk; field; auto).
  eapply Rle_lt_trans; [apply Rabs_triang|].
  assert (B1 : Rabs ((E (x (t + h)) - E (x t) - dot g k) / h) <= eps / 4).
  { unfold Rdiv at 1. rewrite Rabs_mult, Rabs_inv. apply (Rmult_le_reg_r (Rabs h)); auto. rewrite Rmult_assoc, Rinv_l, Rmult_1_r by lra.
    eapply Rle_trans; [exact HG3|]. eapply Rle_trans; [apply Rmult_le_compat_l; [lra|exact HB]|]. right. field. lra. }
  lra.
Qed.

(** ** Monotonicity *)
Lemma const_of_zero f a b : (forall t, a <= t <= b -> derivable_pt_lim f t 0) -> forall t, a <= t <= b -> f t = f a.
Proof.
  intros H t Ht. destruct (Req_dec a t) as [->|Hn]; auto. 
  destruct (MVT_cor2 f (fun _ => 0) a t) as (c & Hc & _); [lra|intros c Hc; apply H; lra|]. lra.
Qed.
Lemma decreasing_of_nonpos f f' a b : (forall t, a <= t <= b -> derivable_pt_lim f t (f' t) /\ f' t <= 0) -> forall s t, a <= s -> s <= t -> t <= b -> f t <= f s.
Proof.
  intros H s t Hs Hst Ht. destruct (Req_dec s t) as [->|Hn]; [lra|].
  destruct (MVT_cor2 f f' s t) as (c & Hc & Hcc); [lra|intros c Hc; apply H; lra|].
  destruct (H c ltac:(lra)) as (_ & Hf). assert (f' c * (t - s) <= 0) by (assert (0 <= t - s) by lra; nra). lra.
Qed.
