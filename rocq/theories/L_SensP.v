(** Lemmas for parameter gradients: the state extended by constant parameters. *)
From Coq Require Import ZArith QArith Qreals Reals Lra Lia List Bool.
From Verif Require Import Num Py Tensor M_SolversOde M_Utils M_Odeint M_Sens Spec_Ode Spec_RK Spec_Root Spec_Sens.
From Verif Require Import L_Base L_Fixed L_Vec L_Steps L_Steps2 L_Fixed2 L_Root L_Sens.
Import ListNotations.
Local Open Scope R_scope.

Lemma dot_app : forall (a c b d : rvl), length a = length c -> dot (a ++ b) (c ++ d) = dot a c + dot b d.
Proof.
  induction a as [|x a IH]; intros [|y c] b d E; try discriminate.
  - cbn [app]. unfold dot at 2. cbn. lra.
  - cbn [app]. rewrite !dot_cons, IH by (now injection E). ring.
Qed.

Lemma axpy_app : forall (x k y j : rvl) a, length k = length x -> axpy a (k ++ j) (x ++ y) = axpy a k x ++ axpy a j y.
Proof.
  induction x as [|x0 x IH]; intros [|k0 k] y j a E; try discriminate; auto.
  unfold axpy in *. cbn. f_equal. apply IH. now injection E.
Qed.
Lemma axpy_zeros : forall (y : rvl) a, axpy a (repeat 0 (length y)) y = y.
Proof. induction y as [|y0 y IH]; intros a; [reflexivity|]. unfold axpy in *. cbn. f_equal; [ring|]. apply IH. Qed.

Lemma minus_app : forall (a c b d : rvl), length a = length c -> minus_vec (a ++ b) (c ++ d) = minus_vec a c ++ minus_vec b d.
Proof.
  induction a as [|x a IH]; intros [|y c] b d E; try discriminate; auto.
  unfold minus_vec in *. cbn. f_equal. apply IH. now injection E.
Qed.

(** [ext n f q]: the field (x, q) -> (f x, 0) *)
Section Ext.
Context (n : nat) (m : nat).

Lemma comb_ext h : forall w ks x q, length x = n -> length q = m -> Forall (fun k => length k = n) ks ->
  comb (x ++ q) h w (map (fun k => k ++ repeat 0 m) ks) = comb x h w ks ++ q.
Proof.
  induction w as [|w0 w IH]; intros [|k ks] x q Hx Hq HF; auto.
  apply Forall_cons_iff in HF. destruct HF as (Hk & HF). cbn [map]. rewrite !comb_cons.
  rewrite axpy_app by lia. replace (axpy (h * w0) (repeat 0 m) q) with q by (rewrite <- Hq; symmetry; apply axpy_zeros). apply IH; auto. now apply axpy_len.
Qed.

Lemma ext_stages rows (g : R -> rvl -> rvl) f t h x q : field_on n f -> length x = n -> length q = m ->
  (forall t y, length y = n -> g t (y ++ q) = f t y ++ repeat 0 m) ->
  erk_stages rows g t h (x ++ q) = map (fun k => k ++ repeat 0 m) (erk_stages rows f t h x).
Proof.
  intros Hf Hx Hq Hg. induction rows as [|r rows IH] using rev_ind; [reflexivity|].
  rewrite !stages_snoc, map_app, IH. f_equal. cbn [map]. f_equal.
  rewrite comb_ext by (auto; now apply stages_forall). apply Hg. apply comb_len; auto. apply Forall_forall. now apply stages_forall.
Qed.

Lemma ext_step rows b (g : R -> rvl -> rvl) f t h x q : field_on n f -> length x = n -> length q = m ->
  (forall t y, length y = n -> g t (y ++ q) = f t y ++ repeat 0 m) ->
  erk_step rows b g t h (x ++ q) = erk_step rows b f t h x ++ q.
Proof.
  intros Hf Hx Hq Hg. unfold erk_step. rewrite (ext_stages rows g f) by auto. apply comb_ext; auto. now apply stages_forall.
Qed.

Lemma ext_pairing rows b (g : R -> rvl -> rvl) f q : field_on n f -> length q = m ->
  (forall t y, length y = n -> g t (y ++ q) = f t y ++ repeat 0 m) ->
  forall ts gs x, length x = n -> Forall (fun k => length k = n) gs ->
  pairing (map (fun k => k ++ repeat 0 m) gs) (one_step_traj (erk_step rows b g) (x ++ q) ts) = pairing gs (one_step_traj (erk_step rows b f) x ts).
Proof.
  intros Hf Hq Hg. induction ts as [|t0 ts IH]; intros gs x Hx HF; [destruct gs; reflexivity|].
  destruct gs as [|k gs]; [reflexivity|]. apply Forall_cons_iff in HF. destruct HF as (Hk & HF).
  cbn [map one_step_traj pairing]. rewrite dot_app by lia. rewrite dot_zero.
  destruct ts as [|t1 ts].
  - destruct gs; cbn [map pairing]; lra.
  - rewrite (ext_step rows b g f) by auto. rewrite IH by (auto; now apply erk_step_len). lra.
Qed.
End Ext.

(** the extended linear field *)
Definition aug_lin (n m : nat) (M N : list rvl) (v : rvl) : rvl :=
  plus_vec (apply M (block 0 n v)) (apply N (block n m v)) ++ repeat 0 m.

Lemma plus_axpy : forall (x x' k k' : rvl) a, length k = length x -> length k' = length x' -> length x = length x' ->
  plus_vec (axpy a k x) (axpy a k' x') = axpy a (plus_vec k k') (plus_vec x x').
Proof.
  induction x as [|x0 x IH]; intros [|y0 y] [|k0 k] [|j0 j] a E1 E2 E3; try discriminate; auto.
  unfold plus_vec, axpy in *. cbn. f_equal; [ring|]. apply IH; [now injection E1|now injection E2|now injection E3].
Qed.

Lemma apply_axpy r c M : is_matrix r c M -> forall a k x, length k = c -> length x = c -> apply M (axpy a k x) = axpy a (apply M k) (apply M x).
Proof.
  intros (H1 & H2) a k x Hk Hx. unfold apply, axpy. clear H1. induction M as [|r0 M IH]; [reflexivity|].
  apply Forall_cons_iff in H2. destruct H2 as (Hr & H2). cbn. f_equal; [|now apply IH].
  exact (dot_axpy_r x k r0 a ltac:(lia)).
Qed.

Lemma aug_lin_lin n m M N : is_matrix n n M -> is_matrix n m N -> lin (n + m) (aug_lin n m M N).
Proof.
  intros HM HN. split.
  - intros x Hx. unfold aug_lin. rewrite app_length, repeat_length. f_equal. apply plus_len; rewrite apply_len; [apply HM|apply HN].
  - intros a k x Hk Hx. unfold aug_lin. rewrite !block_axpy by lia.
    rewrite (apply_axpy n n) by (auto; apply block_len; lia). rewrite (apply_axpy n m) by (auto; apply block_len; lia).
    rewrite plus_axpy by (rewrite !apply_len; destruct HM, HN; congruence).
    rewrite axpy_app.
    + f_equal. symmetry. exact (eq_trans (f_equal (fun z => axpy a (repeat 0 z) (repeat 0 m)) (eq_sym (repeat_length 0 m))) (axpy_zeros _ a)).
    + etransitivity; [|symmetry]; apply plus_len; rewrite apply_len; try apply HM; try apply HN.
Qed.

Lemma block_minus lo n : forall y z : rvl, length y = length z -> block lo n (minus_vec y z) = minus_vec (block lo n y) (block lo n z).
Proof.
  unfold block. induction lo as [|lo IH].
  - cbn [skipn]. induction n as [|n IHn]; intros [|k0 k] [|x0 x] E; try discriminate; auto.
    unfold minus_vec in *. cbn. f_equal. apply IHn. now injection E.
  - intros [|k0 k] [|x0 x] E; try discriminate.
    + cbn. unfold minus_vec. rewrite firstn_nil. reflexivity.
    + change (minus_vec (k0 :: k) (x0 :: x)) with ((k0 - x0) :: minus_vec k x). cbn [skipn]. apply IH. now injection E.
Qed.
