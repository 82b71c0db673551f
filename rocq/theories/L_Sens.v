(** Adjoint of a Runge-Kutta step of a linear field; projection of a step to a block. *)
From Coq Require Import ZArith QArith Qreals Reals Lra Lia List Bool.
From Verif Require Import Num Py Tensor M_SolversOde M_Utils M_Odeint M_Sens Spec_Ode Spec_RK Spec_Root Spec_Sens.
From Verif Require Import L_Base L_Fixed L_Vec L_Steps L_Steps2 L_Fixed2 L_Root.
Import ListNotations.
Local Open Scope R_scope.
Notation rvl := (list R).

(** ** dot *)
Lemma axpy_len n a k x : length x = n -> length k = n -> length (axpy a k x) = n.
Proof. intros. unfold axpy. rewrite map_length, combine_length. lia. Qed.

Lemma dot_axpy_l : forall (x k v : rvl) a, length k = length x -> dot (axpy a k x) v = dot x v + a * dot k v.
Proof.
  induction x as [|x0 x IH]; intros [|k0 k] [|v0 v] a E; try discriminate; try (cbn; lra).
  change (axpy a (k0 :: k) (x0 :: x)) with ((x0 + a * k0) :: axpy a k x). rewrite !dot_cons, IH by (now injection E). ring.
Qed.
Lemma dot_axpy_r (x k v : rvl) a : length k = length x -> dot v (axpy a k x) = dot v x + a * dot v k.
Proof. intros E. rewrite (dot_comm v), (dot_comm v x), (dot_comm v k). now apply dot_axpy_l. Qed.

Lemma dot_ext n : forall a b : rvl, length a = n -> length b = n -> (forall v, length v = n -> dot a v = dot b v) -> a = b.
Proof.
  induction n as [|n IH]; intros [|x a] [|y b] Ha Hb H; try discriminate; auto.
  f_equal.
  - specialize (H (1 :: repeat 0 n) ltac:(cbn; now rewrite repeat_length)). rewrite !dot_cons, (dot_comm a), (dot_comm b), !dot_zero in H. lra.
  - apply IH; [now injection Ha|now injection Hb|]. intros v Hv. specialize (H (0 :: v) ltac:(cbn; now rewrite Hv)). rewrite !dot_cons in H. lra.
Qed.

Fixpoint wdot (w : rvl) (ks : list rvl) (v : rvl) : R :=
  match w, ks with
  | a :: w', k :: ks' => a * dot k v + wdot w' ks' v
  | _, _ => 0
  end.

Lemma comb_cons x h w0 w k ks : comb x h (w0 :: w) (k :: ks) = comb (axpy (h * w0) k x) h w ks.
Proof. reflexivity. Qed.

Lemma dot_comb n h : forall w ks x v, length x = n -> Forall (fun k => length k = n) ks ->
  dot (comb x h w ks) v = dot x v + h * wdot w ks v.
Proof.
  induction w as [|w0 w IH]; intros [|k ks] x v Hx HF;
    [cbn [comb combine fold_left wdot]; unfold comb; cbn [combine fold_left]; lra..|].
  apply Forall_cons_iff in HF. destruct HF as (Hk & HF). rewrite comb_cons. rewrite IH; auto.
  - rewrite dot_axpy_l by lia. cbn [wdot]. ring.
  - now apply axpy_len.
Qed.

(** ** linear maps *)
Definition lin (n : nat) (L : rvl -> rvl) : Prop :=
  (forall x, length x = n -> length (L x) = n) /\
  forall a k x, length k = n -> length x = n -> L (axpy a k x) = axpy a (L k) (L x).

Lemma lin_comb n L h : lin n L -> forall w ks x, length x = n -> Forall (fun k => length k = n) ks ->
  L (comb x h w ks) = comb (L x) h w (map L ks).
Proof.
  intros (HL & HA). induction w as [|w0 w IH]; intros [|k ks] x Hx HF; auto.
  apply Forall_cons_iff in HF. destruct HF as (Hk & HF). cbn [map]. rewrite !comb_cons. rewrite IH; auto.
  - now rewrite HA.
  - now apply axpy_len.
Qed.

Lemma lin_field n L : lin n L -> field_on n (fun _ => L).
Proof. intros (H & _) t x. apply H. Qed.

Lemma stages_forall n rows f t h x : field_on n f -> length x = n -> Forall (fun k => length k = n) (erk_stages rows f t h x).
Proof. intros Hf Hx. apply Forall_forall. intros k Hk. eapply erk_stages_len; eauto. Qed.

(** the stages from L x are the images of the stages from x *)
Lemma stages_commute n L rows t h x : lin n L -> length x = n ->
  erk_stages rows (fun _ => L) t h (L x) = map L (erk_stages rows (fun _ => L) t h x).
Proof.
  intros HL Hx. unfold erk_stages.
  assert (G : forall (rows : list (R * rvl)) acc, Forall (fun k => length k = n) acc ->
    fold_left (fun ks r => ks ++ [L (comb (L x) h (snd r) ks)]) rows (map L acc)
    = map L (fold_left (fun ks r => ks ++ [L (comb x h (snd r) ks)]) rows acc)).
  { clear rows. induction rows as [|r rows IH]; intros acc Ha; cbn [fold_left]; auto.
    rewrite <- IH.
    - f_equal. rewrite map_app. f_equal. cbn [map]. f_equal. f_equal. symmetry. now apply (lin_comb n).
    - apply Forall_app. split; auto. constructor; auto. apply HL. apply comb_len; auto. now apply Forall_forall. }
  apply (G rows []). constructor.
Qed.

Lemma stages_snoc rows r f t h x : erk_stages (rows ++ [r]) f t h x =
  erk_stages rows f t h x ++ [f (t + fst r * h) (comb x h (snd r) (erk_stages rows f t h x))].
Proof. unfold erk_stages. rewrite fold_left_app. reflexivity. Qed.

Lemma wdot_pair w : forall ks ks' v u, length ks = length ks' ->
  (forall i, (i < length ks)%nat -> dot (nth i ks []) v = dot (nth i ks' []) u) -> wdot w ks v = wdot w ks' u.
Proof.
  induction w as [|w0 w IH]; intros [|k ks] [|k' ks'] v u E H; try discriminate; auto.
  cbn [wdot]. pose proof (H 0%nat ltac:(cbn; lia)) as H0. cbn [nth] in H0. rewrite H0. f_equal. apply IH; [now injection E|]. intros i Hi. apply (H (S i)). cbn. lia.
Qed.

Section Adj.
Context (n : nat) (L T : rvl -> rvl) (HL : lin n L)
  (HT : forall x, length x = n -> length (T x) = n)
  (HA : forall l v, length l = n -> length v = n -> dot (T l) v = dot l (L v)).

Lemma stages_adjoint rows t t' h : forall l v, length l = n -> length v = n ->
  forall i, (i < length rows)%nat ->
  dot (nth i (erk_stages rows (fun _ => T) t h l) []) v = dot (nth i (erk_stages rows (fun _ => L) t' h v) []) l.
Proof.
  assert (FT : field_on n (fun _ => T)) by (intros t0 x; apply HT).
  pose proof (lin_field n L HL) as FL.
  induction rows as [|r rows IH] using rev_ind; intros l v Hl Hv i Hi; [cbn in Hi; lia|].
  rewrite app_length in Hi. cbn in Hi. rewrite !stages_snoc.
  destruct (Nat.eq_dec i (length rows)) as [-> | Hne].
  - rewrite !app_nth2 by (rewrite erk_stages_count; lia). rewrite !erk_stages_count, Nat.sub_diag. cbn [nth].
    set (kt := erk_stages rows (fun _ => T) t h l) in *. set (kl := erk_stages rows (fun _ => L) t' h v) in *.
    assert (Fkt : Forall (fun k => length k = n) kt) by (now apply stages_forall).
    assert (Fkl : Forall (fun k => length k = n) kl) by (now apply stages_forall).
    rewrite HA by (auto; apply comb_len; auto; now apply Forall_forall).
    rewrite (dot_comb n) by auto.
    rewrite (lin_comb n L h HL) by auto. rewrite (dot_comm _ l).
    rewrite (dot_comm l (comb _ _ _ _)).
    rewrite (dot_comb n).
    2:{ now apply HL. }
    2:{ apply Forall_map. eapply Forall_impl; [|exact Fkl]. cbn. intros k Hk. now apply HL. }
    rewrite (dot_comm l (L v)). f_equal. f_equal.
    unfold kl. rewrite <- (stages_commute n L) by auto.
    apply wdot_pair.
    + unfold kt. now rewrite !erk_stages_count.
    + intros j Hj. unfold kt in Hj. rewrite erk_stages_count in Hj. unfold kt. apply IH; auto; now apply HL.
  - rewrite !app_nth1 by (rewrite erk_stages_count; lia). apply IH; auto. lia.
Qed.

(** A Runge-Kutta step of the transposed field is the transpose of the step. *)
Lemma erk_adjoint rows b t t' h l v : length l = n -> length v = n ->
  dot (erk_step rows b (fun _ => T) t h l) v = dot l (erk_step rows b (fun _ => L) t' h v).
Proof.
  intros Hl Hv. unfold erk_step.
  assert (FT : field_on n (fun _ => T)) by (intros t0 x; apply HT).
  pose proof (lin_field n L HL) as FL.
  rewrite (dot_comb n) by (auto; now apply stages_forall).
  rewrite (dot_comm l (comb _ _ _ _)). rewrite (dot_comb n) by (auto; now apply stages_forall).
  rewrite (dot_comm v l). f_equal. f_equal. apply wdot_pair; [now rewrite !erk_stages_count|].
  intros i Hi. rewrite erk_stages_count in Hi. now apply stages_adjoint.
Qed.
End Adj.

(** ** Projection to a block of the state *)
Definition block (lo n : nat) (A : rvl) : rvl := firstn n (skipn lo A).

Lemma block_len lo n A : (lo + n <= length A)%nat -> length (block lo n A) = n.
Proof. intros H. unfold block. rewrite firstn_length, skipn_length. lia. Qed.

Lemma block_axpy lo n a : forall k x, length k = length x -> block lo n (axpy a k x) = axpy a (block lo n k) (block lo n x).
Proof.
  unfold block. induction lo as [|lo IH].
  - cbn [skipn]. induction n as [|n IHn]; intros [|k0 k] [|x0 x] E; try discriminate; auto.
    unfold axpy in *. cbn. f_equal. apply IHn. now injection E.
  - intros [|k0 k] [|x0 x] E; try discriminate.
    + cbn. unfold axpy. rewrite firstn_nil. reflexivity.
    + change (axpy a (k0 :: k) (x0 :: x)) with ((x0 + a * k0) :: axpy a k x). cbn [skipn]. apply IH. now injection E.
Qed.

Lemma block_comb lo n N h : forall w ks x, length x = N -> Forall (fun k => length k = N) ks ->
  block lo n (comb x h w ks) = comb (block lo n x) h w (map (block lo n) ks).
Proof.
  induction w as [|w0 w IH]; intros [|k ks] x Hx HF; auto.
  apply Forall_cons_iff in HF. destruct HF as (Hk & HF). cbn [map]. rewrite !comb_cons. rewrite IH; auto.
  - rewrite block_axpy by lia. reflexivity.
  - now apply axpy_len.
Qed.

Lemma block_step lo n N rows b F G t h A : field_on N F -> length A = N ->
  (forall t A, length A = N -> block lo n (F t A) = G t (block lo n A)) ->
  block lo n (erk_step rows b F t h A) = erk_step rows b G t h (block lo n A).
Proof.
  intros HF HN HG. unfold erk_step.
  rewrite (block_comb lo n N) by (auto; now apply stages_forall). f_equal.
  unfold erk_stages.
  assert (E : forall (rows : list (R * rvl)) acc, Forall (fun k => length k = N) acc ->
    map (block lo n) (fold_left (fun ks r => ks ++ [F (t + fst r * h) (comb A h (snd r) ks)]) rows acc)
    = fold_left (fun ks r => ks ++ [G (t + fst r * h) (comb (block lo n A) h (snd r) ks)]) rows (map (block lo n) acc)).
  { clear rows. induction rows as [|r rows IH]; intros acc Ha; cbn [fold_left]; auto.
    rewrite IH.
    - f_equal. rewrite map_app. f_equal. cbn [map]. f_equal. rewrite HG.
      + f_equal. now apply (block_comb lo n N).
      + apply comb_len; auto. now apply Forall_forall.
    - apply Forall_app. split; auto. constructor; auto. apply HF. apply comb_len; auto. now apply Forall_forall. }
  apply (E rows []). constructor.
Qed.

Lemma erk_ext n rows b f g t h x : field_on n f -> length x = n ->
  (forall t x, length x = n -> f t x = g t x) -> erk_step rows b f t h x = erk_step rows b g t h x.
Proof.
  intros Hf Hx H. unfold erk_step. f_equal. unfold erk_stages.
  assert (E : forall (rows : list (R * rvl)) acc, Forall (fun k => length k = n) acc ->
    fold_left (fun ks r => ks ++ [f (t + fst r * h) (comb x h (snd r) ks)]) rows acc
    = fold_left (fun ks r => ks ++ [g (t + fst r * h) (comb x h (snd r) ks)]) rows acc).
  { clear rows. induction rows as [|r rows IH]; intros acc Ha; cbn [fold_left]; auto.
    assert (Hc : length (comb x h (snd r) acc) = n) by (apply comb_len; auto; now apply Forall_forall).
    rewrite <- H by exact Hc. apply IH. apply Forall_app. split; auto. }
  apply (E rows []). constructor.
Qed.

(** ** affine fields *)
Lemma combine_app {A B} : forall (l l' : list A) (m m' : list B), length l = length m -> combine (l ++ l') (m ++ m') = combine l m ++ combine l' m'.
Proof. induction l as [|a l IH]; intros l' [|b m] m' E; try discriminate; auto. cbn. f_equal. apply IH. now injection E. Qed.

Lemma axpy_minus : forall (x x' k k' : rvl) a, length k = length x -> length k' = length x' -> length x = length x' ->
  minus_vec (axpy a k' x') (axpy a k x) = axpy a (minus_vec k' k) (minus_vec x' x).
Proof.
  induction x as [|x0 x IH]; intros [|y0 y] [|k0 k] [|j0 j] a E1 E2 E3; try discriminate; auto.
  unfold minus_vec, axpy in *. cbn. f_equal; [ring|]. apply IH; [now injection E1|now injection E2|now injection E3].
Qed.

Lemma comb_minus n h : forall w ks ks' x x', length x = n -> length x' = n -> length ks = length ks' ->
  Forall (fun k => length k = n) ks -> Forall (fun k => length k = n) ks' ->
  minus_vec (comb x' h w ks') (comb x h w ks) = comb (minus_vec x' x) h w (map (fun p => minus_vec (snd p) (fst p)) (combine ks ks')).
Proof.
  induction w as [|w0 w IH]; intros [|k ks] [|k' ks'] x x' Hx Hx' E HF HF'; try discriminate; auto.
  apply Forall_cons_iff in HF. destruct HF as (Hk & HF). apply Forall_cons_iff in HF'. destruct HF' as (Hk' & HF').
  cbn [combine map fst snd]. rewrite !comb_cons. rewrite IH; auto.
  - rewrite axpy_minus by lia. reflexivity.
  - now apply axpy_len.
  - now apply axpy_len.
Qed.

Lemma erk_minus n f L rows b t h x x' : field_on n f -> length x = n -> length x' = n ->
  (forall t y z, length y = n -> length z = n -> minus_vec (f t y) (f t z) = L (minus_vec y z)) ->
  minus_vec (erk_step rows b f t h x') (erk_step rows b f t h x) = erk_step rows b (fun _ => L) t h (minus_vec x' x).
Proof.
  intros Hf Hx Hx' HL. unfold erk_step.
  assert (E : map (fun p => minus_vec (snd p) (fst p)) (combine (erk_stages rows f t h x) (erk_stages rows f t h x'))
             = erk_stages rows (fun _ => L) t h (minus_vec x' x)).
  { induction rows as [|r rows IH] using rev_ind; [reflexivity|]. rewrite !stages_snoc.
    rewrite combine_app by (now rewrite !erk_stages_count). rewrite map_app, IH. f_equal. cbn [combine map fst snd]. f_equal.
    rewrite HL.
    - f_equal. rewrite (comb_minus n); auto; try (now apply stages_forall); [now rewrite IH|now rewrite !erk_stages_count].
    - apply comb_len; auto. apply Forall_forall. now apply stages_forall.
    - apply comb_len; auto. apply Forall_forall. now apply stages_forall. }
  rewrite <- E. apply (comb_minus n); auto; try (now apply stages_forall). now rewrite !erk_stages_count.
Qed.

Lemma traj_pairing_minus n f L rows b : field_on n f -> lin n L ->
  (forall t y z, length y = n -> length z = n -> minus_vec (f t y) (f t z) = L (minus_vec y z)) ->
  forall ts gs x x', length x = n -> length x' = n -> Forall (fun g => length g = n) gs ->
  pairing gs (one_step_traj (erk_step rows b f) x' ts) - pairing gs (one_step_traj (erk_step rows b f) x ts)
  = pairing gs (one_step_traj (erk_step rows b (fun _ => L)) (minus_vec x' x) ts).
Proof.
  intros Hf HL HM. induction ts as [|t0 ts IH]; intros gs x x' Hx Hx' Hg.
  - destruct gs; cbn; lra.
  - destruct gs as [|g gs]; [cbn [pairing]; lra|]. cbn [one_step_traj pairing]. apply Forall_cons_iff in Hg. destruct Hg as (H1 & H2).
    assert (Ed : dot g x' - dot g x = dot g (minus_vec x' x)).
    { clear - Hx Hx'. rewrite <- Hx' in Hx. clear Hx'. revert x' x Hx. induction g as [|g0 g IH]; intros [|a x'] [|b x] E; try discriminate; try (cbn; lra).
      change (minus_vec (a :: x') (b :: x)) with ((a - b) :: minus_vec x' x). rewrite !dot_cons. rewrite <- IH by (now injection E). ring. }
    destruct ts as [|t1 ts].
    + destruct gs; cbn [pairing]; lra.
    + specialize (IH gs (erk_step rows b f t0 (t1 - t0) x) (erk_step rows b f t0 (t1 - t0) x')
        ltac:(now apply erk_step_len) ltac:(now apply erk_step_len) H2).
      rewrite (erk_minus n f L) in IH by auto. lra.
Qed.
