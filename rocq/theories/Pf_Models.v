(** Proofs of the properties of the models (CNF, energy models, hybrid models). *)
From Coq Require Import ZArith QArith Qreals Reals Lra Lia String List Bool.
From Verif Require Import Num Py Tensor M_Models Spec_Root Spec_Conv Spec_Models L_Base L_Root L_Models.
Import ListNotations.
Local Open Scope R_scope.
Local Notation length := List.length.
Notation rvl := (list R).

(** ** Batches as functions of the row number *)
Lemma nth_skip' {A} (d : A) : forall n l i, nth i (skipn n l) d = nth (n + i) l d.
Proof. induction n as [|n IH]; intros [|a l] i; cbn; auto. now destruct i. Qed.
Lemma nth_first_lt' {A} (d : A) : forall n l i, (i < n)%nat -> nth i (firstn n l) d = nth i l d.
Proof. induction n as [|n IH]; intros [|a l] [|i] H; cbn; auto; try lia. apply IH. lia. Qed.
Lemma as_map {A} (d : A) (x : list A) B : length x = B -> x = map (fun b => nth b x d) (seq 0 B).
Proof.
  intros <-. apply nth_ext with (d := d) (d' := d).
  - now rewrite map_length, seq_length.
  - intros n Hn. now rewrite nth_map_seq.
Qed.
Lemma map2_seq {A B C} (f : A -> B -> C) g h n : map2 f (map g (seq 0 n)) (map h (seq 0 n)) = map (fun i => f (g i) (h i)) (seq 0 n).
Proof. now rewrite map2_map_l, map2_map_r, map2_same. Qed.
Lemma batch_row B d x b : is_batch B d x -> (b < B)%nat -> length (nth b x []) = d.
Proof. intros (HB & HF) Hb. rewrite Forall_forall in HF. apply HF. apply nth_In. lia. Qed.
Lemma batch_width B d (x : list rvl) : is_batch B d x -> (1 <= B)%nat -> @width ROps x = d.
Proof. intros (HB & HF) H1. destruct x as [|r x]; [cbn in HB; lia|]. unfold width. cbn. now inversion HF. Qed.
Lemma batch_tl B d x : is_batch B (d + 1) x -> is_batch B d (map (@tl R) x).
Proof.
  intros (HB & HF). split; [now rewrite map_length|]. apply Forall_forall. intros r Hr. apply in_map_iff in Hr. destruct Hr as (r' & <- & Hr).
  rewrite Forall_forall in HF. specialize (HF r' Hr). destruct r'; cbn in *; lia.
Qed.

(** ** The Jacobian of a network that acts row by row *)
Lemma jac_rows d g J jac B x b' i b k : jacobian_of d g J -> batch_jacobian_of d (map g) jac -> is_batch B d x ->
  (b' < B)%nat -> (b < B)%nat -> (i < d)%nat -> (k < d)%nat ->
  jac x b' i b k = if (b' =? b)%nat then J (nth b x []) i k else 0.
Proof.
  intros (_ & HJ) HN Hx Hb' Hb Hi Hk. pose proof (HN B x b' i b k Hx Hb' Hb Hi Hk) as HD.
  assert (Hl : length x = B) by apply Hx.
  assert (E : forall h, nth b' (map g (bump_row b k h x)) [] = g (if (b' =? b)%nat then bump k h (nth b x []) else nth b' x [])).
  { intros h. rewrite nth_indep with (d' := g []) by (rewrite map_length, bump_row_len; lia). rewrite map_nth, nth_bump_row by lia. reflexivity. }
  refine (uniqueness_limite _ _ _ _ HD _). clear HD.
  apply (derivable_pt_lim_ext' (fun h => nth i (g (if (b' =? b)%nat then bump k h (nth b x []) else nth b' x [])) 0)); [intros h; now rewrite E|].
  destruct (Nat.eqb_spec b' b) as [->|Hn].
  - apply HJ; auto. now apply (batch_row B).
  - apply derivable_pt_lim_const.
Qed.

Lemma nsum_total n (f : nat -> R) : @nsum ROps n f = total (map f (seq 0 n)).
Proof. apply vsum_total. Qed.

Lemma fold_cols B (f : nat -> nat -> R) : forall l (a : nat -> R),
  fold_left (fun (tr : rvl) i => @vadd ROps tr (map (fun b => f i b) (seq 0 B))) l (map a (seq 0 B)) = map (fun b => a b + total (map (fun i => f i b) l)) (seq 0 B).
Proof.
  induction l as [|i l IH]; intros a; cbn [fold_left map total].
  - apply map_ext. intros b. lra.
  - unfold vadd at 2. rewrite map2_seq. rops. rewrite (IH (fun b => a b + f i b)). apply map_ext. intros b. lra.
Qed.

Lemma autograd_trace_rows d g J jac B x : (1 <= B)%nat -> (1 <= d)%nat -> jacobian_of d g J -> batch_jacobian_of d (map g) jac -> is_batch B d x ->
  forall noise, @autograd_trace ROps jac noise x = Ok (map (fun b => trace_of d (J (nth b x []))) (seq 0 B)).
Proof.
  intros HB Hd HJ HN Hx noise. unfold autograd_trace. rewrite (batch_width B d x Hx HB). rewrite (proj2 (Nat.eqb_neq d 0)) by lia. f_equal.
  assert (Hl : length x = B) by apply Hx. change (num ROps) with R. rewrite Hl.
  assert (E0 : repeat (@nQ ROps 0) B = map (fun _ => 0) (seq 0 B)).
  { rops. rewrite Q2R_0'. clear. generalize 0%nat. induction B as [|B IH]; intros s; cbn; [reflexivity|]. f_equal. apply IH. }
  refine (eq_trans (f_equal (fun z => fold_left _ _ z) E0) _).
  set (F := fun (tr : rvl) (i : nat) => @vadd ROps tr (map (fun row => nth i row (@nQ ROps 0)) (@grad_col_sum ROps jac x i))).
  match goal with |- _ = ?r => change (fold_left F (seq 0 d) (map (fun _ => 0) (seq 0 B)) = r) end.
  assert (EF : forall l acc, (forall i, In i l -> (i < d)%nat) -> fold_left F l acc = fold_left (fun (tr : rvl) i => @vadd ROps tr (map (fun b => J (nth b x []) i i) (seq 0 B))) l acc).
  { induction l as [|i l IH]; intros acc Hin; [reflexivity|]. cbn [fold_left]. rewrite IH by (intros; apply Hin; now right). f_equal. unfold F. f_equal.
    assert (Hi : (i < d)%nat) by (apply Hin; now left).
    unfold grad_col_sum. rewrite (batch_width B d x Hx HB). change (num ROps) with R. rewrite Hl, map_map. apply map_ext_in. intros b Hb. apply in_seq in Hb.
    rewrite nth_map_seq by auto. rewrite nsum_total. rewrite (total_one B _ b) by (try lia; intros j Hj Hjn; rewrite (jac_rows d g J jac B x) by (auto; lia); now rewrite (proj2 (Nat.eqb_neq j b))).
    rewrite (jac_rows d g J jac B x) by (auto; lia). now rewrite Nat.eqb_refl. }
  rewrite EF by (intros i Hi; apply in_seq in Hi; lia). rewrite (fold_cols B (fun i b => J (nth b x []) i i)). apply map_ext. intros b. unfold trace_of. lra.
Qed.

Lemma vadd_zero (a b : rvl) : length a = length b -> @vadd ROps a (@vscale ROps (Q2R 0) b) = a.
Proof.
  rewrite Q2R_0'. revert b. induction a as [|x a IH]; intros [|y b] H; try discriminate; [reflexivity|]. unfold vadd, vscale in *. cbn [map map2]. rops. f_equal; [lra|].
  apply IH. now injection H.
Qed.

Lemma cnf_rows d (g : rvl -> rvl) trace (tr : nat -> R) B x order : (order <= 1)%nat -> is_batch B (d + 1) x -> (forall r, length r = d -> length (g r) = d) ->
  trace (map (@tl R) x) = Ok (map tr (seq 0 B)) ->
  @cnf ROps (map g) trace order x = Ok (map (fun b => - tr b :: g (tl (nth b x []))) (seq 0 B)).
Proof.
  intros Ho Hx Hg Ht. unfold cnf. replace (1 <? order)%nat with false by (symmetry; apply Nat.ltb_ge; lia).
  change (num ROps) with R. rewrite Ht. cbn [rbind]. f_equal. rewrite map_map.
  assert (Hl : length x = B) by apply Hx.
  assert (Ex : map (fun r => g (tl r)) x = map (fun b => g (tl (nth b x []))) (seq 0 B)) by (rewrite (as_map [] x B Hl) at 1; now rewrite map_map).
  rewrite Ex, map2_seq. match goal with |- map2 ?f ?a x = _ => replace (map2 f a x) with (map2 f a (map (fun b => nth b x []) (seq 0 B))) by (f_equal; symmetry; apply (as_map [] x B Hl)) end. rewrite map2_seq. apply map_ext_in. intros b Hb. apply in_seq in Hb.
  rops. apply vadd_zero. pose proof (batch_row B (d + 1) x b Hx ltac:(lia)) as Hr. cbn [length]. rewrite Hg; [lia|]. destruct (nth b x []); cbn in *; lia.
Qed.

(** CNF(net) with autograd_trace, for every network g acting on the rows of the batch, with Jacobian J:
    row b of the output is -trace J(x_b), g(x_b), where x_b is the input row without its first entry *)
Lemma C54_autograd_pf : forall B d g J jac x order noise, (1 <= B)%nat -> (1 <= d)%nat -> (order <= 1)%nat ->
  jacobian_of d g J -> batch_jacobian_of d (map g) jac -> is_batch B (d + 1) x ->
  @cnf ROps (map g) (@autograd_trace ROps jac noise) order x =
    Ok (map (fun b => - trace_of d (J (tl (nth b x []))) :: g (tl (nth b x []))) (seq 0 B)).
Proof.
  intros B d g J jac x order noise HB Hd Ho HJ HN Hx.
  rewrite (cnf_rows d g _ (fun b => trace_of d (J (nth b (map (@tl R) x) []))) B x order Ho Hx (proj1 HJ)).
  - f_equal. apply map_ext_in. intros b Hb. apply in_seq in Hb. rewrite nth_indep with (d' := @tl R []) by (rewrite map_length; destruct Hx; lia). now rewrite map_nth.
  - apply (autograd_trace_rows d g J); auto. now apply batch_tl.
Qed.

Lemma hutch_rows d g J jac B x V : (1 <= B)%nat -> jacobian_of d g J -> batch_jacobian_of d (map g) jac -> is_batch B d x -> is_batch B d V ->
  @hutch_trace ROps jac (Some V) x = Ok (map (fun b => quadratic d (J (nth b x [])) (nth b V [])) (seq 0 B)).
Proof.
  intros HB HJ HN Hx HV. unfold hutch_trace. rewrite (batch_width B d x Hx HB). assert (Hl : length x = B) by apply Hx. assert (Hv : length V = B) by apply HV.
  change (num ROps) with R. rewrite Hl, Hv, Nat.eqb_refl. replace (forallb _ V) with true.
  2:{ symmetry. apply forallb_forall. intros r Hr. apply Nat.eqb_eq. destruct HV as (_ & HV). rewrite Forall_forall in HV. now apply HV. }
  cbn [andb]. f_equal. unfold vjp. rewrite (batch_width B d x Hx HB). change (num ROps) with R. rewrite Hl. match goal with |- map2 ?f ?a V = _ => refine (eq_trans (f_equal (map2 f a) (as_map [] V B Hv)) _) end. refine (eq_trans (map2_seq _ _ _ _) _).
  apply map_ext_in. intros b Hb. apply in_seq in Hb. rewrite vdot_dot. rewrite (dot_total _ _ d) by (first [now rewrite map_length, seq_length | apply (batch_row B); auto; lia]).
  unfold quadratic. apply total_ext. intros k Hk. apply in_seq in Hk. f_equal. rewrite nth_map_seq by lia. rewrite nsum_total.
  rewrite (total_one B _ b).
  - rewrite nsum_total. apply total_ext. intros i Hi. apply in_seq in Hi. rops. rewrite (jac_rows d g J jac B x) by (auto; lia). rewrite Nat.eqb_refl. now rewrite Q2R_0'.
  - lia.
  - intros j Hj Hjn. rewrite nsum_total. apply total_zero. intros i Hi. apply in_seq in Hi. rops. rewrite (jac_rows d g J jac B x) by (auto; lia).
    rewrite (proj2 (Nat.eqb_neq j b)) by auto. lra.
Qed.

(** … with hutch_trace: -v_b^T J(x_b) v_b, where v_b is the noise row *)
Lemma C54_hutchinson_pf : forall B d g J jac x V order, (1 <= B)%nat -> (order <= 1)%nat ->
  jacobian_of d g J -> batch_jacobian_of d (map g) jac -> is_batch B (d + 1) x -> is_batch B d V ->
  @cnf ROps (map g) (@hutch_trace ROps jac (Some V)) order x =
    Ok (map (fun b => - quadratic d (J (tl (nth b x []))) (nth b V []) :: g (tl (nth b x []))) (seq 0 B)).
Proof.
  intros B d g J jac x V order HB Ho HJ HN Hx HV.
  rewrite (cnf_rows d g _ (fun b => quadratic d (J (nth b (map (@tl R) x) [])) (nth b V [])) B x order Ho Hx (proj1 HJ)).
  - f_equal. apply map_ext_in. intros b Hb. apply in_seq in Hb. rewrite nth_indep with (d' := @tl R []) by (rewrite map_length; destruct Hx; lia). now rewrite map_nth.
  - apply (hutch_rows d g J); auto. now apply batch_tl.
Qed.

Lemma quadratic_mean d A law : isotropic d law -> total (map (fun pv => fst pv * quadratic d A (snd pv)) law) = trace_of d A.
Proof.
  intros (_ & HI). unfold quadratic.
  rewrite (total_ext law _ (fun pv => total (map (fun k => total (map (fun i => A i k * (fst pv * (nth i (snd pv) 0 * nth k (snd pv) 0))) (seq 0 d))) (seq 0 d)))).
  2:{ intros pv _. rewrite <- total_scal. apply total_ext. intros k _. rewrite <- (Rmult_assoc (fst pv)). rewrite <- total_scal, Rmult_comm, <- total_scal. apply total_ext. intros i _. ring. }
  rewrite total_swap. unfold trace_of. apply total_ext. intros k Hk. apply in_seq in Hk. rewrite total_swap.
  rewrite (total_one d _ k) by (try lia; intros j Hj Hjn; rewrite total_scal, HI by lia; rewrite (proj2 (Nat.eqb_neq j k)) by auto; lra).
  rewrite total_scal, HI by lia. rewrite Nat.eqb_refl. lra.
Qed.

Lemma put_row_batch B d b v V : is_batch B d V -> (b < B)%nat -> length v = d -> is_batch B d (put_row b v V).
Proof.
  intros (HB & HF) Hb Hv. split; [rewrite put_row_len; lia|]. unfold put_row. apply Forall_app. split; [|constructor; auto].
  - rewrite <- (firstn_skipn b V) in HF. apply Forall_app in HF. apply HF.
  - rewrite <- (firstn_skipn (S b) V) in HF. apply Forall_app in HF. apply HF.
Qed.

(** The Hutchinson estimate is unbiased: if the noise of row b follows a law whose second moments are the
    identity, whatever the noise of the other rows, the mean of the divergence entry of row b is -trace J(x_b) *)
Lemma C54_unbiased_pf : forall B d g J jac x V order b law, (1 <= B)%nat -> (order <= 1)%nat -> (b < B)%nat ->
  jacobian_of d g J -> batch_jacobian_of d (map g) jac -> is_batch B (d + 1) x -> is_batch B d V -> isotropic d law ->
  exists out : rvl -> R,
    (forall p v, In (p, v) law -> exists y, @cnf ROps (map g) (@hutch_trace ROps jac (Some (put_row b v V))) order x = Ok y /\ nth 0 (nth b y []) 0 = out v) /\
    total (map (fun pv => fst pv * out (snd pv)) law) = - trace_of d (J (tl (nth b x []))).
Proof.
  intros B d g J jac x V order b law HB Ho Hb HJ HN Hx HV HI. exists (fun v => - quadratic d (J (tl (nth b x []))) v). split.
  - intros p v Hin. destruct HI as (HL & _). rewrite Forall_forall in HL. specialize (HL _ Hin). cbn in HL.
    eexists. split; [apply (C54_hutchinson_pf B d g J); auto; now apply put_row_batch|].
    rewrite (nth_map_seq _ B b []) by auto. cbn [nth]. unfold put_row. rewrite nth_put by (destruct HV; lia). now rewrite Nat.eqb_refl.
  - rewrite <- (quadratic_mean d (J (tl (nth b x []))) law HI).
    rewrite (total_ext law _ (fun pv => (-1) * (fst pv * quadratic d (J (tl (nth b x []))) (snd pv)))) by (intros; ring). rewrite total_scal. ring.
Qed.

Lemma signs_len d : forall v, In v (signs d) -> length v = d.
Proof.
  induction d as [|d IH]; intros v H; cbn in H; [destruct H as [<-|[]]; reflexivity|]. apply in_app_iff in H.
  destruct H as [H|H]; apply in_map_iff in H; destruct H as (w & <- & H); cbn; now rewrite IH.
Qed.
Lemma signs_count d : total (map (fun _ => 1) (signs d)) = 2 ^ d.
Proof. induction d as [|d IH]; cbn [signs pow]; [cbn; lra|]. rewrite map_app, total_app, !map_map, IH. lra. Qed.
Lemma signs_first d : forall i, (i < d)%nat -> total (map (fun v => nth i v 0) (signs d)) = 0.
Proof.
  induction d as [|d IH]; intros i Hi; [lia|]. cbn [signs]. rewrite map_app, total_app, !map_map. destruct i as [|i]; cbn [nth].
  - rewrite (total_ext (signs d) (fun _ => -1) (fun _ => (-1) * 1)) by (intros; ring). rewrite total_scal. rewrite signs_count. ring.
  - rewrite !IH by lia. lra.
Qed.
Lemma signs_second d : forall i k, (i < d)%nat -> (k < d)%nat -> total (map (fun v => nth i v 0 * nth k v 0) (signs d)) = if (i =? k)%nat then 2 ^ d else 0.
Proof.
  induction d as [|d IH]; intros i k Hi Hk; [lia|]. cbn [signs]. rewrite map_app, total_app, !map_map. destruct i as [|i]; destruct k as [|k]; cbn [nth Nat.eqb].
  - rewrite (total_ext (signs d) (fun _ => 1 * 1) (fun _ => 1)) by (intros; ring). rewrite (total_ext (signs d) (fun _ => -1 * -1) (fun _ => 1)) by (intros; ring).
    rewrite !signs_count. cbn. ring.
  - rewrite !total_scal, !signs_first by lia. ring.
  - rewrite (total_ext (signs d) (fun v => nth i v 0 * 1) (fun v => nth i v 0)) by (intros; ring). rewrite (total_ext (signs d) (fun v => nth i v 0 * -1) (fun v => (-1) * nth i v 0)) by (intros; ring).
    rewrite total_scal, !signs_first by lia. ring.
  - rewrite !IH by lia. destruct (i =? k)%nat; cbn; ring.
Qed.

(** Rademacher noise is such a law, in every dimension *)
Lemma C54_rademacher_pf : forall d, isotropic d (rademacher d).
Proof.
  intros d. split.
  - apply Forall_forall. intros (p, v) H. apply in_map_iff in H. destruct H as (w & [= <- <-] & H). cbn. now apply signs_len.
  - intros i k Hi Hk. unfold rademacher. rewrite map_map. cbn [fst snd]. rewrite total_scal, signs_second by auto.
    destruct (i =? k)%nat; [|ring]. apply Rinv_l. apply pow_nonzero. lra.
Qed.

Lemma derivable_affine p q t : derivable_pt_lim (fun h => p + q * h) t q.
Proof.
  intros eps He. exists (mkposreal 1 Rlt_0_1). intros h Hn _. replace ((p + q * (t + h) - (p + q * t)) / h - q) with 0 by (field; auto). now rewrite Rabs_R0.
Qed.
Lemma C54_ex_pf :
  let g := fun r : rvl => match r with [a; b] => [a * a; a + 3 * b] | _ => r end in
  let J := fun (r : rvl) i k => nth k (nth i [[2 * nth 0 r 0; 0]; [1; 3]] []) 0 in
  jacobian_of 2 g J /\ trace_of 2 (J [5; 7]) = 13.
Proof.
  intros g J. split; [split|].
  - intros [|a [|b [|c r]]]; cbn; auto.
  - intros [|a [|b [|c r]]] i k Hr Hi Hk; try discriminate. destruct i as [|[|i]]; destruct k as [|[|k]]; try lia; unfold g, J; cbn [bump firstn skipn nth app].
    + replace (2 * a) with (1 * (a + 0) + (a + 0) * 1) by ring. apply (derivable_pt_lim_mult (fun h => a + h) (fun h => a + h)); (replace 1 with (0 + 1) by ring; apply derivable_pt_lim_plus; [apply derivable_pt_lim_const|apply derivable_pt_lim_id]).
    + apply (derivable_pt_lim_ext' (fun _ => a * a)); [reflexivity|]. apply derivable_pt_lim_const.
    + apply (derivable_pt_lim_ext' (fun h => (a + 3 * b) + 1 * h)); [intros h; ring|]. apply derivable_affine.
    + apply (derivable_pt_lim_ext' (fun h => (a + 3 * b) + 3 * h)); [intros h; ring|]. apply derivable_affine.
  - unfold trace_of, J. cbn. ring.
Qed.

(** A network that couples the rows of the batch: centering, net(x) = x - mean(x), with two rows of one entry.
    The Jacobian of each output row with respect to its own input row is 1/2, the column is 0 *)
Lemma C75_coupled_rows_refuted_pf :
  let net := fun x : list rvl => match x with [[a]; [b]] => [[a - (a + b) / 2]; [b - (a + b) / 2]] | _ => x end in
  let jac := fun (_ : list rvl) (b' i b k : nat) => if (b' =? b)%nat then / 2 else - / 2 in
  (forall a b b' r, (b' < 2)%nat -> (r < 2)%nat -> derivable_pt_lim (fun h => nth 0 (nth b' (net (bump_row r 0 h [[a]; [b]])) []) 0) 0 (jac [[a]; [b]] b' 0 r 0)%nat) /\
  forall l a l' b : R, @cnf ROps net (@autograd_trace ROps jac None) 1 [[l; a]; [l'; b]] = Ok [[0; a - (a + b) / 2]; [0; b - (a + b) / 2]].
Proof.
  intros net jac. split.
  - intros a b b' r Hb' Hr. unfold jac. destruct b' as [|[|b']]; destruct r as [|[|r]]; try lia; cbn [Nat.eqb];
      unfold net; cbn [bump_row bump firstn skipn nth app].
    + apply (derivable_pt_lim_ext' (fun h => (a - (a + b) / 2) + / 2 * h)); [intros h; field|]. apply derivable_affine.
    + apply (derivable_pt_lim_ext' (fun h => (a - (a + b) / 2) + - / 2 * h)); [intros h; field|]. apply derivable_affine.
    + apply (derivable_pt_lim_ext' (fun h => (b - (a + b) / 2) + - / 2 * h)); [intros h; field|]. apply derivable_affine.
    + apply (derivable_pt_lim_ext' (fun h => (b - (a + b) / 2) + / 2 * h)); [intros h; field|]. apply derivable_affine.
  - intros l a l' b. cbn. rewrite !Q2R_0'. unfold jac. cbn. f_equal. f_equal; [f_equal; [lra|f_equal; lra]|f_equal; f_equal; [lra|f_equal; lra]].
Qed.

(** order > 1: every forward raises AttributeError *)
Lemma C79_order_refuted_pf : forall (K : NumOps) net trace order (x : batch K), (2 <= order)%nat -> cnf net trace order x = Err AttributeError.
Proof. intros K net trace order x H. unfold cnf. now replace (1 <? order)%nat with true by (symmetry; apply Nat.ltb_lt; lia). Qed.

(** C54 needs data: for a batch with the log-density column only, the trace is the float 0 and forward raises *)
Lemma C54_no_data_pf : forall (K : NumOps) net jac noise order (x : batch K), (order <= 1)%nat -> (forall r, In r x -> length r = 1%nat) ->
  cnf net (autograd_trace jac noise) order x = Err TypeError.
Proof.
  intros K net jac noise order x H Hr. unfold cnf, autograd_trace. replace (1 <? order)%nat with false by (symmetry; apply Nat.ltb_ge; lia).
  assert (W : width (map (@tl K) x) = 0%nat).
  { destruct x as [|r x]; [reflexivity|]. specialize (Hr r (or_introl eq_refl)). destruct r as [|a [|b r]]; try discriminate; reflexivity. }
  now rewrite W.
Qed.

(** hutch_trace before a noise was drawn (only NeuralODE draws it): every forward fails *)
Lemma C80_no_noise_refuted_pf : forall (K : NumOps) net jac order (x : batch K),
  exists e, cnf net (hutch_trace jac None) order x = Err e.
Proof. intros K net jac order x. unfold cnf, hutch_trace. destruct (1 <? order)%nat; [eauto|]. destruct (_ =? 1)%nat; cbn [rbind]; eauto. Qed.

(** ** Energies *)
Lemma derivable_bump k r h0 i : (k < length r)%nat -> derivable_pt_lim (fun h => nth i (bump k h r) 0) h0 (if (i =? k)%nat then 1 else 0).
Proof.
  intros Hk. apply (derivable_pt_lim_ext' (fun h => if (i =? k)%nat then nth k r 0 + h else nth i r 0)); [intros h; now rewrite nth_bump|].
  destruct (i =? k)%nat; [|apply derivable_pt_lim_const]. replace 1 with (0 + 1) by ring. apply derivable_pt_lim_plus; [apply derivable_pt_lim_const|apply derivable_pt_lim_id].
Qed.
Lemma bump_0 k r : (k < length r)%nat -> bump k 0 r = r.
Proof.
  intros Hk. apply nth_ext with (d := 0) (d' := 0); [now apply bump_len|]. intros i _. rewrite nth_bump by auto. destruct (Nat.eqb_spec i k) as [->|_]; [lra|reflexivity].
Qed.

Lemma bump_zero_len k r0 : (k < length r0)%nat -> forall s, length (bump k s r0) = length r0. Proof. intros; now apply bump_len. Qed.

Lemma gradient_partial E r g k : (k < length r)%nat -> gradient E r g -> derivable_pt_lim (fun h => E (bump k h r)) 0 (nth k g 0).
Proof.
  intros Hk HG. assert (Lg : length g = length r) by apply HG.
  set (e := map (fun i => if (i =? k)%nat then 1 else 0) (seq 0 (length r))).
  assert (He : length e = length r) by (unfold e; now rewrite map_length, seq_length).
  assert (Ed : dot g e = nth k g 0).
  { rewrite (dot_total g e (length r)) by auto. rewrite (total_one (length r) _ k) by (auto; intros j Hj Hjn; unfold e; rewrite nth_map_seq by auto; rewrite (proj2 (Nat.eqb_neq j k)) by auto; ring).
    unfold e. rewrite nth_map_seq by auto. rewrite Nat.eqb_refl. ring. }
  rewrite <- Ed. apply (chain_rule (length r) E (fun h => bump k h r) e 0 g He).
  - intros s. now apply bump_len.
  - intros i Hi. unfold e. rewrite nth_map_seq by auto. now apply derivable_bump.
  - rewrite bump_0 by auto. exact HG.
Qed.

Lemma sum_gradient d E G B x b k : (forall r, length r = d -> gradient E r (G r)) -> is_batch B d x -> (b < B)%nat -> (k < d)%nat ->
  derivable_pt_lim (fun h => total (map E (bump_row b k h x))) 0 (nth k (G (nth b x [])) 0).
Proof.
  intros HG Hx Hb Hk. pose proof (batch_row B d x b Hx Hb) as Hr.
  apply (derivable_pt_lim_ext' (fun h => total (map E (firstn b x)) + (E (bump k h (nth b x [])) + total (map E (skipn (S b) x))))).
  { intros h. unfold bump_row. rewrite map_app, total_app. reflexivity. }
  replace (nth k (G (nth b x [])) 0) with (0 + (nth k (G (nth b x [])) 0 + 0)) by ring.
  apply derivable_pt_lim_plus; [apply derivable_pt_lim_const|]. apply derivable_pt_lim_plus; [|apply derivable_pt_lim_const].
  apply gradient_partial; [lia|]. now apply HG.
Qed.

Lemma grad_sum_rows d E G grad_sum B x b : (forall r, length r = d -> gradient E r (G r)) -> gradient_of_sum d E grad_sum -> is_batch B d x -> (b < B)%nat ->
  nth b (grad_sum x) [] = G (nth b x []).
Proof.
  intros HG HS Hx Hb. destruct (HS B x Hx) as (HB & HD). pose proof (batch_row B d x b Hx Hb) as Hr.
  assert (Lg : length (G (nth b x [])) = d) by (rewrite <- Hr; apply HG; auto).
  pose proof (batch_row B d (grad_sum x) b HB Hb) as Hs.
  apply nth_ext with (d := 0) (d' := 0); [now rewrite Lg|]. intros k Hk. rewrite Hs in Hk.
  refine (uniqueness_limite _ _ _ _ (HD b k Hb Hk) _). now apply (sum_gradient d E G B).
Qed.

Lemma dot_app' a b c d : length a = length c -> dot (a ++ b) (c ++ d) = dot a c + dot b d.
Proof.
  revert c. induction a as [|x a IH]; intros [|y c] H; try discriminate; cbn [app].
  - rewrite dot_nil_l. lra.
  - rewrite !dot_cons, IH by (now injection H). lra.
Qed.
Lemma dot_opp_r a b : dot a (map Ropp b) = - dot a b.
Proof. revert b. induction a as [|x a IH]; intros [|y b]; try (unfold dot; cbn; lra). cbn [map]. rewrite !dot_cons, IH. lra. Qed.

Lemma symplectic_orthogonal m g : length g = (2 * m)%nat -> dot g (skipn m g ++ map Ropp (firstn m g)) = 0.
Proof.
  intros H. rewrite <- (firstn_skipn m g) at 1. rewrite dot_app' by (rewrite firstn_length, skipn_length; lia). rewrite dot_opp_r, (dot_comm (skipn m g)). lra.
Qed.

Lemma hnn_row m (grad_sum : list rvl -> list rvl) B (x : list rvl) b : is_batch B (2 * m) x -> (1 <= B)%nat -> (b < length (grad_sum x))%nat ->
  nth b (@hnn ROps grad_sum x) [] = skipn m (nth b (grad_sum x) []) ++ map Ropp (firstn m (nth b (grad_sum x) [])).
Proof.
  intros Hx HB Hb. unfold hnn. rewrite (batch_width B _ x Hx HB). replace (2 * m / 2)%nat with m by (rewrite Nat.mul_comm; now rewrite Nat.div_mul).
  rops. rewrite nth_indep with (d' := (fun g : rvl => skipn m g ++ map Ropp (firstn m g)) []) by (rewrite map_length; auto).
  exact (map_nth (fun g : rvl => skipn m g ++ map Ropp (firstn m g)) (grad_sum x) [] b).
Qed.

(** HNN(E): along every solution the energy of every row of the batch is constant, for every differentiable E
    on R^2m *)
Lemma C55_hnn_pf : forall B m E G grad_sum Y a b,
  (forall x, length x = (2 * m)%nat -> gradient E x (G x)) -> gradient_of_sum (2 * m) E grad_sum ->
  batch_solves B (2 * m) a b (@hnn ROps grad_sum) Y ->
  forall r t, (r < B)%nat -> a <= t <= b -> E (nth r (Y t) []) = E (nth r (Y a) []).
Proof.
  intros B m E G grad_sum Y a b HG HS (HY & HD) r t Hr Ht.
  apply (const_of_zero (fun s => E (nth r (Y s) [])) a b); auto. clear t Ht. intros t Ht.
  pose proof (batch_row B _ (Y t) r (HY t) Hr) as Hrow.
  destruct (HS B (Y t) (HY t)) as ((HB1 & _) & _).
  pose proof (grad_sum_rows _ E G grad_sum B (Y t) r HG HS (HY t) Hr) as EG.
  assert (Lg : length (G (nth r (Y t) [])) = (2 * m)%nat) by (rewrite <- Hrow; apply HG; auto).
  pose proof (hnn_row m grad_sum B (Y t) r (HY t) ltac:(lia) (eq_ind_r (fun z => (r < z)%nat) Hr HB1)) as EH. rewrite EG in EH.
  rewrite <- (symplectic_orthogonal m (G (nth r (Y t) [])) Lg). rewrite <- EH.
  apply (chain_rule (2 * m)).
  - rewrite EH, app_length, map_length, firstn_length, skipn_length. lia.
  - intros s. now apply (batch_row B).
  - intros i Hi. now apply (HD r Hr i t).
  - apply HG. exact Hrow.
Qed.

(** GNF(E): along every solution the energy of every row never increases *)
Lemma C55_gnf_pf : forall B d E G grad_sum Y a b,
  (forall x, length x = d -> gradient E x (G x)) -> gradient_of_sum d E grad_sum ->
  batch_solves B d a b (@gnf ROps grad_sum) Y ->
  forall r s t, (r < B)%nat -> a <= s -> s <= t -> t <= b -> E (nth r (Y t) []) <= E (nth r (Y s) []).
Proof.
  intros B d E G grad_sum Y a b HG HS (HY & HD) r s t Hr.
  apply (decreasing_of_nonpos (fun s => E (nth r (Y s) [])) (fun t => dot (G (nth r (Y t) [])) (nth r (@gnf ROps grad_sum (Y t)) [])) a b).
  clear s t. intros t Ht. pose proof (batch_row B _ (Y t) r (HY t) Hr) as Hrow.
  destruct (HS B (Y t) (HY t)) as ((HB1 & _) & _).
  pose proof (grad_sum_rows _ E G grad_sum B (Y t) r HG HS (HY t) Hr) as EG.
  assert (Lg : length (G (nth r (Y t) [])) = d) by (rewrite <- Hrow; apply HG; auto).
  assert (EH : nth r (@gnf ROps grad_sum (Y t)) [] = map Ropp (G (nth r (Y t) []))).
  { unfold gnf. rops. rewrite nth_indep with (d' := map Ropp []) by (rewrite map_length; exact (eq_ind_r (fun z => (r < z)%nat) Hr HB1)). rewrite (map_nth (map Ropp)). f_equal. exact EG. }
  split.
  - apply (chain_rule d).
    + rewrite EH, map_length. exact Lg.
    + intros s. now apply (batch_row B).
    + intros i Hi. now apply (HD r Hr i t).
    + apply HG. exact Hrow.
  - rewrite EH, dot_opp_r. pose proof (dot_nonneg (G (nth r (Y t) []))). lra.
Qed.

(** LNN(L): along every solution the Euler-Lagrange equations hold, d/dt (dL/dq') = dL/dq, for every twice
    differentiable L whose velocity Hessian is invertible along the solution *)
Lemma C55_lnn_pf : forall B m L jac hess pinverse Y a b,
  (forall x, length x = (2 * m)%nat -> gradient L x (jac x)) ->
  (forall x, length x = (2 * m)%nat -> length (hess x) = (2 * m)%nat /\ forall i, (i < 2 * m)%nat -> gradient (fun z => nth i (jac z) 0) x (nth i (hess x) [])) ->
  (forall x, length x = (2 * m)%nat -> let M := map (skipn m) (skipn m (hess x)) in is_matrix m m (pinverse M) /\ forall v, length v = m -> apply M (apply (pinverse M) v) = v) ->
  batch_solves B (2 * m) a b (@lnn ROps jac hess pinverse) Y ->
  forall r i t, (r < B)%nat -> (i < m)%nat -> a <= t <= b ->
    derivable_pt_lim (fun s => nth i (nth r (Y s) []) 0) t (nth (m + i) (nth r (Y t) []) 0) /\
    derivable_pt_lim (fun s => nth (m + i) (jac (nth r (Y s) [])) 0) t (nth i (jac (nth r (Y t) [])) 0).
Proof.
  intros B m L jac hess pinverse Y a b HL HH HP (HY & HD) r i t Hr Hi Ht.
  set (x := nth r (Y t) []). pose proof (batch_row B _ (Y t) r (HY t) Hr) as Hx. fold x in Hx.
  destruct (HH x Hx) as (Hh & HHi). destruct (HP x Hx) as ((HP1 & HP2) & HP3). cbv zeta in *.
  set (M := map (skipn m) (skipn m (hess x))) in *.
  set (rhs := minus_vec (firstn m (jac x)) (apply (map (firstn m) (skipn m (hess x))) (skipn m x))).
  assert (Lj : length (jac x) = (2 * m)%nat) by (rewrite <- Hx; apply HL; auto).
  assert (Lr : length rhs = m) by (apply minus_len; [rewrite firstn_length; lia|rewrite apply_len, map_length, skipn_length; lia]).
  set (v := nth r (@lnn ROps jac hess pinverse (Y t)) []).
  assert (EV : v = skipn m x ++ apply (pinverse M) rhs).
  { unfold v, lnn. rewrite (batch_width B _ (Y t) (HY t)) by lia. replace (2 * m / 2)%nat with m by (rewrite Nat.mul_comm; now rewrite Nat.div_mul).
    set (F := fun r0 : rvl => skipn m r0 ++ @lnn_qdd ROps pinverse m (jac r0) (hess r0) r0).
    assert (EF : nth r (map F (Y t)) [] = F x) by (rewrite nth_indep with (d' := F []) by (rewrite map_length; destruct (HY t); lia); apply (map_nth F)).
    refine (eq_trans EF _). unfold F. f_equal. unfold lnn_qdd. fold M. unfold matvec, apply. rewrite vsub_minus.
    rewrite (map_ext (fun r0 => @vdot ROps r0 _) (fun r0 => dot r0 rhs)); [reflexivity|]. intros r0. rewrite vdot_dot. f_equal. unfold rhs. f_equal. unfold apply. apply map_ext. intros r1. apply vdot_dot. }
  assert (Lq : length (apply (pinverse M) rhs) = m) by (rewrite apply_len; exact HP1).
  assert (Lv : length v = (2 * m)%nat) by (rewrite EV, app_length, skipn_length; lia).
  assert (HDx : forall j, (j < 2 * m)%nat -> derivable_pt_lim (fun s => nth j (nth r (Y s) []) 0) t (nth j v 0)) by (intros j Hj; now apply (HD r Hr j t)).
  split.
  - replace (nth (m + i) x 0) with (nth i v 0); [apply HDx; lia|]. rewrite EV, app_nth1 by (rewrite skipn_length; lia).
    apply nth_skip'.
  - set (h := nth (m + i) (hess x) []).
    assert (Lh : length h = (2 * m)%nat) by (rewrite <- Hx; apply HHi; lia).
    assert (Eh : nth i (skipn m (hess x)) [] = h) by apply nth_skip'.
    assert (EA : dot (skipn m h) (apply (pinverse M) rhs) = nth i rhs 0).
    { rewrite <- (HP3 rhs Lr) at 2. unfold apply at 2. rewrite nth_indep with (d' := dot [] (apply (pinverse M) rhs)) by (rewrite map_length; unfold M; rewrite map_length, skipn_length; lia).
      rewrite (map_nth (fun row => dot row (apply (pinverse M) rhs))). f_equal. unfold M.
      rewrite nth_indep with (d' := skipn m []) by (rewrite map_length, skipn_length; lia). rewrite (map_nth (skipn m)). now rewrite Eh. }
    replace (nth i (jac x) 0) with (dot h v).
    + apply (chain_rule (2 * m) (fun z => nth (m + i) (jac z) 0) (fun s => nth r (Y s) []) v t h Lv).
      * intros s. now apply (batch_row B).
      * exact HDx.
      * apply HHi. lia.
    + rewrite EV. rewrite <- (firstn_skipn m h). rewrite dot_app' by (rewrite firstn_length, skipn_length; lia). rewrite EA.
      unfold rhs. rewrite nth_minus by (rewrite firstn_length, apply_len, map_length, skipn_length; lia).
      rewrite nth_first_lt' by lia. unfold apply. rewrite nth_indep with (d' := dot [] (skipn m x)) (l := map _ _) by (rewrite !map_length, skipn_length; lia).
      rewrite (map_nth (fun row => dot row (skipn m x))). rewrite nth_indep with (d' := firstn m []) (l := map _ _) by (rewrite map_length, skipn_length; lia).
      rewrite (map_nth (firstn m)). rewrite Eh. ring.
Qed.

(** ** Examples of energies *)
Lemma norm1_nonneg h : 0 <= norm1 h.
Proof. unfold norm1. induction h as [|x h IH]; cbn; [lra|]. pose proof (Rabs_pos x). lra. Qed.
Lemma dot_le_norm1 h : dot h h <= norm1 h * norm1 h.
Proof.
  induction h as [|x h IH]; [unfold dot, norm1; cbn; lra|]. rewrite dot_cons. unfold norm1 in *. cbn [map total].
  pose proof (norm1_nonneg h) as Hn. unfold norm1 in Hn. pose proof (Rabs_pos x) as Hx. assert (E : x * x = Rabs x * Rabs x) by (rewrite <- Rabs_mult; symmetry; apply Rabs_pos_eq; nra).
  rewrite E. nra.
Qed.
Lemma dot_plus_r v a b : length a = length b -> dot v (plus_vec a b) = dot v a + dot v b.
Proof. intros H. rewrite dot_comm, dot_plus_l by auto. rewrite (dot_comm a), (dot_comm b). reflexivity. Qed.
Lemma half_square_gradient x : gradient (fun y => dot y y / 2) x x.
Proof.
  split; [reflexivity|]. intros eps He. exists (2 * eps). split; [lra|]. intros h Hl Hn.
  assert (Hp : length (plus_vec x h) = length x) by (now apply plus_len).
  replace (dot (plus_vec x h) (plus_vec x h) / 2 - dot x x / 2 - dot x h) with (dot h h / 2).
  2:{ rewrite dot_plus_l, !dot_plus_r by auto. rewrite (dot_comm h x). lra. }
  pose proof (dot_nonneg h). pose proof (dot_le_norm1 h). pose proof (norm1_nonneg h). rewrite Rabs_pos_eq by lra. nra.
Qed.
Lemma gradient_sum_map d E G : (forall r, length r = d -> gradient E r (G r)) -> gradient_of_sum d E (map G).
Proof.
  intros HG B x Hx. split.
  - destruct Hx as (HB & HF). split; [now rewrite map_length|]. apply Forall_forall. intros r Hr. apply in_map_iff in Hr. destruct Hr as (r' & <- & Hr).
    rewrite Forall_forall in HF. specialize (HF r' Hr). rewrite <- HF. apply HG. exact HF.
  - intros b k Hb Hk. rewrite nth_indep with (d' := G []) (l := map G x) by (rewrite map_length; destruct Hx; lia). rewrite map_nth. now apply (sum_gradient d E G B).
Qed.

(** the harmonic oscillator *)
Lemma C55_hnn_ex_pf :
  let E := fun x : rvl => dot x x / 2 in
  let Y := fun t => [[cos t; - sin t]; [2 * sin t; 2 * cos t]] in
  (forall x, length x = (2 * 1)%nat -> gradient E x x) /\ gradient_of_sum (2 * 1) E (map (fun x => x)) /\
  batch_solves 2 (2 * 1) 0 1 (@hnn ROps (map (fun x : rvl => x))) Y.
Proof.
  intros E Y. assert (HG : forall x, length x = (2 * 1)%nat -> gradient E x x) by (intros; apply half_square_gradient).
  split; [exact HG|]. split; [now apply gradient_sum_map|]. split.
  - intros t. split; [reflexivity|]. repeat constructor.
  - assert (S2 : forall t, derivable_pt_lim (fun s => 2 * sin s) t (2 * cos t)) by (intros t; apply derivable_pt_lim_scal; apply derivable_pt_lim_sin).
    assert (C2 : forall t, derivable_pt_lim (fun s => 2 * cos s) t (- (2 * sin t))) by (intros t; replace (- (2 * sin t)) with (2 * - sin t) by ring; apply derivable_pt_lim_scal; apply derivable_pt_lim_cos).
    intros r Hr i t Hi Ht. destruct r as [|[|r]]; [| |lia]; (destruct i as [|[|i]]; [| |lia]); cbn.
    + apply derivable_pt_lim_cos.
    + apply derivable_pt_lim_opp. apply derivable_pt_lim_sin.
    + apply S2.
    + apply C2.
Qed.

Lemma C55_gnf_ex_pf :
  let E := fun x : rvl => dot x x / 2 in
  let Y := fun t => [[exp (- t)]] in
  (forall x, length x = 1%nat -> gradient E x x) /\ gradient_of_sum 1 E (map (fun x => x)) /\ batch_solves 1 1 0 1 (@gnf ROps (map (fun x : rvl => x))) Y.
Proof.
  intros E Y. assert (HG : forall x, length x = 1%nat -> gradient E x x) by (intros; apply half_square_gradient).
  split; [exact HG|]. split; [now apply gradient_sum_map|]. split.
  - intros t. split; [reflexivity|]. repeat constructor.
  - intros r Hr i t Hi Ht. destruct r as [|r]; [|lia]. destruct i as [|i]; [|lia]. cbn.
    replace (- exp (- t)) with (exp (- t) * -1) by ring. apply (derivable_pt_lim_comp Ropp exp); [|apply derivable_pt_lim_exp].
    replace (-1) with (- (1)) by lra. apply derivable_pt_lim_opp. apply derivable_pt_lim_id.
Qed.

(** the Lagrangian of the harmonic oscillator, (q'^2 - q^2) / 2 *)
Lemma C55_lnn_ex_pf :
  let L := fun x : rvl => (nth 1 x 0 * nth 1 x 0 - nth 0 x 0 * nth 0 x 0) / 2 in
  let jac := fun x : rvl => [- nth 0 x 0; nth 1 x 0] in
  let hess := fun _ : rvl => [[-1; 0]; [0; 1]] in
  let pinverse := fun _ : list rvl => [[1]] in
  (forall x, length x = (2 * 1)%nat -> gradient L x (jac x)) /\
  (forall x, length x = (2 * 1)%nat -> length (hess x) = (2 * 1)%nat /\ forall i, (i < 2 * 1)%nat -> gradient (fun z => nth i (jac z) 0) x (nth i (hess x) [])) /\
  (forall x, length x = (2 * 1)%nat -> let M := map (skipn 1) (skipn 1 (hess x)) in is_matrix 1 1 (pinverse M) /\ forall v, length v = 1%nat -> apply M (apply (pinverse M) v) = v) /\
  batch_solves 1 (2 * 1) 0 1 (@lnn ROps jac hess pinverse) (fun t => [[cos t; - sin t]]).
Proof.
  intros L jac hess pinverse. split; [|split; [|split]].
  - intros [|q [|p [|z x]]] Hx; try discriminate. split; [reflexivity|]. intros eps He. exists (2 * eps). split; [lra|]. intros [|u [|v [|z h]]] Hh Hn; try discriminate.
    unfold L, jac. cbn. unfold norm1 in *. cbn in *. pose proof (Rabs_pos u). pose proof (Rabs_pos v).
    match goal with |- Rabs ?e <= _ => replace e with ((v * v - u * u) / 2) by lra end.
    assert (Eu : u * u = Rabs u * Rabs u) by (rewrite <- Rabs_mult; symmetry; apply Rabs_pos_eq; nra).
    assert (Ev : v * v = Rabs v * Rabs v) by (rewrite <- Rabs_mult; symmetry; apply Rabs_pos_eq; nra).
    rewrite Eu, Ev. apply Rabs_le. split; nra.
  - intros [|q [|p [|z x]]] Hx; try discriminate. split; [reflexivity|]. intros i Hi.
    assert (Z : forall f g, length g = 2%nat -> (forall h, length h = 2%nat -> f (plus_vec [q; p] h) - f [q; p] - dot g h = 0) -> gradient f [q; p] g).
    { intros f g Hg H. split; [auto|]. intros eps He. exists 1. split; [lra|]. intros h Hh _. rewrite H by auto. rewrite Rabs_R0. pose proof (norm1_nonneg h). nra. }
    destruct i as [|[|i]]; [| |lia]; apply Z; try reflexivity; intros [|u [|v [|z h]]] Hh; try discriminate; unfold jac; cbn; lra.
  - intros x Hx. cbn. split; [split; [reflexivity|repeat constructor]|]. intros [|v [|w l]] Hv; try discriminate. cbn. f_equal. lra.
  - split; [intros t; split; [reflexivity|repeat constructor]|]. intros r Hr i t Hi Ht. destruct r as [|r]; [|lia]. destruct i as [|[|i]]; [| |lia]; cbn.
    + apply derivable_pt_lim_cos.
    + rewrite !Q2R_0'. match goal with |- derivable_pt_lim _ _ ?e => replace e with (- cos t) by lra end. apply derivable_pt_lim_opp. apply derivable_pt_lim_sin.
Qed.

(** ** Odd dimensions *)
(** HNN accepts rows of odd length 2m+1 and returns a field that does not preserve the energy: with
    E = |x|^2 / 2 there is a state where dE/dt = grad E . out is 1 *)
Lemma C76_odd_dimension_refuted_pf : forall m,
  let E := fun x : rvl => dot x x / 2 in
  gradient_of_sum (2 * m + 1) E (map (fun x => x)) /\
  exists x y, length x = (2 * m + 1)%nat /\ gradient E x x /\ @hnn ROps (map (fun x : rvl => x)) [x] = [y] /\ length y = length x /\ dot x y = 1.
Proof.
  intros m E. split; [apply gradient_sum_map; intros; apply half_square_gradient|].
  destruct m as [|m].
  - exists [1], [1]. split; [reflexivity|]. split; [apply half_square_gradient|]. split; [reflexivity|]. split; [reflexivity|]. unfold dot. cbn. lra.
  - set (x := (1 :: repeat 0 m) ++ 1 :: repeat 0 (S m)). exists x, ((1 :: repeat 0 (S m)) ++ map Ropp (1 :: repeat 0 m)).
    assert (Lx : length x = (2 * S m + 1)%nat) by (unfold x; rewrite app_length; cbn; rewrite !repeat_length; lia).
    split; [exact Lx|]. split; [apply half_square_gradient|]. split; [|split].
    + unfold hnn, width. cbn [hd map]. change (num ROps) with R. rewrite Lx. replace ((2 * S m + 1) / 2)%nat with (S m) by (rewrite Nat.mul_comm, Nat.div_add_l by lia; cbn; lia).
      assert (L1 : length (1 :: repeat 0 m) = S m) by (cbn; now rewrite repeat_length).
      unfold x. rewrite skipn_app, firstn_app. rewrite (skipn_all2 (1 :: repeat 0 m)) by lia. rewrite (firstn_all2 (1 :: repeat 0 m)) by lia. change (num ROps) with R in *. rewrite L1, Nat.sub_diag. cbn [skipn firstn app]. rewrite app_nil_r. reflexivity.
    + rewrite Lx, app_length, map_length. cbn. rewrite repeat_length. lia.
    + unfold x. cbn [app map]. rewrite dot_cons.
      replace (repeat 0 m ++ 1 :: repeat 0 (S m)) with ((repeat 0 m ++ [1]) ++ repeat 0 (S m)) by (rewrite <- app_assoc; reflexivity).
      assert (E1 : dot ((repeat 0 m ++ [1]) ++ repeat 0 (S m)) (repeat 0 (S m) ++ - (1) :: map Ropp (repeat 0 m)) = 0).
      { rewrite dot_app' by (rewrite app_length, !repeat_length; cbn; lia). rewrite dot_zero. rewrite dot_comm, dot_zero. lra. }
      refine (eq_trans (f_equal (Rplus (1 * 1)) E1) _). lra.
Qed.

(** ConservativeLinearSNF: every forward raises AttributeError *)
Lemma C77_snf_refuted_pf : forall (K : NumOps) (x : batch K), conservative_snf x = Err AttributeError.
Proof. reflexivity. Qed.

(** ** HybridNeuralDE *)
Definition jump_of {X H : Type} (j : @jump_fn X H) : X -> H * H -> H * H :=
  match j with JCell f => fun x hc => (f x (fst hc), snd hc) | JLstm f => f end.

Lemma hybrid_states {X H : Type} (j : @jump_fn X H) flow : forall xs h c, exists st : nat -> H * H, st 0%nat = (h, c) /\
  length (hybrid_loop j flow xs h c) = length xs /\
  forall t x, nth_error xs t = Some x -> let hc := jump_of j x (st t) in st (S t) = (flow (fst hc), snd hc) /\ nth_error (hybrid_loop j flow xs h c) t = Some (flow (fst hc)).
Proof.
  induction xs as [|x xs IH]; intros h c; cbn [hybrid_loop].
  - exists (fun _ => (h, c)). split; [reflexivity|]. split; [reflexivity|]. intros [|t] x H0; discriminate.
  - assert (EJ : jump_func j x h c = jump_of j x (h, c)) by (destruct j; reflexivity). rewrite EJ. destruct (jump_of j x (h, c)) as (h', c') eqn:Ej.
    destruct (IH (flow h') c') as (st & E0 & EL & ES). exists (fun t => match t with O => (h, c) | S t => st t end).
    split; [reflexivity|]. split; [cbn; now rewrite EL|]. intros [|t] y Hy; cbn in Hy.
    + injection Hy as <-. cbv zeta. rewrite Ej. cbn [fst snd nth_error]. now rewrite E0.
    + apply ES. exact Hy.
Qed.

(** HybridNeuralDE with reverse=False: the hidden states alternate jump and flow over the sequence; `out` of all
    of them is returned, or its last entry *)
Lemma C78_forward_pf : forall (X H Y : Type) (j : @jump_fn X H) flow (out : list H -> list Y) h0 xs, xs <> [] ->
  exists hs, match j with
      | JCell f => recurrent (fun x hc => (f x (fst hc), snd hc)) flow xs h0 hs
      | JLstm f => recurrent f flow xs h0 hs
      end /\
    hybrid_forward j flow out h0 false false xs = Ok (inr (out hs)) /\
    forall ys y, out hs = ys ++ [y] -> hybrid_forward j flow out h0 true false xs = Ok (inl y).
Proof.
  intros X H Y j flow out h0 xs Hne. exists (hybrid_loop j flow xs h0 h0). split.
  - destruct (hybrid_states j flow xs h0 h0) as (st & E0 & EL & ES). destruct j; exists st; auto.
  - unfold hybrid_forward. destruct xs as [|x xs]; [contradiction|]. split; [reflexivity|]. intros ys y E. cbv zeta. rewrite E. unfold pylast. now rewrite rev_app_distr.
Qed.

(** reverse=True: every call raises UnboundLocalError *)
Lemma C78_reverse_refuted_pf : forall (X H Y : Type) (j : @jump_fn X H) flow (out : list H -> list Y) h0 last xs, xs <> [] ->
  hybrid_forward j flow out h0 last true xs = Err UnboundLocalError.
Proof. intros X H Y j flow out h0 last [|x xs] Hne; [contradiction|reflexivity]. Qed.

Lemma C78_ex_pf : hybrid_forward (JCell Nat.add) (fun h => 2 * h)%nat (fun l => l) 0%nat false false [1; 2; 3]%nat = Ok (inr [2; 8; 22]%nat).
Proof. reflexivity. Qed.
