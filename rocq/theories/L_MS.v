(** Lemmas on multiple shooting. *)
From Coq Require Import ZArith QArith Reals Lra Lia List Bool.
From Verif Require Import Num Py Tensor M_SolversOde M_Odeint M_MS Spec_Ode Spec_MS L_Base L_Fixed L_Fixed2 L_Vec L_Jagged.
Import ListNotations.
Local Open Scope R_scope.

Lemma map2_vadd_list a b : @vadd ROps a b = add_list a b.
Proof. unfold vadd, add_list. apply map2_combine. Qed.
Lemma map2_vsub_list a b : @vsub ROps a b = sub_list a b.
Proof. unfold vsub, sub_list. apply map2_combine. Qed.

Lemma skipn_nth {A} (l : list A) : forall k a, nth_error l k = Some a -> skipn k l = a :: skipn (S k) l.
Proof.
  induction l as [|b l IH]; intros [|k] a H; try discriminate.
  - injection H as ->. reflexivity.
  - change (skipn (S k) (b :: l)) with (skipn k l). change (skipn (S (S k)) (b :: l)) with (skipn (S k) l). now apply IH.
Qed.
Lemma nth_skipn {A} (l : list A) : forall k j, nth_error (skipn k l) j = nth_error l (k + j).
Proof.
  induction l as [|b l IH]; intros [|k] j; try reflexivity.
  - cbn. destruct j; reflexivity.
  - cbn. apply IH.
Qed.
Lemma nth_firstn {A} (l : list A) : forall k j, (j < k)%nat -> nth_error (firstn k l) j = nth_error l j.
Proof.
  induction l as [|b l IH]; intros [|k] [|j] H; try lia; try reflexivity. cbn. apply IH. lia.
Qed.

Lemma nth_ext_error {A} (l : list A) : forall m, (forall j, nth_error l j = nth_error m j) -> l = m.
Proof.
  induction l as [|a l IH]; intros [|b m] H; auto.
  - discriminate (H 0%nat).
  - discriminate (H 0%nat).
  - pose proof (H 0%nat) as H0. injection H0 as ->. f_equal. apply IH. intros j. exact (H (S j)).
Qed.

(** rewrite an index access whose list type is only convertible *)
Ltac pg H := unfold pyget; match type of H with ?l = _ =>
  match goal with |- context [match ?e with Some _ => _ | None => Err IndexError end] => change e with l; rewrite H end end;
  cbn [rbind].

Ltac rbx H := match type of H with ?l = ?r =>
  match goal with |- context [@rbind ?A ?B ?e ?k] => let E := fresh in assert (E : e = r) by exact H; rewrite E; clear E end end;
  cbn [rbind].

Section Rows.
Variable n : nat.
Definition rows_ok (B : list (list R)) : Prop := forall b, In b B -> length b = n.

Lemma traverse_ok (g : rvec -> res rvec) (G : rvec -> rvec) B :
  (forall b, length b = n -> g b = Ok (G b)) -> rows_ok B -> traverse g B = Ok (map G B).
Proof.
  intros Hg. induction B as [|b B IH]; intros HB; [reflexivity|]. cbn [traverse map].
  rewrite Hg by (apply HB; now left). cbn [rbind]. rewrite IH by (intros c Hc; apply HB; now right). reflexivity.
Qed.

Lemma add_len a b : length a = n -> length b = n -> length (add_list a b) = n.
Proof. intros Ha Hb. unfold add_list. rewrite map_length, combine_length. lia. Qed.
Lemma sub_len a b : length a = n -> length b = n -> length (sub_list a b) = n.
Proof. intros Ha Hb. unfold sub_list. rewrite map_length, combine_length. lia. Qed.

Section Zero.
Variables (coarse fine : rvec -> res rvec) (G F : rvec -> rvec).
Hypothesis HG : forall b, length b = n -> coarse b = Ok (G b) /\ length (G b) = n.
Hypothesis HF : forall b, length b = n -> fine b = Ok (F b) /\ length (F b) = n.

(** the rows produced by the inner loop *)
Fixpoint zrows (olds : list rvec) (b : rvec) : list rvec :=
  match olds with
  | [] => []
  | old :: olds' => let b' := add_list (sub_list (G b) (G old)) (F old) in b' :: zrows olds' b'
  end.

Lemma zrows_len olds : forall b, length (zrows olds b) = length olds.
Proof. induction olds; intros b; cbn; auto. Qed.

Lemma zero_inner_ok B i : rows_ok B -> (1 <= i)%nat -> forall k m b, length b = n ->
  (i <= m)%nat -> (m + k = length B)%nat ->
  @zero_inner ROps coarse (map G (skipn (i - 1) B)) (map F (skipn (i - 1) B)) (length B) i k m b
  = Ok (zrows (firstn k (skipn (m - 1) B)) b) /\
  rows_ok (zrows (firstn k (skipn (m - 1) B)) b).
Proof.
  intros HB Hi. induction k as [|k IH]; intros m b Hb Hm Hk; cbn [zero_inner].
  - cbn. split; auto. intros c [].
  - destruct (HG b Hb) as [-> HGb]. cbn [rbind].
    destruct (nth_error B (m - 1)) as [old|] eqn:Eo; [|apply nth_error_None in Eo; lia].
    assert (Hold : length old = n) by (apply HB; eapply nth_error_In; eauto).
    assert (Es : skipn (m - 1) B = old :: skipn m B).
    { replace m with (S (m - 1)) at 2 by lia. now apply skipn_nth. }
    assert (En : nth_error (skipn (i - 1) B) (m - i) = Some old).
    { rewrite nth_skipn. replace (i - 1 + (m - i))%nat with (m - 1)%nat by lia. exact Eo. }
    unfold pyget. rewrite !(map_nth_error _ _ _ En). cbn [rbind].
    unfold in_range. rewrite (proj2 (Nat.ltb_lt m (length B))) by lia. cbn [rbind].
    rewrite map2_vsub_list, map2_vadd_list.
    set (b' := add_list (sub_list (G b) (G old)) (F old)).
    assert (Hb' : length b' = n).
    { unfold b'. apply add_len; [apply sub_len; auto; apply HG; auto|apply HF; auto]. }
    destruct (IH (m + 1)%nat b' Hb' ltac:(lia) ltac:(lia)) as [E Rk]. rewrite E. cbn [rbind].
    rewrite Es. replace (m + 1 - 1)%nat with m in * by lia. cbn [firstn zrows]. fold b'.
    split; [reflexivity|]. intros c [<-|Hc]; auto.
Qed.

Lemma zrows_nth olds : forall b j a old, nth_error (b :: zrows olds b) j = Some a -> nth_error olds j = Some old ->
  nth_error (zrows olds b) j = Some (add_list (sub_list (G a) (G old)) (F old)).
Proof.
  induction olds as [|o olds IH]; intros b j a old Ha Ho; [destruct j; discriminate|].
  destruct j as [|j].
  - injection Ha as <-. injection Ho as <-. reflexivity.
  - cbn [nth_error zrows] in *. now apply IH.
Qed.

Lemma zero_sweep_ok B i : rows_ok B -> (1 <= i <= length B)%nat ->
  exists B', @zero_sweep ROps coarse fine (length B) i B = Ok B' /\ rows_ok B' /\ parareal_pass G F i B B'.
Proof.
  intros HB Hi. unfold zero_sweep.
  assert (HBs : rows_ok (skipn (i - 1) B)).
  { intros b Hb. apply HB. rewrite <- (firstn_skipn (i - 1) B). apply in_or_app; now right. }
  rewrite (traverse_ok coarse G) by (auto; apply HG). cbn [rbind].
  rewrite (traverse_ok fine F) by (auto; apply HF). cbn [rbind].
  destruct (nth_error B (i - 1)) as [b|] eqn:Eb; [|apply nth_error_None in Eb; lia].
  pg Eb.
  assert (Hb : length b = n) by (apply HB; eapply nth_error_In; eauto).
  destruct (zero_inner_ok B i HB ltac:(lia) (length B - i) i b Hb ltac:(lia) ltac:(lia)) as [E Rk].
  rbx E. unfold ms_out.
  set (olds := firstn (length B - i) (skipn (i - 1) B)) in *.
  assert (Hol : length olds = (length B - i)%nat).
  { unfold olds. rewrite firstn_length, skipn_length. lia. }
  rewrite zrows_len, Hol, (skipn_all2 B) by lia. cbn [map]. rewrite app_nil_r.
  assert (Ef : firstn i B = firstn (i - 1) B ++ [b]).
  { replace i with (S (i - 1)) at 1 by lia. now apply firstn_S_nth. }
  eexists. split; [reflexivity|]. change (vec ROps) with (list R) in *. split.
  { intros c Hc. apply in_app_or in Hc. destruct Hc as [Hc|Hc]; auto. apply HB.
    rewrite <- (firstn_skipn i B). apply in_or_app; now left. }
  split; [|split].
  - rewrite app_length, zrows_len, Hol, firstn_length. lia.
  - intros m Hm. rewrite nth_error_app1 by (rewrite firstn_length; lia). now apply nth_firstn.
  - intros m a old Him HmB Ha Ho. rewrite Ef in *. rewrite <- app_assoc in *. cbn [app] in *.
    assert (Hlf : length (firstn (i - 1) B) = (i - 1)%nat) by (rewrite firstn_length; lia).
    rewrite nth_error_app2 in Ha |- * by lia. rewrite Hlf in *.
    replace (S m - (i - 1))%nat with (S (m - (i - 1)))%nat by lia. cbn [nth_error].
    apply zrows_nth; auto.
    unfold olds. rewrite nth_firstn by lia. rewrite nth_skipn. replace (i - 1 + (m - (i - 1)))%nat with m by lia. exact Ho.
Qed.

Lemma zero_sweeps_ok k : forall i B, rows_ok B -> (1 <= i)%nat -> (i + k <= S (length B))%nat ->
  exists B', @sweeps ROps (@zero_sweep ROps coarse fine (length B)) k i B = Ok B' /\ rows_ok B' /\
    length B' = length B /\ parareal_passes G F k i B B'.
Proof.
  induction k as [|k IH]; intros i B HB Hi Hk.
  - exists B. cbn. auto.
  - destruct (zero_sweep_ok B i HB ltac:(lia)) as (B1 & E & Rk & P).
    assert (Hl : length B1 = length B) by apply P. change (vec ROps) with (list R) in *.
    destruct (IH (i + 1)%nat B1 Rk ltac:(lia) ltac:(lia)) as (B' & E' & Rk' & L' & P').
    exists B'. cbn [sweeps]. rewrite E. cbn [rbind]. rewrite Hl in E'. split; [exact E'|]. split; [exact Rk'|].
    split; [lia|]. exists B1. split; [exact P|]. replace (S i) with (i + 1)%nat by lia. exact P'.
Qed.

(** too many passes: B[i-1] fails *)
Lemma zero_sweeps_crash k : forall i B, rows_ok B -> (1 <= i)%nat -> (i <= S (length B))%nat -> (S (length B) < i + k)%nat ->
  @sweeps ROps (@zero_sweep ROps coarse fine (length B)) k i B = Err IndexError.
Proof.
  induction k as [|k IH]; intros i B HB Hi Hle Hk; [lia|]. cbn [sweeps].
  destruct (Nat.eq_dec i (S (length B))) as [->|Hne].
  - unfold zero_sweep. replace (S (length B) - 1)%nat with (length B) by lia. rewrite skipn_all. cbn [traverse rbind].
    assert (En : nth_error B (length B) = None) by (apply nth_error_None; lia). pg En. reflexivity.
  - destruct (zero_sweep_ok B i HB ltac:(lia)) as (B1 & E & Rk & P). rewrite E. cbn [rbind].
    assert (Hl : length B1 = length B) by apply P. change (vec ROps) with (list R) in *. rewrite <- Hl. apply IH; auto; lia.
Qed.
End Zero.
End Rows.

(** exactness of parareal, in the specification *)
Lemma sub_add_cancel n a b : length a = n -> length b = n -> add_list (sub_list a a) b = b.
Proof.
  revert n b. unfold add_list, sub_list. induction a as [|x a IH]; intros [|n] [|y b] Ha Hb; try discriminate; [reflexivity|].
  cbn. f_equal; [lra|]. injection Ha as Ha. injection Hb as Hb. now apply (IH n).
Qed.

Section Exact.
Variables (n : nat) (G F : list R -> list R).
Hypothesis HG : forall b, length b = n -> length (G b) = n.
Hypothesis HF : forall b, length b = n -> length (F b) = n.

Lemma seq_len b j : length b = n -> length (sequential F b j) = n.
Proof. intros Hb. induction j; cbn; auto. Qed.

Definition exact_to (b : list R) (k : nat) (B : list (list R)) : Prop :=
  forall j, (j <= k)%nat -> (j < length B)%nat -> nth_error B j = Some (sequential F b j).

Lemma pass_exact b i B B' : length b = n -> parareal_pass G F (S i) B B' -> exact_to b i B -> exact_to b (S i) B'.
Proof.
  intros Hb (Hl & Hk & Hu) He j Hj HjB. rewrite Hl in HjB.
  destruct (Nat.eq_dec j (S i)) as [->|Hne].
  - assert (E1 : nth_error B i = Some (sequential F b i)) by (apply He; lia).
    assert (E2 : nth_error B' i = Some (sequential F b i)) by (rewrite Hk by lia; exact E1).
    rewrite (Hu i _ _ (le_n _) HjB E2 E1). cbn [sequential]. f_equal.
    apply (sub_add_cancel n); [apply HG|apply HF]; now apply seq_len.
  - rewrite Hk by lia. apply He; lia.
Qed.

Lemma passes_exact b k : forall i B B', length b = n -> parareal_passes G F k (S i) B B' -> exact_to b i B ->
  exact_to b (i + k) B'.
Proof.
  induction k as [|k IH]; intros i B B' Hb HP He.
  - cbn in HP. subst B'. rewrite Nat.add_0_r. exact He.
  - destruct HP as (B1 & HP & HPs). replace (i + S k)%nat with (S i + k)%nat by lia.
    apply (IH (S i) B1); auto. now apply (pass_exact b i B).
Qed.
End Exact.

(** ** The flows *)
Lemma nnat_INR k : @nnat ROps k = INR k.
Proof. unfold nnat. cbn [nQ ROps]. unfold Q2R. cbn. rewrite Rinv_1, Rmult_1_r. symmetry. apply INR_IZR_INZ. Qed.

Lemma linspace0_len dt k : length (@linspace0 ROps dt k) = k.
Proof. destruct k as [|[|k]]; try reflexivity. unfold linspace0. rewrite map_length. apply seq_length. Qed.

Lemma ms_flow_ok s f one lg sub b : fixed_stepper (s_step s) f one lg -> (2 <= length sub)%nat -> separated sub ->
  @ms_flow ROps f s sub b = Ok (last (one_step_traj one b sub) []).
Proof.
  intros Hst Hl Hs. unfold ms_flow. rewrite (fixed_default s f one lg b sub Hst Hl Hs). cbn [snd rbind].
  unfold pylast. destruct (exists_last (l := one_step_traj one b sub)) as (l & a & E).
  { intros E. apply (f_equal (@length _)) in E. rewrite traj_len in E. cbn in E. lia. }
  rewrite E, rev_app_distr, last_last. reflexivity.
Qed.

Lemma traj_rows n (one : R -> R -> rvec -> rvec) ts : (forall t h x, length x = n -> length (one t h x) = n) ->
  forall x, length x = n -> forall c, In c (one_step_traj one x ts) -> length c = n.
Proof.
  intros H1. induction ts as [|t0 [|t1 ts] IH]; intros x Hx c Hc.
  - destruct Hc.
  - destruct Hc as [<-|[]]. exact Hx.
  - rewrite traj_cons in Hc. destruct Hc as [<-|Hc]; auto. apply (IH _ (H1 _ _ _ Hx) c Hc).
Qed.
Lemma flow_len n (one : R -> R -> rvec -> rvec) ts x : (forall t h x, length x = n -> length (one t h x) = n) ->
  (1 <= length ts)%nat -> length x = n -> length (last (one_step_traj one x ts) []) = n.
Proof.
  intros H1 Hl Hx. destruct (exists_last (l := one_step_traj one x ts)) as (l & a & E).
  { intros E. apply (f_equal (@length _)) in E. rewrite traj_len in E. cbn in E. lia. }
  rewrite E, last_last. apply (traj_rows n one ts H1 x Hx). rewrite E. apply in_or_app; right; now left.
Qed.

(** ** Uniform grids and time-independent steps *)
Lemma iter_succ_r {A} (g : A -> A) k x : Nat.iter k g (g x) = g (Nat.iter k g x).
Proof. induction k as [|k IH]; [reflexivity|]. exact (f_equal g IH). Qed.

Lemma traj_uniform (one : R -> R -> rvec -> rvec) h : (forall t s x, one t h x = one s h x) ->
  forall k a x, last (one_step_traj one x (map (fun j => a + INR j * h) (seq 0 (S k)))) [] = Nat.iter k (one 0 h) x.
Proof.
  intros Hone. induction k as [|k IH]; intros a x; [reflexivity|].
  cbn [seq map]. rewrite traj_cons.
  replace (a + INR 1 * h - (a + INR 0 * h)) with h by (cbn; lra).
  replace (a + INR 1 * h) with (a + h + INR 0 * h) by (cbn; lra).
  assert (E : (a + h + INR 0 * h) :: map (fun j => a + INR j * h) (seq 2 k) = map (fun j => (a + h) + INR j * h) (seq 0 (S k))).
  { cbn [seq map]. f_equal. rewrite <- (seq_shift k 1), map_map. apply map_ext. intros j. rewrite S_INR. lra. }
  rewrite E. set (l := one_step_traj one _ _).
  assert (Hl : l <> []) by (unfold l; cbn; discriminate).
  destruct l as [|b l'] eqn:El; [congruence|]. change (last (x :: b :: l') []) with (last (b :: l') []).
  rewrite <- El. unfold l. rewrite IH. rewrite (Hone _ 0). exact (iter_succ_r _ k x).
Qed.

Lemma linspace0_uniform dt k : (2 <= k)%nat ->
  @linspace0 ROps dt k = map (fun j => 0 + INR j * (dt / INR (k - 1))) (seq 0 k).
Proof.
  intros Hk. destruct k as [|[|k]]; try lia. unfold linspace0. apply map_ext. intros j. rewrite !nnat_INR.
  change (dt * INR j / INR (S (S k) - 1) = 0 + INR j * (dt / INR (S (S k) - 1))).
  assert (INR (S (S k) - 1) <> 0) by (apply not_0_INR; lia). field; auto.
Qed.

(** ** MSBackward *)
Section Back.
Variable n : nat.
Variables (fine : rvec -> res rvec) (F : rvec -> rvec) (vjp : rvec -> rvec -> rvec).
Hypothesis HF : forall b, length b = n -> fine b = Ok (F b) /\ length (F b) = n.
Hypothesis Hv : forall b v, length b = n -> length v = n -> length (vjp b v) = n.
Notation rows_ok := (rows_ok n).

(** pass 1 *)
Fixpoint brows (olds : list rvec) (b : rvec) : list rvec :=
  match olds with
  | [] => []
  | old :: olds' => let b' := add_list (F old) (vjp old (sub_list b old)) in b' :: brows olds' b'
  end.
Lemma brows_len olds : forall b, length (brows olds b) = length olds.
Proof. induction olds; intros b; cbn; auto. Qed.

Lemma back_inner1 B : rows_ok B -> forall k m b, length b = n -> (1 <= m)%nat -> (m + k = length B)%nat ->
  @back_inner ROps vjp B (map F B) (length B) 1 k m b = Ok (brows (firstn k (skipn (m - 1) B)) b) /\
  rows_ok (brows (firstn k (skipn (m - 1) B)) b).
Proof.
  intros HB. induction k as [|k IH]; intros m b Hb Hm Hk; cbn [back_inner].
  - cbn. split; auto. intros c [].
  - destruct (nth_error B (m - 1)) as [old|] eqn:Eo; [|apply nth_error_None in Eo; lia].
    assert (Hold : length old = n) by (apply HB; eapply nth_error_In; eauto).
    assert (Es : skipn (m - 1) B = old :: skipn m B).
    { replace m with (S (m - 1)) at 2 by lia. now apply skipn_nth. }
    pose proof (map_nth_error F _ _ Eo) as Ef. pg Ef. pg Eo.
    change (1 =? 1)%nat with true. cbv iota zeta.
    rewrite map2_vsub_list, map2_vadd_list.
    set (b' := add_list (F old) (vjp old (sub_list b old))).
    assert (Hb' : length b' = n).
    { unfold b'. apply add_len; [apply HF; auto|]. apply Hv; auto. apply sub_len; auto. }
    unfold in_range. rewrite (proj2 (Nat.ltb_lt m (length B))) by lia. cbn [rbind].
    destruct (IH (m + 1)%nat b' Hb' ltac:(lia) ltac:(lia)) as [E Rk]. rbx E.
    rewrite Es. replace (m + 1 - 1)%nat with m in * by lia. cbn [firstn brows]. fold b'.
    split; [reflexivity|]. intros c [<-|Hc]; auto.
Qed.

Lemma brows_nth olds : forall b j a old, nth_error (b :: brows olds b) j = Some a -> nth_error olds j = Some old ->
  nth_error (brows olds b) j = Some (add_list (F old) (vjp old (sub_list a old))).
Proof.
  induction olds as [|o olds IH]; intros b j a old Ha Ho; [destruct j; discriminate|].
  destruct j as [|j].
  - injection Ha as <-. injection Ho as <-. reflexivity.
  - cbn [nth_error brows] in *. now apply IH.
Qed.

(** Pass 1 of msbackward: B'[0] = B[0], B'[m] = F(B[m-1]) + vjp_{B[m-1]}(B'[m-1] - B[m-1]) *)
Lemma back_sweep1 B : rows_ok B -> (1 <= length B)%nat ->
  exists B', @back_sweep ROps fine vjp (length B) 1 B = Ok B' /\ rows_ok B' /\ length B' = length B /\
    nth_error B' 0 = nth_error B 0 /\
    (forall m a old, (S m < length B)%nat -> nth_error B' m = Some a -> nth_error B m = Some old ->
      nth_error B' (S m) = Some (add_list (F old) (vjp old (sub_list a old)))).
Proof.
  intros HB Hl. unfold back_sweep. change (skipn (1 - 1) B) with B.
  assert (Ht : traverse fine B = Ok (map F B)) by (apply (traverse_ok n); auto; apply HF). rbx Ht.
  destruct B as [|b B]; [cbn in Hl; lia|]. 
  assert (Eb : nth_error (b :: B) (1 - 1) = Some b) by reflexivity. pg Eb.
  assert (Hb : length b = n) by (apply HB; now left).
  destruct (back_inner1 (b :: B) HB (length (b :: B) - 1) 1 b Hb ltac:(lia) ltac:(cbn; lia)) as [E Rk].
  rbx E. unfold ms_out. change (vec ROps) with (list R) in *.
  set (olds := firstn (length (b :: B) - 1) (skipn (1 - 1) (b :: B))) in *.
  assert (Hol : length olds = length B).
  { unfold olds. rewrite firstn_length. cbn. lia. }
  pose proof (eq_trans (brows_len olds b) Hol) as Hbl.
  rewrite (skipn_all2 (b :: B)) by (apply Nat.eq_le_incl; symmetry; exact (f_equal S Hbl)). cbn [map]. rewrite app_nil_r.
  eexists. split; [reflexivity|]. cbn [firstn app]. split.
  { intros c [<-|Hc]; auto. }
  split; [exact (f_equal S Hbl)|]. split; [reflexivity|].
  intros m a old Hm Ha Ho. change (nth_error (brows olds b) m = Some (add_list (F old) (vjp old (sub_list a old)))).
  apply brows_nth; auto. unfold olds. cbn [length] in *. rewrite nth_firstn by lia. exact Ho.
Qed.

(** pass 2: B_fine[m-1] is the fine flow of row m and its gradient with respect to row m-1 is zero *)
Lemma add_zeros a : length a = n -> add_list a (@vzeros ROps n) = a.
Proof.
  clear Hv HF. intros <-. unfold add_list, vzeros. induction a as [|x a IH]; [reflexivity|]. cbn [length repeat combine map fst snd].
  f_equal; [|exact IH]. change (@nQ ROps 0) with (Q2R 0). rewrite RMicromega.Q2R_0. lra.
Qed.

Lemma back_inner2 B : rows_ok B -> forall k m b, length b = n -> (2 <= m)%nat -> (m + k = length B)%nat ->
  @back_inner ROps vjp B (map F (skipn 1 B)) (length B) 2 k m b = Ok (map F (skipn m B)).
Proof.
  intros HB. induction k as [|k IH]; intros m b Hb Hm Hk; cbn [back_inner].
  - rewrite skipn_all2 by lia. reflexivity.
  - destruct (nth_error B m) as [cur|] eqn:Ec; [|apply nth_error_None in Ec; lia].
    destruct (nth_error B (m - 1)) as [old|] eqn:Eo; [|apply nth_error_None in Eo; lia].
    assert (Hold : length old = n) by (apply HB; eapply nth_error_In; eauto).
    assert (Hcur : length cur = n) by (apply HB; eapply nth_error_In; eauto).
    assert (Ef : nth_error (map F (skipn 1 B)) (m - 1) = Some (F cur)).
    { apply map_nth_error. rewrite nth_skipn. replace (1 + (m - 1))%nat with m by lia. exact Ec. }
    pg Ef. pg Eo. change (2 =? 1)%nat with false. cbv iota zeta. rewrite map2_vadd_list.
    assert (Hz : add_list (F cur) (@vzeros ROps (length old)) = F cur).
    { rewrite Hold. apply add_zeros. apply HF; auto. }
    change (vec ROps) with (list R) in *. change (num ROps) with R. rewrite Hz.
    unfold in_range. rewrite (proj2 (Nat.ltb_lt m (length B))) by lia. cbn [rbind].
    pose proof (IH (m + 1)%nat (F cur) (proj2 (HF _ Hcur)) ltac:(lia) ltac:(lia)) as E. rbx E.
    rewrite (skipn_nth B m cur Ec). replace (m + 1)%nat with (S m) by lia. reflexivity.
Qed.

Lemma back_sweep2 B : rows_ok B -> (2 <= length B)%nat ->
  @back_sweep ROps fine vjp (length B) 2 B = Ok (firstn 2 B ++ map F (skipn 2 B)).
Proof.
  intros HB Hl. unfold back_sweep. change (2 - 1)%nat with 1%nat.
  assert (Ht : traverse fine (skipn 1 B) = Ok (map F (skipn 1 B))).
  { apply (traverse_ok n); [apply HF|]. intros c Hc. apply HB. destruct B; [destruct Hc|now right]. }
  rbx Ht. destruct (nth_error B 1) as [b|] eqn:Eb; [|apply nth_error_None in Eb; lia]. pg Eb.
  assert (Hb : length b = n) by (apply HB; eapply nth_error_In; eauto).
  pose proof (back_inner2 B HB (length B - 2) 2 b Hb ltac:(lia) ltac:(lia)) as E. rbx E.
  unfold ms_out. change (vec ROps) with (list R) in *.
  assert (Hr : (length B <= 2 + length (map F (skipn 2 B)))%nat) by (rewrite map_length, skipn_length; lia).
  rewrite (skipn_all2 B Hr). cbn [map]. now rewrite app_nil_r.
Qed.

(** a pass numbered 3 or more with something left to do runs out of B_fine *)
Lemma back_inner3 B i : rows_ok B -> (3 <= i)%nat -> forall k m b, length b = n -> (i <= m)%nat -> (m + S k = length B)%nat ->
  @back_inner ROps vjp B (map F (skipn (i - 1) B)) (length B) i (S k) m b = Err IndexError.
Proof.
  intros HB Hi. induction k as [|k IH]; intros m b Hb Hm Hk.
  - cbn [back_inner]. assert (Ef : nth_error (map F (skipn (i - 1) B)) (m - 1) = None).
    { apply nth_error_None. rewrite map_length, skipn_length. lia. }
    pg Ef. reflexivity.
  - change (S (S k)) with (S (S k)). remember (S k) as k1. cbn [back_inner].
    destruct (nth_error (map F (skipn (i - 1) B)) (m - 1)) as [fi|] eqn:Ef; pg Ef; [|reflexivity].
    destruct (nth_error B (m - 1)) as [old|] eqn:Eo; [|apply nth_error_None in Eo; lia]. pg Eo.
    rewrite (proj2 (Nat.eqb_neq i 1)) by lia. cbv zeta.
    unfold in_range. rewrite (proj2 (Nat.ltb_lt m (length B))) by lia. cbn [rbind].
    assert (Hold : length old = n) by (apply HB; eapply nth_error_In; eauto).
    assert (Hfi : length fi = n).
    { apply nth_error_In in Ef. apply in_map_iff in Ef. destruct Ef as (c & <- & Hc). apply HF. apply HB.
      rewrite <- (firstn_skipn (i - 1) B). apply in_or_app; now right. }
    rewrite map2_vadd_list. 
    pose proof (IH (m + 1)%nat (add_list fi (@vzeros ROps (length old)))
      ltac:(apply add_len; auto; unfold vzeros; rewrite repeat_length; auto) ltac:(lia) ltac:(lia)) as E. rbx E. reflexivity.
Qed.

Lemma back_sweep3 B i : rows_ok B -> (3 <= i < length B)%nat ->
  @back_sweep ROps fine vjp (length B) i B = Err IndexError.
Proof.
  intros HB Hi. unfold back_sweep.
  assert (Ht : traverse fine (skipn (i - 1) B) = Ok (map F (skipn (i - 1) B))).
  { apply (traverse_ok n); [apply HF|]. intros c Hc. apply HB.
    rewrite <- (firstn_skipn (i - 1) B). apply in_or_app; now right. }
  rbx Ht. destruct (nth_error B (i - 1)) as [b|] eqn:Eb; [|apply nth_error_None in Eb; lia]. pg Eb.
  assert (Hb : length b = n) by (apply HB; eapply nth_error_In; eauto).
  replace (length B - i)%nat with (S (length B - i - 1)) by lia.
  pose proof (back_inner3 B i HB ltac:(lia) (length B - i - 1) i b Hb ltac:(lia) ltac:(lia)) as E. rbx E. reflexivity.
Qed.
End Back.
