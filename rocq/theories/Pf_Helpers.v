(** Proofs of the properties about Interpolator.evaluate and make_norm. *)
From Coq Require Import ZArith QArith Qreals Reals Lra Lia List Bool.
From Verif Require Import Num Py Tensor M_Constants M_Utils M_Interp.
From Verif Require Import Spec_Ode Spec_RK Spec_Norm L_Base L_Fixed L_Vec L_Steps L_Utils Pf_Utils.
Import ListNotations.
Local Notation length := List.length.
Local Open Scope R_scope.

(** The value at [theta] of the polynomial with the numbers [c] as coefficients, constant term first *)
Definition poly (c : list R) (theta : R) : R := fold_right Rplus 0 (map (fun j => theta ^ j * nth j c 0) (seq 0 (length c))).
(** Entry [i] of every vector of a list *)
Definition entries (i : nat) (l : list (list R)) : list R := map (fun v => nth i v 0) l.

Ltac eqR := match goal with |- @eq _ ?a ?b => change (@eq R a b) end.
Lemma poly_cons a c theta : poly (a :: c) theta = a + theta * poly c theta.
Proof.
  unfold poly. cbn [length seq map fold_right nth pow]. rewrite <- seq_shift, map_map.
  assert (E : forall l, fold_right Rplus 0 (map (fun j => theta ^ S j * nth (S j) (a :: c) 0) l) = theta * fold_right Rplus 0 (map (fun j => theta ^ j * nth j c 0) l)).
  { induction l as [|j l IH]; cbn [map fold_right]; [ring|]. rewrite IH. cbn [nth pow]. ring. }
  rewrite E. ring.
Qed.

Lemma vadd_nth (a b : list R) i n : length a = n -> length b = n -> (i < n)%nat -> nth i (@vadd ROps a b) 0 = nth i a 0 + nth i b 0.
Proof.
  revert b i n. induction a as [|u a IH]; intros [|v b] i n Ha Hb Hi; cbn in *; try lia. destruct i as [|i]; cbn; [reflexivity|].
  destruct n as [|n]; [lia|]. apply (IH b i n); lia.
Qed.
Lemma vadd_len (a b : list R) n : length a = n -> length b = n -> length (@vadd ROps a b) = n.
Proof. revert b n. induction a as [|u a IH]; intros [|v b] n Ha Hb; cbn in *; try lia. destruct n; [lia|]. f_equal. apply IH; lia. Qed.
Lemma vscale_nth (k : R) (a : list R) i : (i < length a)%nat -> nth i (@vscale ROps k a) 0 = k * nth i a 0.
Proof. revert i. induction a as [|u a IH]; intros i Hi; cbn in *; [lia|]. destruct i; cbn; [reflexivity|]. apply IH. lia. Qed.
Lemma vscale_len (k : R) (a : list R) : length (@vscale ROps k a) = length a.
Proof. unfold vscale. now rewrite map_length. Qed.

Lemma zadd (l : list R) : @vadds ROps (@nQ ROps 0%Q) l = l.
Proof. unfold vadds. induction l as [|a l IH]; [reflexivity|]. cbn [map]. rewrite IH. f_equal. rops. qlit. lra. Qed.

Lemma eval_fold theta n : forall (rest : list (list R)) (acc : list R) (p : R), length acc = n -> (forall v, In v rest -> length v = n) ->
  let r := fst (fold_left (fun (acc : list R * R) coef => let q := snd acc * theta in (@vadd ROps (fst acc) (@vscale ROps q coef), q)) rest (acc, p)) in
  length r = n /\ forall i, (i < n)%nat -> nth i r 0 = nth i acc 0 + p * theta * poly (entries i rest) theta.
Proof.
  induction rest as [|c rest IH]; intros acc p Ha Hr; cbn [fold_left].
  - cbn. split; auto. intros i Hi. unfold poly, entries. cbn. ring.
  - cbv zeta. cbn [fst snd]. assert (Lc : length c = n) by (apply Hr; now left).
    destruct (IH (@vadd ROps acc (@vscale ROps (p * theta) c)) (p * theta)) as (L & E).
    + apply vadd_len; auto. rewrite vscale_len; auto.
    + intros v Hv. apply Hr. now right.
    + split; [exact L|]. intros i Hi. etransitivity; [apply E; exact Hi|]. unfold entries. cbn [map]. rewrite poly_cons.
      rewrite (vadd_nth acc _ i n) by (auto; rewrite vscale_len; auto). rewrite vscale_nth by lia. fold (entries i rest). ring.
Qed.

(** Interpolator.evaluate on any list of at least two coefficient vectors is the polynomial with these coefficients in
    (t - t0) / (t1 - t0), component by component; it raises IndexError on shorter lists. *)
Lemma C181_evaluate_pf :
  forall n coefs t0 t1 t, (2 <= length coefs)%nat -> (forall c, In c coefs -> length c = n) -> t0 <> t1 ->
  exists v, @interp_evaluate ROps coefs t0 t1 t = Ok v /\ length v = n /\
  forall i, (i < n)%nat -> nth i v 0 = poly (entries i coefs) ((t - t0) / (t1 - t0)).
Proof.
  intros n coefs t0 t1 t Hl Hc Ht. destruct coefs as [|c0 [|c1 rest]]; cbn in Hl; try lia.
  unfold interp_evaluate. rops. set (theta := (t - t0) / (t1 - t0)).
  assert (L0 : length c0 = n) by (apply Hc; now left). assert (L1 : length c1 = n) by (apply Hc; right; now left).
  assert (La : length (@vadd ROps c0 (@vscale ROps theta c1)) = n) by (apply vadd_len; auto; rewrite vscale_len; auto).
  destruct (eval_fold theta n rest (@vadd ROps c0 (@vscale ROps theta c1)) theta La) as (L & E); [intros v Hv; apply Hc; right; right; exact Hv|].
  eexists. split; [reflexivity|]. split; [exact L|]. intros i Hi. etransitivity; [apply E; exact Hi|].
  unfold entries. cbn [map]. rewrite !poly_cons. rewrite (vadd_nth c0 _ i n) by (auto; rewrite vscale_len; auto). rewrite vscale_nth by lia.
  fold (entries i rest). ring.
Qed.

Lemma C181_short_pf :
  forall coefs t0 t1 t, (length coefs < 2)%nat -> @interp_evaluate ROps coefs t0 t1 t = Err IndexError.
Proof. intros coefs t0 t1 t H. destruct coefs as [|c0 [|c1 rest]]; cbn in H; try lia; reflexivity. Qed.

(** The ends: the constant coefficient at [t0], the sum of all coefficients at [t1]; and only the position of [t] relative to the
    interval matters. *)
Lemma C181_ends_pf :
  forall n coefs t0 t1, (2 <= length coefs)%nat -> (forall c, In c coefs -> length c = n) -> t0 <> t1 ->
  (exists v, @interp_evaluate ROps coefs t0 t1 t0 = Ok v /\ length v = n /\ forall i, (i < n)%nat -> nth i v 0 = nth i (nth 0 coefs []) 0) /\
  (exists v, @interp_evaluate ROps coefs t0 t1 t1 = Ok v /\ length v = n /\ forall i, (i < n)%nat -> nth i v 0 = fold_right Rplus 0 (entries i coefs)) /\
  (forall a b t, a <> 0 -> @interp_evaluate ROps coefs (a * t0 + b) (a * t1 + b) (a * t + b) = @interp_evaluate ROps coefs t0 t1 t).
Proof.
  intros n coefs t0 t1 Hl Hc Ht. split; [|split].
  - destruct (C181_evaluate_pf n coefs t0 t1 t0 Hl Hc Ht) as (v & E & L & N). exists v. split; [exact E|]. split; [exact L|].
    intros i Hi. rewrite N by exact Hi. replace ((t0 - t0) / (t1 - t0)) with 0 by (field; lra).
    destruct coefs as [|c0 rest]; cbn in Hl; [lia|]. unfold entries. cbn [map nth]. rewrite poly_cons. rewrite Rmult_0_l, Rplus_0_r. reflexivity.
  - destruct (C181_evaluate_pf n coefs t0 t1 t1 Hl Hc Ht) as (v & E & L & N). exists v. split; [exact E|]. split; [exact L|].
    intros i Hi. rewrite N by exact Hi. replace ((t1 - t0) / (t1 - t0)) with 1 by (field; lra).
    generalize (entries i coefs). induction l as [|a l IH]; [reflexivity|]. rewrite poly_cons, IH. rewrite Rmult_1_l. reflexivity.
  - intros a b t Ha. unfold interp_evaluate. rops.
    replace ((a * t + b - (a * t0 + b)) / (a * t1 + b - (a * t0 + b))) with ((t - t0) / (t1 - t0)); [reflexivity|].
    field. split; [|lra]. replace (a * t1 + b - (a * t0 + b)) with (a * (t1 - t0)) by ring. apply Rmult_integral_contrapositive_currified; lra.
Qed.

(** The mid point of an accepted step: the weighted sum of the stages, IndexError if there are more stages than weights. *)
Lemma C181_mid_pf :
  forall n (bmid : list R) (stages : list (list R)), (forall s, In s stages -> length s = n) ->
  ((length bmid < length stages)%nat -> @bmid_sum ROps bmid stages = Err IndexError) /\
  ((1 <= length stages <= length bmid)%nat -> exists v, @bmid_sum ROps bmid stages = Ok v /\ length v = n /\
     forall i, (i < n)%nat -> nth i v 0 = fold_right Rplus 0 (map (fun p => fst p * nth i (snd p) 0) (combine bmid stages))).
Proof.
  intros n bmid stages Hs. split.
  - intros H. unfold bmid_sum. assert (E : @bmid_terms ROps bmid stages = Err IndexError).
    { revert bmid H. induction stages as [|s st IH]; intros bmid H; cbn in H; [lia|]. destruct bmid as [|b bmid]; [reflexivity|].
      cbn [bmid_terms]. rewrite (IH (fun s0 h => Hs s0 (or_intror h)) bmid) by (cbn in H; lia). reflexivity. }
    rewrite E. reflexivity.
  - intros H. unfold bmid_sum.
    assert (E : forall st bm, (length st <= length bm)%nat -> @bmid_terms ROps bm st = Ok (map (fun p => @vscale ROps (fst p) (snd p)) (combine bm st))).
    { induction st as [|s st IH]; intros [|b bm] L; try (now inversion L); try reflexivity. cbn [bmid_terms combine map fst snd]. rewrite IH by (apply le_S_n; exact L). reflexivity. }
    rewrite E by (exact (proj2 H)). cbn [rbind]. destruct stages as [|s st]; [cbn in H; lia|]. destruct bmid as [|b bm]; [cbn in H; lia|]. cbn [combine map fst snd].
    assert (F : forall l (acc : list R), length acc = n -> (forall p, In p l -> length (snd p) = n) ->
      length (fold_left (@vadd ROps) (map (fun p : R * list R => @vscale ROps (fst p) (snd p)) l) acc) = n /\
      forall i, (i < n)%nat -> nth i (fold_left (@vadd ROps) (map (fun p : R * list R => @vscale ROps (fst p) (snd p)) l) acc) 0 = nth i acc 0 + fold_right Rplus 0 (map (fun p => fst p * nth i (snd p) 0) l)).
    { induction l as [|p l IH]; intros acc La Hp; cbn [map fold_left fold_right]; [split; auto; intros; symmetry; apply Rplus_0_r|].
      assert (Lp : length (snd p) = n) by (apply Hp; now left).
      destruct (IH (@vadd ROps acc (@vscale ROps (fst p) (snd p)))) as (L & N); [apply vadd_len; auto; rewrite vscale_len; auto|intros q Hq; apply Hp; now right|].
      split; [exact L|]. intros i Hi. rewrite N by exact Hi. rewrite (vadd_nth acc _ i n) by (auto; rewrite vscale_len; auto). rewrite vscale_nth by lia. apply Rplus_assoc. }
    assert (Ls : length s = n) by (apply Hs; now left).
    assert (Z : length (@vadds ROps (@nQ ROps 0%Q) (@vscale ROps b s)) = n /\ forall i, (i < n)%nat -> nth i (@vadds ROps (@nQ ROps 0%Q) (@vscale ROps b s)) 0 = b * nth i s 0).
    { rewrite zadd, vscale_len. split; auto. intros i Hi. apply vscale_nth. lia. }
    destruct Z as (LZ & NZ). destruct (F (combine bm st) _ LZ) as (L & N).
    { intros p Hp. destruct p as (b', s'). apply in_combine_r in Hp. apply Hs. now right. }
    eexists. split; [reflexivity|]. split; [exact L|]. intros i Hi. etransitivity; [apply N; exact Hi|]. rewrite NZ by exact Hi. reflexivity.
Qed.

(** Three coefficients at the middle of [0, 2]. *)
Lemma C181_ex_pf : exists v, @interp_evaluate ROps [[1; 0]; [2; 4]; [4; 8]] 0 2 1 = Ok v /\ nth 0 v 0 = 3 /\ nth 1 v 0 = 4.
Proof.
  destruct (C181_evaluate_pf 2 [[1; 0]; [2; 4]; [4; 8]] 0 2 1) as (v & E & L & N); [cbn; lia|intros c [<-|[<-|[<-|[]]]]; reflexivity|lra|].
  exists v. split; [exact E|]. split; rewrite N by lia; unfold entries, poly; cbn; field.
Qed.

(** ** make_norm *)
(** make_norm on an augmented state (time entry, state, adjoint, parameter gradients): the larger of the root mean squares of the
    state and of the adjoint; the time entry and the parameter gradients do not count. *)
Lemma C182_make_norm_pf :
  forall n tau (y a rest : list R), length y = n -> length a = n ->
  @make_norm ROps n (tau :: y ++ a ++ rest) = Rmax (rms y) (rms a).
Proof.
  intros n tau y a rest Hy Ha. unfold make_norm. cbn [skipn Nat.add].
  rewrite firstn_app, Hy, Nat.sub_diag, firstn_O, app_nil_r, firstn_all2 by lia.
  rewrite skipn_app, Hy, Nat.sub_diag, skipn_all2 by lia. cbn [skipn app].
  rewrite firstn_app, Ha, Nat.sub_diag, firstn_O, app_nil_r, firstn_all2 by lia.
  rewrite !hairer_rms. unfold pymax. rops. unfold Rltb, Rmax. destruct (Rlt_dec _ _), (Rle_dec _ _); lra.
Qed.

(** It is a seminorm on augmented states that vanishes exactly when state and adjoint vanish. *)
Lemma C182_seminorm_pf :
  forall n tau (y a rest : list R), length y = n -> length a = n ->
  let N := fun v => @make_norm ROps n v in
  0 <= N (tau :: y ++ a ++ rest) /\
  (N (tau :: y ++ a ++ rest) = 0 <-> forall u, In u (y ++ a) -> u = 0) /\
  (forall c, N (map (Rmult c) (tau :: y ++ a ++ rest)) = Rabs c * N (tau :: y ++ a ++ rest)) /\
  (forall tau' y' a' rest', length y' = n -> length a' = n -> length rest' = length rest ->
     N (plus_list (tau :: y ++ a ++ rest) (tau' :: y' ++ a' ++ rest')) <= N (tau :: y ++ a ++ rest) + N (tau' :: y' ++ a' ++ rest')).
Proof.
  intros n tau y a rest Hy Ha N. unfold N. clear N. rewrite C182_make_norm_pf by auto.
  destruct (C19_error_norm_pf y) as (_ & P1 & Z1 & S1 & T1 & _). destruct (C19_error_norm_pf a) as (_ & P2 & Z2 & S2 & T2 & _).
  split; [eapply Rle_trans; [exact P1|apply Rmax_l]|]. split; [|split].
  - split.
    + intros H u Hu. pose proof (Rmax_l (rms y) (rms a)). pose proof (Rmax_r (rms y) (rms a)). apply in_app_or in Hu. destruct Hu as [Hu|Hu].
      * apply (proj1 Z1); auto. lra.
      * apply (proj1 Z2); auto. lra.
    + intros H. rewrite (proj2 Z1), (proj2 Z2); [apply Rmax_left; lra|intros u Hu; apply H, in_or_app; auto|intros u Hu; apply H, in_or_app; auto].
  - intros c. cbn [map]. rewrite !map_app. rewrite C182_make_norm_pf by (now rewrite map_length). rewrite S1, S2. rewrite RmaxRmult; [reflexivity|apply Rabs_pos].
  - intros tau' y' a' rest' Hy' Ha' Hr.
    assert (E : plus_list (tau :: y ++ a ++ rest) (tau' :: y' ++ a' ++ rest') = (tau + tau') :: plus_list y y' ++ plus_list a a' ++ plus_list rest rest').
    { assert (C : forall (u u' w w' : list R), length u = length u' -> plus_list (u ++ w) (u' ++ w') = plus_list u u' ++ plus_list w w').
      { induction u as [|p u IH]; intros [|p' u'] w w' H; cbn in H; try lia; [reflexivity|]. unfold plus_list in *. cbn. f_equal. apply IH. lia. }
      rewrite <- !C by lia. reflexivity. }
    rewrite E. assert (PL : forall u u' : list R, length u = length u' -> length (plus_list u u') = length u).
    { intros u u' H. unfold plus_list. rewrite map_length, combine_length. lia. }
    rewrite !C182_make_norm_pf by (rewrite ?PL; lia).
    pose proof (T1 y' ltac:(lia)). pose proof (T2 a' ltac:(lia)).
    pose proof (Rmax_l (rms y) (rms a)). pose proof (Rmax_r (rms y) (rms a)). pose proof (Rmax_l (rms y') (rms a')). pose proof (Rmax_r (rms y') (rms a')).
    apply Rmax_lub; lra.
Qed.

(** A state of norm 1 with an adjoint of norm 5, whatever the time entry and the parameter gradients. *)
Lemma C182_ex_pf : forall tau rest, @make_norm ROps 1 (tau :: [1] ++ [-5] ++ rest) = 5.
Proof.
  intros tau rest. rewrite C182_make_norm_pf by reflexivity. unfold rms. cbn [sum_sq length INR].
  replace ((1 * 1 + 0) / 1) with (1 * 1) by field. replace ((-5 * -5 + 0) / 1) with (5 * 5) by field. rewrite !sqrt_square by lra. apply Rmax_right. lra.
Qed.
