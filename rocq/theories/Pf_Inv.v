(** Proofs: linear invariants, equilibria, changes of coordinates and batches. *)
From Coq Require Import ZArith QArith Qreals Reals Lra Lia List Bool Sorted.
From Verif Require Import Num Py Tensor M_Constants M_SolversOde M_Utils M_Interp M_Odeint.
From Verif Require Import Spec_Ode Spec_Trees Spec_RK Spec_Norm Spec_Adaptive Spec_Inv.
From Verif Require Import L_Base L_Fixed L_Vec L_Steps L_Tables L_Steps2 L_Interp L_Utils L_Fixed2 L_Adaptive L_Run.
From Verif Require Import L_Adaptive2 L_Adaptive3 L_Adaptive4 Pf_Fixed Pf_Adaptive L_Reach L_Inv.
Import ListNotations.
Local Open Scope R_scope.

(** C83.  If w . f(t, y) = 0 for all t and y, every state returned by any built-in solver (euler,
    midpoint, rk4, dopri5, tsit5; forwards or backwards; any tolerances, save_at, interpolator,
    return_all_eval) has the same w . y as the initial condition. *)
Lemma C83_linear_invariant_pf :
  forall fuel s rows b n f w x ts atol rtol interp all save_at semi times sol,
  builtin_method s rows b -> field_on n f -> List.length x = n -> monotone ts -> (2 <= List.length ts)%nat ->
  (forall t y, List.length y = n -> inner w (f t y) = 0) ->
  snd (@odeint ROps fuel f x (@TTensor ROps ts) s atol rtol interp all save_at semi) = Ok (times, sol) ->
  forall y, In y sol -> inner w y = inner w x.
Proof.
  intros fuel s rows b n f w x ts atol rtol interp all save_at semi times sol HM Hf Hx Hm Hl Hw Hr y Hy.
  assert (R1 : forall t0 t z, reached rows b f t0 x t z -> inner w z = inner w x).
  { intros t0 t z H. induction H as [|t h z H IH]; auto.
    rewrite (inner_step0 w n); auto. eapply reached_len; eauto. }
  destruct (odeint_output fuel s rows b n f x ts atol rtol interp all save_at semi times sol HM Hf Hx Hm Hl Hr y Hy)
    as (t0 & t & [H|(_ & _ & t1 & h & y1 & H & Hh & ->)]); [now apply (R1 t0 t)|].
  assert (L : List.length y1 = n) by (eapply reached_len; eauto).
  rewrite (inner_dense w n); auto. rewrite !(inner_step0 w n) by auto.
  rewrite !Hw by (auto; now apply erk_step_len). rewrite (R1 _ _ _ H). unfold quartic_interp. ring.
Qed.

Lemma sum_weights s rows b : builtin_method s rows b -> exists beta, beta = fold_right Rplus 0 b /\
  Rabs (beta - 1) <= 1 / 10 ^ 80 /\ (s <> Tsitouras45 ROps -> beta = 1) /\ (List.length b <= List.length rows)%nat.
Proof.
  intros H. eexists. split; [reflexivity|].
  assert (P80 : 0 < 1 / 10 ^ 80) by (apply Rdiv_lt_0_compat; [lra|apply pow_lt; lra]).
  destruct H as [[(-> & -> & ->)|[(-> & -> & ->)|(-> & -> & ->)]]|[bh [(-> & -> & -> & _)|(-> & -> & -> & _)]]].
  - assert (E : fold_right Rplus 0 (to_R qb_euler) = 1) by (unfold to_R, qb_euler; cbn [map fold_right]; qlit; lra).
    rewrite E. split; [|auto]. replace (1 - 1) with 0 by ring. rewrite Rabs_R0. lra.
  - assert (E : fold_right Rplus 0 (to_R qb_midpoint) = 1) by (unfold to_R, qb_midpoint; cbn [map fold_right]; qlit; lra).
    rewrite E. split; [|auto]. replace (1 - 1) with 0 by ring. rewrite Rabs_R0. lra.
  - assert (E : fold_right Rplus 0 (to_R qb_rk4) = 1) by (unfold to_R, qb_rk4; cbn [map fold_right]; qlit; lra).
    rewrite E. split; [|auto]. replace (1 - 1) with 0 by ring. rewrite Rabs_R0. lra.
  - assert (E : fold_right Rplus 0 (to_R qb5_dopri5) = 1) by (unfold to_R, qb5_dopri5; cbn [map fold_right]; qlit; lra).
    rewrite E. split; [|auto]. replace (1 - 1) with 0 by ring. rewrite Rabs_R0. lra.
  - assert (E : forall l : list Q, fold_right Rplus 0 (to_R l) = Q2R (fold_right Qplus 0%Q l)).
    { clear. induction l as [|q l IH]; cbn [to_R map fold_right].
      - symmetry. apply RMicromega.Q2R_0.
      - rewrite Q2R_plus. f_equal. exact IH. }
    rewrite E. set (q := fold_right Qplus 0%Q (qb7 (construct_tsit5 QRaw))).
    assert (Hq : (q - 1 <= 1 # 10 ^ 80)%Q /\ (- (1 # 10 ^ 80) <= q - 1)%Q).
    { split; vm_compute; discriminate. }
    destruct Hq as [Hq1 Hq2]. apply Qle_Rle in Hq1, Hq2. rewrite Q2R_opp in Hq2. rewrite Q2R_minus in Hq1, Hq2.
    assert (E1 : Q2R 1 = 1) by (unfold Q2R; simpl; lra). rewrite E1 in Hq1, Hq2.
    assert (E2 : Q2R (1 # 10 ^ 80) = 1 / 10 ^ 80).
    { unfold Q2R. cbn [Qnum Qden]. unfold Rdiv. f_equal. f_equal. rewrite (pow_IZR 10 80). f_equal. }
    rewrite E2 in Hq1, Hq2. split; [apply Rabs_le; lra|]. split; [congruence|vm_compute; lia].
Qed.

(** C83, constant rate.  If w . f(t, y) = a for all t and y (a clock, a linearly growing quantity),
    every returned state y at time t has w . y = w . x + a (t - t_0) exactly (for tsit5 with a
    replaced by beta a, beta within 1e-80 of 1: its weights are decimal constants). *)
Lemma C83_constant_rate_pf :
  forall s rows b, builtin_method s rows b ->
  exists beta, Rabs (beta - 1) <= 1 / 10 ^ 80 /\ (s <> Tsitouras45 ROps -> beta = 1) /\
  forall fuel n f w a x t0 ts atol rtol all semi times sol,
  field_on n f -> List.length x = n -> increasing (t0 :: ts) -> (1 <= List.length ts)%nat ->
  (forall t y, List.length y = n -> inner w (f t y) = a) ->
  snd (@odeint ROps fuel f x (@TTensor ROps (t0 :: ts)) s atol rtol false all [] semi) = Ok (times, sol) ->
  List.length sol = List.length times /\
  forall i t y, nth_error times i = Some t -> nth_error sol i = Some y ->
  inner w y = inner w x + beta * a * (t - t0).
Proof.
  intros s rows b HM. destruct (sum_weights s rows b HM) as (beta & Eb & H1 & H2 & HL).
  exists beta. split; auto. split; auto.
  intros fuel n f w a x t0 ts atol rtol all semi times sol Hf Hx Hinc Hl Hw Hr.
  destruct (odeint_output_inc fuel s rows b n f x t0 ts atol rtol false all semi times sol HM Hf Hx Hinc Hl Hr) as [HLn HO].
  split; auto. intros i t y Ht Hy.
  destruct (HO i t y Ht Hy) as [H|(_ & H & _)]; [|discriminate].
  clear Ht Hy HO. induction H as [|t h z H IH]; [ring|].
  rewrite (inner_step w a n) by (auto; eapply reached_len; eauto). rewrite IH, <- Eb. ring.
Qed.

(** C83.  A constant field v is integrated exactly: coordinate j of the state at time t is
    x_j + v_j (t - t_0). *)
Lemma inner_unit (j n : nat) : (j < n)%nat -> exists w, forall y, List.length y = n -> inner w y = nth j y 0.
Proof.
  intros Hj. exists (repeat 0 j ++ [1]). revert n Hj. induction j as [|j IH]; intros n Hj y Hy.
  - destruct y as [|a y]; simpl in *; [lia|]. ring_simplify. destruct y; ring.
  - destruct y as [|a y]; simpl in *; [lia|]. rewrite (IH (Nat.pred n)) by lia. ring.
Qed.

Lemma C83_constant_field_pf :
  forall fuel s rows b n v x t0 ts atol rtol all semi times sol,
  builtin_method s rows b -> s <> Tsitouras45 ROps ->
  List.length v = n -> List.length x = n -> increasing (t0 :: ts) -> (1 <= List.length ts)%nat ->
  snd (@odeint ROps fuel (fun _ _ => v) x (@TTensor ROps (t0 :: ts)) s atol rtol false all [] semi) = Ok (times, sol) ->
  List.length sol = List.length times /\
  forall i t y j, nth_error times i = Some t -> nth_error sol i = Some y -> (j < n)%nat ->
  nth j y 0 = nth j x 0 + nth j v 0 * (t - t0).
Proof.
  intros fuel s rows b n v x t0 ts atol rtol all semi times sol HM Hne Hv Hx Hinc Hl Hr.
  assert (Hf : field_on n (fun _ _ => v)) by (intros t y _; auto).
  destruct (C83_constant_rate_pf s rows b HM) as (beta & _ & Hb & H). specialize (Hb Hne). subst beta.
  destruct (odeint_output_inc fuel s rows b n (fun _ _ => v) x t0 ts atol rtol false all semi times sol HM Hf Hx Hinc Hl Hr) as [HLn HO].
  split; auto. intros i t y j Ht Hy Hj. destruct (inner_unit j n Hj) as [w Hw].
  destruct (H fuel n (fun _ _ => v) w (inner w v) x t0 ts atol rtol all semi times sol Hf Hx Hinc Hl) as [_ Hi]; auto.
  specialize (Hi i t y Ht Hy).
  assert (Ly : List.length y = n).
  { destruct (HO i t y Ht Hy) as [Hq|(_ & Hq & _)]; [|discriminate]. eapply reached_len; eauto. }
  rewrite !Hw in Hi by auto. rewrite Rmult_1_l in Hi. exact Hi.
Qed.

(** The exchange field (- x y, x y) keeps x + y. *)
Lemma C83_ex_pf : let f := fun (t : R) (y : list R) => [- (nth 0 y 0 * nth 1 y 0); nth 0 y 0 * nth 1 y 0] in
  field_on 2 f /\ (forall t y, List.length y = 2%nat -> inner [1; 1] (f t y) = 0) /\ f 0 [1; 2] = [- 2; 2] /\
  builtin_method (DormandPrince45 ROps) (to_R_rows q_dopri5) (to_R qb5_dopri5) /\ monotone [0; 1; 3] /\ monotone [3; 1; 0].
Proof.
  intros f. split; [intros t y _; reflexivity|]. split.
  { intros t y _. unfold f. cbn [inner]. ring. }
  split; [unfold f; cbn [nth]; f_equal; [ring|]; f_equal; ring|].
  split; [right; exists (to_R qb4_dopri5); left; auto|].
  split; [left; apply increasing_sorted; repeat constructor; lra|].
  right. intros i j u v Hij Hu Hv.
  destruct i as [|[|[|i]]]; simpl in Hu; try (destruct i; discriminate);
  destruct j as [|[|[|j]]]; simpl in Hv; try (destruct j; discriminate); try lia;
  injection Hu as <-; injection Hv as <-; lra.
Qed.

(** ** Equilibria *)
Lemma comb_zero n h x : List.length x = n -> forall ks w, (forall k, In k ks -> k = repeat 0 n) -> comb x h w ks = x.
Proof.
  intros Hx. unfold comb. induction ks as [|k ks IH]; intros [|w0 w] Hk; cbn [combine fold_left]; auto.
  cbn [fst snd]. rewrite (Hk k (or_introl eq_refl)).
  assert (E : axpy (h * w0) (repeat 0 n) x = x).
  { unfold axpy. clear - Hx. revert n Hx; induction x as [|a x IH]; intros n <-; simpl; auto. f_equal; [ring|]. now apply IH. }
  rewrite E. apply IH. intros k' Hk'. apply Hk. now right.
Qed.

Lemma erk_step_equilibrium n rows b f t h x : List.length x = n -> (forall u, f u x = repeat 0 n) -> erk_step rows b f t h x = x.
Proof.
  intros Hx He. unfold erk_step. apply (comb_zero n); auto. unfold erk_stages.
  assert (G : forall rows acc, (forall k, In k acc -> k = repeat 0 n) ->
     forall k, In k (fold_left (fun ks r => ks ++ [f (t + fst r * h) (comb x h (snd r) ks)]) rows acc) -> k = repeat 0 n).
  { clear rows b. induction rows as [|r rows IH]; intros acc Ha k Hk; simpl in Hk; auto.
    revert k Hk. apply IH. intros k Hk. apply in_app_or in Hk. destruct Hk as [Hk|[<-|[]]]; auto.
    rewrite (comb_zero n h x Hx) by auto. apply He. }
  apply G. intros k [].
Qed.

Lemma nth_repeat0 n i : nth i (repeat 0 n) 0 = 0.
Proof. revert i; induction n as [|n IH]; intros [|i]; simpl; auto. Qed.

(** C84.  If f(t, x) = 0 for all t, every state returned from x by any built-in solver is x. *)
Lemma C84_equilibrium_pf :
  forall fuel s rows b n f x ts atol rtol interp all save_at semi times sol,
  builtin_method s rows b -> field_on n f -> List.length x = n -> monotone ts -> (2 <= List.length ts)%nat ->
  (forall t, f t x = repeat 0 n) ->
  snd (@odeint ROps fuel f x (@TTensor ROps ts) s atol rtol interp all save_at semi) = Ok (times, sol) ->
  forall y, In y sol -> y = x.
Proof.
  intros fuel s rows b n f x ts atol rtol interp all save_at semi times sol HM Hf Hx Hm Hl He Hr y Hy.
  assert (R1 : forall t0 t z, reached rows b f t0 x t z -> z = x).
  { intros t0 t z H. induction H as [|t h z H ->]; auto. now apply (erk_step_equilibrium n). }
  destruct (odeint_output fuel s rows b n f x ts atol rtol interp all save_at semi times sol HM Hf Hx Hm Hl Hr y Hy)
    as (t0 & t & [H|(_ & _ & t1 & h & y1 & H & Hh & ->)]); [now apply (R1 t0 t)|].
  rewrite (R1 _ _ _ H). unfold pair_dense. rewrite !(erk_step_equilibrium n) by auto. rewrite !He.
  transitivity (map (fun i => nth i x 0) (seq 0 (List.length x))); [|now apply nth_seq_self].
  apply map_ext. intros i. rewrite nth_repeat0. unfold quartic_interp. ring.
Qed.

(** C84.  From an equilibrium the adaptive solvers return (given enough iterations), whatever the
    field is elsewhere. *)
Lemma C84_returns_pf :
  forall s rows b bh n f x t0 t1 ts atol rtol interp all save_at semi,
  builtin_pair s rows b bh -> field_on n f -> List.length x = n -> increasing (t0 :: t1 :: ts) ->
  0 < atol -> 0 <= rtol -> (1 <= n)%nat -> semi <> Some 0%nat ->
  (forall t, f t x = repeat 0 n) ->
  exists fuel r,
    snd (@odeint ROps fuel f x (@TTensor ROps (t0 :: t1 :: ts)) s atol rtol interp all save_at semi) = Ok r.
Proof.
  intros s rows b bh n f x t0 t1 ts atol rtol interp all save_at semi HP Hf Hx Hinc Ha Hb Hn Hsm He.
  apply (C14_termination_pf s rows b bh n f x t0 t1 ts atol rtol interp all save_at semi (fun _ y => y = x) 1 HP Hf Hx Hinc); auto.
  - lra.
  - intros t h y y' -> _ _ _ [-> _]. now apply (erk_step_equilibrium n).
  - intros t h y -> _ _ _. rewrite !(erk_step_equilibrium n) by auto.
    assert (E : scaled_error atol rtol semi x x (minus_list x x) = 0).
    { unfold scaled_error.
      set (cut := fun l : list R => match semi with Some d => firstn d l | None => l end).
      assert (E0 : forall u v, (forall e, In e u -> e = 0) ->
        rms (map (fun q => fst q / (atol + rtol * Rmax (Rabs (fst (snd q))) (Rabs (snd (snd q))))) (combine u v)) = 0).
      { intros u v Hu. unfold rms.
        match goal with |- sqrt (?S / _) = 0 => assert (E : S = 0) end.
        { revert v. induction u as [|a u IH]; intros [|c v]; simpl; auto.
          rewrite IH by (intros e Hin; apply Hu; now right). rewrite (Hu a (or_introl eq_refl)).
          unfold Rdiv. ring. }
        rewrite E. unfold Rdiv. rewrite Rmult_0_l. apply sqrt_0. }
      apply E0. intros e Hin.
      assert (Hin' : In e (minus_list x x)).
      { unfold cut in Hin. destruct semi; auto. rewrite <- (firstn_skipn n0 (minus_list x x)). apply in_or_app; auto. }
      clear - Hin'. unfold minus_list in Hin'. apply in_map_iff in Hin'. destruct Hin' as ([a c] & <- & Hin).
      assert (a = c). { revert Hin. induction x as [|u x IH]; simpl; [intros []|]. intros [[= <- <-]|H]; auto. }
      subst. simpl. ring. }
    rewrite E. lra.
Qed.

Lemma C84_ex_pf : let f := fun (t : R) (y : list R) => [nth 0 y 0 * (1 - nth 0 y 0)] in
  field_on 1 f /\ (forall t, f t [1] = repeat 0 1) /\ f 0 [2] <> [0].
Proof.
  intros f. split; [intros t y _; reflexivity|]. split.
  - intros t. unfold f. cbn [nth repeat]. f_equal. ring.
  - unfold f. cbn [nth]. intros [= H]. lra.
Qed.

(** ** Changes of coordinates *)
Lemma inner_axpy_lin r a k x : List.length k = List.length x -> inner r (axpy a k x) = inner r x + a * inner r k.
Proof. apply inner_axpy. Qed.

(** C85.  Fixed-step solvers commute with affine maps y -> M y + c: if g(t, M y + c) = M f(t, y), the
    solve of g from M x + c returns the same times (or the same exception) and the images of the
    states of the solve of f from x, for every grid and save_at.  M need not be invertible nor
    square. *)
Lemma C85_affine_fixed_pf :
  forall fuel s rows b n m f g M c x t0 t1 ts atol rtol interp all save_at semi,
  erk_solver s rows b -> field_on n f -> field_on m g -> List.length x = n ->
  List.length M = m -> List.length c = m ->
  (forall t y, List.length y = n -> g t (affine_map M c y) = apply_matrix M (f t y)) ->
  snd (@odeint ROps fuel g (affine_map M c x) (@TTensor ROps (t0 :: t1 :: ts)) s atol rtol interp all save_at semi) =
  rmap (fun r => (fst r, map (affine_map M c) (snd r)))
    (snd (@odeint ROps fuel f x (@TTensor ROps (t0 :: t1 :: ts)) s atol rtol interp all save_at semi)).
Proof.
  intros fuel s rows b n m f g M c x t0 t1 ts atol rtol interp all save_at semi Hs Hf Hg Hx HM Hc Hfg.
  apply (odeint_fixed_map fuel s rows b n m f g (affine_map M c) (apply_matrix M)); auto.
  - unfold affine_map, apply_matrix. rewrite map_length, combine_length, map_length, HM, Hc. apply Nat.min_id.
  - intros a k y Hk Hy. unfold affine_map, apply_matrix. clear HM Hc Hfg Hg m.
    revert c. induction M as [|r M IH]; intros [|c0 c]; cbn [map combine]; auto.
    unfold axpy in *. cbn [map combine fst snd]. f_equal; [|apply IH].
    change (map (fun p => fst p + a * snd p) (combine y k)) with (axpy a k y).
    rewrite inner_axpy by congruence. ring.
Qed.

Lemma C85_ex_pf : let f := fun (t : R) (y : list R) => [nth 1 y 0; - nth 0 y 0] in
  let M := [[1; 1]; [0; 2]; [1; 0]] in let c := [1; 0; -1] in
  exists g, field_on 2 f /\ field_on 3 g /\
  (forall t y, List.length y = 2%nat -> g t (affine_map M c y) = apply_matrix M (f t y)) /\ g 0 [1; 0; -1] <> g 0 [2; 2; 0].
Proof.
  intros f M c. exists (fun t z => [nth 1 z 0 / 2 - (nth 2 z 0 + 1); 2 * - (nth 2 z 0 + 1); nth 1 z 0 / 2]).
  split; [intros t y _; reflexivity|]. split; [intros t y _; reflexivity|]. split.
  - intros t [|u [|v [|]]] H; try discriminate. unfold affine_map, apply_matrix, M, c, f.
    cbn [map combine inner nth fst snd].
    f_equal; [field|]. f_equal; [field|]. f_equal. field.
  - cbn [nth]. intros H. injection H as H1 H2 H3. lra.
Qed.

(** ** Batches *)
Lemma sample_axpy d k i a : forall (ks ys : list R), List.length ks = (k * d)%nat -> List.length ys = (k * d)%nat ->
  sample d i (axpy a ks ys) = axpy a (sample d i ks) (sample d i ys).
Proof.
  intros ks ys _ _. unfold sample, axpy.
  assert (A : forall p (l m : list R), skipn p (map (fun q => fst q + a * snd q) (combine l m)) =
     map (fun q => fst q + a * snd q) (combine (skipn p l) (skipn p m))).
  { induction p as [|p IH]; intros [|u l] [|v m]; simpl; auto. now destruct (skipn p l). }
  assert (B : forall p (l m : list R), firstn p (map (fun q => fst q + a * snd q) (combine l m)) =
     map (fun q => fst q + a * snd q) (combine (firstn p l) (firstn p m))).
  { induction p as [|p IH]; intros [|u l] [|v m]; simpl; auto. f_equal. apply IH. }
  rewrite A, B. reflexivity.
Qed.

(** C86.  Fixed-step solvers treat the samples of a batch independently: sample i of every returned
    state of the batched solve is what the solve of sample i alone returns (same times, same
    exceptions). *)
Lemma C86_batch_fixed_pf :
  forall fuel s rows b d k f F X t0 t1 ts i atol rtol interp all save_at semi,
  erk_solver s rows b -> field_on d f -> batched d k f F -> List.length X = (k * d)%nat -> (i < k)%nat ->
  snd (@odeint ROps fuel f (sample d i X) (@TTensor ROps (t0 :: t1 :: ts)) s atol rtol interp all save_at semi) =
  rmap (fun r => (fst r, map (sample d i) (snd r)))
    (snd (@odeint ROps fuel F X (@TTensor ROps (t0 :: t1 :: ts)) s atol rtol interp all save_at semi)).
Proof.
  intros fuel s rows b d k f F X t0 t1 ts i atol rtol interp all save_at semi Hs Hf [HF Hb] HX Hi.
  apply (odeint_fixed_map fuel s rows b (k * d) d F f (sample d i) (sample d i)); auto.
  - unfold sample. rewrite firstn_length, skipn_length, HX. nia.
  - intros a u v Hu Hv. now apply (sample_axpy d k).
  - intros t y Hy. symmetry. now apply Hb.
Qed.

(** f(t, y) = y / t for t > 0 (0 otherwise), on each sample *)
Definition blow (t : R) (y : list R) : list R := map (fun u => u * pole t) y.

Lemma C86_ex_pf : batched 1 2 blow blow /\ field_on 1 blow /\ sample 1 0 [0; 1] = [0] /\ sample 1 1 [0; 1] = [1].
Proof.
  split; [|split; [intros t y H; unfold blow; now rewrite map_length|split; reflexivity]].
  split; [intros t y H; unfold blow; now rewrite map_length|].
  intros t y i Hy Hi. destruct y as [|u [|v [|]]]; try discriminate.
  destruct i as [|[|i]]; [reflexivity|reflexivity|lia].
Qed.

(** ** The field y / t from time 0, exactly *)
Fixpoint qdot (w ks : list Q) : Q := match w, ks with a :: w', k :: ks' => (a * k + qdot w' ks')%Q | _, _ => 0%Q end.
(** h times the stages *)
Definition qstages (rows : qrows) : list Q :=
  fold_left (fun ks r => ks ++ [if Qle_bool (fst r) 0 then 0%Q else ((1 + qdot (snd r) ks) / fst r)%Q]) rows [].
Definition stage1 (h : R) (q : Q) : list R := [Q2R q / h].

Lemma comb_stage1 h : h <> 0 -> forall w ks u, comb [u] h (map Q2R w) (map (stage1 h) ks) = [u + Q2R (qdot w ks)].
Proof.
  intros Hh. unfold comb. induction w as [|w0 w IH]; intros [|k ks] u; cbn [map combine fold_left qdot];
    try (rewrite Q2R_0'; f_equal; ring).
  cbn [fst snd]. unfold stage1 at 2. unfold axpy. cbn [combine map fst snd]. rewrite IH. rewrite Q2R_plus, Q2R_mult.
  f_equal. field. auto.
Qed.

Lemma stages_blow h rows : 0 < h -> erk_stages (to_R_rows rows) blow 0 h [1] = map (stage1 h) (qstages rows).
Proof.
  intros Hh. unfold erk_stages, qstages.
  assert (G : forall rows acc,
    fold_left (fun ks r => ks ++ [blow (0 + fst r * h) (comb [1] h (snd r) ks)]) (to_R_rows rows) (map (stage1 h) acc) =
    map (stage1 h) (fold_left (fun ks r => ks ++ [if Qle_bool (fst r) 0 then 0%Q else ((1 + qdot (snd r) ks) / fst r)%Q]) rows acc)).
  { clear rows. induction rows as [|r rows IH]; intros acc; cbn [to_R_rows map fold_left]; auto.
    rewrite <- IH. f_equal. rewrite map_app. f_equal. cbn [map fst snd]. rewrite comb_stage1 by lra.
    unfold blow. cbn [map]. unfold stage1, pole. f_equal. f_equal.
    destruct (Qle_bool (fst r) 0) eqn:E.
    - apply Qle_bool_iff, Qle_Rle in E. rewrite Q2R_0' in E.
      destruct (Rle_dec (0 + Q2R (fst r) * h) 0) as [_|H]; [rewrite Q2R_0'; unfold Rdiv; ring|].
      exfalso. apply H. rewrite Rplus_0_l. nra.
    - assert (Hq : (0 < fst r)%Q). { apply Qnot_le_lt. intros H. apply Qle_bool_iff in H. congruence. }
      assert (Hr : 0 < Q2R (fst r)). { apply Qlt_Rlt in Hq. now rewrite Q2R_0' in Hq. }
      destruct (Rle_dec (0 + Q2R (fst r) * h) 0) as [H|_]; [exfalso; nra|].
      rewrite Q2R_div. 2:{ intros H. rewrite H in Hq. discriminate. }
      rewrite Q2R_plus, Q2R_1'. field. split; lra. }
  apply (G rows []).
Qed.

Lemma step_blow h rows w : 0 < h -> erk_step (to_R_rows rows) (to_R w) blow 0 h [1] = [1 + Q2R (qdot w (qstages rows))].
Proof. intros Hh. unfold erk_step. rewrite stages_blow by auto. apply comb_stage1. lra. Qed.

Lemma blow_coord (y : list R) i : (i < length y)%nat -> forall rows w t h,
  nth i (erk_step rows w blow t h y) 0 = nth 0 (erk_step rows w blow t h [nth i y 0]) 0.
Proof.
  intros Hi rows w t h. set (n := length y).
  assert (Hf : field_on n blow) by (intros u z Hz; unfold blow; now rewrite map_length).
  pose proof (step_map n (fun z => [nth i z 0]) (fun z => [nth i z 0]) blow blow 0 Hf) as H.
  rewrite Rplus_0_r in H || idtac.
  specialize (H ltac:(intros a k z Hk Hz; unfold axpy at 2; cbn [combine map fst snd]; f_equal; apply (nth_axpy n); auto)).
  specialize (H ltac:(intros u z Hz; rewrite Rplus_0_r; unfold blow; cbn [map]; f_equal;
    symmetry; apply (nth_map_R n i ltac:(auto) (fun v => v * pole u) z Hz))).
  specialize (H rows w t h y eq_refl). rewrite Rplus_0_r in H. rewrite H. reflexivity.
Qed.

(** C86, refuted for the adaptive solvers: the step size is shared by the batch.  With f(t, y) = y/t
    for t > 0 (0 otherwise) on [0; 1], dopri5 with default tolerances solves the sample y = 0 alone,
    but never returns on the batch (0, 1). *)
Lemma C86_batch_adaptive_refuted_pf :
  exists d k f F X ts, field_on d f /\ batched d k f F /\ List.length X = (k * d)%nat /\ (0 < k)%nat /\ increasing ts /\
  let solve g x fuel := snd (@odeint ROps fuel g x (@TTensor ROps ts) (DormandPrince45 ROps) (1/1000) (1/1000)
       false false [] None) in
  (exists fuel r, solve f (sample d 0 X) fuel = Ok r) /\ (forall fuel, solve F X fuel = OutOfFuel).
Proof.
  exists 1%nat, 2%nat, blow, blow, [0; 1], [0; 1].
  destruct C86_ex_pf as (Hb & Hf & E0 & E1).
  assert (Hi : increasing [0; 1]) by (apply increasing_sorted; repeat constructor; lra).
  split; [exact Hf|]. split; [exact Hb|]. split; [reflexivity|]. split; [lia|]. split; [exact Hi|].
  cbv zeta. split.
  - rewrite E0.
    apply (C84_returns_pf _ (to_R_rows q_dopri5) (to_R qb5_dopri5) (to_R qb4_dopri5) 1); auto; try lra; try discriminate.
    { left; auto. }
    intros t. unfold blow. cbn [map repeat]. f_equal. ring.
  - assert (HF : field_on 2 blow) by (intros u z Hz; unfold blow; now rewrite map_length).
    apply (C15_no_step_limit_pf _ (to_R_rows q_dopri5) (to_R qb5_dopri5) (to_R qb4_dopri5) 2); auto.
    { left; auto. }
    intros h Hh _.
    assert (Ew : forall w, erk_step (to_R_rows q_dopri5) (to_R w) blow 0 h [0; 1] = [0; 1 + Q2R (qdot w (qstages q_dopri5))]).
    { intros w. apply (list_ext 2); [apply erk_step_len; auto|reflexivity|].
      intros i Hi2. rewrite blow_coord by (simpl; lia).
      destruct i as [|[|i]]; [| |lia]; cbn [nth].
      - rewrite (erk_step_equilibrium 1); auto. intros u. unfold blow. cbn [map repeat]. f_equal. ring.
      - rewrite step_blow by auto. reflexivity. }
    rewrite !Ew. set (q5 := qdot qb5_dopri5 (qstages q_dopri5)). set (q4 := qdot qb4_dopri5 (qstages q_dopri5)).
    assert (H5 : 7 <= Q2R q5 <= 71/10).
    { replace 7 with (Q2R 7) by (unfold Q2R; simpl; lra). replace (71/10) with (Q2R (71#10)) by (unfold Q2R; simpl; lra).
      split; apply Qle_Rle; vm_compute; discriminate. }
    assert (H4 : Q2R q4 - Q2R q5 >= 22/1000).
    { replace (22/1000) with (Q2R (22#1000)) by (unfold Q2R; simpl; lra). rewrite <- Q2R_minus.
      apply Rle_ge, Qle_Rle; vm_compute; discriminate. }
    clearbody q5 q4. unfold scaled_error, minus_list. cbn [combine map fst snd].
    rewrite Rabs_R0, Rabs_R1. rewrite (Rabs_right (1 + Q2R q5)) by lra.
    rewrite (Rmax_right 1 (1 + Q2R q5)) by lra.
    set (e := (1 + Q2R q5 - (1 + Q2R q4)) / (1 / 1000 + 1 / 1000 * (1 + Q2R q5))).
    assert (He : 2 < e * e).
    { assert (Hs : 0 < 1 / 1000 + 1 / 1000 * (1 + Q2R q5) <= 91/10000) by lra.
      assert (Hm : - e >= 22/10).
      { unfold e. apply Rle_ge. apply (Rmult_le_reg_r (1 / 1000 + 1 / 1000 * (1 + Q2R q5))); [lra|].
        unfold Rdiv at 4. rewrite <- Ropp_mult_distr_l, Rmult_assoc, Rinv_l, Rmult_1_r by lra. lra. }
      nra. }
    clearbody e. unfold rms. cbn [sum_sq List.length INR].
    rewrite <- sqrt_1 at 1. apply sqrt_lt_1; lra.
Qed.
