(** Proofs: reordering and copying the entries of a batch, shifting time. *)
From Coq Require Import ZArith QArith Qreals Reals Lra Lia List Bool Sorted.
From Verif Require Import Num Py Tensor M_Constants M_SolversOde M_Utils M_Interp M_Odeint.
From Verif Require Import Spec_Ode Spec_Trees Spec_RK Spec_Norm Spec_Adaptive Spec_Inv.
From Verif Require Import L_Base L_Fixed L_Vec L_Steps L_Tables L_Steps2 L_Interp L_Utils L_Fixed2 L_Adaptive L_Run.
From Verif Require Import L_Adaptive2 L_Adaptive3 L_Adaptive4 Pf_Fixed Pf_Adaptive L_Reach L_Inv L_Sim.
Import ListNotations.
Local Open Scope R_scope.

(** ** Norms of reindexed vectors *)
Lemma sum_count (F : nat -> R) n : forall idx, (forall j, In j idx -> (j < n)%nat) ->
  fold_right Rplus 0 (map F idx) =
  fold_right Rplus 0 (map (fun j => INR (count_occ PeanoNat.Nat.eq_dec idx j) * F j) (seq 0 n)).
Proof.
  induction idx as [|i idx IH]; intros H.
  - cbn [map fold_right count_occ]. induction (seq 0 n) as [|a l IH]; cbn [map fold_right]; auto.
    rewrite <- IH. simpl. ring.
  - cbn [map fold_right]. rewrite IH by (intros; apply H; now right).
    assert (Hi : (i < n)%nat) by (apply H; now left).
    assert (G : forall m k, (k <= i < k + m)%nat ->
      F i + fold_right Rplus 0 (map (fun j => INR (count_occ PeanoNat.Nat.eq_dec idx j) * F j) (seq k m)) =
      fold_right Rplus 0 (map (fun j => INR (count_occ PeanoNat.Nat.eq_dec (i :: idx) j) * F j) (seq k m))).
    { assert (Z : forall m k, (forall j, In j (seq k m) -> j <> i) ->
        fold_right Rplus 0 (map (fun j => INR (count_occ PeanoNat.Nat.eq_dec idx j) * F j) (seq k m)) =
        fold_right Rplus 0 (map (fun j => INR (count_occ PeanoNat.Nat.eq_dec (i :: idx) j) * F j) (seq k m))).
      { intros m k Hj. f_equal. apply map_ext_in. intros j Hin. rewrite count_occ_cons_neq; auto.
        intros E. apply (Hj j Hin). auto. }
      induction m as [|m IHm]; intros k Hk; [lia|]. cbn [seq map fold_right].
      destruct (Nat.eq_dec k i) as [->|Hne].
      - rewrite count_occ_cons_eq by auto. rewrite S_INR. rewrite <- (Z m (S i)); [ring|].
        intros j Hj. apply in_seq in Hj. lia.
      - rewrite count_occ_cons_neq by auto. rewrite <- IHm by lia. ring. }
    apply (G n 0%nat). lia.
Qed.

Lemma sum_sq_fold (l : list R) : sum_sq l = fold_right Rplus 0 (map (fun a => a * a) l).
Proof. induction l as [|a l IH]; simpl; auto. rewrite IH. ring. Qed.

Lemma rms_reindex n idx y : balanced n idx -> length y = n -> rms (reindex idx y) = rms y.
Proof.
  intros [Hin (k & Hk & Hc)] Hy. unfold rms. f_equal. rewrite reindex_len, !sum_sq_fold.
  assert (S1 : forall F : nat -> R, fold_right Rplus 0 (map F idx) = INR k * fold_right Rplus 0 (map F (seq 0 n))).
  { intros F. rewrite (sum_count F n idx Hin).
    assert (G : forall l, (forall j, In j l -> (j < n)%nat) ->
      fold_right Rplus 0 (map (fun j => INR (count_occ PeanoNat.Nat.eq_dec idx j) * F j) l) = INR k * fold_right Rplus 0 (map F l)).
    { induction l as [|a l IH]; intros H; cbn [map fold_right]; [ring|].
      rewrite IH by (intros; apply H; now right). rewrite Hc by (apply H; now left). ring. }
    apply G. intros j Hj. apply in_seq in Hj. lia. }
  assert (EL : INR (length idx) = INR k * INR n).
  { assert (L : forall l : list nat, fold_right Rplus 0 (map (fun _ => 1) l) = INR (length l)).
    { induction l as [|a l IH]; cbn [map fold_right length]; auto. rewrite IH, S_INR. ring. }
    rewrite <- L, S1, L, seq_length. auto. }
  unfold reindex. rewrite map_map, (S1 (fun j => nth j y 0 * nth j y 0)), EL, Hy.
  assert (E : map (fun j => nth j y 0 * nth j y 0) (seq 0 n) = map (fun a => a * a) y).
  { rewrite <- (map_map (fun j => nth j y 0) (fun a => a * a)). f_equal. rewrite <- Hy. apply nth_seq_self. auto. }
  rewrite E. assert (Hk' : 0 < INR k) by now apply lt_0_INR.
  destruct n as [|n].
  - destruct y; [|discriminate]. simpl. unfold Rdiv. ring.
  - assert (0 < INR (S n)) by (apply lt_0_INR; lia). field. split; lra.
Qed.

Section Norm.
Variables (n : nat) (idx : list nat) (f g : R -> rvec -> rvec) (sh : R).
Hypothesis Hidx : forall j, In j idx -> (j < n)%nat.
Hypothesis Hrms : forall y, length y = n -> rms (reindex idx y) = rms y.
Hypothesis Hf : field_on n f.
Hypothesis Hfg : forall t y, length y = n -> g (t + sh) (reindex idx y) = reindex idx (f t y).

Lemma reindex_error atol rtol x x' e : length x = n -> length x' = n -> length e = n ->
  @error_ratio ROps atol rtol None (reindex idx x) (reindex idx x') (reindex idx e) = @error_ratio ROps atol rtol None x x' e.
Proof.
  intros Hx Hx' He. unfold error_ratio. rewrite !hairer_rms. unfold vdiv, vmax, vabs. rops.
  assert (L : length (map (fun m => atol + rtol * m) (map2 Rmax (map Rabs x) (map Rabs x'))) = n).
  { rewrite map_length, map2_length, !map_length. lia. }
  rewrite <- !(reindex_map n idx Hidx) by auto.
  rewrite <- (reindex_map2 n idx Hidx) by (rewrite map_length; auto).
  rewrite <- (reindex_map n idx Hidx) by (rewrite map2_length, !map_length; lia).
  rewrite <- (reindex_map2 n idx Hidx) by auto.
  apply Hrms. rewrite map2_length. lia.
Qed.

Lemma reindex_init f0 x0 t0 order atol rtol : length f0 = n -> length x0 = n ->
  snd (@init_step ROps g (reindex idx f0) (reindex idx x0) (t0 + sh) order atol rtol) =
  snd (@init_step ROps f f0 x0 t0 order atol rtol).
Proof.
  intros Hf0 Hx. unfold init_step. cbv zeta. rewrite !hairer_rms. rops.
  set (scale := map (fun a => atol + Rabs a * rtol) x0).
  assert (Ls : length scale = n) by (unfold scale; now rewrite map_length).
  assert (Es : map (fun a => atol + Rabs a * rtol) (reindex idx x0) = reindex idx scale).
  { symmetry. apply (reindex_map n idx Hidx). auto. }
  rewrite Es.
  assert (Eq : forall v, length v = n -> rms (@vdiv ROps (reindex idx v) (reindex idx scale)) = rms (@vdiv ROps v scale)).
  { intros v Hv. unfold vdiv. rops. rewrite <- (reindex_map2 n idx Hidx) by auto. apply Hrms. rewrite map2_length. lia. }
  rewrite !Eq by auto.
  set (h0 := if _ || _ then _ else _ : R).
  rewrite !snd_mbind. unfold call. cbn [snd rbind mret].
  replace (t0 + sh + h0) with (t0 + h0 + sh) by ring.
  assert (Ex : @vadd ROps (reindex idx x0) (@vscale ROps h0 (reindex idx f0)) = reindex idx (@vadd ROps x0 (@vscale ROps h0 f0))).
  { rewrite <- !axpy_vadd. symmetry. now apply (reindex_axpy n). }
  rewrite Ex.
  assert (Lx : length (@vadd ROps x0 (@vscale ROps h0 f0)) = n).
  { rewrite <- axpy_vadd. unfold axpy. rewrite map_length, combine_length. lia. }
  rewrite Hfg by auto.
  assert (Ed : @vsub ROps (reindex idx (f (t0 + h0) (@vadd ROps x0 (@vscale ROps h0 f0)))) (reindex idx f0) =
     reindex idx (@vsub ROps (f (t0 + h0) (@vadd ROps x0 (@vscale ROps h0 f0))) f0)).
  { symmetry. apply (reindex_map2 n idx Hidx Rminus); auto. }
  rewrite Ed, !hairer_rms, Eq; auto. apply vsub_len; auto.
Qed.
End Norm.

(** ** Adaptive solves *)
Lemma adaptive_sim s rows b bh n idx (f g : R -> rvec -> rvec) sh atol rtol interp all semi fuel (x : rvec) dt t0 t1 ts :
  embedded_pair s rows b bh -> (forall j, In j idx -> (j < n)%nat) -> field_on n f -> field_on (length idx) g ->
  (forall t y, length y = n -> g (t + sh) (reindex idx y) = reindex idx (f t y)) ->
  (forall y y' e, length y = n -> length y' = n -> length e = n ->
     @error_ratio ROps atol rtol semi (reindex idx y) (reindex idx y') (reindex idx e) = @error_ratio ROps atol rtol semi y y' e) ->
  StronglySorted Rlt (t0 :: t1 :: ts) -> length x = n -> 0 < dt ->
  let bmid := if s_is_tsit5 s then None else if (interp : bool) then Some (construct_4th ROps) else None in
  snd (@adaptive_odeint ROps fuel g (g (t0 + sh) (reindex idx x)) (reindex idx x) dt (map (fun t : R => t + sh) (t0 :: t1 :: ts)) s atol rtol bmid all semi) =
  rmap (fun r : list R * list rvec => (map (fun t : R => t + sh) (fst r), map (reindex idx) (snd r)))
    (snd (@adaptive_odeint ROps fuel f (f t0 x) x dt (t0 :: t1 :: ts) s atol rtol bmid all semi)).
Proof.
  intros HP Hidx Hf Hg Hfg Herr Hs Hx Hd bmid. unfold adaptive_odeint.
  rewrite !snd_mbind. rewrite !snd_mlift. cbn [map pyget nth_error rbind skipn].
  rewrite !snd_mbind, !snd_mlift.
  assert (El : @pylast R (t0 :: t1 :: ts) = Ok (last (t1 :: ts) t0)) by (rewrite (pylast_last _ t0) by discriminate; reflexivity).
  assert (El' : @pylast R (t0 + sh :: t1 + sh :: map (fun t : R => t + sh) ts) = Ok (last (t1 :: ts) t0 + sh)).
  { rewrite (pylast_last _ (t0 + sh)) by discriminate. f_equal.
    change (t0 + sh :: t1 + sh :: map (fun t : R => t + sh) ts) with (map (fun t : R => t + sh) (t0 :: t1 :: ts)).
    set (l := t1 :: ts). change (last (map (fun t : R => t + sh) (t0 :: l)) ((fun t => t + sh) t0) = (fun t => t + sh) (last l t0)).
    transitivity ((fun t => t + sh) (last (t0 :: l) t0)); [|reflexivity].
    generalize (t0 :: l). intros l0. induction l0 as [|a [|c l0] IH]; auto. }
  rbw El'. symmetry. rbw El. symmetry. cbn [rbind].
  set (T := last (t1 :: ts) t0) in *.
  pose proof (init_inv n f Hf (f t0 x) x dt t0 (t1 :: ts) Hs ltac:(discriminate) Hx eq_refl Hd) as HI. fold T in HI.
  pose proof (sim_loop s rows b bh HP n idx f g sh Hidx Hf Hg Hfg atol rtol interp all semi Herr T (t1 :: ts) fuel _ _ HI) as E.
  cbn [sim_st a_t a_dt a_x a_k1 a_ck a_times a_sol map] in E. unfold sim_st in E.
  cbn [sim_st a_t a_dt a_x a_k1 a_ck a_times a_sol map] in E.
  rewrite <- Hfg in E by auto. exact E.
Qed.

Lemma odeint_sim_inc s rows b bh n idx (f g : R -> rvec -> rvec) sh atol rtol interp all semi fuel (x : rvec) t0 t1 ts save_at :
  embedded_pair s rows b bh -> (forall j, In j idx -> (j < n)%nat) -> field_on n f -> field_on (length idx) g ->
  (forall t y, length y = n -> g (t + sh) (reindex idx y) = reindex idx (f t y)) ->
  (forall y y' e, length y = n -> length y' = n -> length e = n ->
     @error_ratio ROps atol rtol semi (reindex idx y) (reindex idx y') (reindex idx e) = @error_ratio ROps atol rtol semi y y' e) ->
  (forall y, length y = n -> rms (reindex idx y) = rms y) ->
  increasing (t0 :: t1 :: ts) -> length x = n ->
  snd (@odeint ROps fuel g (reindex idx x) (@TTensor ROps (map (fun t : R => t + sh) (t0 :: t1 :: ts))) s atol rtol interp all save_at semi) =
  rmap (fun r : list R * list rvec => (map (fun t : R => t + sh) (fst r), map (reindex idx) (snd r)))
    (snd (@odeint ROps fuel f x (@TTensor ROps (t0 :: t1 :: ts)) s atol rtol interp all save_at semi)).
Proof.
  intros HP Hidx Hf Hg Hfg Herr Hrms Hinc Hx.
  assert (Hlt : t0 < t1) by (apply (Hinc 0%nat 1%nat); auto).
  destruct (odeint_adaptive_inc s rows b bh HP f atol rtol interp all semi fuel x t0 t1 ts save_at ltac:(lra)) as (dt & lg & Hd & Ei & Eo).
  destruct (odeint_adaptive_inc s rows b bh HP g atol rtol interp all semi fuel (reindex idx x) (t0 + sh) (t1 + sh) (map (fun t : R => t + sh) ts) save_at ltac:(lra))
    as (dt' & lg' & Hd' & Ei' & Eo').
  assert (Ed : dt' = dt).
  { pose proof (reindex_init n idx f g sh Hidx Hrms Hf Hfg (f t0 x) x t0 (s_order s) atol rtol ltac:(auto) Hx) as E.
    rewrite <- Hfg in E by auto.
    pose proof (eq_trans (eq_sym (f_equal snd Ei')) (eq_trans E (f_equal snd Ei))) as E2. injection E2 as E2. exact E2. }
  subst dt'. apply increasing_sorted in Hinc.
  refine (eq_trans (f_equal snd Eo') (eq_trans _ (eq_sym (f_equal (fun r => rmap _ (snd r)) Eo)))).
  cbn [snd]. apply (adaptive_sim s rows b bh n idx f g sh); auto.
Qed.

Lemma odeint_sim_dec s rows b bh n idx (f g : R -> rvec -> rvec) atol rtol interp all semi fuel (x : rvec) t0 t1 ts save_at :
  embedded_pair s rows b bh -> (forall j, In j idx -> (j < n)%nat) -> field_on n f -> field_on (length idx) g ->
  (forall t y, length y = n -> g t (reindex idx y) = reindex idx (f t y)) ->
  (forall y y' e, length y = n -> length y' = n -> length e = n ->
     @error_ratio ROps atol rtol semi (reindex idx y) (reindex idx y') (reindex idx e) = @error_ratio ROps atol rtol semi y y' e) ->
  (forall y, length y = n -> rms (reindex idx y) = rms y) ->
  decreasing (t0 :: t1 :: ts) -> length x = n ->
  snd (@odeint ROps fuel g (reindex idx x) (@TTensor ROps (t0 :: t1 :: ts)) s atol rtol interp all save_at semi) =
  rmap (fun r : list R * list rvec => (fst r, map (reindex idx) (snd r)))
    (snd (@odeint ROps fuel f x (@TTensor ROps (t0 :: t1 :: ts)) s atol rtol interp all save_at semi)).
Proof.
  intros HP Hidx Hf Hg Hfg Herr Hrms Hdec Hx.
  assert (Hlt : t1 < t0) by (apply (Hdec 0%nat 1%nat); auto).
  assert (Hs : StronglySorted Rlt (map Ropp (t0 :: t1 :: ts))).
  { apply increasing_sorted. intros i j u v Hij Hu Hv. rewrite nth_error_map' in Hu, Hv.
    destruct (nth_error (t0 :: t1 :: ts) i) as [u'|] eqn:Eu; [|discriminate].
    destruct (nth_error (t0 :: t1 :: ts) j) as [v'|] eqn:Ev; [|discriminate].
    injection Hu as <-. injection Hv as <-. pose proof (Hdec i j u' v' Hij Eu Ev). lra. }
  destruct (odeint_adaptive_dec s f atol rtol interp all semi fuel x t0 t1 ts save_at (proj1 HP) Hlt) as (dt & lg & Hd & Ei & Eo).
  destruct (odeint_adaptive_dec s g atol rtol interp all semi fuel (reindex idx x) t0 t1 ts save_at (proj1 HP) Hlt) as (dt' & lg' & Hd' & Ei' & Eo').
  set (fr := @neg_field ROps f) in *. set (gr := @neg_field ROps g) in *.
  assert (Hfr : field_on n fr) by now apply neg_field_on.
  assert (Hgr : field_on (length idx) gr) by now apply neg_field_on.
  assert (Hfg0 : forall t y, length y = n -> g (t + 0) (reindex idx y) = reindex idx (f t y)).
  { intros t y Hy. rewrite Rplus_0_r. auto. }
  assert (Hfgr : forall t y, length y = n -> gr (t + 0) (reindex idx y) = reindex idx (fr t y)).
  { intros t y Hy. rewrite Rplus_0_r. unfold gr, fr, neg_field. rops. rewrite Hfg by auto.
    symmetry. apply (reindex_map n idx Hidx Ropp). auto. }
  assert (Hsh : forall l, map (fun t : R => t + 0) l = l).
  { intros l. rewrite <- (map_id l) at 2. apply map_ext. intros; ring. }
  assert (Ed : dt' = dt).
  { pose proof (reindex_init n idx f g 0 Hidx Hrms Hf Hfg0 (fr (- t0) x) x (- t0) (s_order s) atol rtol ltac:(auto) Hx) as E.
    rewrite <- Hfgr, !Rplus_0_r in E by auto.
    pose proof (eq_trans (eq_sym (f_equal snd Ei')) (eq_trans E (f_equal snd Ei))) as E2. injection E2 as E2. exact E2. }
  subst dt'.
  refine (eq_trans Eo' (eq_trans _ (eq_sym (f_equal (rmap _) Eo)))).
  pose proof (adaptive_sim s rows b bh n idx fr gr 0 atol rtol interp all semi fuel x dt (- t0) (- t1) (map Ropp ts)
     HP Hidx Hfr Hgr Hfgr Herr Hs Hx Hd) as E.
  cbv zeta in E. rewrite Hsh, Rplus_0_r in E. cbn [map] in *. refine (eq_trans E _).
  match goal with |- rmap _ ?r = rmap _ ?r' => change r' with r; destruct r as [[u v]|e|] end; cbn [rmap rbind fst snd]; auto.
  now rewrite Hsh.
Qed.

(** C87.  Reordering the entries of the state, or repeating all of them the same number of times
    (a batch of copies), reorders or repeats the results of every built-in solver and changes nothing
    else: not the times, not the exceptions.  idx lists the positions of the entries of x that make up
    the new state; balanced: each occurs equally often. *)
Lemma C87_reorder_pf :
  forall fuel s rows b n idx f g x t0 t1 ts atol rtol interp all save_at,
  builtin_method s rows b -> balanced n idx -> field_on n f -> field_on (List.length idx) g -> List.length x = n ->
  monotone (t0 :: t1 :: ts) ->
  (forall t y, List.length y = n -> g t (reindex idx y) = reindex idx (f t y)) ->
  snd (@odeint ROps fuel g (reindex idx x) (@TTensor ROps (t0 :: t1 :: ts)) s atol rtol interp all save_at None) =
  rmap (fun r : list R * list rvec => (fst r, map (reindex idx) (snd r)))
    (snd (@odeint ROps fuel f x (@TTensor ROps (t0 :: t1 :: ts)) s atol rtol interp all save_at None)).
Proof.
  intros fuel s rows b n idx f g x t0 t1 ts atol rtol interp all save_at HM HB Hf Hg Hx Hmo Hfg.
  pose proof HB as [Hidx _]. destruct HM as [HM|[bh HP]].
  - apply (odeint_fixed_map fuel s rows b n (length idx) f g (reindex idx) (reindex idx)); auto.
    + now apply builtin_fixed_erk.
    + apply reindex_len.
    + intros a k y Hk Hy. now apply (reindex_axpy n).
  - pose proof (builtin_embedded _ _ _ _ HP) as HE.
    assert (Hrms : forall y, length y = n -> rms (reindex idx y) = rms y) by (intros; now apply (rms_reindex n)).
    assert (Herr : forall y y' e, length y = n -> length y' = n -> length e = n ->
      @error_ratio ROps atol rtol None (reindex idx y) (reindex idx y') (reindex idx e) = @error_ratio ROps atol rtol None y y' e).
    { intros. now apply (reindex_error n). }
    destruct Hmo as [Hi|Hd].
    + pose proof (odeint_sim_inc s rows b bh n idx f g 0 atol rtol interp all None fuel x t0 t1 ts save_at HE Hidx Hf Hg
        ltac:(intros; rewrite Rplus_0_r; auto) Herr Hrms Hi Hx) as E.
      assert (Hsh : forall l, map (fun t : R => t + 0) l = l).
      { intros l. rewrite <- (map_id l) at 2. apply map_ext. intros; ring. }
      rewrite Hsh in E. refine (eq_trans E _).
      match goal with |- rmap _ ?r = rmap _ ?r' => change r' with r; destruct r as [[u v]|e|] end; cbn [rmap rbind fst snd]; auto.
      now rewrite Hsh.
    + now apply (odeint_sim_dec s rows b bh n idx f g).
Qed.

(** A batch of two one-dimensional samples, exchanged and doubled *)
Lemma C87_ex_pf : balanced 2 [1; 0; 1; 0]%nat /\
  (forall (t : R) y, List.length y = 2%nat -> map (fun u => u * u) (reindex [1; 0; 1; 0]%nat y) = reindex [1; 0; 1; 0]%nat (map (fun u => u * u) y)) /\
  reindex [1; 0; 1; 0]%nat [3; 5] = [5; 3; 5; 3].
Proof.
  split.
  - split.
    + intros j [<-|[<-|[<-|[<-|[]]]]]; lia.
    + exists 2%nat. split; [lia|]. intros [|[|j]] Hj; try lia; reflexivity.
  - split; [|reflexivity]. intros t [|u [|v [|w y]]] Hy; try discriminate. reflexivity.
Qed.

(** C88 (adaptive).  Shifting time by s: the solve of g(t, y) = f(t - s, y) on the grid shifted by s
    returns the same states as the solve of f, at the shifted times, for all increasing grids. *)
Lemma C88_shift_adaptive_pf :
  forall fuel s rows b bh n f x sh t0 t1 ts atol rtol interp all save_at semi,
  builtin_pair s rows b bh -> field_on n f -> List.length x = n -> increasing (t0 :: t1 :: ts) ->
  snd (@odeint ROps fuel (shifted_field sh f) x (@TTensor ROps (map (fun t : R => t + sh) (t0 :: t1 :: ts))) s atol rtol interp all save_at semi) =
  rmap (fun r : list R * list rvec => (map (fun t : R => t + sh) (fst r), snd r))
    (snd (@odeint ROps fuel f x (@TTensor ROps (t0 :: t1 :: ts)) s atol rtol interp all save_at semi)).
Proof.
  intros fuel s rows b bh n f x sh t0 t1 ts atol rtol interp all save_at semi HP Hf Hx Hinc.
  pose proof (builtin_embedded _ _ _ _ HP) as HE.
  assert (Hid : forall y, length y = n -> reindex (seq 0 n) y = y).
  { intros y <-. unfold reindex. now apply nth_seq_self. }
  assert (Hg : field_on (length (seq 0 n)) (shifted_field sh f)).
  { rewrite seq_length. intros t y Hy. now apply Hf. }
  pose proof (odeint_sim_inc s rows b bh n (seq 0 n) f (shifted_field sh f) sh atol rtol interp all semi fuel x t0 t1 ts save_at HE
    ltac:(intros j Hj; apply in_seq in Hj; lia) Hf Hg
    ltac:(intros t y Hy; rewrite !Hid by auto; unfold shifted_field; f_equal; ring)
    ltac:(intros; rewrite !Hid by auto; reflexivity) ltac:(intros; rewrite !Hid by auto; reflexivity) Hinc Hx) as E.
  rewrite Hid in E by auto. refine (eq_trans E _).
  destruct (snd (@odeint ROps fuel f x (@TTensor ROps (t0 :: t1 :: ts)) s atol rtol interp all save_at semi)) as [[times sol]|e|] eqn:Er;
    cbn [rmap rbind fst snd]; auto.
  f_equal. f_equal. rewrite <- (map_id sol) at 2. apply map_ext_in. intros y Hy. apply Hid.
  destruct (odeint_output fuel s rows b n f x (t0 :: t1 :: ts) atol rtol interp all save_at semi times sol
     (or_intror (ex_intro _ bh HP)) Hf Hx (or_introl Hinc) ltac:(simpl; lia) Er y Hy) as (u & t & [H|(_ & _ & t2 & h & z & H & _ & ->)]).
  - eapply reached_len; eauto.
  - unfold pair_dense. rewrite map_length, seq_length. eapply reached_len; eauto.
Qed.

(** C88 (fixed-step): the same, if no two times of the grid are close in the sense of torch.isclose,
    before and after the shift. *)
Lemma C88_shift_fixed_pf :
  forall fuel s rows b n f x sh t0 t1 ts atol rtol interp all semi,
  builtin_fixed s rows b -> field_on n f -> List.length x = n -> increasing (t0 :: t1 :: ts) ->
  separated (t0 :: t1 :: ts) -> separated (map (fun t : R => t + sh) (t0 :: t1 :: ts)) ->
  exists states,
  snd (@odeint ROps fuel f x (@TTensor ROps (t0 :: t1 :: ts)) s atol rtol interp all [] semi) = Ok (t0 :: t1 :: ts, states) /\
  snd (@odeint ROps fuel (shifted_field sh f) x (@TTensor ROps (map (fun t : R => t + sh) (t0 :: t1 :: ts))) s atol rtol interp all [] semi) =
  Ok (map (fun t : R => t + sh) (t0 :: t1 :: ts), states).
Proof.
  intros fuel s rows b n f x sh t0 t1 ts atol rtol interp all semi HM Hf Hx Hinc Hs Hs'.
  apply builtin_fixed_erk in HM.
  assert (Hlt : t0 < t1) by (apply (Hinc 0%nat 1%nat); auto).
  assert (Hg : field_on n (shifted_field sh f)) by (intros t y Hy; now apply Hf).
  destruct (odeint_fixed_result fuel s rows b n f x t0 t1 ts atol rtol interp all [] semi HM Hf Hx) as [_ B1].
  destruct (odeint_fixed_result fuel s rows b n (shifted_field sh f) x (t0 + sh) (t1 + sh) (map (fun t : R => t + sh) ts) atol rtol interp all [] semi HM Hg Hx) as [_ B2].
  cbv zeta in B1, B2. destruct (Rlt_dec t1 t0) as [?|_]; [lra|]. destruct (Rlt_dec (t1 + sh) (t0 + sh)) as [?|_]; [lra|].
  specialize (B1 Hs). specialize (B2 Hs').
  exists (one_step_traj (erk_step rows b f) x (t0 :: t1 :: ts)).
  assert (FR : forall l xs, xs <> [] -> length l = length xs -> fixed_result l l xs = Ok (l, xs : list rvec)).
  { intros l xs Hne HL. unfold fixed_result. rewrite (select_all l l xs) by auto. destruct xs; congruence. }
  split.
  - refine (eq_trans B1 _). apply FR; [rewrite traj_hd; discriminate|]. symmetry. apply traj_length.
  - refine (eq_trans B2 _).
    assert (Et : one_step_traj (erk_step rows b (shifted_field sh f)) x (t0 + sh :: t1 + sh :: map (fun t : R => t + sh) ts) =
       one_step_traj (erk_step rows b f) x (t0 :: t1 :: ts)).
    { change (t0 + sh :: t1 + sh :: map (fun t : R => t + sh) ts) with (map (fun t : R => t + sh) (t0 :: t1 :: ts)).
      clear - Hf Hx. generalize (t0 :: t1 :: ts). intros l. revert x Hx.
      assert (Hst : forall t h y, length y = n -> erk_step rows b (shifted_field sh f) (t + sh) h y = erk_step rows b f t h y).
      { intros t h y Hy. apply (step_map n (fun y => y) (fun y => y) f (shifted_field sh f) sh Hf); auto.
        intros u z Hz. unfold shifted_field. f_equal. ring. }
      induction l as [|t [|t' l] IH]; intros x Hx; auto.
      cbn [map] in *. rewrite !traj_hd. f_equal. replace (t' + sh - (t + sh)) with (t' - t) by ring.
      rewrite Hst by auto. apply IH. now apply erk_step_len. }
    rewrite Et. apply FR; [rewrite traj_hd; discriminate|]. rewrite traj_length. cbn [length]. now rewrite map_length.
Qed.

(** C88, refuted: euler on [0, 1] works, on [1000000, 1000001] it raises AssertionError. *)
Lemma C88_shift_fixed_refuted_pf :
  let f := fun (t : R) (y : list R) => y in
  forall fuel,
  (exists r, snd (@odeint ROps fuel f [1] (@TTensor ROps [0; 1]) (Euler ROps) (1/1000) (1/1000) false false [] None) = Ok r) /\
  snd (@odeint ROps fuel (shifted_field 1000000 f) [1] (@TTensor ROps (map (fun t : R => t + 1000000) [0; 1])) (Euler ROps)
    (1/1000) (1/1000) false false [] None) = Err AssertionError.
Proof.
  intros f fuel. assert (Hf : field_on 1 f) by (intros t y Hy; exact Hy).
  assert (Hg : field_on 1 (shifted_field 1000000 f)) by (intros t y Hy; exact Hy).
  pose proof (builtin_fixed_erk (Euler ROps) _ _ (or_introl (conj eq_refl (conj eq_refl eq_refl)))) as HM.
  destruct (odeint_fixed_result fuel _ _ _ 1 f [1] 0 1 [] (1/1000) (1/1000) false false [] None HM Hf eq_refl) as [_ B1].
  destruct (odeint_fixed_result fuel _ _ _ 1 (shifted_field 1000000 f) [1] (0 + 1000000) (1 + 1000000) [] (1/1000) (1/1000) false false [] None HM Hg eq_refl) as [A2 _].
  cbv zeta in B1, A2. destruct (Rlt_dec 1 0) as [?|_]; [lra|]. destruct (Rlt_dec (1 + 1000000) (0 + 1000000)) as [?|_]; [lra|].
  split.
  - eexists. refine (eq_trans (B1 _) _).
    + intros i j a c Hij Ha Hc. destruct i as [|[|i]], j as [|[|j]]; try lia; simpl in Ha, Hc;
        try (destruct i; discriminate); try (destruct j; discriminate);
        injection Ha as <-; injection Hc as <-; unfold close_to.
      * rewrite (Rabs_left (0 - 1)), (Rabs_right 1) by lra. lra.
      * rewrite (Rabs_right (1 - 0)), Rabs_R0 by lra. lra.
    + unfold fixed_result. rewrite select_all; [rewrite traj_hd; reflexivity|auto|symmetry; apply traj_length].
  - refine (A2 _). intros Hs. apply (Hs 0%nat 1%nat (0 + 1000000) (1 + 1000000)); auto. unfold close_to.
    rewrite (Rabs_left (0 + 1000000 - (1 + 1000000))), (Rabs_right (1 + 1000000)) by lra. lra.
Qed.
