(** Proofs of C16 (positive part): in binary64 the adaptive solvers land on every time of a grid whose
    consecutive times are within a factor two of each other. *)
From Coq Require Import ZArith QArith Reals Lra Lia List Bool Floats.
From Flocq Require Import Core BinarySingleNaN.
From Flocq Require Import IEEE754.PrimFloat.
From Verif Require Import Num Py Tensor M_Constants M_SolversOde M_Utils M_Odeint L_Base L_Float Spec_Land.
Import ListNotations.
Local Notation float := PrimFloat.float.
Local Open Scope nat_scope.

(** ** Grids *)
Lemma float_zero : FR 0%float = 0%R /\ fin 0%float.
Proof.
  unfold FR, fin. change 0%float with PrimFloat.zero. rewrite zero_equiv, Prim2B_B2Prim. split; reflexivity.
Qed.

(** doubling is exact *)
Lemma double_fmt : forall a, generic_format radix2 fexp64 (FR a + FR a)%R.
Proof.
  intros a. destruct (FLT_format_B2R prec emax Hprec (Prim2B a)) as [[m e] H1 H2 H3].
  fold (FR a) in H1. rewrite H1.
  apply (generic_format_FLT radix2 _ prec). apply FLT_spec with (Float radix2 m (e + 1)); [|assumption|simpl in *; lia].
  unfold F2R. simpl. rewrite bpow_plus. change (bpow radix2 1) with 2%R. ring.
Qed.

Lemma double_le : forall a b, fin a -> fin b -> (0 < FR a)%R -> PrimFloat.leb b (PrimFloat.add a a) = true ->
  (FR b <= 2 * FR a)%R.
Proof.
  intros a b Fa Fb P L.
  destruct (Rlt_bool_spec (Rabs (rnd64 (FR a + FR a))) top64) as [B|B].
  - destruct (add_ok a a Fa Fa B) as [F E]. rewrite fin_leb in L by assumption.
    destruct (Rle_bool_spec (FR b) (FR (PrimFloat.add a a))) as [H|H]; [|discriminate].
    rewrite E, (rnd64_id _ (double_fmt a)) in H. lra.
  - rewrite (rnd64_id _ (double_fmt a)) in B. pose proof (FR_top b) as T. apply Rabs_def2 in T.
    rewrite Rabs_pos_eq in B by lra. lra.
Qed.

Lemma double_ge : forall a b, fin a -> fin b -> (FR b < 0)%R -> PrimFloat.leb (PrimFloat.add b b) a = true ->
  (2 * FR b <= FR a)%R.
Proof.
  intros a b Fa Fb P L.
  destruct (Rlt_bool_spec (Rabs (rnd64 (FR b + FR b))) top64) as [B|B].
  - destruct (add_ok b b Fb Fb B) as [F E]. rewrite fin_leb in L by assumption.
    destruct (Rle_bool_spec (FR (PrimFloat.add b b)) (FR a)) as [H|H]; [|discriminate].
    rewrite E, (rnd64_id _ (double_fmt b)) in H. lra.
  - rewrite (rnd64_id _ (double_fmt b)) in B. pose proof (FR_top a) as T. apply Rabs_def2 in T.
    rewrite Rabs_left in B by lra. lra.
Qed.

Lemma close_spec : forall a b, close a b = true ->
  fin a /\ fin b /\ (FR a < FR b)%R /\
  ((0 < FR a /\ FR b <= 2 * FR a) \/ (FR b < 0 /\ 2 * FR b <= FR a))%R.
Proof.
  intros a b. unfold close. rewrite !andb_true_iff, orb_true_iff, !andb_true_iff, !is_finite_equiv.
  intros [[[Fa Fb] L] H]. fold (fin a) in Fa. fold (fin b) in Fb.
  destruct float_zero as [Z FZ].
  rewrite fin_ltb in L by assumption.
  destruct (Rlt_bool_spec (FR a) (FR b)) as [L'|L']; [|discriminate].
  split; [assumption|]. split; [assumption|]. split; [assumption|].
  destruct H as [[H1 H2]|[H1 H2]]; rewrite fin_ltb in H1 by assumption; rewrite Z in H1.
  - left. destruct (Rlt_bool_spec 0 (FR a)) as [P|P]; [|discriminate]. split; [assumption|]. now apply double_le.
  - right. destruct (Rlt_bool_spec (FR b) 0) as [P|P]; [|discriminate]. split; [assumption|]. now apply double_ge.
Qed.

Lemma close_near : forall a b t, close a b = true -> (FR a <= FR t < FR b)%R -> near t b.
Proof.
  intros a b t C H. destruct (close_spec a b C) as (_ & _ & _ & N). unfold near. split; [lra|].
  destruct N as [N|N]; [left|right]; lra.
Qed.

Lemma close_tail : forall pre l, close_grid (pre ++ l) = true -> close_grid l = true.
Proof.
  induction pre as [|a pre IH]; intros l H; [assumption|]. apply IH.
  change (close_grid (a :: (pre ++ l)) = true) in H. simpl in H. destruct (pre ++ l) eqn:E; [reflexivity|].
  apply andb_prop in H. apply H.
Qed.

Lemma close_last : forall l a b, close_grid (a :: b :: l) = true ->
  fin (last (b :: l) 0%float) /\ (FR b <= FR (last (b :: l) 0%float))%R /\
  (FR b < 0 -> FR (last (b :: l) 0%float) < 0)%R.
Proof.
  induction l as [|c l IH]; intros a b H.
  - simpl in H. apply andb_prop in H as [H _]. destruct (close_spec a b H) as (_ & F & _). simpl. split; [assumption|]. split; lra.
  - apply (close_tail [a]) in H. destruct (IH b c H) as (F & L & S).
    simpl in H. apply andb_prop in H as [H _]. destruct (close_spec b c H) as (_ & _ & L' & N).
    change (last (b :: c :: l) 0%float) with (last (c :: l) 0%float).
    split; [assumption|]. split; [lra|]. intros Hb. apply S. destruct N; lra.
Qed.

(** ** Step sizes *)
Section Pw.
Variable pw : float -> float -> float.
Notation KF := (FloatOps pw).

Lemma nmax_nn : forall a b : float, nn b -> nn (@nmax KF a b).
Proof.
  intros a b Hb. simpl.
  destruct (is_nan_f a) eqn:Ea; [now apply isnan_nn, nan_test|].
  destruct (is_nan_f b) eqn:Eb; [assumption|].
  destruct (PrimFloat.ltb a b) eqn:E; [assumption|].
  rewrite ltb_equiv in E. unfold nn in *. unfold Bltb in E.
  destruct (Prim2B a) as [s|s| |s m e H]; try exact I.
  - destruct s; [|reflexivity]. destruct (Prim2B b) as [s'|s'| |s' m' e' H'] eqn:B; simpl in *; try discriminate.
    + subst. discriminate.
    + assert (isnan b) as N by (unfold isnan; rewrite B; reflexivity). apply nan_test in N. congruence.
  - destruct s; [|reflexivity]. destruct (Prim2B b) as [s'|s'| |s' m' e' H'] eqn:B; simpl in *; try discriminate.
    + subst. discriminate.
    + assert (isnan b) as N by (unfold isnan; rewrite B; reflexivity). apply nan_test in N. congruence.
    + subst. discriminate.
Qed.

Lemma nmin_nn : forall a b : float, nn a -> nn b -> nn (@nmin KF a b).
Proof.
  intros a b Ha Hb. simpl. destruct (is_nan_f a); [assumption|]. destruct (is_nan_f b); [assumption|].
  destruct (PrimFloat.ltb b a); assumption.
Qed.

Lemma adapt_nn : forall dt r sf mn mx o, nn dt -> nn mn -> nn mx -> nn (@adapt_step KF dt r sf mn mx o).
Proof.
  intros dt r sf mn mx o Hd Hn Hx. unfold adapt_step. destruct (neqb r _); [now apply nn_mul|].
  apply nn_mul; [assumption|]. apply nmin_nn; [assumption|]. apply nmax_nn.
  destruct (nltb r _); [|assumption]. apply nn_ltb. vm_compute. reflexivity.
Qed.

Lemma nn_of_Q_pos : forall q, PrimFloat.ltb (float_of_Q q) 0%float = false -> nn (float_of_Q q).
Proof. intros q H. now apply nn_ltb. Qed.

Lemma pos_of_nlt : forall x c, nn x -> PrimFloat.ltb 0%float c = true -> PrimFloat.ltb x c = false -> pos x.
Proof.
  intros x c Hx Hc L. rewrite ltb_equiv in Hc, L. unfold nn, pos in *.
  replace (Prim2B 0%float) with (B754_zero false : binary_float prec emax) in Hc
    by (change 0%float with PrimFloat.zero; rewrite zero_equiv, Prim2B_B2Prim; reflexivity).
  destruct (Prim2B x) as [s|s| |s m e H]; try assumption.
  unfold Bltb in *. destruct (Prim2B c) as [s'|s'| |s' m' e' H']; try destruct s'; simpl in *; try discriminate; congruence.
Qed.

Lemma norm_nn : forall x, nn (@hairer_norm KF x).
Proof. intros x. apply nn_sqrt. Qed.

Lemma init_nn : forall f f0 x0 t0 atol rtol h, sane_power pw ->
  snd (@init_step KF f f0 x0 t0 5 atol rtol) = Ok h -> nn h.
Proof.
  intros f f0 x0 t0 atol rtol h SP E. unfold init_step in E. cbv zeta in E.
  set (d0 := @hairer_norm KF (vdiv x0 _)) in E. set (d1 := @hairer_norm KF (vdiv f0 _)) in E.
  set (h0 := if (_ || _)%bool then _ else _) in E.
  assert (N0 : nn h0).
  { unfold h0. destruct (nltb d0 _) eqn:E0; [apply nn_ltb; vm_compute; reflexivity|].
    destruct (nltb d1 _) eqn:E1; [apply nn_ltb; vm_compute; reflexivity|]. cbv beta iota delta [orb].
    apply nn_div; [apply nn_mul; [apply nn_ltb; vm_compute; reflexivity | apply norm_nn]|].
    eapply pos_of_nlt; [apply norm_nn| |exact E1]. vm_compute. reflexivity. }
  apply mbind_inv_ok in E as (fn & _ & E). cbv [mret snd] in E.
  match type of E with Ok ?v = Ok _ => cut (nn v); [intros Q; injection E as <-; exact Q | clear E] end.
  apply nmin_nn; [apply nn_mul; [apply nn_ltb; vm_compute; reflexivity|exact N0]|].
  destruct (_ && _)%bool.
  - apply nmax_nn. apply nn_mul; [exact N0 | apply nn_ltb; vm_compute; reflexivity].
  - apply nn_ltb. apply SP; vm_compute; reflexivity.
Qed.

(** ** A step of size NaN is never accepted *)
Lemma nan_sum : forall (l : list float) a, isnan a -> isnan (fold_left PrimFloat.add l a).
Proof. induction l as [|b l IH]; intros a H; [assumption|]. simpl. apply IH. now apply nan_add_l. Qed.

Lemma nan_norm : forall l : list float, Forall isnan l -> isnan (@hairer_norm KF l).
Proof.
  intros l H. unfold hairer_norm. apply nan_sqrt. unfold vmean.
  destruct H as [|a l Ha Hl].
  - apply nan_test. vm_compute. reflexivity.
  - apply nan_div_l. unfold vsum. simpl. apply nan_sum. apply nan_add_r. apply nan_mul_l. now apply nan_abs.
Qed.

Lemma nan_vdiv : forall (l m : list float), Forall isnan l -> Forall isnan (@vdiv KF l m).
Proof.
  intros l m H. revert m. induction H as [|a l Ha Hl IH]; intros [|b m]; simpl; constructor.
  - now apply nan_div_l.
  - apply IH.
Qed.

Lemma nan_ratio : forall atol rtol semi x xn (err : list float), Forall isnan err ->
  nleb (@error_ratio KF atol rtol semi x xn err) n1 = false.
Proof.
  intros atol rtol semi x xn err H. apply nan_leb. unfold error_ratio. apply nan_norm. apply nan_vdiv.
  destruct semi as [d|]; [|assumption]. apply Forall_forall. intros z Hz. rewrite Forall_forall in H. apply H.
  revert Hz. clear. revert d. induction err as [|a l IH]; intros [|d] Hz; simpl in *; try contradiction; try tauto.
  destruct Hz as [Hz|Hz]; [now left | right; now apply IH in Hz].
Qed.

(** What is needed of a solver. *)
Definition step_nan (s : solver KF (vec KF)) : Prop := forall f x t (dt : float) k1 f_new x_new (x_err : list float) st,
  isnan dt -> snd (s_step s f x t dt k1) = Ok (Ret4 f_new x_new x_err st) -> Forall isnan x_err.

Lemma erk7_nan : forall tab f x t (dt : float) k1 f_new x_new (x_err : list float) st,
  isnan dt -> snd (@erk7_step KF tab f x t dt k1) = Ok (Ret4 f_new x_new x_err st) -> Forall isnan x_err.
Proof.
  intros tab f x t dt k1 f_new x_new x_err st N E. unfold erk7_step in E. cbv zeta in E.
  apply mbind_inv_ok in E as (k & _ & E).
  do 6 (apply mbind_inv_ok in E as (? & _ & E)).
  cbv [mret snd] in E.
  assert (D : forall v : list float, Forall isnan (@vscale KF dt v)).
  { intros v. apply Forall_forall. intros z Hz. unfold vscale in Hz. apply in_map_iff in Hz as (w & <- & _). now apply nan_mul_l. }
  injection E as _ _ <- _. apply D.
Qed.

Definition ok_solver (s : solver KF (vec KF)) : Prop :=
  step_nan s /\ nn (s_min_factor s) /\ nn (s_max_factor s) /\ s_fixed s = false /\ s_order s = 5%nat.

Lemma dopri5_ok : ok_solver (DormandPrince45 KF).
Proof.
  split; [intros f x t dt k1 a b c d; apply erk7_nan|].
  split; [apply nn_ltb; vm_compute; reflexivity|]. split; [apply nn_ltb; vm_compute; reflexivity|]. split; reflexivity.
Qed.
Lemma tsit5_ok : ok_solver (Tsitouras45 KF).
Proof.
  split; [intros f x t dt k1 a b c d; apply erk7_nan|].
  split; [apply nn_ltb; vm_compute; reflexivity|]. split; [apply nn_ltb; vm_compute; reflexivity|]. split; reflexivity.
Qed.

(** ** The loop *)
Record landed (ts : list float) (st : @astate KF) : Prop := Landed {
  ld_split : exists pre prev rest, ts = pre ++ prev :: rest /\ a_times st = pre ++ [prev] /\ a_ck st = length pre /\
    length (a_sol st) = S (length pre) /\ fin (a_t st) /\
    match rest with
    | [] => a_t st = prev
    | b :: _ => (FR prev <= FR (a_t st) < FR b)%R
    end;
  ld_dt : nn (a_dt st) }.

Lemma attempt_cases : forall (p : @aparams KF) (st : @astate KF) (b prev : float),
  p_interp p = None -> nth_error (p_t_eval p) (a_ck st) = Some b -> close prev b = true ->
  fin (p_T p) -> (FR b <= FR (p_T p))%R -> (FR b < 0 -> FR (p_T p) < 0)%R ->
  fin (a_t st) -> (FR prev <= FR (a_t st) < FR b)%R -> nn (a_dt st) ->
  exists dt old, attempt_dt p st = (dt, old) /\
    nn (match old with Some o => PrimFloat.sub o dt | None => dt end) /\
    (isnan dt \/ PrimFloat.add (a_t st) dt = b \/
     (fin (PrimFloat.add (a_t st) dt) /\ (FR (a_t st) <= FR (PrimFloat.add (a_t st) dt) <= FR b)%R)).
Proof.
  intros p st b prev HI HN HC FT LT ST Ft Lt Nd.
  destruct (close_spec prev b HC) as (Fp & Fb & Lpb & _).
  pose proof (close_near prev b (a_t st) HC Lt) as NR.
  destruct (near_sub _ _ Ft Fb NR) as [Fs Es].
  unfold attempt_dt. rewrite HN, HI. cbv zeta.
  set (dt1 := if nltb (p_T p) (nadd (a_t st) (a_dt st)) then _ else _).
  assert (N1 : isnan dt1 \/ (nn dt1 /\ fin dt1)).
  { unfold dt1. destruct (nltb (p_T p) (nadd (a_t st) (a_dt st))) eqn:E.
    - right. split; [apply nn_sub; try assumption; lra|].
      destruct (sub_ok (p_T p) (a_t st) FT Ft) as [F _]; [|assumption].
      destruct (close_spec prev b HC) as (_ & _ & _ & [N|N]).
      + apply (rnd64_small 0 (FR (p_T p))); [apply generic_format_0|apply FR_fmt| |apply FR_top|lra].
        rewrite Rabs_R0. apply bpow_gt_0.
      + assert (FR (p_T p) < 0)%R by (apply ST; lra).
        apply (rnd64_small 0 (- FR (a_t st))); [apply generic_format_0|apply generic_format_opp, FR_fmt| | |lra].
        * rewrite Rabs_R0. apply bpow_gt_0.
        * rewrite Rabs_Ropp. apply FR_top.
    - destruct (nan_dec (a_dt st)) as [N|N]; [now left|right].
      destruct (noclip _ _ _ Ft FT Nd N E) as (F & _). split; assumption. }
  destruct (@nltb KF b (@nadd KF (a_t st) dt1)) eqn:E.
  - do 2 eexists. split; [reflexivity|]. split; [|right; left; now apply landing].
    destruct N1 as [N1|[N1 F1]].
    + apply isnan_nn. now apply nan_sub_l.
    + apply nn_sub; [assumption|exact Fs|]. refine (Rle_trans _ _ _ (Req_le _ _ Es) _).
      destruct (Rle_or_lt (FR b - FR (a_t st)) (FR dt1)) as [H|H]; [assumption|exfalso].
      pose proof (nn_FR _ N1) as P1.
      assert (B : (FR (a_t st) <= FR (a_t st) + FR dt1 <= FR b)%R) by lra.
      destruct (add_ok (a_t st) dt1 Ft F1) as [Fa Ea].
      { apply (rnd64_small (FR (a_t st)) (FR b)); try apply FR_fmt; try apply FR_top. exact B. }
      change (PrimFloat.ltb b (PrimFloat.add (a_t st) dt1) = true) in E.
      rewrite fin_ltb in E by assumption. rewrite Ea in E.
      pose proof (rnd64_between _ _ _ (FR_fmt (a_t st)) (FR_fmt b) B) as Q.
      destruct (Rlt_bool_spec (FR b) (rnd64 (FR (a_t st) + FR dt1))) as [Q'|Q']; [lra|discriminate].
  - do 2 eexists. split; [reflexivity|]. destruct N1 as [N1|[N1 F1]].
    + split; [now apply isnan_nn|now left].
    + split; [assumption|]. destruct (nan_dec dt1) as [N|N]; [now left|]. right. right.
      destruct (noclip _ _ _ Ft Fb N1 N E) as (_ & F & L & _). split; assumption.
Qed.

Lemma last_app_cons : forall (pre : list float) a l d, last (pre ++ a :: l) d = last (a :: l) d.
Proof.
  induction pre as [|c pre IH]; intros a l d; [reflexivity|].
  change ((c :: pre) ++ a :: l) with (c :: (pre ++ a :: l)). specialize (IH a l d).
  destruct (pre ++ a :: l) eqn:E; [destruct pre; discriminate|]. exact IH.
Qed.

Lemma nth_skip1 : forall (l : list float) k, nth_error (skipn 1 l) k = nth_error l (S k).
Proof. intros [|a l] k; [now destruct k|reflexivity]. Qed.

Lemma iter_landed : forall ts (p : @aparams KF) (st st' : @astate KF),
  ok_solver (p_solver p) -> p_interp p = None -> p_all p = false ->
  p_T p = last ts 0%float -> p_t_eval p = skipn 1 ts -> close_grid ts = true ->
  landed ts st -> PrimFloat.ltb (a_t st) (p_T p) = true ->
  snd (adaptive_iter p st) = Ok st' -> landed ts st'.
Proof.
  intros ts p st st' (SN & Smn & Smx & _) HI HA HT HE HC [(pre & prev & rest & E1 & E2 & E3 & E4 & Ft & Lt) Nd] LT E.
  assert (HC' := HC). rewrite E1 in HC'. apply close_tail in HC'.
  destruct rest as [|b rest].
  { exfalso. subst ts. rewrite last_app_cons in HT. simpl in HT. rewrite Lt, HT in LT.
    rewrite Lt in Ft. rewrite fin_ltb in LT by assumption. rewrite Rlt_bool_false in LT by lra. discriminate. }
  destruct (close_last rest prev b HC') as (FT & L1 & L2).
  assert (HL : p_T p = last (b :: rest) 0%float).
  { rewrite HT, E1, last_app_cons. reflexivity. }
  rewrite <- HL in FT, L1, L2.
  assert (HB : close prev b = true) by (simpl in HC'; apply andb_prop in HC'; apply HC').
  assert (HN : nth_error (p_t_eval p) (a_ck st) = Some b).
  { rewrite HE, E3, E1, nth_skip1. replace (S (length pre))%nat with (length (pre ++ [prev])).
    - change (pre ++ prev :: b :: rest) with (pre ++ [prev] ++ b :: rest). rewrite app_assoc.
      rewrite nth_error_app2 by lia. now rewrite Nat.sub_diag.
    - rewrite app_length. simpl. lia. }
  destruct (attempt_cases p st b prev HI HN HB FT L1 L2 Ft Lt Nd) as (dt & old & EA & Nold & Cdt).
  unfold adaptive_iter in E. rewrite EA in E.
  apply mbind_inv_ok in E as (r & Er & E). destruct r as [|f_new x_new x_err stages]; [discriminate|].
  cbv zeta in E.
  set (ratio := error_ratio _ _ _ _ _ _) in E.
  apply mbind_inv_ok in E as ([[ck times] sol] & Eo & E). cbv [mret snd] in E.
  match type of E with Ok ?v = Ok _ => cut (landed ts v); [intros Q; injection E as <-; exact Q | clear E] end.
  assert (ND : nn (adapt_step (match old with Some o => nsub o dt | None => dt end) ratio (s_safety (p_solver p))
               (s_min_factor (p_solver p)) (s_max_factor (p_solver p)) (s_order (p_solver p)))).
  { apply adapt_nn; assumption. }
  destruct (nleb ratio n1) eqn:EL.
  2:{ (* rejected *)
    cbv [mret snd] in Eo. injection Eo as <- <- <-. split; [|exact ND]. simpl.
    exists pre, prev, (b :: rest). repeat split; try assumption; apply Lt. }
  (* accepted, so the step is not NaN *)
  destruct Cdt as [N|Cdt].
  { exfalso. pose proof (nan_ratio (p_atol p) (p_rtol p) (p_semi p) (a_x st) x_new x_err
      (SN _ _ _ _ _ _ _ _ _ N Er)) as Q. unfold ratio in EL. congruence. }
  unfold mlift in Eo. cbv [snd] in Eo. unfold accept_out in Eo. rewrite HI in Eo. cbv [rbind] in Eo.
  rewrite (proj1 (nth_error_pyget _ _ _) HN), HA, orb_false_r in Eo.
  destruct (neqb (nadd (a_t st) dt) b) eqn:EQ.
  - (* hit *)
    injection Eo as <- <- <-. split; [|exact ND]. simpl.
    assert (TB : PrimFloat.add (a_t st) dt = b).
    { destruct Cdt as [C|[F C]]; [assumption|].
      destruct (close_spec prev b HB) as (_ & Fb & _ & SG).
      change (PrimFloat.eqb (PrimFloat.add (a_t st) dt) b = true) in EQ.
      rewrite fin_eqb in EQ by assumption.
      destruct (Req_bool_spec (FR (PrimFloat.add (a_t st) dt)) (FR b)) as [Q|Q]; [|discriminate].
      apply fin_inj; [assumption|assumption|assumption|]. rewrite Q. destruct SG; lra. }
    destruct (close_spec prev b HB) as (_ & Fb & _ & _).
    exists (pre ++ [prev]), b, rest. rewrite TB, E2, !app_length, E3, E4. simpl.
    rewrite E1, <- app_assoc. repeat split; try lia; try assumption.
    destruct rest as [|c rest]; [reflexivity|].
    simpl in HC'. apply andb_prop in HC' as [_ HC']. apply andb_prop in HC' as [HC' _].
    destruct (close_spec b c HC') as (_ & _ & Lbc & _). lra.
  - (* accepted before the checkpoint *)
    injection Eo as <- <- <-. split; [|exact ND]. simpl.
    change (PrimFloat.eqb (PrimFloat.add (a_t st) dt) b = false) in EQ.
    destruct (close_spec prev b HB) as (_ & Fb & _ & _).
    destruct Cdt as [C|[F C]].
    { exfalso. rewrite C in EQ. rewrite fin_eqb, Req_bool_true in EQ by (assumption || reflexivity). discriminate. }
    rewrite fin_eqb in EQ by assumption.
    destruct (Req_bool_spec (FR (PrimFloat.add (a_t st) dt)) (FR b)) as [Q|Q]; [discriminate|].
    exists pre, prev, (b :: rest). repeat split; try assumption; lra.
Qed.

Lemma exit_landed : forall ts (st : @astate KF), close_grid ts = true -> landed ts st ->
  PrimFloat.ltb (a_t st) (last ts 0%float) = false -> a_times st = ts /\ length (a_sol st) = length ts.
Proof.
  intros ts st HC [(pre & prev & rest & E1 & E2 & E3 & E4 & Ft & Lt) Nd] L.
  assert (HC' := HC). rewrite E1 in HC'. apply close_tail in HC'.
  destruct rest as [|b rest].
  - subst ts. rewrite E2, E4, app_length. simpl. split; [reflexivity|lia].
  - exfalso. destruct (close_last rest prev b HC') as (FT & L1 & L2).
    rewrite E1, last_app_cons in L. change (last (prev :: b :: rest) 0%float) with (last (b :: rest) 0%float) in L.
    rewrite fin_ltb in L by assumption. rewrite Rlt_bool_true in L; [discriminate|lra].
Qed.

Lemma loop_landed : forall ts (p : @aparams KF),
  ok_solver (p_solver p) -> p_interp p = None -> p_all p = false ->
  p_T p = last ts 0%float -> p_t_eval p = skipn 1 ts -> close_grid ts = true ->
  forall fuel st times sol, landed ts st -> snd (adaptive_loop fuel p st) = Ok (times, sol) ->
  times = ts /\ length sol = length ts.
Proof.
  intros ts p OS HI HA HT HE HC. induction fuel as [|fuel IH]; intros st times sol LD E.
  - simpl in E. destruct (PrimFloat.ltb (a_t st) (p_T p)) eqn:L; [discriminate|].
    cbv [mret snd] in E. injection E as <- <-. rewrite HT in L. now apply exit_landed.
  - simpl in E. destruct (PrimFloat.ltb (a_t st) (p_T p)) eqn:L.
    + apply mbind_inv_ok in E as (st' & E1 & E2). exact (IH _ _ _ (iter_landed ts p st st' OS HI HA HT HE HC LD L E1) E2).
    + cbv [mret snd] in E. injection E as <- <-. rewrite HT in L. now apply exit_landed.
Qed.

Lemma pylast_last : forall (l : list float) T, pylast l = Ok T -> T = last l 0%float.
Proof.
  intros l T E. unfold pylast in E. rewrite <- (rev_involutive l). destruct (rev l) as [|z r]; [discriminate|].
  injection E as ->. simpl. now rewrite last_last.
Qed.

Lemma odeint_landed : forall ts a b l fuel f k1 x dt (s : solver KF (vec KF)) atol rtol semi times sol,
  ts = a :: b :: l -> close_grid ts = true -> ok_solver s -> nn dt ->
  snd (@adaptive_odeint KF fuel f k1 x dt ts s atol rtol None false semi) = Ok (times, sol) ->
  times = ts /\ length sol = length ts.
Proof.
  intros ts a b l fuel f k1 x dt s atol rtol semi times sol E1 HC OS Nd E.
  unfold adaptive_odeint in E. apply mbind_inv_ok in E as (t0 & Et0 & E). apply mbind_inv_ok in E as (T & ET & E).
  cbv zeta in E.
  eapply loop_landed; [| | | | |exact HC| |exact E]; try reflexivity; try assumption.
  - exact (pylast_last ts T ET).
  - split; [|exact Nd]. exists [], a, (b :: l). rewrite E1 in Et0. injection Et0 as <-.
    rewrite E1 in HC. simpl in HC. apply andb_prop in HC as [HC _]. destruct (close_spec a b HC) as (Fa & _ & Lab & _).
    simpl. repeat split; try assumption; lra.
Qed.
End Pw.

(** C16 (what holds).  In binary64, for every vector field (it may return NaN, infinities or arrays of a wrong
    length), every power function that is not negative at fractional exponents, all tolerances and seminorms:
    if consecutive times of [t_span] have one sign and are within a factor two of each other, a solve by dopri5 or
    tsit5 (without interpolation) that returns reports exactly the requested times, bit for bit, with one state
    each.  On decreasing grids the reported times are the negated ones. *)
Lemma C16_close_grid_partial_pf :
  forall (pw : float -> float -> float) fuel f x (ts : list float) s atol rtol save_at semi times sol,
  sane_power pw -> s = DormandPrince45 (FloatOps pw) \/ s = Tsitouras45 (FloatOps pw) -> (2 <= length ts)%nat ->
  (close_grid ts = true -> forall tt, tt = @TTensor (FloatOps pw) ts \/ tt = @TList (FloatOps pw) ts ->
     snd (@odeint (FloatOps pw) fuel f x tt s atol rtol false false save_at semi) = Ok (times, sol) ->
     times = ts /\ length sol = length ts) /\
  (close_grid (map PrimFloat.opp ts) = true ->
     snd (@odeint (FloatOps pw) fuel f x (@TTensor (FloatOps pw) ts) s atol rtol false false save_at semi) = Ok (times, sol) ->
     times = map PrimFloat.opp ts /\ length sol = length ts).
Proof.
  intros pw fuel f x ts s atol rtol save_at semi times sol SP HS HL.
  assert (OS : ok_solver pw s) by (destruct HS; subst s; [apply dopri5_ok|apply tsit5_ok]).
  assert (HI : (if s_is_tsit5 s then None else if false then Some (construct_4th (FloatOps pw)) else None) = None)
    by (destruct (s_is_tsit5 s); reflexivity).
  destruct OS as (O1 & O2 & O3 & O4 & O5).
  assert (OS : ok_solver pw s) by (repeat split; assumption).
  destruct ts as [|a [|b l]]; simpl in HL; try lia. clear HL.
  assert (Main : forall g ft (ts' : list float) a' b' l', ts' = a' :: b' :: l' -> close_grid ts' = true ->
    snd (if s_fixed s then @fixed_odeint (FloatOps pw) _ g x ts' (s_step s) save_at
         else
           t <- mlift (pyget ts' 0) ;;
           k1 <- call g t x ;;
           dt <- @init_step (FloatOps pw) ft k1 x t (s_order s) atol rtol ;;
           @adaptive_odeint (FloatOps pw) fuel g k1 x dt ts' s atol rtol
             (if s_is_tsit5 s then None else if false then Some (construct_4th (FloatOps pw)) else None) false semi)
      = Ok (times, sol) -> times = ts' /\ length sol = length ts').
  { intros g ft ts' a' b' l' E' HC E. rewrite O4, HI in E.
    apply mbind_inv_ok in E as (t & _ & E). apply mbind_inv_ok in E as (k1 & _ & E).
    apply mbind_inv_ok in E as (dt & Ed & E). rewrite O5 in Ed. apply init_nn in Ed; [|assumption].
    eapply odeint_landed; eassumption. }
  split.
  - intros HC tt Htt E. unfold odeint in E. apply mbind_inv_ok in E as ([g ts'] & Ep & E).
    assert (PL : ts_list tt = a :: b :: l) by (destruct Htt; subst tt; reflexivity).
    assert (CL : PrimFloat.ltb b a = false).
    { simpl in HC. apply andb_prop in HC as [HC _]. destruct (close_spec a b HC) as (Fa & Fb & Lab & _).
      rewrite fin_ltb, Rlt_bool_false by (assumption || lra). reflexivity. }
    unfold mlift in Ep. cbv [snd] in Ep. unfold prep_time in Ep. rewrite PL in Ep. cbn [pyget nth_error rbind] in Ep.
    change (@nltb (FloatOps pw) b a) with (PrimFloat.ltb b a) in Ep. rewrite CL in Ep. injection Ep as <- <-.
    exact (Main f f _ a b l eq_refl HC E).
  - intros HC E. unfold odeint in E. apply mbind_inv_ok in E as ([g ts'] & Ep & E).
    assert (CL : PrimFloat.ltb b a = true).
    { simpl in HC. apply andb_prop in HC as [HC _].
      destruct (close_spec _ _ HC) as (Fa & Fb & Lab & _). unfold fin, FR in *. rewrite !opp_equiv in *.
      rewrite !is_finite_Bopp in *. rewrite !B2R_Bopp in *.
      rewrite fin_ltb by assumption. unfold FR. rewrite Rlt_bool_true by lra. reflexivity. }
    unfold mlift in Ep. cbv [snd] in Ep. unfold prep_time in Ep. cbn [ts_list pyget nth_error rbind] in Ep.
    change (@nltb (FloatOps pw) b a) with (PrimFloat.ltb b a) in Ep. rewrite CL in Ep. injection Ep as <- <-.
    destruct (Main (neg_field f) f _ (PrimFloat.opp a) (PrimFloat.opp b) (map PrimFloat.opp l) eq_refl HC E) as [M1 M2].
    split; [exact M1|]. rewrite M2. simpl. now rewrite map_length.
Qed.

(** A case: the field (-x, 1) over t_span = [1, 1.5, 2, 2.1, 4] meets the hypotheses and the solve returns. *)
Lemma C16_close_grid_partial_ex_pf :
  let pw := fun _ _ : float => 1%float in
  let ts := [1; 1.5; 2; 2.1; 4]%float in
  sane_power pw /\ close_grid ts = true /\
  exists times sol,
    snd (@odeint (FloatOps pw) 200 (fun _ x => [PrimFloat.opp (nth 0 x 0%float); 1%float]) [1%float; 0%float]
      (@TTensor (FloatOps pw) ts) (DormandPrince45 (FloatOps pw)) 0.001%float 0.001%float false false [] None)
    = Ok (times, sol) /\ length sol = 5.
Proof.
  split; [intros a b _ _; vm_compute; reflexivity|]. split; [vm_compute; reflexivity|].
  do 2 eexists. split; vm_compute; reflexivity.
Qed.
