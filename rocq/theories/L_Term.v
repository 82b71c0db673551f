(** Termination of the adaptive loop and count of its iterations. *)
From Coq Require Import ZArith QArith Qreals Reals Lra Lia List Bool Sorted.
From Verif Require Import Num Py Tensor M_Constants M_SolversOde M_Utils M_Interp M_Odeint.
From Verif Require Import Spec_Ode Spec_RK Spec_Norm Spec_Adaptive.
From Verif Require Import L_Base L_Fixed L_Vec L_Interp L_Utils L_Adaptive L_Run.
Import ListNotations.
Local Open Scope R_scope.

Lemma arch_mult (a d : R) : 0 < d -> exists m : nat, a <= INR m * d.
Proof.
  intros Hd. destruct (archimed (a / d)) as [H _].
  exists (Z.to_nat (up (a / d))). rewrite INR_IZR_INZ.
  assert (Hz : (up (a / d) <= Z.of_nat (Z.to_nat (up (a / d))))%Z) by lia.
  apply IZR_le in Hz. apply Rle_trans with (a / d * d); [right; field; lra|].
  apply Rmult_le_compat_r; lra.
Qed.

Lemma arch_pow (a r d : R) : 0 < d -> 0 <= r < 1 -> 0 <= a -> exists j : nat, a * r ^ j <= d.
Proof.
  intros Hd Hr Ha. destruct (Req_dec a 0) as [->|Ha0]. { exists 0%nat. lra. }
  destruct (pow_lt_1_zero r) with (y := d / a) as (N & HN).
  { rewrite Rabs_right; lra. } { apply Rdiv_lt_0_compat; lra. }
  exists N. specialize (HN N (le_n _)). rewrite Rabs_right in HN by (apply Rle_ge, pow_le; lra).
  apply Rle_trans with (a * (d / a)); [|right; field; lra]. apply Rmult_le_compat_l; lra.
Qed.

Section Term.
Variables (f : R -> rvec -> rvec) (s : solver ROps (vec ROps)) (T : R) (t_eval : list R).
Variables (atol rtol : R) (bmid : option (list R)) (all : bool) (semi : option nat).
Variable n : nat.
Variables (xn err : R -> R -> rvec -> rvec) (stg : R -> R -> rvec -> list rvec).
Variable dn : R -> R -> rvec -> R -> rvec.

Hypothesis Hstep : forall x t h, length x = n -> 
  snd (s_step s f x t h (Some (f t x))) =
  Ok (Ret4 (f (t + h) (xn t h x)) (xn t h x) (err t h x) (stg t h x)).
Hypothesis Hxn : forall x t h, length x = n -> length (xn t h x) = n.
Hypothesis Hdn : forall bm x t h c, bmid = Some bm -> length x = n -> h <> 0 ->
  exists sm, @bmid_sum ROps bm (stg t h x) = Ok sm /\
  @interp_evaluate ROps (@fourth_fit ROps h (f t x) (f (t + h) (xn t h x)) x (xn t h x)
      (@vadd ROps x (@vscale ROps h sm))) t (t + h) c = Ok (dn t h x c).
Hypothesis Hmn : 0 < s_min_factor s <= 1.
Hypothesis Hmx : 1 <= s_max_factor s.
Hypothesis Hsf : 0 < s_safety s < 1.

Let p := @MkP ROps f s T t_eval atol rtol bmid all semi.
Let rat := ratio atol rtol semi xn err.
Let acc := accd atol rtol semi xn err.
Notation InvR := (Inv f T t_eval n).
Notation fac r := (factor_of r (s_safety s) (s_min_factor s) (s_max_factor s) (s_order s)).

(** one iteration, in the form needed here *)
Lemma iter_cases st rest : InvR st rest -> a_t st < T ->
  exists h q st', snd (@adaptive_iter ROps p st) = Ok st' /\
    0 < h <= a_dt st /\ 0 < q <= a_dt st /\ a_t st + h <= T /\
    a_dt st' = q * fac (rat (a_t st) h (a_x st)) /\
    ((1 < rat (a_t st) h (a_x st) /\ a_t st' = a_t st /\ a_x st' = a_x st /\ InvR st' rest) \/
     (acc (a_t st) h (a_x st) (a_x st') /\ a_t st' = a_t st + h /\
      exists rest', InvR st' rest' /\
        ((length rest' < length rest)%nat \/ (rest' = rest /\ h = a_dt st /\ q = a_dt st)))).
Proof.
  intros HI Ht.
  destruct (attempt_spec f s T t_eval atol rtol bmid all semi n xn err stg dn Hstep Hxn Hdn st rest HI Ht)
    as (h & old & Ea & Hh & HhT & Hnone & Hhd & Hold1 & Hold).
  destruct (iter_spec f s T t_eval atol rtol bmid all semi n xn err stg dn Hstep Hxn Hdn Hmn Hmx st rest HI Ht)
    as (h' & old' & st' & Ea' & _ & _ & Eit & Hdt & Hcase).
  fold p in Ea, Ea'. rewrite Ea in Ea'. injection Ea' as <- <-.
  exists h, (match old with Some o => o - h | None => h end), st'.
  split; [exact Eit|]. split; [lra|].
  split. { destruct old as [o|]; [destruct (Hold o eq_refl) as [Ho _]; lra|lra]. }
  split; [exact HhT|]. split; [rewrite Hdt; apply adapt_factor|].
  destruct Hcase as [(H1 & H2 & H3 & _ & _ & H4)|(H1 & H2 & crossed & hit & rest' & E1 & E2 & E3 & E4 & _ & _ & HI')].
  - left. auto.
  - right. split; [exact H1|]. split; [exact H2|]. exists rest'. split; [exact HI'|].
    destruct (Nat.lt_ge_cases (length rest') (length rest)) as [Hl|Hl]; [now left|right].
    assert (crossed = [] /\ hit = false) as [-> ->].
    { rewrite E1, !app_length in Hl. destruct crossed, hit; simpl in Hl; try lia; auto. }
    cbn [app] in E1. subst rest'. split; auto.
    assert (Hno : old = None).
    { destruct old as [o|]; auto. destruct (Hold o eq_refl) as (_ & c & r & E & Ec).
      specialize (E4 c). rewrite E in E4. specialize (E4 (or_introl eq_refl)). lra. }
    subst old. destruct (Hold1 eq_refl) as [->|Eh]; [auto|]. exfalso.
    destruct HI as (_ & _ & _ & _ & _ & _ & HT & _). specialize (E4 T (HT Ht)). lra.
Qed.

Definition halts (st : astate ROps) : Prop := exists fuel r, snd (@adaptive_loop ROps fuel p st) = Ok r.

Lemma halts_step (st st' : astate ROps) : a_t st < T -> snd (@adaptive_iter ROps p st) = Ok st' -> halts st' -> halts st.
Proof.
  intros Ht Hi (fuel & r & Hf). exists (S fuel), r.
  cbn [adaptive_loop]. change (p_T p) with T. rops. rewrite (proj2 (Rltb_true _ _) Ht).
  rewrite snd_mbind. rbw Hi. cbn [rbind]. exact Hf.
Qed.
Lemma halts_done (st : astate ROps) : T <= a_t st -> halts st.
Proof.
  intros Ht. exists 0%nat. eexists. cbn [adaptive_loop]. change (p_T p) with T. rops.
  rewrite (proj2 (Rltb_false _ _)) by lra. reflexivity.
Qed.

(** D: a set of states the accepted steps stay in, on which small steps are accepted *)
Variable D : R -> rvec -> Prop.
Variable hm : R.
Hypothesis Hhm : 0 < hm.
Hypothesis HDacc : forall t h x x', D t x -> length x = n -> 0 < h -> t + h <= T -> acc t h x x' -> D (t + h) x'.
Hypothesis HDsmall : forall t h x, D t x -> length x = n -> 0 < h <= hm -> t + h <= T -> rat t h x < 1.
Hypothesis Hmn1 : s_min_factor s < 1.

Let mx := s_max_factor s.
Let g := hm / mx.

Lemma rat_nn t h x : 0 <= rat t h x.
Proof. apply ratio_nonneg. Qed.

Lemma mx_pos : 0 < mx. Proof. unfold mx. lra. Qed.
Lemma g_pos : 0 < g. Proof. unfold g. apply Rdiv_lt_0_compat; auto using mx_pos. Qed.
Lemma g_mx : g * mx = hm. Proof. unfold g. field. apply Rgt_not_eq, mx_pos. Qed.
Lemma g_le : g <= hm.
Proof. rewrite <- g_mx. rewrite <- (Rmult_1_r g) at 1. apply Rmult_le_compat_l; [apply Rlt_le, g_pos|exact Hmx]. Qed.

Section Fixed.
Variable rest : list R.
Hypothesis IHrest : forall (st : astate ROps) r, (length r < length rest)%nat -> InvR st r -> D (a_t st) (a_x st) -> halts st.

Section Ph.
Variable K : nat.
Hypothesis IHK : forall st : astate ROps, InvR st rest -> D (a_t st) (a_x st) -> T - a_t st <= INR K * g -> halts st.

(** the steps are at most hm: all are accepted and the step grows *)
Lemma small_phase M : forall (st : astate ROps) delta, InvR st rest -> D (a_t st) (a_x st) ->
  T - a_t st <= INR (S K) * g -> a_dt st <= hm -> 0 < delta <= a_dt st -> T - a_t st <= INR M * delta -> halts st.
Proof.
  induction M as [|M IH]; intros st delta HI HD HK Hd Hdel HM.
  { apply halts_done. simpl in HM. lra. }
  destruct (Rlt_dec (a_t st) T) as [Ht|Ht]; [|apply halts_done; lra].
  destruct (iter_cases st rest HI Ht) as (h & q & st' & Eit & Hh & Hq & HhT & Edt & Hcase).
  assert (Hr : rat (a_t st) h (a_x st) < 1).
  { apply HDsmall; auto; [|lra]. destruct HI; auto. }
  apply (halts_step st st' Ht Eit).
  destruct Hcase as [(H1 & _)|(Hacc & Et & rest' & HI' & Hlen)]; [lra|].
  assert (HD' : D (a_t st') (a_x st')).
  { rewrite Et. apply (HDacc _ _ (a_x st)); auto; [|lra]. destruct HI; auto. }
  destruct Hlen as [Hlen|(-> & Eh & Eq)]; [now apply (IHrest st' rest')|].
  assert (Hg1 : 1 <= fac (rat (a_t st) h (a_x st))).
  { apply factor_grow; auto. split; auto. apply rat_nn. }
  assert (Hg2 : fac (rat (a_t st) h (a_x st)) <= mx).
  { apply factor_range; auto. apply rat_nn. }
  rewrite Eq in Edt.
  destruct (Rle_dec (a_dt st) g) as [Hsm|Hbg].
  - apply (IH st' delta); auto.
    + rewrite Et. lra.
    + rewrite Edt. apply Rle_trans with (a_dt st * mx); [apply Rmult_le_compat_l; lra|].
      rewrite <- g_mx. apply Rmult_le_compat_r; [apply Rlt_le, mx_pos|auto].
    + split; [lra|]. rewrite Edt. apply Rle_trans with (a_dt st * 1); [lra|]. apply Rmult_le_compat_l; lra.
    + rewrite Et. rewrite S_INR in HM. lra.
  - apply IHK; auto. rewrite Et. rewrite S_INR in HK. lra.
Qed.

(** the step is above hm: rejections shrink it geometrically *)
Lemma big_phase r J : r = Rmax (s_safety s) (s_min_factor s) ->
  forall st : astate ROps, InvR st rest -> D (a_t st) (a_x st) -> T - a_t st <= INR (S K) * g -> a_dt st * r ^ J <= hm -> halts st.
Proof.
  intros Er. assert (Hrb : 0 < r < 1).
  { rewrite Er. split; [apply Rlt_le_trans with (s_safety s); [lra|apply Rmax_l]|apply Rmax_lub_lt; lra]. }
  assert (Hsmall : forall st : astate ROps, InvR st rest -> D (a_t st) (a_x st) -> T - a_t st <= INR (S K) * g ->
            a_dt st <= hm -> halts st).
  { intros st HI HD HK Hd. assert (0 < a_dt st) by (destruct HI as (_ & _ & ? & _); auto).
    destruct (arch_mult (T - a_t st) (a_dt st)) as (M & HM); auto.
    apply (small_phase M st (a_dt st)); auto. lra. }
  induction J as [|J IH]; intros st HI HD HK HJ.
  { apply Hsmall; auto. simpl in HJ. lra. }
  destruct (Rlt_dec (a_t st) T) as [Ht|Ht]; [|apply halts_done; lra].
  destruct (Rle_dec (a_dt st) hm) as [Hd|Hd]; [now apply Hsmall|].
  destruct (iter_cases st rest HI Ht) as (h & q & st' & Eit & Hh & Hq & HhT & Edt & Hcase).
  apply (halts_step st st' Ht Eit).
  destruct Hcase as [(Hrej & Et & Ex & HI')|(Hacc & Et & rest' & HI' & Hlen)].
  - apply IH; auto; rewrite ?Et, ?Ex; auto.
    apply Rle_trans with (2 := HJ). simpl.
    replace (a_dt st * (r * r ^ J)) with (a_dt st * r * r ^ J) by ring.
    apply Rmult_le_compat_r; [apply pow_le; lra|]. rewrite Edt.
    assert (Hf : fac (rat (a_t st) h (a_x st)) <= r) by (rewrite Er; apply factor_shrink; auto; lra).
    assert (0 < fac (rat (a_t st) h (a_x st))) by (apply factor_pos; auto; apply rat_nn).
    apply Rmult_le_compat; lra.
  - assert (HD' : D (a_t st') (a_x st')).
    { rewrite Et. apply (HDacc _ _ (a_x st)); auto; [|lra]. destruct HI; auto. }
    destruct Hlen as [Hlen|(-> & Eh & Eq)]; [now apply (IHrest st' rest')|].
    apply IHK; auto. rewrite Et. rewrite S_INR in HK. pose proof g_le. lra.
Qed.
End Ph.

Lemma rest_phase K : forall st : astate ROps, InvR st rest -> D (a_t st) (a_x st) -> T - a_t st <= INR K * g -> halts st.
Proof.
  induction K as [|K IHK]; intros st HI HD HK.
  { apply halts_done. simpl in HK. lra. }
  set (r := Rmax (s_safety s) (s_min_factor s)).
  assert (Hrb : 0 < r < 1).
  { unfold r. split; [apply Rlt_le_trans with (s_safety s); [lra|apply Rmax_l]|apply Rmax_lub_lt; lra]. }
  destruct (arch_pow (a_dt st) r hm) as (J & HJ); auto.
  { lra. } { destruct HI as (_ & _ & ? & _). lra. }
  exact (big_phase K IHK r J eq_refl st HI HD HK HJ).
Qed.
End Fixed.

Lemma loop_halts : forall rest (st : astate ROps), InvR st rest -> D (a_t st) (a_x st) -> halts st.
Proof.
  assert (H : forall m rest (st : astate ROps), (length rest <= m)%nat -> InvR st rest -> D (a_t st) (a_x st) -> halts st).
  { induction m as [|m IH]; intros rest st Hm HI HD;
      destruct (arch_mult (T - a_t st) g g_pos) as (K & HK); apply (rest_phase rest) with (K := K); auto;
      intros st' r' Hr'; [lia|]. apply IH; lia. }
  intros rest st. exact (H (length rest) rest st (le_n _)).
Qed.

End Term.

(** Number of iterations *)
Section Count.
Variables (p : aparams ROps) (c : nat).
Hypothesis Hc : forall x t h k, length (fst (s_step (p_solver p) (p_f p) x t h (Some k))) = c.

Lemma iter_calls st : length (fst (@adaptive_iter ROps p st)) = c.
Proof.
  assert (Hb : forall (A B : Type) (m : M (R * rvec) A) (k : A -> M (R * rvec) B) r, snd m = Ok r ->
     length (fst (mbind m k)) = (length (fst m) + length (fst (k r)))%nat).
  { intros A B m k r E. unfold mbind. rewrite E. apply app_length. }
  assert (Hb2 : forall (A B : Type) (m : M (R * rvec) A) (k : A -> M (R * rvec) B), 
     (forall r, snd m <> Ok r) -> length (fst (mbind m k)) = length (fst m)).
  { intros A B m k E. unfold mbind. destruct (snd m); auto. now destruct (E a). }
  unfold adaptive_iter. destruct (attempt_dt p st) as [dt old]. 
  pose proof (Hc (a_x st) (a_t st) dt (a_k1 st)) as H.
  destruct (snd (s_step (p_solver p) (p_f p) (a_x st) (a_t st) dt (Some (a_k1 st)))) as [a| |] eqn:E.
  - etransitivity; [exact (Hb _ _ _ _ _ E)|]. rewrite <- (Nat.add_0_r c). f_equal; [exact H|].
    destruct a; try reflexivity. cbv zeta.
    match goal with |- context [if ?b then mlift _ else _] => destruct b end; unfold mbind.
    + destruct (accept_out _ _ _ _ _ _) as [[[? ?] ?]| |]; reflexivity.
    + reflexivity.
  - etransitivity; [apply Hb2; intros r Er; pose proof (eq_trans (eq_sym E) Er); discriminate|exact H].
  - etransitivity; [apply Hb2; intros r Er; pose proof (eq_trans (eq_sym E) Er); discriminate|exact H].
Qed.

(** A run that returns uses some number m of iterations: m units of fuel suffice, fewer do not,
    and the vector field is called c * m times. *)
Lemma loop_count fuel : forall (st : astate ROps) r, snd (@adaptive_loop ROps fuel p st) = Ok r ->
  exists m, (m <= fuel)%nat /\ (forall k, (m <= k)%nat -> @adaptive_loop ROps k p st = @adaptive_loop ROps fuel p st) /\
    (forall k, (k < m)%nat -> snd (@adaptive_loop ROps k p st) = OutOfFuel) /\
    length (fst (@adaptive_loop ROps fuel p st)) = (c * m)%nat.
Proof.
  induction fuel as [|fuel IH]; intros st r Hr; cbn [adaptive_loop] in Hr |- *;
   destruct (nltb (a_t st) (p_T p)) eqn:E.
  - discriminate.
  - exists 0%nat. split; [lia|]. split; [|split; [intros; lia|cbn; lia]].
    intros k _. destruct k; cbn [adaptive_loop]; rewrite E; reflexivity.
  - rewrite snd_mbind in Hr. destruct (snd (@adaptive_iter ROps p st)) as [st'| |] eqn:Ei; try discriminate.
    cbn [rbind] in Hr. destruct (IH st' r Hr) as (m & Hm & H1 & H2 & H3).
    exists (S m). split; [lia|]. split; [|split].
    + intros [|k] Hk; [lia|]. cbn [adaptive_loop]. rewrite E. unfold mbind. rewrite Ei. rewrite H1 by lia. reflexivity.
    + intros [|k] Hk; cbn [adaptive_loop]; rewrite E; [reflexivity|]. rewrite snd_mbind, Ei. cbn [rbind].
      apply H2. lia.
    + unfold mbind. rewrite Ei. cbn [fst]. etransitivity; [apply app_length|]. pose proof (iter_calls st) as HH. rops. rewrite H3. 
      lia.
  - exists 0%nat. split; [lia|]. split; [|split; [intros; lia|cbn; lia]].
    intros k _. destruct k; cbn [adaptive_loop]; rewrite E; reflexivity.
Qed.
End Count.
