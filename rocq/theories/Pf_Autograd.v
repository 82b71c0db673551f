(** Derivatives computed by autograd through the solvers. *)
From Coq Require Import ZArith QArith Qreals Reals Lra Lia List Bool.
From Verif Require Import Num Py Tensor M_Constants M_SolversOde M_Utils M_Interp M_Odeint M_Autograd.
From Verif Require Import Spec_Ode Spec_Trees Spec_RK Spec_Autograd.
From Verif Require Import L_Base L_Fixed L_Vec L_Steps L_Steps2 L_Tables L_Fixed2 L_Nan L_Utils Pf_Fixed.
Import ListNotations.
Local Notation length := List.length.
Local Open Scope R_scope.

Notation DR := (DualOps ROps).

(** ** Numbers *)
Lemma tr_add a b c d : tracks a c -> tracks b d -> tracks (@nadd DR a b) (fun e => c e + d e).
Proof. intros [H1 H2] [H3 H4]. split; cbn; [now rewrite H1, H3|]. now apply (derivable_pt_lim_plus c d). Qed.
Lemma tr_sub a b c d : tracks a c -> tracks b d -> tracks (@nsub DR a b) (fun e => c e - d e).
Proof. intros [H1 H2] [H3 H4]. split; cbn; [now rewrite H1, H3|]. now apply (derivable_pt_lim_minus c d). Qed.
Lemma tr_mul a b c d : tracks a c -> tracks b d -> tracks (@nmul DR a b) (fun e => c e * d e).
Proof. intros [H1 H2] [H3 H4]. split; cbn; [now rewrite H1, H3|]. rewrite H1, H3. now apply (derivable_pt_lim_mult c d). Qed.
Lemma tr_opp a c : tracks a c -> tracks (@nopp DR a) (fun e => - c e).
Proof. intros [H1 H2]. split; cbn; [now rewrite H1|]. now apply (derivable_pt_lim_opp c). Qed.
Lemma tr_cst a : tracks (@cst ROps a) (fun _ => a).
Proof. split; cbn; [reflexivity|]. replace (Q2R 0) with 0 by (unfold Q2R; cbn; lra). apply derivable_pt_lim_const. Qed.
Lemma cst_eq a : @cst ROps a = (a, 0).
Proof. unfold cst. f_equal. unfold Q2R; cbn; lra. Qed.

Lemma tr_ext a c d : (forall e, c e = d e) -> tracks a c -> tracks a d.
Proof.
  intros E [H1 H2]. split; [now rewrite <- E|]. intros eps He. destruct (H2 eps He) as (del & Hd). exists del.
  intros h Hh Hl. rewrite <- !E. now apply Hd.
Qed.

(** ** Vectors *)
Section Vec.
Variable n : nat.
Lemma tv_ext A a b : (forall e, a e = b e) -> tracks_vec n A a -> tracks_vec n A b.
Proof.
  intros E (L1 & L2 & H). split; [exact L1|]. split; [intros e; now rewrite <- E|]. intros i Hi.
  apply (tr_ext _ (fun e => nth i (a e) 0)); [intros e; now rewrite E|]. now apply H.
Qed.
Lemma tv_map2 (op : DR -> DR -> DR) (op' : R -> R -> R) A B a b :
  (forall a b c d, tracks a c -> tracks b d -> tracks (op a b) (fun e => op' (c e) (d e))) ->
  tracks_vec n A a -> tracks_vec n B b -> tracks_vec n (map2 op A B) (fun e => map2 op' (a e) (b e)).
Proof.
  intros Hop (L1 & L2 & H) (L3 & L4 & H'). split; [|split].
  - rewrite map2_length. change (num DR) with (R * R)%type. rewrite L1, L3. apply Nat.min_id.
  - intros e. rewrite map2_length, L2, L4. apply Nat.min_id.
  - intros i Hi. refine (eq_ind_r (fun d => tracks d _) _ (map2_nth op A B i (0, 0) (0, 0) (0, 0) _ _)); try (change (num DR) with (R * R)%type; lia).
    apply (tr_ext _ (fun e => op' (nth i (a e) 0) (nth i (b e) 0))).
    + intros e. symmetry. apply map2_nth; rewrite ?L2, ?L4; exact Hi.
    + apply Hop; auto.
Qed.
Lemma tv_map (op : DR -> DR) (op' : R -> R) A a :
  (forall a c, tracks a c -> tracks (op a) (fun e => op' (c e))) ->
  tracks_vec n A a -> tracks_vec n (map op A) (fun e => map op' (a e)).
Proof.
  intros Hop (L1 & L2 & H). split; [|split].
  - rewrite map_length. exact L1.
  - intros e. rewrite map_length. apply L2.
  - intros i Hi. refine (eq_ind_r (fun d => tracks d _) _ (eq_trans (nth_indep (map op A) (0, 0) (op (0, 0)) _) (map_nth op A (0, 0) i)));
      [|rewrite map_length; change (num DR) with (R * R)%type; lia]. apply (tr_ext _ (fun e => op' (nth i (a e) 0))).
    + intros e. symmetry. rewrite (nth_indep _ 0 (op' 0)) by (rewrite map_length, L2; exact Hi). apply map_nth.
    + now apply Hop, H.
Qed.
Lemma tv_add A B a b : tracks_vec n A a -> tracks_vec n B b -> tracks_vec n (@vadd DR A B) (fun e => @vadd ROps (a e) (b e)).
Proof. apply (tv_map2 (@nadd DR) Rplus). apply tr_add. Qed.
Lemma tv_sub A B a b : tracks_vec n A a -> tracks_vec n B b -> tracks_vec n (@vsub DR A B) (fun e => @vsub ROps (a e) (b e)).
Proof. apply (tv_map2 (@nsub DR) Rminus). apply tr_sub. Qed.
Lemma tv_opp A a : tracks_vec n A a -> tracks_vec n (@vopp DR A) (fun e => @vopp ROps (a e)).
Proof. apply (tv_map (@nopp DR) Ropp). apply tr_opp. Qed.
Lemma tv_scale (k : DR) (k' : R) A a : k = (k', 0) -> tracks_vec n A a -> tracks_vec n (@vscale DR k A) (fun e => @vscale ROps k' (a e)).
Proof.
  intros -> H. apply (tv_map (@nmul DR (k', 0)) (Rmult k')); [|exact H].
  intros b c Hb. apply (tr_mul (k', 0) b (fun _ => k') c); [|exact Hb]. rewrite <- cst_eq. apply tr_cst.
Qed.
End Vec.

(** ** Times *)
Lemma t_lit q : @nQ DR q = (Q2R q, 0).
Proof. cbn. f_equal. unfold Q2R; cbn; lra. Qed.
Lemma t_add a b : @nadd DR (a, 0) (b, 0) = (a + b, 0).
Proof. cbn. f_equal. lra. Qed.
Lemma t_sub a b : @nsub DR (a, 0) (b, 0) = (a - b, 0).
Proof. cbn. f_equal. lra. Qed.
Lemma t_mul a b : @nmul DR (a, 0) (b, 0) = (a * b, 0).
Proof. cbn. f_equal. lra. Qed.
Lemma t_opp a : @nopp DR (a, 0) = (- a, 0).
Proof. cbn. f_equal. lra. Qed.
Lemma t_pow a k : @npow DR (a, 0) k = (@npow ROps a k, 0).
Proof. induction k as [|k IH]; cbn [npow]; [apply t_lit|]. rewrite IH. apply t_mul. Qed.

(** ** The rules of differentiation *)
Lemma near_pos c l : derivable_pt_lim c 0 l -> 0 < c 0 -> exists del : posreal, forall h, Rabs h < del -> 0 < c h.
Proof.
  intros H Hc. destruct (H 1 Rlt_0_1) as (del & Hd).
  assert (Hp : 0 < Rabs l + 1) by (pose proof (Rabs_pos l); lra).
  assert (Hm : 0 < Rmin del (c 0 / (Rabs l + 1))) by (apply Rmin_glb_lt; [apply cond_pos|now apply Rdiv_lt_0_compat]).
  exists (mkposreal _ Hm). intros h Hh. cbn in Hh. destruct (Req_dec h 0) as [->|Hn]; [exact Hc|].
  assert (Hh1 : Rabs h < del) by (eapply Rlt_le_trans; [exact Hh|apply Rmin_l]).
  assert (Hh2 : Rabs h < c 0 / (Rabs l + 1)) by (eapply Rlt_le_trans; [exact Hh|apply Rmin_r]).
  specialize (Hd h Hn Hh1). rewrite Rplus_0_l in Hd.
  assert (E : c h - c 0 = ((c h - c 0) / h - l) * h + l * h) by (field; exact Hn).
  assert (B : Rabs (c h - c 0) <= (Rabs l + 1) * Rabs h).
  { rewrite E. eapply Rle_trans; [apply Rabs_triang|]. rewrite !Rabs_mult. pose proof (Rabs_pos h). nra. }
  assert (B2 : (Rabs l + 1) * Rabs h < c 0).
  { apply (Rmult_lt_compat_l (Rabs l + 1)) in Hh2; [|exact Hp]. replace ((Rabs l + 1) * (c 0 / (Rabs l + 1))) with (c 0) in Hh2 by (field; lra). exact Hh2. }
  pose proof (Rle_abs (- (c h - c 0))) as G. rewrite Rabs_Ropp in G. lra.
Qed.

Lemma lim_local c d l (del : posreal) : (forall h, Rabs h < del -> c h = d h) -> derivable_pt_lim c 0 l -> derivable_pt_lim d 0 l.
Proof.
  intros E H eps He. destruct (H eps He) as (del' & Hd).
  assert (Hm : 0 < Rmin del del') by (apply Rmin_glb_lt; apply cond_pos).
  exists (mkposreal _ Hm). intros h Hn Hh. cbn in Hh. rewrite Rplus_0_l. rewrite <- (E h), <- (E 0).
  - specialize (Hd h Hn (Rlt_le_trans _ _ _ Hh (Rmin_r _ _))). now rewrite Rplus_0_l in Hd.
  - rewrite Rabs_R0. apply cond_pos.
  - exact (Rlt_le_trans _ _ _ Hh (Rmin_l _ _)).
Qed.

Lemma tracks_less a b c d : tracks a c -> tracks b d -> c 0 < d 0 -> exists del : posreal, forall h, Rabs h < del -> c h < d h.
Proof.
  intros [_ Ha] [_ Hb] H. destruct (near_pos (fun e => d e - c e) (snd b - snd a)) as (del & Hd); [now apply (derivable_pt_lim_minus d c)|lra|].
  exists del. intros h Hh. specialize (Hd h Hh). lra.
Qed.

Lemma tr_local a c d (del : posreal) : (forall h, Rabs h < del -> c h = d h) -> tracks a c -> tracks a d.
Proof.
  intros E [H1 H2]. split; [rewrite H1; apply E; rewrite Rabs_R0; apply cond_pos|]. now apply (lim_local c d _ del).
Qed.

(** C143.  The derivatives are those of calculus: for every operation, where it is differentiable.  Comparisons only look at values. *)
Lemma C143_rules_pf : forall (a b : R * R) (c d : R -> R), tracks a c -> tracks b d ->
  (forall q, tracks (@nQ DR q) (fun _ => Q2R q)) /\
  tracks (@nadd DR a b) (fun e => c e + d e) /\ tracks (@nsub DR a b) (fun e => c e - d e) /\
  tracks (@nmul DR a b) (fun e => c e * d e) /\ tracks (@nopp DR a) (fun e => - c e) /\
  (d 0 <> 0 -> tracks (@ndiv DR a b) (fun e => c e / d e)) /\
  (0 < c 0 -> tracks (@nsqrt DR a) (fun e => sqrt (c e))) /\
  (0 < c 0 -> forall q, tracks (@npowr DR a (@nQ DR q)) (fun e => Rpower (c e) (Q2R q))) /\
  (c 0 <> 0 -> tracks (@nabs DR a) (fun e => Rabs (c e))) /\
  (c 0 <> d 0 -> tracks (@nmax DR a b) (fun e => Rmax (c e) (d e)) /\ tracks (@nmin DR a b) (fun e => Rmin (c e) (d e))) /\
  (@nltb DR a b = true <-> c 0 < d 0) /\ (@nleb DR a b = true <-> c 0 <= d 0) /\ (@neqb DR a b = true <-> c 0 = d 0).
Proof.
  intros a b c d Ha Hb. pose proof Ha as [Ea Da]. pose proof Hb as [Eb Db].
  split; [intros q; rewrite t_lit, <- cst_eq; apply tr_cst|].
  split; [now apply tr_add|]. split; [now apply tr_sub|]. split; [now apply tr_mul|]. split; [now apply tr_opp|].
  split; [|split; [|split; [|split; [|split; [|split; [|split]]]]]].
  - intros Hd. split; cbn; [now rewrite Ea, Eb|]. rewrite Ea, Eb.
    replace (snd a * d 0 - c 0 * snd b) with (snd a * d 0 - snd b * c 0) by ring. now apply (derivable_pt_lim_div c d).
  - intros Hc. split; cbn; [now rewrite Ea|]. rewrite Ea. replace (Q2R 2) with 2 by (unfold Q2R; cbn; lra).
    unfold Rdiv. rewrite Rmult_comm. apply (derivable_pt_lim_comp c sqrt); auto. now apply derivable_pt_lim_sqrt.
  - intros Hc q. destruct (near_pos c _ Da Hc) as (del & Hd).
    assert (E : @npowr DR a (@nQ DR q) = (Rpower (c 0) (Q2R q), Q2R q * Rpower (c 0) (Q2R q - 1) * snd a)).
    { cbn. rewrite Ea. rewrite !Rpw_pos by exact Hc. replace (Q2R 1) with 1 by (unfold Q2R; cbn; lra). f_equal. ring. }
    rewrite E. split; [reflexivity|]. cbn [snd]. apply (derivable_pt_lim_comp c (fun u => Rpower u (Q2R q))); auto. now apply derivable_pt_lim_power.
  - intros Hc. destruct (Rdichotomy _ _ Hc) as [H|H].
    + assert (E : @nabs DR a = (- c 0, - snd a)).
      { cbn. unfold dsign. rops. rewrite Ea. replace (Q2R 0) with 0 by (unfold Q2R; cbn; lra). replace (Q2R 1) with 1 by (unfold Q2R; cbn; lra).
        replace (Rltb 0 (c 0)) with false by (symmetry; apply Rltb_false; lra). replace (Rltb (c 0) 0) with true by (symmetry; apply Rltb_true; lra).
        rewrite Rabs_left by lra. f_equal. ring. }
      rewrite E. destruct (tracks_less a _ c (fun _ => 0) Ha (tr_cst 0) H) as (del & Hd).
      apply (tr_local _ (fun e => - c e) _ del); [intros h Hh; symmetry; apply Rabs_left; now apply Hd|].
      split; [reflexivity|]. now apply (derivable_pt_lim_opp c).
    + assert (E : @nabs DR a = (c 0, snd a)).
      { cbn. unfold dsign. rops. rewrite Ea. replace (Q2R 0) with 0 by (unfold Q2R; cbn; lra). replace (Q2R 1) with 1 by (unfold Q2R; cbn; lra).
        replace (Rltb 0 (c 0)) with true by (symmetry; apply Rltb_true; lra). rewrite Rabs_right by lra. f_equal. ring. }
      rewrite E. destruct (near_pos c _ Da H) as (del & Hd).
      apply (tr_local _ c _ del); [intros h Hh; rewrite Rabs_right; [reflexivity|left; now apply Hd]|]. split; [reflexivity|exact Da].
  - intros Hcd. cbn. unfold dpick. rops. rewrite Ea, Eb. destruct (Rdichotomy _ _ Hcd) as [H|H].
    + destruct (tracks_less a b c d Ha Hb H) as (del & Hd).
      replace (Rltb (d 0) (c 0)) with false by (symmetry; apply Rltb_false; lra). replace (Rltb (c 0) (d 0)) with true by (symmetry; apply Rltb_true; lra).
      rewrite Rmax_right, Rmin_left by lra. split; eapply (tr_local _ _ _ del).
      * intros h Hh. symmetry. apply Rmax_right. left. now apply Hd.
      * split; [reflexivity|exact Db].
      * intros h Hh. symmetry. apply Rmin_left. left. now apply Hd.
      * split; [reflexivity|exact Da].
    + destruct (tracks_less b a d c Hb Ha H) as (del & Hd).
      replace (Rltb (d 0) (c 0)) with true by (symmetry; apply Rltb_true; lra). replace (Rltb (c 0) (d 0)) with false by (symmetry; apply Rltb_false; lra).
      rewrite Rmax_left, Rmin_right by lra. split; eapply (tr_local _ _ _ del).
      * intros h Hh. symmetry. apply Rmax_left. left. now apply Hd.
      * split; [reflexivity|exact Da].
      * intros h Hh. symmetry. apply Rmin_right. left. now apply Hd.
      * split; [reflexivity|exact Db].
  - cbn. rewrite Ea, Eb. apply Rltb_true.
  - cbn. rewrite Ea, Eb. apply Rleb_true.
  - cbn. rewrite Ea, Eb. apply Reqb_true.
Qed.

(** ** Steps *)
(** The step with derivatives describes the family of steps *)
Definition tracks_step (n : nat) (sd : @step_fun DR (vec DR)) (sr : R -> @step_fun ROps (vec ROps)) : Prop :=
  forall F f X x t h, tracks_field n F f -> tracks_vec n X x ->
  exists X' x', snd (sd F X (t, 0) (h, 0) None) = Ok (Ret3 None X' None) /\
    (forall e, snd (sr e (f e) (x e) t h None) = Ok (Ret3 None (x' e) None)) /\ tracks_vec n X' x'.

(** The same for one field, whose argument may have another number of entries than the state *)
Definition tracks_step_at (n : nat) (sd : @step_fun DR (vec DR)) (sr : R -> @step_fun ROps (vec ROps))
  (F : R * R -> list (R * R) -> list (R * R)) (f : R -> R -> list R -> list R) : Prop :=
  forall X x t h, tracks_vec n X x ->
  exists X' x', snd (sd F X (t, 0) (h, 0) None) = Ok (Ret3 None X' None) /\
    (forall e, snd (sr e (f e) (x e) t h None) = Ok (Ret3 None (x' e) None)) /\ tracks_vec n X' x'.

Lemma tv_call n F f T t Y y : tracks_field n F f -> T = (t, 0) -> tracks_vec n Y y -> tracks_vec n (F T Y) (fun e => f e t (y e)).
Proof. intros HF ->. apply HF. Qed.

Ltac tval := repeat first [rewrite t_lit | rewrite t_add | rewrite t_mul | rewrite t_pow].
Ltac tvec := repeat first [eassumption | apply tv_add | (apply tv_scale; [tval; reflexivity|]) | (eapply tv_call; [eassumption|tval; reflexivity|])].
Ltac tstep := do 2 eexists; split; [reflexivity|split; [intros e; reflexivity|]].

Lemma step_euler_tracks n : tracks_step n (@euler_step DR) (fun _ => @euler_step ROps).
Proof. intros F f X x t h HF HX. cbv [euler_step first_stage mbind call mret fst snd app]. tstep. tvec. Qed.
Lemma step_midpoint_tracks n : tracks_step n (@midpoint_step DR) (fun _ => @midpoint_step ROps).
Proof. intros F f X x t h HF HX. cbv [midpoint_step first_stage mbind call mret fst snd app]. tstep. tvec. Qed.
Lemma step_rk4_tracks n : tracks_step n (@rk4_step DR) (fun _ => @rk4_step ROps).
Proof.
  intros F f X x t h HF HX. cbv [rk4_step first_stage mbind call mret fst snd app construct_rk4 tc ta tb tget aget nth]. tstep. tvec.
Qed.
Lemma step_hyper_tracks n sd sr order G g : tracks_step n sd sr -> tracks_field n G g ->
  tracks_step n (@hyper_step DR sd order G) (fun e => @hyper_step ROps (sr e) order (g e)).
Proof.
  intros Hs HG F f X x t h HF HX. destruct (Hs F f X x t h HF HX) as (X' & x' & E1 & E2 & H).
  exists (@vadd DR X' (@vscale DR (@npow DR (h, 0) (order + 1)) (G (t, 0) X))), (fun e => @vadd ROps (x' e) (@vscale ROps (@npow ROps h (order + 1)) (g e t (x e)))).
  split; [|split].
  - unfold hyper_step. refine (eq_trans (snd_bind_ok _ _ _ E1) _). reflexivity.
  - intros e. unfold hyper_step. refine (eq_trans (snd_bind_ok _ _ _ (E2 e)) _). reflexivity.
  - tvec.
Qed.

(** ** The loop *)
Notation c0 := (fun t : R => (t, 0) : DR).
Lemma isclose_cst a b : @isclose DR (a, 0) (b, 0) = @isclose ROps a b.
Proof. reflexivity. Qed.
Lemma count_cst t l : @isclose_count DR (t, 0) (map c0 l) = @isclose_count ROps t l.
Proof. unfold isclose_count. rewrite map_map. f_equal. Qed.
Lemma pyget_map {A B} (g : A -> B) l i : pyget (map g l) i = rmap g (pyget l i).
Proof. unfold pyget. rewrite nth_error_map. now destruct (nth_error l i). Qed.

Lemma ts_snoc n S (s : R -> list (list R)) X x : tracks_states n S s -> tracks_vec n X x ->
  tracks_states n (S ++ [X]) (fun e => s e ++ [x e]).
Proof.
  intros [L H] HX. split.
  - intros e. rewrite !app_length, L. reflexivity.
  - intros k Hk. rewrite app_length in Hk. cbn in Hk. destruct (Nat.lt_ge_cases k (length S)) as [Hl|Hl].
    + rewrite app_nth1 by exact Hl. apply (tv_ext n _ (fun e => nth k (s e) [])); [|now apply H].
      intros e. symmetry. apply app_nth1. now rewrite L.
    + replace k with (length S) by lia. rewrite app_nth2, Nat.sub_diag by lia. cbn [nth].
      apply (tv_ext n _ x); [|exact HX]. intros e. rewrite app_nth2 by (rewrite L; lia). now rewrite L, Nat.sub_diag.
Qed.

Section Loop.
Variables (n : nat) (sd : @step_fun DR (vec DR)) (sr : R -> @step_fun ROps (vec ROps)).
Variables (F : R * R -> list (R * R) -> list (R * R)) (f : R -> R -> list R -> list R).
Hypothesis Hstep : tracks_step_at n sd sr F f.

Definition outcome (rd : res (list (vec DR))) (rr : R -> res (list (list R))) : Prop :=
  (exists SOL sol, rd = Ok SOL /\ (forall e, rr e = Ok (sol e)) /\ tracks_states n SOL sol) \/
  (exists er, rd = Err er /\ forall e, rr e = Err er).

Lemma fixed_loop_tracks (ts sv : list R) m : forall k X x (t dt : R) SOL sol, tracks_vec n X x -> tracks_states n SOL sol ->
  outcome (snd (@fixed_loop DR (vec DR) F sd (map c0 ts) (map c0 sv) m k X (t, 0) (dt, 0) SOL))
    (fun e => snd (@fixed_loop ROps (vec ROps) (f e) (sr e) ts sv m k (x e) t dt (sol e))).
Proof.
  induction m as [|m IH]; intros k X x t dt SOL sol HX HS.
  { left. exists SOL, sol. auto. }
  destruct (Hstep X x t dt HX) as (X' & x' & E1 & E2 & HX').
  set (SOL' := if (@isclose_count ROps (t + dt)%R sv =? 0)%nat then SOL else SOL ++ [X']).
  set (sol' := fun e => if (@isclose_count ROps (t + dt)%R sv =? 0)%nat then sol e else sol e ++ [x' e]).
  assert (HS' : tracks_states n SOL' sol').
  { unfold SOL', sol'. destruct (_ =? 0)%nat; [exact HS|now apply ts_snoc]. }
  assert (U1 : forall r, (if (k <? length ts - 1)%nat then rmap (fun tn => tn - (t + dt)) (pyget ts (k + 1)) else Ok dt) = r ->
    snd (@fixed_loop DR (vec DR) F sd (map c0 ts) (map c0 sv) (S m) k X (t, 0) (dt, 0) SOL) =
    match r with Ok d => snd (@fixed_loop DR (vec DR) F sd (map c0 ts) (map c0 sv) m (k + 1) X' (t + dt, 0) (d, 0) SOL')
    | Err er => Err er | OutOfFuel => OutOfFuel end).
  { intros r Hr. cbn [fixed_loop]. refine (eq_trans (snd_bind_ok _ _ _ E1) _). cbv iota zeta. rewrite t_add, count_cst, map_length.
    fold SOL'. rewrite snd_mbind. subst r. destruct (k <? length ts - 1)%nat.
    - rewrite snd_mbind, snd_mlift, pyget_map. destruct (pyget ts (k + 1)); cbn [rmap rbind snd mret]; try reflexivity.
      now rewrite t_sub.
    - reflexivity. }
  assert (U2 : forall r, (if (k <? length ts - 1)%nat then rmap (fun tn => tn - (t + dt)) (pyget ts (k + 1)) else Ok dt) = r -> forall e,
    snd (@fixed_loop ROps (vec ROps) (f e) (sr e) ts sv (S m) k (x e) t dt (sol e)) =
    match r with Ok d => snd (@fixed_loop ROps (vec ROps) (f e) (sr e) ts sv m (k + 1) (x' e) (t + dt) d (sol' e))
    | Err er => Err er | OutOfFuel => OutOfFuel end).
  { intros r Hr e. cbn [fixed_loop]. refine (eq_trans (snd_bind_ok _ _ _ (E2 e)) _). cbv iota zeta.
    rewrite snd_mbind. subst r. change (num ROps) with R. destruct (k <? length ts - 1)%nat.
    - rewrite snd_mbind, snd_mlift. change (num ROps) with R. destruct (pyget ts (k + 1)); cbn [rmap rbind snd mret]; reflexivity.
    - reflexivity. }
  specialize (U1 _ eq_refl). specialize (U2 _ eq_refl).
  assert (G : forall (r : res R), r <> OutOfFuel -> outcome
    (match r with Ok d => snd (@fixed_loop DR (vec DR) F sd (map c0 ts) (map c0 sv) m (k + 1) X' (t + dt, 0) (d, 0) SOL')
    | Err er => Err er | OutOfFuel => OutOfFuel end)
    (fun e => match r with Ok d => snd (@fixed_loop ROps (vec ROps) (f e) (sr e) ts sv m (k + 1) (x' e) (t + dt) d (sol' e))
    | Err er => Err er | OutOfFuel => OutOfFuel end)).
  { intros [d|er|] Hr; [now apply IH|right; exists er; auto|congruence]. }
  match type of U1 with _ = match ?r with _ => _ end => specialize (G r) end.
  assert (Hr : (if (k <? length ts - 1)%nat then rmap (fun tn : R => tn - (t + dt)) (pyget ts (k + 1)) else Ok dt) <> OutOfFuel).
  { destruct (_ <? _)%nat; [|discriminate]. unfold pyget. destruct (nth_error _ _); discriminate. }
  specialize (G Hr). unfold outcome. destruct G as [(A & a & G1 & G2 & G3)|(er & G1 & G2)].
  - left. exists A, a. split; [now rewrite U1|]. split; [|exact G3]. intros e. rewrite U2. apply G2.
  - right. exists er. split; [now rewrite U1|]. intros e. rewrite U2. apply G2.
Qed.
End Loop.

Lemma pylast_map {A B} (g : A -> B) l : pylast (map g l) = rmap g (pylast l).
Proof. unfold pylast. rewrite <- map_rev. now destruct (rev l). Qed.
Lemma forallb_map {A B} (g : A -> B) (q : B -> bool) l : forallb q (map g l) = forallb (fun a => q (g a)) l.
Proof. induction l as [|a l IH]; cbn; auto. now rewrite IH. Qed.
Lemma forallb_ext {A} (q r : A -> bool) l : (forall a, q a = r a) -> forallb q l = forallb r l.
Proof. intros H. induction l as [|a l IH]; cbn; auto. now rewrite H, IH. Qed.

Definition final_sol {K : NumOps} {A} (sv : list K) (sol : list A) : res (list K * list A) :=
  match sol with [] => Err IndexError | _ => Ok (sv, sol) end.
Lemma fixed_odeint_snd {K : NumOps} {A} f (x : A) ts step sv :
  snd (@fixed_odeint K A f x ts step sv) =
  let sv' := match sv with [] => ts | _ => sv end in
  if negb (forallb (fun t => (isclose_count t sv' =? 1)%nat) sv') then Err AssertionError else
  rbind (pyget ts 0) (fun t0 => rbind (pylast ts) (fun _ => rbind (pyget ts 1) (fun t1 =>
  rbind (snd (fixed_loop f step ts sv' (length ts - 1) 1 x t0 (nsub t1 t0) (if (isclose_count t0 sv' =? 0)%nat then [] else [x])))
    (final_sol sv')))).
Proof.
  unfold fixed_odeint. cbv zeta. set (sv' := match sv with [] => ts | _ => sv end). clearbody sv'.
  destruct (negb _); [reflexivity|]. rewrite snd_mbind, snd_mlift. destruct (pyget ts 0) as [t0| |]; cbn [rbind]; try reflexivity.
  rewrite snd_mbind, snd_mlift. destruct (pylast ts) as [tl| |]; cbn [rbind]; try reflexivity.
  rewrite snd_mbind, snd_mlift. destruct (pyget ts 1) as [t1| |]; cbn [rbind]; try reflexivity.
  rewrite snd_mbind. match goal with |- rbind ?a _ = rbind ?b _ => change b with a; destruct a as [[|]| |] end; reflexivity.
Qed.

Lemma fixed_odeint_tracks_at n sd sr F f X x (ts sv : list R) : tracks_step_at n sd sr F f -> tracks_vec n X x ->
  tracks_solve n (snd (@fixed_odeint DR (vec DR) F X (map c0 ts) sd (map c0 sv)))
    (fun e => snd (@fixed_odeint ROps (vec ROps) (f e) (x e) ts (sr e) sv)).
Proof.
  intros Hst HX. set (sv' := match sv with [] => ts | _ => sv end).
  assert (Esv : match map c0 sv with [] => map c0 ts | _ => map c0 sv end = map c0 sv') by (unfold sv'; now destruct sv).
  assert (Ea : forallb (fun t : DR => (@isclose_count DR t (map c0 sv') =? 1)%nat) (map c0 sv') =
     forallb (fun t : R => (@isclose_count ROps t sv' =? 1)%nat) sv').
  { rewrite forallb_map. apply forallb_ext. intros t. now rewrite count_cst. }
  set (ok := forallb (fun t : R => (@isclose_count ROps t sv' =? 1)%nat) sv') in *.
  assert (E1 : snd (@fixed_odeint DR (vec DR) F X (map c0 ts) sd (map c0 sv)) =
    if negb ok then Err AssertionError else
    rbind (pyget ts 0) (fun t0 : R => rbind (pylast ts) (fun _ => rbind (pyget ts 1) (fun t1 : R =>
    rbind (snd (@fixed_loop DR (vec DR) F sd (map c0 ts) (map c0 sv') (length ts - 1) 1 X (t0, 0) (t1 - t0, 0) (if (@isclose_count ROps t0 sv' =? 0)%nat then [] else [X])))
      (@final_sol DR _ (map c0 sv')))))).
  { rewrite fixed_odeint_snd. cbv zeta. rewrite Esv, Ea, !pyget_map, pylast_map, map_length. destruct (negb ok); [reflexivity|].
    destruct (pyget ts 0) as [t0| |]; cbn [rmap rbind]; try reflexivity.
    destruct (pylast ts) as [tl| |]; cbn [rmap rbind]; try reflexivity.
    destruct (pyget ts 1) as [t1| |]; cbn [rmap rbind]; try reflexivity. now rewrite t_sub, count_cst. }
  assert (E2 : forall e, snd (@fixed_odeint ROps (vec ROps) (f e) (x e) ts (sr e) sv) =
    if negb ok then Err AssertionError else
    rbind (pyget ts 0) (fun t0 : R => rbind (pylast ts) (fun _ => rbind (pyget ts 1) (fun t1 : R =>
    rbind (snd (@fixed_loop ROps (vec ROps) (f e) (sr e) ts sv' (length ts - 1) 1 (x e) t0 (t1 - t0) (if (@isclose_count ROps t0 sv' =? 0)%nat then [] else [x e])))
      (@final_sol ROps _ sv'))))).
  { intros e. exact (@fixed_odeint_snd ROps (vec ROps) (f e) (x e) ts (sr e) sv). }
  clearbody ok. unfold tracks_solve. destruct ok; cbn [negb] in *.
  2:{ right. exists AssertionError. auto. }
  destruct (pyget ts 0) as [t0|er|] eqn:P0; cbn [rbind] in *; [|right; exists er; auto|unfold pyget in P0; destruct (nth_error ts 0); discriminate].
  destruct (pylast ts) as [tl|er|] eqn:P1; cbn [rbind] in *; [|right; exists er; auto|unfold pylast in P1; destruct (rev ts); discriminate].
  destruct (pyget ts 1) as [t1|er|] eqn:P2; cbn [rbind] in *; [|right; exists er; auto|unfold pyget in P2; destruct (nth_error ts 1); discriminate].
  assert (HS : tracks_states n (if (@isclose_count ROps t0 sv' =? 0)%nat then [] else [X]) (fun e => if (@isclose_count ROps t0 sv' =? 0)%nat then [] else [x e])).
  { destruct (_ =? 0)%nat; [split; [reflexivity|intros k Hk; cbn in Hk; lia]|].
    apply (ts_snoc n [] (fun _ => []) X x); [split; [reflexivity|intros k Hk; cbn in Hk; lia]|exact HX]. }
  destruct (fixed_loop_tracks n sd sr F f Hst ts sv' (length ts - 1) 1 X x t0 (t1 - t0) _ _ HX HS) as [(A & a & G1 & G2 & G3)|(er & G1 & G2)].
  - assert (E1' := eq_trans E1 (f_equal (fun r => rbind r _) G1)). cbn [rbind] in E1'.
    assert (E2' := fun e => eq_trans (E2 e) (f_equal (fun r => rbind r _) (G2 e))). cbn [rbind] in E2'.
    destruct A as [|A0 A].
    + right. exists IndexError. split; [exact E1'|]. intros e. rewrite E2'. destruct G3 as [L _]. specialize (L e). destruct (a e); [reflexivity|discriminate].
    + left. exists sv', (A0 :: A), a. split; [exact E1'|]. split; [|exact G3]. intros e. rewrite E2'. destruct G3 as [L _]. specialize (L e). destruct (a e); [discriminate|reflexivity].
  - right. exists er. split; [exact (eq_trans E1 (f_equal (fun r => rbind r _) G1))|]. intros e. exact (eq_trans (E2 e) (f_equal (fun r => rbind r _) (G2 e))).
Qed.

Lemma fixed_odeint_tracks n sd sr F f X x (ts sv : list R) : tracks_step n sd sr -> tracks_field n F f -> tracks_vec n X x ->
  tracks_solve n (snd (@fixed_odeint DR (vec DR) F X (map c0 ts) sd (map c0 sv)))
    (fun e => snd (@fixed_odeint ROps (vec ROps) (f e) (x e) ts (sr e) sv)).
Proof. intros Hst HF. apply fixed_odeint_tracks_at. intros Y y t h HY. now apply (Hst F f). Qed.

Lemma neg_tracks n F f : tracks_field n F f -> tracks_field n (@neg_field DR F) (fun e => @neg_field ROps (f e)).
Proof.
  intros HF t Y y HY. unfold neg_field. apply tv_opp. eapply tv_call; [exact HF|apply t_opp|exact HY].
Qed.

(** The fixed-step solvers; a hypersolver may depend on the parameter through its network. *)
Inductive fixed_family (n : nat) : solver DR (vec DR) -> (R -> solver ROps (vec ROps)) -> Prop :=
| ff_euler : fixed_family n (Euler DR) (fun _ => Euler ROps)
| ff_midpoint : fixed_family n (Midpoint DR) (fun _ => Midpoint ROps)
| ff_rk4 : fixed_family n (RungeKutta4 DR) (fun _ => RungeKutta4 ROps)
| ff_hyper_euler G g : tracks_field n G g -> fixed_family n (@HyperEuler DR G) (fun e => @HyperEuler ROps (g e))
| ff_hyper_midpoint G g : tracks_field n G g -> fixed_family n (@HyperMidpoint DR G) (fun e => @HyperMidpoint ROps (g e))
| ff_hyper_rk4 G g : tracks_field n G g -> fixed_family n (@HyperRungeKutta4 DR G) (fun e => @HyperRungeKutta4 ROps (g e)).

Lemma family_steps n sd sr : fixed_family n sd sr -> s_fixed sd = true /\ (forall e, s_fixed (sr e) = true) /\
  tracks_step n (s_step sd) (fun e => s_step (sr e)).
Proof.
  intros H. destruct H; (split; [reflexivity|]; split; [reflexivity|]); cbn [s_step Euler Midpoint RungeKutta4 HyperEuler HyperMidpoint HyperRungeKutta4 mk_solver].
  - apply step_euler_tracks. - apply step_midpoint_tracks. - apply step_rk4_tracks.
  - apply (step_hyper_tracks n _ (fun _ => @euler_step ROps)); [apply step_euler_tracks|assumption].
  - apply (step_hyper_tracks n _ (fun _ => @midpoint_step ROps)); [apply step_midpoint_tracks|assumption].
  - apply (step_hyper_tracks n _ (fun _ => @rk4_step ROps)); [apply step_rk4_tracks|assumption].
Qed.

(** C143.  Fixed-step solvers, any grid, any save_at: if autograd differentiates the vector field (and the network of the
    hypersolver) correctly in state and parameter, and the initial state is given with its derivative, then the derivatives of
    the returned states that autograd computes through the solve are the derivatives of the returned states. *)
Lemma C143_fixed_step_pf :
  forall fuel fuel' n sd sr F f X x ts save_at atol rtol atol' rtol' interp all semi,
  fixed_family n sd sr -> tracks_field n F f -> tracks_vec n X x ->
  tracks_solve n
    (snd (@odeint_autograd ROps fuel F X (@TTensor DR (map (fun t => (t, 0)) ts)) sd atol' rtol' interp all (map (fun t => (t, 0)) save_at) semi))
    (fun e => snd (@odeint ROps fuel' (f e) (x e) (@TTensor ROps ts) (sr e) atol rtol interp all save_at semi)).
Proof.
  intros fuel fuel' n sd sr F f X x ts sv atol rtol atol' rtol' interp all semi Hfam HF HX.
  destruct (family_steps n sd sr Hfam) as (H1 & H2 & Hst).
  unfold odeint_autograd, odeint_ad, odeint. rewrite H1.
  assert (P : (exists er, @prep_time DR F (@TTensor DR (map c0 ts)) = Err er /\ forall e, @prep_time ROps (f e) (@TTensor ROps ts) = Err er) \/
    exists F' f' ts', tracks_field n F' f' /\ @prep_time DR F (@TTensor DR (map c0 ts)) = Ok (F', map c0 ts') /\
      forall e, @prep_time ROps (f e) (@TTensor ROps ts) = Ok (f' e, ts')).
  { unfold prep_time. cbn [ts_list]. rewrite !pyget_map. unfold pyget. destruct ts as [|t0 [|t1 ts]]; cbn [nth_error rmap rbind].
    - left. exists IndexError. auto.
    - left. exists IndexError. auto.
    - right. change (@nltb DR (t1, 0) (t0, 0)) with (Rltb t1 t0). change (@nltb ROps) with Rltb. destruct (Rltb t1 t0).
      + exists (@neg_field DR F), (fun e => @neg_field ROps (f e)), (map Ropp (t0 :: t1 :: ts)). split; [now apply neg_tracks|].
        split; [|reflexivity]. rewrite map_map. do 2 f_equal. rewrite map_map. apply map_ext. intros a. apply t_opp.
      + exists F, f, (t0 :: t1 :: ts). split; [exact HF|]. split; reflexivity. }
  destruct P as [(er & P1 & P2)|(F' & f' & ts' & HF' & P1 & P2)].
  - right. exists er. split.
    + rewrite snd_mbind, snd_mlift. exact (f_equal (fun r => rbind r _) P1).
    + intros e. rewrite snd_mbind, snd_mlift. exact (f_equal (fun r => rbind r _) (P2 e)).
  - destruct (fixed_odeint_tracks n _ _ F' f' X x ts' sv Hst HF' HX) as [(times & A & a & G1 & G2 & G3)|(er & G1 & G2)].
    + left. exists times, A, a. split; [|split; [|exact G3]].
      * rewrite snd_mbind, snd_mlift. refine (eq_trans (f_equal (fun r => rbind r _) P1) _). cbn [rbind]. exact G1.
      * intros e. rewrite snd_mbind, snd_mlift, H2. refine (eq_trans (f_equal (fun r => rbind r _) (P2 e)) _). cbn [rbind]. exact (G2 e).
    + right. exists er. split.
      * rewrite snd_mbind, snd_mlift. refine (eq_trans (f_equal (fun r => rbind r _) P1) _). cbn [rbind]. exact G1.
      * intros e. rewrite snd_mbind, snd_mlift, H2. refine (eq_trans (f_equal (fun r => rbind r _) (P2 e)) _). cbn [rbind]. exact (G2 e).
Qed.

Lemma hyper_stepper base order h f one lg : fixed_stepper base f one lg ->
  exists one' lg', fixed_stepper (@hyper_step ROps base order h) f one' lg'.
Proof.
  intros H. exists (fun t dt x => @vadd ROps (one t dt x) (@vscale ROps (@npow ROps dt (order + 1)) (h t x))), (fun t dt x => lg t dt x ++ []).
  intros x t dt. destruct (H x t dt) as (fn & e & E). exists None, None. unfold hyper_step. rewrite E. reflexivity.
Qed.
Lemma family_stepper n sd sr e f : fixed_family n sd sr -> exists one lg, fixed_stepper (s_step (sr e)) f one lg.
Proof.
  intros H. destruct H; cbn [s_step Euler Midpoint RungeKutta4 HyperEuler HyperMidpoint HyperRungeKutta4 mk_solver].
  - do 2 eexists. apply euler_stepper. - do 2 eexists. apply midpoint_stepper. - do 2 eexists. apply rk4_stepper.
  - eapply hyper_stepper. apply euler_stepper. - eapply hyper_stepper. apply midpoint_stepper. - eapply hyper_stepper. apply rk4_stepper.
Qed.

(** C143 for a separated, increasing grid: the solves return, with one state per time. *)
Lemma C143_gradient_pf :
  forall fuel fuel' n sd sr F f X x t0 t1 ts atol rtol atol' rtol' interp all semi,
  fixed_family n sd sr -> tracks_field n F f -> tracks_vec n X x -> separated (t0 :: t1 :: ts) -> t0 <= t1 ->
  exists S s,
    snd (@odeint_autograd ROps fuel F X (@TTensor DR (map (fun t => (t, 0)) (t0 :: t1 :: ts))) sd atol' rtol' interp all [] semi)
      = Ok (map (fun t => (t, 0)) (t0 :: t1 :: ts), S) /\
    (forall e, snd (@odeint ROps fuel' (f e) (x e) (@TTensor ROps (t0 :: t1 :: ts)) (sr e) atol rtol interp all [] semi)
      = Ok (t0 :: t1 :: ts, s e)) /\
    length S = length (t0 :: t1 :: ts) /\ tracks_states n S s.
Proof.
  intros fuel fuel' n sd sr F f X x t0 t1 ts atol rtol atol' rtol' interp all semi Hfam HF HX Hsep Hle.
  assert (R1 : forall e, exists one, snd (@odeint ROps fuel' (f e) (x e) (@TTensor ROps (t0 :: t1 :: ts)) (sr e) atol rtol interp all [] semi)
    = Ok (t0 :: t1 :: ts, one_step_traj one (x e) (t0 :: t1 :: ts))).
  { intros e. destruct (family_stepper n sd sr e (f e) Hfam) as (one & lg & H). exists one. apply (C01_fixed_trajectory_pf fuel' (sr e) (f e) one lg); auto.
    apply (family_steps n sd sr Hfam). }
  destruct (C143_fixed_step_pf fuel fuel' n sd sr F f X x (t0 :: t1 :: ts) [] atol rtol atol' rtol' interp all semi Hfam HF HX)
    as [(times & A & a & G1 & G2 & G3)|(er & _ & G2)].
  - destruct (R1 0) as (one & E). rewrite G2 in E. injection E as Et Ea. subst times.
    exists A, a. split; [exact G1|]. split; [exact G2|]. split; [|exact G3].
    destruct G3 as [L _]. refine (eq_trans (eq_sym (L 0)) _). refine (eq_trans (f_equal (@length _) Ea) _). exact (traj_length one (x 0) (t0 :: t1 :: ts)).
  - destruct (R1 0) as (one & E). rewrite G2 in E. discriminate.
Qed.

(** The field (1 + e) x with initial state 2 + e and the hypersolver with the network e x meet the hypotheses of C143. *)
Lemma C143_ex_pf :
  let F := fun (_ : R * R) (Y : list (R * R)) => map (@nmul DR (1, 1)) Y in
  let f := fun (e _ : R) (y : list R) => map (Rmult (1 + e)) y in
  let G := fun (_ : R * R) (Y : list (R * R)) => map (@nmul DR (0, 1)) Y in
  let g := fun (e _ : R) (y : list R) => map (Rmult e) y in
  tracks_field 1 F f /\ tracks_vec 1 [(2, 1)] (fun e => [2 + e]) /\ fixed_family 1 (@HyperEuler DR G) (fun e => @HyperEuler ROps (g e)).
Proof.
  cbv zeta.
  assert (I : tracks (0, 1) (fun e => e)) by (split; [reflexivity|apply (derivable_pt_lim_id 0)]).
  assert (A : forall a, tracks (a, 1) (fun e => a + e)).
  { intros a. split; [cbn; lra|]. cbn [snd]. replace 1 with (0 + 1) by lra. apply (derivable_pt_lim_plus (fun _ => a) (fun e => e)); [apply derivable_pt_lim_const|apply (derivable_pt_lim_id 0)]. }
  assert (M : forall k c n, tracks k c -> tracks_field n (fun _ Y => map (@nmul DR k) Y) (fun e _ y => map (Rmult (c e)) y)).
  { intros k c n Hk t Y y (L1 & L2 & H). split; [now rewrite map_length|]. split; [intros e; now rewrite map_length|].
    intros i Hi. refine (eq_ind_r (fun d => tracks d _) _ (eq_trans (nth_indep (map (@nmul DR k) Y) (0, 0) (@nmul DR k (0, 0)) _) (map_nth (@nmul DR k) Y (0, 0) i)));
      [|rewrite map_length; change (num DR) with (R * R)%type; lia].
    apply (tr_ext _ (fun e => c e * nth i (y e) 0)); [|apply tr_mul; auto].
    intros e. symmetry. rewrite (nth_indep _ 0 (Rmult (c e) 0)) by (rewrite map_length, L2; exact Hi). apply map_nth. }
  split; [apply M, A|]. split; [|apply ff_hyper_euler, M, I].
  split; [reflexivity|]. split; [reflexivity|]. intros [|i] Hi; [apply A|lia].
Qed.
