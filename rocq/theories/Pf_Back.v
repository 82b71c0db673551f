(** Proofs: solving forward and then back returns to the start up to the order of the solver. *)
From Coq Require Import ZArith QArith Qreals Reals Lra Lia List Bool Sorted Factorial.
From Verif Require Import Num Py Tensor M_Constants M_SolversOde M_Utils M_Interp M_Odeint.
From Verif Require Import Spec_Ode Spec_Trees Spec_RK Spec_Norm Spec_Adaptive Spec_Conv Spec_Inv Spec_Order.
From Verif Require Import L_Base L_Fixed L_Vec L_Steps L_Tables L_Steps2 L_Interp L_Utils L_Fixed2 L_Adaptive L_Run.
From Verif Require Import L_Conv Pf_Fixed L_Reach L_Inv L_Order Pf_Conv Pf_Order Pf_Cross.
Import ListNotations.
Local Open Scope R_scope.

(** ** Reversed grids *)
Lemma nth_error_rev' {A} (l : list A) : forall i, (i < length l)%nat -> nth_error (rev l) i = nth_error l (length l - S i).
Proof.
  induction l as [|a l IH] using rev_ind; intros i Hi; [simpl in Hi; lia|].
  rewrite rev_app_distr, app_length in *. cbn [rev app length] in *. destruct i as [|i]; cbn [nth_error].
  - rewrite nth_error_app2 by lia. replace (length l + 1 - 1 - length l)%nat with 0%nat by lia. reflexivity.
  - rewrite IH by lia. rewrite nth_error_app1 by lia. f_equal. lia.
Qed.
Lemma rev_index {A} (l : list A) i a : nth_error (rev l) i = Some a -> (i < length l)%nat /\ nth_error l (length l - S i) = Some a.
Proof.
  intros H. assert (Hi : (i < length l)%nat) by (rewrite <- (rev_length l); apply nth_error_Some; congruence).
  split; auto. now rewrite <- nth_error_rev'.
Qed.
Lemma opp_index l i a : nth_error (map Ropp l) i = Some a -> nth_error l i = Some (- a).
Proof.
  rewrite nth_error_map. destruct (nth_error l i) as [c|] eqn:E; cbn; [|discriminate]. intros H. injection H as H. f_equal. lra.
Qed.
Lemma separated_rev l : separated l -> separated (rev l).
Proof.
  intros H i j a c Hij Ha Hc. destruct (rev_index l i a Ha) as [Hi Ha']. destruct (rev_index l j c Hc) as [Hj Hc'].
  apply (H (length l - S i)%nat (length l - S j)%nat a c); auto. lia.
Qed.
Lemma increasing_back l : increasing l -> increasing (map Ropp (rev l)).
Proof.
  intros H i j a c Hij Ha Hc. apply opp_index in Ha, Hc. destruct (rev_index l i _ Ha) as [Hi Ha']. destruct (rev_index l j _ Hc) as [Hj Hc'].
  assert (Hl : (length l - S j < length l - S i)%nat) by lia. pose proof (H _ _ _ _ Hl Hc' Ha'). lra.
Qed.
Lemma steps_back Hm l : steps_at_most Hm l -> steps_at_most Hm (map Ropp (rev l)).
Proof.
  intros H i a c Ha Hc. apply opp_index in Ha, Hc. destruct (rev_index l i _ Ha) as [Hi Ha']. destruct (rev_index l (S i) _ Hc) as [Hj Hc'].
  replace (length l - S i)%nat with (S (length l - S (S i))) in Ha' by lia. pose proof (H _ _ _ Hc' Ha'). lra.
Qed.
Lemma last_nth_error {A} (l : list A) (d : A) : l <> [] -> nth_error l (length l - 1) = Some (last l d).
Proof.
  intros Hl. destruct (exists_last Hl) as (l' & a & ->). rewrite last_last, app_length. cbn [length].
  rewrite nth_error_app2 by lia. replace (length l' + 1 - 1 - length l')%nat with 0%nat by lia. reflexivity.
Qed.

(** ** The reversed equation *)
Definition scaled (c : R) (x : list R) : list R := map (Rmult c) x.
Lemma nth_scaled c x i : nth i (scaled c x) 0 = c * nth i x 0.
Proof. unfold scaled. rewrite <- (map_nth (Rmult c)). f_equal. ring. Qed.
Lemma nth_neg (x : list R) i : nth i (@vopp ROps x) 0 = - nth i x 0.
Proof. change (@vopp ROps x) with (map Ropp x). replace 0 with (- 0) at 1 by ring. apply map_nth. Qed.
Lemma rsum_opp N g : rsum N (fun j => - g j) = - rsum N g.
Proof. induction N as [|N IH]; cbn [rsum]; [ring|]. rewrite IH. ring. Qed.
Lemma rsum_ext' N g h : (forall j, g j = h j) -> rsum N g = rsum N h.
Proof. intros E. induction N as [|N IH]; cbn [rsum]; [reflexivity|]. now rewrite IH, E. Qed.
Lemma deriv_ext (g h : R -> R) t l l' : (forall s, g s = h s) -> l = l' -> derivable_pt_lim g t l -> derivable_pt_lim h t l'.
Proof. intros E <- H eps He. destruct (H eps He) as (d & Hd). exists d. intros k Hn Hk. rewrite <- !E. now apply Hd. Qed.
Lemma deriv_back (g : R -> R) c t l : derivable_pt_lim g (- t) l -> derivable_pt_lim (fun s => c * g (- s)) t (- c * l).
Proof.
  intros H. eapply (deriv_ext (mult_real_fct c (comp g (- id)%F)) _ t (c * (l * - (1)))); [reflexivity|ring|].
  apply derivable_pt_lim_scal. apply derivable_pt_lim_comp; [apply derivable_pt_lim_opp, derivable_pt_lim_id|exact H].
Qed.

Lemma back_smooth n t0 T p f y yd J K M : smooth_solution n t0 T p f y yd J K M ->
  smooth_solution n (- T) (- t0) p (@neg_field ROps f) (fun s => y (- s)) (fun m s => scaled ((-1) ^ m) (yd m (- s)))
    (fun m s i j => - (-1) ^ m * J m (- s) i j) K M.
Proof.
  intros (H1 & H2 & H3 & H4 & H5 & H6 & H7 & H8).
  split; [intros t; apply H1|]. split.
  { intros t. rewrite H2. unfold scaled. rewrite <- (map_id (y (- t))) at 2. apply map_ext. intros a. simpl. ring. }
  split.
  { intros t Ht. rewrite H3 by lra. unfold scaled, neg_field. change (@vopp ROps) with (map Ropp). apply map_ext. intros a. simpl. ring. }
  split.
  { intros m Hm i t Hi Ht. eapply deriv_ext; [| |apply (deriv_back (fun s => nth i (yd m s) 0) ((-1) ^ m) t _ (H4 m Hm i (- t) Hi ltac:(lra)))].
    - intros s. cbv beta. now rewrite nth_scaled.
    - rewrite nth_scaled. simpl. ring. }
  split.
  { intros m Hm i t Hi Ht. rewrite nth_scaled, Rabs_mult, pow_1_abs, Rmult_1_l. apply H5; auto. lra. }
  split.
  { intros m i j t Hm Hi Hj Ht. eapply deriv_ext; [| |apply (deriv_back (fun s => J m s i j) (- (-1) ^ m) t _ (H6 m i j (- t) Hm Hi Hj ltac:(lra)))].
    - intros s. reflexivity.
    - simpl. ring. }
  split.
  { intros m i j t Hm Hi Hj Ht. rewrite Rabs_mult, Rabs_Ropp, pow_1_abs, Rmult_1_l. apply H7; auto. lra. }
  intros t x D Ht Hx Hn i Hi. pose proof (H8 (- t) x D ltac:(lra) Hx Hn i Hi) as B. unfold neg_field. rewrite !nth_neg.
  change (@nopp ROps t) with (- t).
  assert (E : mat_vec n (fun i j => - (-1) ^ 0 * J 0%nat (- t) i j) (fun j => nth j x 0 - nth j (y (- t)) 0) i
    = - mat_vec n (J 0%nat (- t)) (fun j => nth j x 0 - nth j (y (- t)) 0) i).
  { unfold mat_vec. rewrite <- rsum_opp. apply rsum_ext'. intros j. simpl. ring. }
  rewrite E. rewrite <- Rabs_Ropp. eapply Rle_trans; [|exact B]. right. f_equal. ring.
Qed.

Lemma back_lip n L f : lipschitz n L f -> lipschitz n L (@neg_field ROps f).
Proof.
  intros H t x z D Hx Hz Hn i Hi. unfold neg_field. rewrite !nth_neg. replace (- nth i (f (@nopp ROps t) x) 0 - - nth i (f (@nopp ROps t) z) 0)
    with (- (nth i (f (@nopp ROps t) x) 0 - nth i (f (@nopp ROps t) z) 0)) by ring. rewrite Rabs_Ropp. now apply H.
Qed.
Lemma back_order s rows b p f : classical_order s rows b p f -> classical_order s rows b p (@neg_field ROps f).
Proof.
  intros [H|[H|(E1 & E2 & E3 & E4 & Ha)]]; [now left|right; now left|]. right; right. repeat (split; [assumption|]).
  intros t u x. unfold neg_field. f_equal. apply Ha.
Qed.

(** C176.  On smooth Lipschitz problems, with Euler, Midpoint or (for fields without explicit time) RungeKutta4 of order p: solving from t0 to T
    along any grid, and then from the result back along the reversed grid, returns to the initial state up to C H^p, H the largest step. *)
Lemma C176_return_partial_pf :
  forall s rows b p n f L y yd J K M t0 T, classical_order s rows b p f ->
  field_on n f -> 0 <= L -> lipschitz n L f -> t0 < T -> 0 <= M -> 0 <= K -> smooth_solution n t0 T p f y yd J K M ->
  exists C, 0 <= C /\ forall H t1 ts fuel atol rtol interp all semi,
    increasing (t0 :: t1 :: ts) -> separated (t0 :: t1 :: ts) -> steps_at_most H (t0 :: t1 :: ts) -> last (t1 :: ts) t0 = T ->
    let grid := t0 :: t1 :: ts in
    exists sol back,
      snd (@odeint ROps fuel f (y t0) (@TTensor ROps grid) s atol rtol interp all [] semi) = Ok (grid, sol) /\
      rmap snd (snd (@odeint ROps fuel f (last sol []) (@TTensor ROps (rev grid)) s atol rtol interp all [] semi)) = Ok back /\
      near n (C * H ^ p) (last back []) (y t0).
Proof.
  intros s rows b p n f L y yd J K M t0 T Hord Hf HL Hlip HT HM HK Hs.
  destruct (order_tableau s rows b p f n Hord Hf) as (Hp & HE & _).
  destruct (C103_order_partial_pf s rows b p n f L y yd J K M t0 T Hord Hf HL Hlip ltac:(lra) HM HK Hs) as (C1 & HC1 & A1).
  set (g := @neg_field ROps f). assert (Hg : field_on n g) by now apply neg_field_on.
  assert (Hgl : lipschitz n L g) by now apply back_lip.
  destruct (C103_order_partial_pf s rows b p n g L _ _ _ K M (- T) (- t0) (back_order _ _ _ _ _ Hord) Hg HL Hgl ltac:(lra) HM HK (back_smooth _ _ _ _ _ _ _ _ _ _ Hs)) as (C2 & HC2 & A2).
  assert (Hy : forall t, length (y t) = n) by (destruct Hs as (Hy & _); exact Hy).
  set (E := exp (growth L (T - t0) rows b * (T - t0))). assert (HEx : 0 < E) by apply exp_pos.
  exists (E * (C1 * (T - t0)) + C2 * (T - t0)). split.
  { apply Rplus_le_le_0_compat; [apply Rmult_le_pos; [lra|]|]; apply Rmult_le_pos; lra. }
  intros H t1 ts fuel atol rtol interp all semi Hinc Hsep Hst Hlast grid.
  assert (Hlt : t0 < t1) by (apply (Hinc 0%nat 1%nat); auto).
  assert (HH : 0 < H) by (assert (t1 - t0 <= H) by (apply (Hst 0%nat); auto); lra).
  destruct (A1 H t1 ts Hinc Hst ltac:(lra)) as [F1 B1]. cbv zeta in F1, B1.
  set (sol := one_step_traj (erk_step rows b f) (y t0) (t0 :: t1 :: ts)) in *.
  assert (Ls : length sol = length grid) by apply traj_length.
  assert (Lx : length (last sol []) = n).
  { assert (Q : forall l v, length v = n -> Forall (fun w : list R => length w = n) (one_step_traj (erk_step rows b f) v l)).
    { clear - Hf. induction l as [|u l IH]; intros v Hv; [constructor|]. destruct l as [|u' l]; [repeat constructor; auto|].
      rewrite L_Jagged.traj_cons. constructor; auto. apply IH. now apply erk_step_len. }
    apply (proj1 (Forall_forall _ _) (Q (t0 :: t1 :: ts) (y t0) (Hy t0))). eapply nth_error_In. apply (last_nth_error sol []). intros E0. rewrite E0 in Ls. discriminate. }
  assert (Lg : nth_error grid (length grid - 1) = Some T).
  { rewrite (last_nth_error grid t0) by discriminate. f_equal. exact Hlast. }
  assert (N1 : near n (C1 * (T - t0) * H ^ p) (last sol []) (y T)).
  { apply (B1 (length grid - 1)%nat T (last sol []) Lg). rewrite <- Ls. apply last_nth_error. intros E0. rewrite E0 in Ls. discriminate. }
  (* the reversed grid *)
  assert (R1 : rev grid <> []) by (intros E0; apply (f_equal (@length R)) in E0; rewrite rev_length in E0; discriminate).
  assert (R2 : length (rev grid) = length grid) by apply rev_length.
  destruct (rev grid) as [|u0 [|u1 us]] eqn:Er; [congruence|discriminate|].
  assert (U0 : u0 = T).
  { assert (I : nth_error (rev grid) 0 = Some u0) by now rewrite Er. apply rev_index in I. destruct I as [_ I]. rewrite Lg in I. congruence. }
  pose proof (increasing_back grid Hinc) as Ib. pose proof (steps_back H grid Hst) as Sb. pose proof (separated_rev grid Hsep) as Pb. rewrite Er in Ib, Sb, Pb.
  assert (Ul : nth_error (u0 :: u1 :: us) (length grid - 1) = Some t0).
  { rewrite <- Er, nth_error_rev' by (unfold grid; simpl; lia). replace (length grid - S (length grid - 1))%nat with 0%nat by (unfold grid; simpl; lia). reflexivity. }
  assert (Hu : u1 < u0). { pose proof (Ib 0%nat 1%nat (- u0) (- u1) ltac:(lia) eq_refl eq_refl). lra. }
  exists sol. exists (one_step_traj (erk_step rows b f) (last sol []) (u0 :: u1 :: us)). split; [apply F1; exact Hsep|]. split.
  { apply (C05_reverse_is_negative_stepping_pf fuel s rows b n); auto. }
  assert (Tn : forall x, length x = n -> one_step_traj (erk_step rows b g) x (map Ropp (u0 :: u1 :: us)) = one_step_traj (erk_step rows b f) x (u0 :: u1 :: us)).
  { intros x Hx. apply (traj_neg (erk_step rows b f) _ (fun y => length y = n)); auto.
    - intros t h z _. apply erk_step_neg.
    - intros t h z Hz. now apply erk_step_len. }
  cbn [map] in Ib, Sb, Tn. rewrite U0 in *.
  assert (Lm : last (map Ropp (u1 :: us)) (- T) = - t0).
  { assert (I : nth_error (map Ropp (T :: u1 :: us)) (length grid - 1) = Some (- t0)) by (rewrite nth_error_map, Ul; reflexivity).
    assert (I2 := last_nth_error (map Ropp (T :: u1 :: us)) (- T) ltac:(discriminate)). rewrite map_length in I2.
    replace (length (T :: u1 :: us)) with (length grid) in I2 by (rewrite <- R2; reflexivity). rewrite I in I2. injection I2 as I2. exact (eq_sym I2). }
  destruct (A2 H (- u1) (map Ropp us) Ib Sb) as [_ B2]; [rewrite <- Lm; apply Rle_refl|]. cbv zeta beta in B2. rewrite Ropp_involutive in B2.
  set (bt := one_step_traj (erk_step rows b f) (last sol []) (T :: u1 :: us)).
  set (yt := one_step_traj (erk_step rows b f) (y T) (T :: u1 :: us)).
  rewrite (Tn (y T) (Hy T)) in B2. fold yt in B2.
  assert (Lbt : length bt = length grid) by (unfold bt; rewrite traj_length; exact R2).
  assert (Lyt : length yt = length grid) by (unfold yt; rewrite traj_length; exact R2).
  assert (Nb : nth_error bt (length grid - 1) = Some (last bt [])) by (rewrite <- Lbt; apply last_nth_error; intros E0; rewrite E0 in Lbt; discriminate).
  assert (Ny : nth_error yt (length grid - 1) = Some (last yt [])) by (rewrite <- Lyt; apply last_nth_error; intros E0; rewrite E0 in Lyt; discriminate).
  assert (Nl : nth_error (- T :: - u1 :: map Ropp us) (length grid - 1) = Some (- t0)).
  { change (- T :: - u1 :: map Ropp us) with (map Ropp (T :: u1 :: us)). rewrite nth_error_map, Ul. reflexivity. }
  pose proof (B2 _ _ _ Nl Ny) as N2. rewrite Ropp_involutive in N2.
  assert (St : steps_at_most (T - t0) (- T :: - u1 :: map Ropp us)).
  { intros i a c Ha Hc. assert (G1 : forall k e, nth_error (- T :: - u1 :: map Ropp us) k = Some e -> - T <= e <= - t0).
    { intros k e He. change (- T :: - u1 :: map Ropp us) with (map Ropp (T :: u1 :: us)) in He. apply opp_index in He.
      assert (In (- e) grid) by (apply in_rev; rewrite Er; eapply nth_error_In; eauto).
      pose proof (inc_last t0 t1 ts Hinc (- e) H0) as Up. rewrite Hlast in Up.
      assert (Lo : t0 <= - e). { apply In_nth_error in H0. destruct H0 as ([|k0] & Hk0); [injection Hk0 as <-; lra|]. left. apply (Hinc 0%nat (S k0)); auto. lia. }
      lra. }
    pose proof (G1 _ _ Ha). pose proof (G1 _ _ Hc). lra. }
  set (D := C1 * (T - t0) * H ^ p) in *.
  assert (HD : 0 <= D) by (unfold D; apply Rmult_le_pos; [apply Rmult_le_pos; lra|apply pow_le; lra]).
  assert (Z : field_near n 0 g g) by (intros w v _ j _; rewrite Rminus_diag_eq, Rabs_R0 by reflexivity; lra).
  assert (N3 : near n (E * D) (last bt []) (last yt [])).
  { eapply near_le; [|refine (traj_near n g g L 0 Hg Hg HL ltac:(lra) Hgl Z rows b (T - t0) ltac:(lra) D (- T) HD (- u1 :: map Ropp us) (- T) (last sol []) (y T) ltac:(lra) Lx (Hy T) _ Ib St (length grid - 1) (- t0) (last bt []) (last yt []) Nl _ _)].
    - unfold pbound. replace (- t0 - - T) with (T - t0) by ring. fold E. lra.
    - unfold pbound. replace (- T - - T) with 0 by ring. rewrite Rmult_0_r, exp_0. eapply near_le; [|exact N1]. fold D. lra.
    - rewrite (Tn _ Lx). exact Nb.
    - rewrite (Tn _ (Hy T)). exact Ny. }
  eapply near_le; [|exact (near_trans n _ _ _ _ _ N3 N2)]. unfold D. replace (- t0 - - T) with (T - t0) by ring. right. ring.
Qed.

(** ** RungeKutta4 and explicit time *)
Lemma ugrid_snoc h m : forall t, ugrid h (S m) t = ugrid h m t ++ [t + INR (S m) * h].
Proof.
  induction m as [|m IH]; intros t; [cbn [ugrid app]; do 2 f_equal; simpl; ring|].
  change (ugrid h (S (S m)) t) with (t :: ugrid h (S m) (t + h)). rewrite IH. change (ugrid h (S m) t) with (t :: ugrid h m (t + h)).
  cbn [app]. do 3 f_equal. rewrite !S_INR. ring.
Qed.
Lemma ugrid_rev h m : forall t, rev (ugrid h m t) = ugrid (- h) m (t + INR m * h).
Proof.
  induction m as [|m IH]; intros t; [cbn; f_equal; simpl; ring|].
  change (ugrid h (S m) t) with (t :: ugrid h m (t + h)). cbn [rev]. rewrite IH, ugrid_snoc, S_INR.
  f_equal; [f_equal; ring|f_equal; ring].
Qed.
Lemma rk4_moves h m c : forall t,
  last (one_step_traj (erk_step (to_R_rows q_rk4_code) (to_R qb_rk4) (fun t _ => [t])) [t * t / 2 - t * h / 4 + c] (ugrid h m t)) []
  = [(t + INR m * h) * (t + INR m * h) / 2 - (t + INR m * h) * h / 4 + c].
Proof.
  induction m as [|m IH]; intros t; [cbn; f_equal; field|].
  assert (E : ugrid h m (t + h) = (t + h) :: tl (ugrid h m (t + h))) by (destruct m; reflexivity).
  cbn [ugrid]. rewrite E, L_Jagged.traj_cons, <- E.
  replace (erk_step (to_R_rows q_rk4_code) (to_R qb_rk4) (fun (t : R) (_ : list R) => [t]) t (t + h - t) [t * t / 2 - t * h / 4 + c])
    with [(t + h) * (t + h) / 2 - (t + h) * h / 4 + c].
  - assert (L1 : forall (a : list R) l, l <> [] -> last (a :: l) [] = last l []) by (intros a [|? ?] Hl; [congruence|reflexivity]).
    rewrite L1; [|rewrite E, traj_hd; discriminate]. rewrite IH, S_INR. f_equal. field.
  - unfold erk_step, erk_stages, comb, axpy, to_R_rows, to_R, q_rk4_code, qb_rk4. cbn [map combine fold_left app fst snd].
    replace (Q2R 0) with 0 by (unfold Q2R; simpl; lra). replace (Q2R 1) with 1 by (unfold Q2R; simpl; lra).
    replace (Q2R (1#2)) with (1/2) by (unfold Q2R; simpl; lra). replace (Q2R (1#3)) with (1/3) by (unfold Q2R; simpl; lra).
    replace (Q2R (1#6)) with (1/6) by (unfold Q2R; simpl; lra). f_equal. field.
Qed.

(** C176 fails for RungeKutta4 on fields with explicit time: y' = t, m steps of size 1/m over [[0, 1]] and back, started at 0, end at
    -1/(2m): the error is of first order, not of fourth. *)
Lemma C176_rk4_refuted_pf : forall fuel atol rtol interp all semi (m : nat), (1 <= m)%nat ->
  let grid := ugrid (/ INR m) m 0 in
  separated grid ->
  exists sol back,
    snd (@odeint ROps fuel (fun t _ => [t]) [0] (@TTensor ROps grid) (RungeKutta4 ROps) atol rtol interp all [] semi) = Ok (grid, sol) /\
    rmap snd (snd (@odeint ROps fuel (fun t _ => [t]) (last sol []) (@TTensor ROps (rev grid)) (RungeKutta4 ROps) atol rtol interp all [] semi)) = Ok back /\
    last back [] = [- (/ INR m / 2)].
Proof.
  intros fuel atol rtol interp all semi m Hm grid Hsep.
  assert (Pm : 0 < INR m) by (apply lt_0_INR; lia).
  set (h := / INR m) in *. assert (Hh : 0 < h) by now apply Rinv_0_lt_compat. assert (Emh : INR m * h = 1) by (unfold h; field; lra).
  assert (Ff : field_on 1 (fun (t : R) (_ : list R) => [t])) by (intros t x _; reflexivity).
  assert (E1 : exists ts, grid = 0 :: (0 + h) :: ts).
  { unfold grid. destruct m as [|m]; [lia|]. cbn [ugrid]. destruct m; eexists; reflexivity. }
  assert (E2 : rev grid = ugrid (- h) m 1) by (unfold grid; rewrite ugrid_rev; f_equal; lra).
  assert (E3 : exists ts, rev grid = 1 :: (1 + - h) :: ts).
  { rewrite E2. destruct m as [|m]; [lia|]. cbn [ugrid]. destruct m; eexists; reflexivity. }
  destruct E1 as (ts & E1). destruct E3 as (us & E3).
  set (step := erk_step (to_R_rows q_rk4_code) (to_R qb_rk4) (fun (t : R) (_ : list R) => [t])).
  exists (one_step_traj step [0] grid). 
  assert (F : last (one_step_traj step [0] grid) [] = [1 / 2 - h / 4]).
  { unfold grid, step. replace [0] with [0 * 0 / 2 - 0 * h / 4 + 0] by (f_equal; field). rewrite rk4_moves. rewrite Emh. f_equal. field. }
  exists (one_step_traj step [1 / 2 - h / 4] (rev grid)). split; [|split].
  - rewrite E1. apply (fixed_grid fuel (RungeKutta4 ROps) _ _ 1); auto; [apply C05_rk4_pf|lra|now rewrite <- E1].
  - match goal with |- context [@last ?A ?l ?d] => change (@last A l d) with (@last (list R) (one_step_traj step [0] grid) []) end. rewrite F. pose proof (separated_rev grid Hsep) as Sr. rewrite E3 in Sr |- *.
    apply (C05_reverse_is_negative_stepping_pf fuel (RungeKutta4 ROps) _ _ 1); auto; [apply C05_rk4_pf|lra].
  - rewrite E2. unfold step.
    replace [1 / 2 - h / 4] with [1 * 1 / 2 - 1 * (- h) / 4 + (- (h / 2))] by (f_equal; field). rewrite rk4_moves.
    f_equal. replace (INR m * - h) with (-1) by lra. field.
Qed.

(** The hypotheses of C176 are met (for the smoothness see also C103_ex): y' = y on [[0, 1]] by RungeKutta4, a grid with two steps; exactness is too
    much to ask: one step of Euler forward and back takes 1 to 0. *)
Lemma C176_ex_pf :
  (let f := fun (_ : R) (x : list R) => x in
   classical_order (RungeKutta4 ROps) (to_R_rows q_rk4_code) (to_R qb_rk4) 4 f /\ field_on 1 f /\ lipschitz 1 1 f /\
   smooth_solution 1 0 1 4 f (fun t => [exp t]) (fun _ t => [exp t]) (fun m _ _ _ => match m with O => 1 | _ => 0 end) 0 (exp 1)) /\
  (increasing [0; 1/2; 1] /\ separated [0; 1/2; 1] /\ steps_at_most (1/2) [0; 1/2; 1] /\ last [1/2; 1] 0 = 1) /\
  one_step_traj (erk_step (to_R_rows q_euler) (to_R qb_euler) (fun _ x => x)) [2] [1; 0] = [[2]; [0]].
Proof.
  destruct C103_ex_pf as (A & B & _). destruct (A 4%nat) as (A1 & A2 & A3 & A4). split; [|split].
  - split; [exact B|]. split; [exact A1|]. split; [exact A2|exact A4].
  - split; [|split; [|split; [|reflexivity]]].
    + intros i j a d Hij Ha Hd. destruct i as [|[|[|i]]], j as [|[|[|j]]]; try lia; simpl in Ha, Hd;
        try (destruct i; discriminate); try (destruct j; discriminate); injection Ha as <-; injection Hd as <-; lra.
    + intros i j a d Hij Ha Hd. unfold close_to. destruct i as [|[|[|i]]], j as [|[|[|j]]]; try lia; simpl in Ha, Hd;
        try (destruct i; discriminate); try (destruct j; discriminate); injection Ha as <-; injection Hd as <-;
        unfold Rabs; repeat destruct Rcase_abs; lra.
    + intros i a d Ha Hd. destruct i as [|[|[|i]]]; simpl in Ha, Hd; try discriminate; try (destruct i; discriminate); injection Ha as <-; injection Hd as <-; lra.
  - cbn [one_step_traj]. do 2 f_equal. unfold erk_step. cbn. f_equal. unfold Q2R. cbn. field.
Qed.
