(** Proofs of the property about gradients of sums of losses. *)
From Coq Require Import ZArith QArith Qreals Reals Lra Lia List Bool.
From Verif Require Import Num Py Tensor M_SolversOde M_Utils M_Odeint M_Core M_Sens Spec_Ode Spec_RK Spec_Root.
From Verif Require Import L_Base L_Fixed L_Vec L_Steps L_Steps2 L_Fixed2 L_Jagged L_Conv L_Root L_Sens L_Inv Pf_Fixed Pf_Sens Pf_SensP Pf_Block.
From Verif Require Pf_Calls.
Import ListNotations.
Local Open Scope R_scope.

(** a u + b v *)
Definition mix (a b : R) (u v : list R) : list R := map (fun p => a * fst p + b * snd p) (combine u v).

Lemma mix_len a b k (u v : rvl) : length u = k -> length v = k -> length (mix a b u v) = k.
Proof. intros H1 H2. unfold mix. rewrite map_length, combine_length. lia. Qed.
Lemma mix_app a b : forall u v u' v' : rvl, length u = length v -> mix a b (u ++ u') (v ++ v') = mix a b u v ++ mix a b u' v'.
Proof. unfold mix. induction u as [|p u IH]; intros [|q v] u' v' E; try discriminate; [reflexivity|]. cbn. f_equal. apply IH. now injection E. Qed.
Lemma mix_10 : forall u v : rvl, length u = length v -> mix 1 0 u v = u.
Proof. unfold mix. induction u as [|p u IH]; intros [|q v] E; try discriminate; [reflexivity|]. cbn. f_equal; [ring|]. apply IH. now injection E. Qed.
Lemma mix_01 : forall u v : rvl, length u = length v -> mix 0 1 u v = v.
Proof. unfold mix. induction u as [|p u IH]; intros [|q v] E; try discriminate; [reflexivity|]. cbn. f_equal; [ring|]. apply IH. now injection E. Qed.
Lemma mix_axpy a b c : forall k k' x x' : rvl, length k' = length k -> length x = length k -> length x' = length k ->
  mix a b (axpy c k x) (axpy c k' x') = axpy c (mix a b k k') (mix a b x x').
Proof.
  unfold mix, axpy. induction k as [|p k IH]; intros [|p' k'] [|q x] [|q' x'] E1 E2 E3; try discriminate; [reflexivity|].
  cbn. f_equal; [ring|]. apply IH; [now injection E1|now injection E2|now injection E3].
Qed.
Lemma mix_opp a b : forall u v : rvl, @vopp ROps (mix a b u v) = mix a b (@vopp ROps u) (@vopp ROps v).
Proof. unfold mix, vopp. induction u as [|p u IH]; intros [|q v]; try reflexivity. cbn. f_equal; [ring|]. apply IH. Qed.
Lemma mix_add a b : forall u v g h : rvl, length v = length u -> length g = length u -> length h = length u ->
  @vadd ROps (mix a b u v) (mix a b g h) = mix a b (@vadd ROps u g) (@vadd ROps v h).
Proof.
  unfold mix, vadd. induction u as [|p u IH]; intros [|q v] [|g0 g] [|h0 h] E1 E2 E3; try discriminate; [reflexivity|].
  cbn. f_equal; [ring|]. apply IH; [now injection E1|now injection E2|now injection E3].
Qed.
Lemma mix_sub a b : a + b = 1 -> forall u v d : rvl, length v = length u -> length d = length u ->
  @vsub ROps (mix a b u v) d = mix a b (@vsub ROps u d) (@vsub ROps v d).
Proof.
  intros Hab. unfold mix, vsub. induction u as [|p u IH]; intros [|q v] [|g0 g] E1 E2; try discriminate; [reflexivity|].
  cbn. f_equal; [replace b with (1 - a) by lra; ring|]. apply IH; [now injection E1|now injection E2].
Qed.
Lemma mix_dot a b : forall u v w : rvl, length v = length u -> dot (mix a b u v) w = a * dot u w + b * dot v w.
Proof.
  unfold mix. induction u as [|p u IH]; intros [|q v] w E; try discriminate; [cbn; ring|]. destruct w as [|w0 w]; [cbn; ring|].
  specialize (IH v w ltac:(now injection E)). unfold dot in *. cbn in *. rewrite IH. ring.
Qed.
Lemma mix_zero a b k : mix a b (repeat 0 k) (repeat 0 k) = repeat 0 k.
Proof. unfold mix. induction k as [|k IH]; [reflexivity|]. cbn. f_equal; [ring|]. exact IH. Qed.

(** products that are linear in the cotangent, with the sizes that autograd gives them *)
Definition time_part (F : adj_field (K := ROps)) (t : R) (x w : list R) : R := match af_vjp_t F t x w with Some d => d | None => 0 end.
Definition linear_products (n m : nat) (F : adj_field (K := ROps)) : Prop :=
  forall t x, length x = n ->
  (forall w, length w = n -> length (af_vjp_x F t x w) = n /\ length (@cat_params ROps (af_vjp_p F t x w)) = m) /\
  forall a b u v, length u = n -> length v = n ->
    af_vjp_x F t x (mix a b u v) = mix a b (af_vjp_x F t x u) (af_vjp_x F t x v) /\
    @cat_params ROps (af_vjp_p F t x (mix a b u v)) = mix a b (@cat_params ROps (af_vjp_p F t x u)) (@cat_params ROps (af_vjp_p F t x v)) /\
    time_part F t x (mix a b u v) = a * time_part F t x u + b * time_part F t x v.

Section Sum.
Variables (F : adj_field (K := ROps)) (n m : nat).
Hypothesis Hf : field_on n (af_f F).
Hypothesis Hl : linear_products n m F.
Hypothesis Hdg : forall dg t x, af_dg F = Some dg -> length x = n -> length (dg t x) = n.

Let k := (n + m + 1)%nat.
Let N := (n + n + m + 1)%nat.
Let J := (n + (k + k))%nat.
Definition fits (a b : R) : Prop := af_dg F = None \/ a + b = 1.

Lemma dlam_len t x w : length x = n -> length w = n -> length (@dlam ROps F t x w) = n.
Proof.
  intros H1 H2. unfold dlam. assert (Hv : length (af_vjp_x F t x (@vopp ROps w)) = n) by (apply Hl; auto; now apply vopp_len).
  destruct (af_dg F) as [dg|] eqn:Edg; auto. apply vsub_len; auto.
Qed.

Lemma dlam_mix a b t x u v : fits a b -> length x = n -> length u = n -> length v = n ->
  @dlam ROps F t x (mix a b u v) = mix a b (@dlam ROps F t x u) (@dlam ROps F t x v).
Proof.
  intros Hab Hx Hu Hv. unfold dlam. rewrite mix_opp.
  assert (Lu : length (@vopp ROps u) = n) by (now apply vopp_len). assert (Lv : length (@vopp ROps v) = n) by (now apply vopp_len).
  destruct (proj2 (Hl t x Hx) a b _ _ Lu Lv) as (E & _). rewrite E.
  destruct (af_dg F) as [dg|] eqn:Edg; [|reflexivity].
  apply mix_sub; [destruct Hab as [H|H]; [congruence|exact H]| |].
  - etransitivity; [apply (proj1 (Hl t x Hx)); auto|symmetry; apply (proj1 (Hl t x Hx)); auto].
  - etransitivity; [apply (Hdg dg); auto|symmetry; apply (proj1 (Hl t x Hx)); auto].
Qed.

(** the part of the adjoint dynamics after the first n entries *)
Definition tail_dyn (t : R) (x l : rvl) : rvl :=
  @dlam ROps F t x l ++ @cat_params ROps (af_vjp_p F t x (@vopp ROps l)) ++ [time_part F t x (@vopp ROps l)].

Lemma tail_len t x l : length x = n -> length l = n -> length (tail_dyn t x l) = k.
Proof.
  intros Hx Hll. unfold tail_dyn. rewrite !app_length. pose proof (dlam_len t x l Hx Hll) as E1.
  assert (Lu : length (@vopp ROps l) = n) by (now apply vopp_len).
  pose proof (proj2 (proj1 (Hl t x Hx) _ Lu)) as E2.
  change (num ROps) with R in *. change (vec ROps) with rvl in *. rewrite E1, E2. unfold k. cbn [length]. lia.
Qed.

Lemma tail_mix a b t x u v : fits a b -> length x = n -> length u = n -> length v = n ->
  tail_dyn t x (mix a b u v) = mix a b (tail_dyn t x u) (tail_dyn t x v).
Proof.
  intros Hab Hx Hu Hv. unfold tail_dyn. rewrite dlam_mix, mix_opp by auto.
  assert (Lu : length (@vopp ROps u) = n) by (now apply vopp_len). assert (Lv : length (@vopp ROps v) = n) by (now apply vopp_len).
  destruct (proj2 (Hl t x Hx) a b _ _ Lu Lv) as (_ & E2 & E3). rewrite E2, E3.
  rewrite !mix_app; [reflexivity| |].
  - etransitivity; [apply (proj1 (Hl t x Hx)); auto|symmetry; apply (proj1 (Hl t x Hx)); auto].
  - etransitivity; [now apply dlam_len|symmetry; now apply dlam_len].
Qed.

(** states with two adjoints *)
Definition jx (B : rvl) : rvl := block 0 n B.
Definition j1 (B : rvl) : rvl := block n k B.
Definition j2 (B : rvl) : rvl := block (n + k) k B.
Definition pick (a b : R) (B : rvl) : rvl := jx B ++ mix a b (j1 B) (j2 B).
Definition joint (t : R) (B : rvl) : rvl := af_f F t (jx B) ++ tail_dyn t (jx B) (firstn n (j1 B)) ++ tail_dyn t (jx B) (firstn n (j2 B)).

Lemma j_len B : length B = J -> length (jx B) = n /\ length (j1 B) = k /\ length (j2 B) = k.
Proof. intros HB. unfold jx, j1, j2. unfold J in HB. rewrite !block_len by lia. auto. Qed.

Lemma j_app (x r1 r2 : rvl) : length x = n -> length r1 = k -> length r2 = k ->
  jx (x ++ r1 ++ r2) = x /\ j1 (x ++ r1 ++ r2) = r1 /\ j2 (x ++ r1 ++ r2) = r2.
Proof.
  intros Hx H1 H2. unfold jx, j1, j2. split; [|split].
  - now apply block0_app.
  - now apply block_app.
  - rewrite app_assoc. rewrite <- (app_nil_r r2) at 1. apply block_app; auto. rewrite app_length. lia.
Qed.

Lemma pick_app a b (x r1 r2 : rvl) : length x = n -> length r1 = k -> length r2 = k -> pick a b (x ++ r1 ++ r2) = x ++ mix a b r1 r2.
Proof. intros Hx H1 H2. unfold pick. destruct (j_app x r1 r2 Hx H1 H2) as (-> & -> & ->). reflexivity. Qed.

Lemma pick_len a b B : length B = J -> length (pick a b B) = N.
Proof. intros HB. unfold pick. destruct (j_len B HB) as (H1 & H2 & H3). rewrite app_length, (mix_len a b k) by auto. unfold N, k in *. lia. Qed.

Lemma joint_len t B : length B = J -> length (joint t B) = J.
Proof.
  intros HB. destruct (j_len B HB) as (H1 & H2 & H3). unfold joint.
  rewrite !app_length, Hf, !tail_len by (auto; rewrite firstn_length; unfold k in *; lia). reflexivity.
Qed.

Lemma pick_axpy a b c K B : length K = J -> length B = J -> pick a b (axpy c K B) = axpy c (pick a b K) (pick a b B).
Proof.
  intros HK HB. unfold pick. destruct (j_len B HB) as (H1 & H2 & H3). destruct (j_len K HK) as (H1' & H2' & H3').
  unfold jx, j1, j2 in *. rewrite !block_axpy by (clear - HK HB; change (num ROps) with R in *; lia).
  rewrite mix_axpy by lia. apply axpy_app. lia.
Qed.

Lemma firstn_mix a b : forall j (u v : rvl), firstn j (mix a b u v) = mix a b (firstn j u) (firstn j v).
Proof. unfold mix. induction j as [|j IH]; intros [|p u] [|q v]; try reflexivity. cbn. now rewrite IH. Qed.

Lemma firstn_app_exact (x y : rvl) : length x = n -> firstn n (x ++ y) = x.
Proof. intros H. rewrite firstn_app, firstn_all2 by lia. rewrite H, Nat.sub_diag. cbn. apply app_nil_r. Qed.

Lemma dyn_tail t (x r : rvl) : length x = n -> @adjoint_dynamics ROps F n t (x ++ r) = af_f F t x ++ tail_dyn t x (firstn n r).
Proof.
  intros Hx. unfold adjoint_dynamics, tail_dyn, time_part.
  pose proof (firstn_app_exact x r Hx) as E1.
  assert (E2 : skipn n (x ++ r) = r) by (rewrite skipn_app, skipn_all2 by lia; rewrite Hx, Nat.sub_diag; reflexivity).
  change (num ROps) with R in *. change (vec ROps) with rvl in *. rewrite E1, E2.
  assert (Z : @nQ ROps 0 = 0) by (rops; lra). change (num ROps) with R in *. rewrite Z. reflexivity.
Qed.

Lemma dyn_pick a b t B : fits a b -> length B = J -> @adjoint_dynamics ROps F n t (pick a b B) = pick a b (joint t B).
Proof.
  intros Hab HB. destruct (j_len B HB) as (H1 & H2 & H3). unfold joint.
  assert (L1 : length (firstn n (j1 B)) = n) by (rewrite firstn_length; unfold k in *; lia).
  assert (L2 : length (firstn n (j2 B)) = n) by (rewrite firstn_length; unfold k in *; lia).
  rewrite pick_app by (auto; now apply tail_len). unfold pick at 1. rewrite dyn_tail by auto.
  rewrite firstn_mix, tail_mix by auto. reflexivity.
Qed.

Lemma dyn_len t A : length A = N -> length (@adjoint_dynamics ROps F n t A) = N.
Proof.
  intros HA. rewrite <- (firstn_skipn n A). unfold N in *.
  assert (Hx : length (firstn n A) = n) by (rewrite firstn_length; lia).
  rewrite dyn_tail, app_length, Hf, tail_len; auto.
  - unfold k. lia.
  - rewrite firstn_length, skipn_length. lia.
Qed.

Lemma split_rest r : length r = k -> exists (l c : rvl) z, length l = n /\ length c = m /\ r = l ++ c ++ [z].
Proof.
  intros Hr. unfold k in Hr.
  exists (firstn n r), (firstn m (skipn n r)).
  assert (E3 : length (skipn m (skipn n r)) = 1%nat) by (rewrite !skipn_length; lia).
  destruct (skipn m (skipn n r)) as [|z [|]] eqn:E; try discriminate. exists z.
  split; [rewrite firstn_length; lia|]. split; [rewrite firstn_length, skipn_length; lia|].
  rewrite <- E, !firstn_skipn. reflexivity.
Qed.

Definition bump (r g : rvl) (gt : R) : rvl := @vadd ROps (firstn n r) g ++ firstn m (skipn n r) ++ [nth (n + m) r 0 - gt].

Lemma bump_app (l c : rvl) z g gt : length l = n -> length c = m -> bump (l ++ c ++ [z]) g gt = @vadd ROps l g ++ c ++ [z - gt].
Proof.
  intros H1 H2. unfold bump. rewrite firstn_app_exact by auto.
  assert (E : firstn m (skipn n (l ++ c ++ [z])) = c) by (exact (block_app n m l c [z] H1 H2)).
  rewrite E. rewrite app_nth2 by lia. rewrite app_nth2 by lia. replace (n + m - length l - length c)%nat with 0%nat by lia. reflexivity.
Qed.

Lemma bump_len r g gt : length r = k -> length g = n -> length (bump r g gt) = k.
Proof.
  intros Hr Hg. destruct (split_rest r Hr) as (l & c & z & H1 & H2 & ->). rewrite bump_app by auto.
  rewrite !app_length. assert (E : length (@vadd ROps l g) = n) by (now apply vadd_len).
  change (num ROps) with R in *. change (vec ROps) with rvl in *. rewrite E. unfold k. cbn [length]. lia.
Qed.

Definition joint_after (t_i : R) (g1 g2 : rvl) (gt1 gt2 : R) (o : res (list R * list rvl)) : res (rvl * (R * R)) :=
  rbind o (fun r => rbind (pylast (snd r)) (fun B =>
    Ok (jx B ++ bump (j1 B) g1 gt1 ++ bump (j2 B) g2 gt2,
        (dot (firstn n (j1 B)) (af_f F t_i (jx B)), dot (firstn n (j2 B)) (af_f F t_i (jx B)))))).

Definition view (a b : R) (r : rvl * (R * R)) : rvl * R := (pick a b (fst r), a * fst (snd r) + b * snd (snd r)).

Lemma interval_joint fuel s rows bb atol rtol t_prev t_i g1 g2 gt1 gt2 B : erk_solver s rows bb -> length B = J -> length g1 = n -> length g2 = n ->
  exists o : res (rvl * (R * R)), (forall B' d, o = Ok (B', d) -> length B' = J) /\
  forall a b, fits a b ->
    @adj_interval ROps fuel F n m s atol rtol t_prev t_i (mix a b g1 g2) (a * gt1 + b * gt2) (pick a b B) = rmap (view a b) o.
Proof.
  intros Hs HB Hg1 Hg2.
  pose proof (fun times sol => odeint_fixed_len fuel s rows bb J joint B t_i t_prev [] atol rtol false false []
    (Some (n + n)%nat) times sol Hs joint_len HB) as Elen.
  pose proof (fun a b (Hab : fits a b) => odeint_fixed_map fuel s rows bb J N joint (@adjoint_dynamics ROps F n) (pick a b) (pick a b) B t_i t_prev []
    atol rtol false false [] (Some (n + n)%nat) Hs joint_len dyn_len HB (pick_len a b B HB)
    (fun c K y HK Hy => pick_axpy a b c K y HK Hy) (fun t y Hy => dyn_pick a b t y Hab Hy)) as Emap.
  assert (Eint : forall a b, fits a b ->
    @adj_interval ROps fuel F n m s atol rtol t_prev t_i (mix a b g1 g2) (a * gt1 + b * gt2) (pick a b B) =
    after n F m t_i (mix a b g1 g2) (a * gt1 + b * gt2) (rmap (fun r => (fst r, map (pick a b) (snd r)))
      (snd (@odeint ROps fuel joint B (@TTensor ROps [t_i; t_prev]) s atol rtol false false [] (Some (n + n)%nat))))).
  { intros a b Hab. rewrite (interval_after n fuel F m).
    - exact (f_equal (after n F m t_i (mix a b g1 g2) (a * gt1 + b * gt2)) (Emap a b Hab)).
    - etransitivity; [apply dyn_len; now apply pick_len|symmetry; now apply pick_len]. }
  clear Emap. revert Elen Eint.
  generalize (snd (@odeint ROps fuel joint B (@TTensor ROps [t_i; t_prev]) s atol rtol false false [] (Some (n + n)%nat))).
  change (num ROps) with R in *. change (vec ROps) with rvl in *.
  intros [[times sol]|e|] Elen Eint; [|exists (Err e); split; [discriminate|exact Eint]|exists (@OutOfFuel _); split; [discriminate|exact Eint]].
  exists (joint_after t_i g1 g2 gt1 gt2 (Ok (times, sol))).
  cbn [rmap rbind fst snd] in Eint. unfold after, joint_after in *. cbn [rbind fst snd] in *.
  destruct sol as [|s0 sol0] eqn:Esol; [split; [discriminate|exact Eint]|].
  destruct (exists_last (l := s0 :: sol0) ltac:(discriminate)) as (sl & B1 & El).
  rewrite El in *. rewrite pylast_app. cbn [rbind].
  assert (HB1 : length B1 = J) by (apply (Elen times _ eq_refl); apply in_or_app; right; now left).
  clear Elen El Esol. destruct (j_len B1 HB1) as (Lx & L1 & L2).
  split.
  { intros B' d E. injection E as <- _. rewrite !app_length, !bump_len by auto. rewrite Lx. reflexivity. }
  intros a b Hab. rewrite Eint by auto. clear Eint. rewrite map_app. cbn [map]. rewrite pylast_app. cbn [rbind rmap fst snd].
  unfold view. cbn [fst snd].
  rewrite pick_app by (auto; now apply bump_len).
  assert (EP : pick a b B1 = jx B1 ++ mix a b (j1 B1) (j2 B1)) by reflexivity.
  pose proof (pyslice_mu' n m (pick a b B1) (pick_len a b B1 HB1)) as MF.
  revert EP MF. generalize (pick a b B1).
  destruct (split_rest _ L1) as (l1 & c1 & z1 & Hl1 & Hc1 & ->). destruct (split_rest _ L2) as (l2 & c2 & z2 & Hl2 & Hc2 & ->).
  intros P EP MF.
  rewrite !mix_app in EP by congruence.
  assert (Ml : length (mix a b l1 l2) = n) by (now apply mix_len).
  assert (Mc : length (mix a b c1 c2) = m) by (now apply mix_len).
  change (mix a b [z1] [z2]) with [a * z1 + b * z2] in EP.
  assert (MFv : block (n + n) m P = mix a b c1 c2) by (rewrite EP; now apply block_mu).
  destruct (first_two n (jx B1) (mix a b l1 l2) (mix a b c1 c2 ++ [a * z1 + b * z2]) Lx Ml) as [Q1 Q2].
  rewrite <- EP in Q1, Q2.
  change (num ROps) with R in *. change (vec ROps) with rvl in *.
  rewrite MF, MFv, Q1, Q2.
  assert (RP : pylast P = Ok (a * z1 + b * z2)).
  { rewrite EP. replace (jx B1 ++ mix a b l1 l2 ++ mix a b c1 c2 ++ [a * z1 + b * z2]) with ((jx B1 ++ mix a b l1 l2 ++ mix a b c1 c2) ++ [a * z1 + b * z2])
      by (now rewrite <- !app_assoc). apply pylast_app. }
  rewrite RP. cbn [rbind]. rewrite !bump_app by auto. rewrite !firstn_app_exact by auto.
  pose proof (vdot_dot (mix a b l1 l2) (af_f F t_i (jx B1))) as D. change (num ROps) with R in *. change (vec ROps) with rvl in *.
  rewrite D, mix_dot by congruence.
  assert (A1 : length (@vadd ROps l1 g1) = n) by (now apply vadd_len).
  assert (A2 : length (@vadd ROps l2 g2) = n) by (now apply vadd_len).
  change (num ROps) with R in *. change (vec ROps) with rvl in *.
  rewrite !mix_app by congruence. change (mix a b [z1 - gt1] [z2 - gt2]) with [a * (z1 - gt1) + b * (z2 - gt2)].
  rewrite mix_add by congruence.
  replace (a * z1 + b * z2 - (a * gt1 + b * gt2)) with (a * (z1 - gt1) + b * (z2 - gt2)) by ring. reflexivity.
Qed.

Lemma loop_joint fuel s rows bb atol rtol : erk_solver s rows bb -> forall rts rg1 rg2 rt1 rt2 B d, length B = J ->
  length rg2 = length rg1 -> length rt2 = length rt1 -> Forall (fun g => length g = n) rg1 -> Forall (fun g => length g = n) rg2 ->
  exists o : res (rvl * (R * R)), (forall B' d', o = Ok (B', d') -> length B' = J) /\
  forall a b, fits a b ->
    @adj_loop ROps fuel F n m s atol rtol rts (map2 (mix a b) rg1 rg2) (mix a b rt1 rt2) (pick a b B) (a * fst d + b * snd d) = rmap (view a b) o.
Proof.
  intros Hs. induction rts as [|t_i rts IH]; intros rg1 rg2 rt1 rt2 B d HB E1 E2 F1 F2.
  { exists (Ok (B, d)). split; [intros B' d' E; injection E as <- _; exact HB|reflexivity]. }
  assert (Stop : exists o : res (rvl * (R * R)), (forall B' d', o = Ok (B', d') -> length B' = J) /\
    forall a b, fits a b -> Ok (pick a b B, a * fst d + b * snd d) = rmap (view a b) o).
  { exists (Ok (B, d)). split; [intros B' d' E; injection E as <- _; exact HB|reflexivity]. }
  destruct rts as [|t_prev rts]; [exact Stop|].
  destruct rg1 as [|g0 rg1], rg2 as [|h0 rg2]; try discriminate; [exact Stop|].
  destruct rg1 as [|g1 rg1], rg2 as [|h1 rg2]; try discriminate; [exact Stop|].
  destruct rt1 as [|p0 rt1], rt2 as [|q0 rt2]; try discriminate; [exact Stop|].
  destruct rt1 as [|p1 rt1], rt2 as [|q1 rt2]; try discriminate; [exact Stop|].
  clear Stop.
  assert (Lg : length g1 = n) by (inversion F1; subst; now inversion H2).
  assert (Lh : length h1 = n) by (inversion F2; subst; now inversion H2).
  destruct (interval_joint fuel s rows bb atol rtol t_prev t_i g1 h1 p1 q1 B Hs HB Lg Lh) as (o & Lo & Eo).
  destruct o as [[B1 d1]|e|].
  - destruct (IH (g1 :: rg1) (h1 :: rg2) (p1 :: rt1) (q1 :: rt2) B1 d1 (Lo B1 d1 eq_refl) ltac:(cbn [length] in *; lia) ltac:(cbn [length] in *; lia)
      ltac:(now inversion F1) ltac:(now inversion F2)) as (o & Lo' & Eo').
    exists o. split; [exact Lo'|]. intros a b Hab. rewrite <- (Eo' a b Hab).
    exact (f_equal (fun u => rbind u (fun '(A, dL) => @adj_loop ROps fuel F n m s atol rtol (t_prev :: rts) (map2 (mix a b) (g1 :: rg1) (h1 :: rg2))
      (mix a b (p1 :: rt1) (q1 :: rt2)) A dL)) (Eo a b Hab)).
  - exists (Err e). split; [discriminate|]. intros a b Hab.
    exact (f_equal (fun u => rbind u (fun '(A, dL) => @adj_loop ROps fuel F n m s atol rtol (t_prev :: rts) (map2 (mix a b) (g1 :: rg1) (h1 :: rg2))
      (mix a b (p1 :: rt1) (q1 :: rt2)) A dL)) (Eo a b Hab)).
  - exists (@OutOfFuel _). split; [discriminate|]. intros a b Hab.
    exact (f_equal (fun u => rbind u (fun '(A, dL) => @adj_loop ROps fuel F n m s atol rtol (t_prev :: rts) (map2 (mix a b) (g1 :: rg1) (h1 :: rg2))
      (mix a b (p1 :: rt1) (q1 :: rt2)) A dL)) (Eo a b Hab)).
Qed.
End Sum.

Lemma map2_snoc {X Y Z} (h : X -> Y -> Z) : forall l m x y, length l = length m -> map2 h (l ++ [x]) (m ++ [y]) = map2 h l m ++ [h x y].
Proof. induction l as [|p l IH]; intros [|q m] x y E; try discriminate; [reflexivity|]. cbn. f_equal. apply IH. now injection E. Qed.

Lemma map2_rev {X Y Z} (h : X -> Y -> Z) : forall l m, length l = length m -> rev (map2 h l m) = map2 h (rev l) (rev m).
Proof.
  induction l as [|p l IH]; intros [|q m] E; try discriminate; [reflexivity|]. cbn [map2 rev]. injection E as E.
  rewrite map2_snoc by (now rewrite !rev_length). now rewrite IH.
Qed.

Lemma mix_map2 a b : forall u v, mix a b u v = map2 (fun p q => a * p + b * q) u v.
Proof. unfold mix. induction u as [|p u IH]; intros [|q v]; try reflexivity. cbn. now rewrite IH. Qed.

Lemma map2_mix_10 : forall l m : list rvl, length l = length m -> (forall n, Forall (fun g => length g = n) l -> Forall (fun g => length g = n) m -> map2 (mix 1 0) l m = l).
Proof.
  induction l as [|p l IH]; intros [|q m] E n H1 H2; try discriminate; [reflexivity|]. cbn. inversion H1; inversion H2; subst.
  f_equal; [apply mix_10; congruence|]. eapply IH; eauto.
Qed.
Lemma map2_mix_01 : forall l m : list rvl, length l = length m -> (forall n, Forall (fun g => length g = n) l -> Forall (fun g => length g = n) m -> map2 (mix 0 1) l m = m).
Proof.
  induction l as [|p l IH]; intros [|q m] E n H1 H2; try discriminate; [reflexivity|]. cbn. inversion H1; inversion H2; subst.
  f_equal; [apply mix_01; congruence|]. eapply IH; eauto.
Qed.

(** C179, adjoint: gradients of losses L1 and L2 that share a forward solve add up: the backward pass for the
    cotangents of a L1 + b L2 returns a times the gradients of L1 plus b times those of L2 (parameters, initial
    state, ends of the time span), and raises if and only if one of the two raises.  With an integral loss this
    needs a + b = 1, as the integral is part of every backward pass. *)
Lemma C179_adjoint_linear_pf :
  forall fuel (F : adj_field (K := ROps)) n m s rows bb atol rtol t_sol sol gt1 gt2 gx1 gx2 a b,
  field_on n (af_f F) -> linear_products n m F -> (forall dg t x, af_dg F = Some dg -> length x = n -> length (dg t x) = n) ->
  (af_dg F = None \/ a + b = 1) -> erk_solver s rows bb ->
  Forall (fun x => length x = n) sol -> Forall (fun g => length g = n) gx1 -> Forall (fun g => length g = n) gx2 ->
  length gx2 = length gx1 -> length gt2 = length gt1 ->
  @adjoint_backward ROps fuel F m s atol rtol t_sol sol (mix a b gt1 gt2) (map2 (mix a b) gx1 gx2) =
  rbind (@adjoint_backward ROps fuel F m s atol rtol t_sol sol gt1 gx1) (fun o1 =>
  rbind (@adjoint_backward ROps fuel F m s atol rtol t_sol sol gt2 gx2) (fun o2 =>
  Ok (@MkAdj ROps (mix a b (ao_params o1) (ao_params o2)) (mix a b (ao_x o1) (ao_x o2)) (mix a b (ao_tspan o1) (ao_tspan o2))))).
Proof.
  intros fuel F n m s rows bb atol rtol t_sol sol gt1 gt2 gx1 gx2 a0 b0 Hf Hl Hdg Hab0 Hs Hsol G1 G2 E1 E2.
  assert (Main : exists o : res (rvl * rvl * (rvl * rvl) * (rvl * rvl)), 
    (forall q1 q2 l1 l2 d1 d2, o = Ok (q1, q2, (l1, l2), (d1, d2)) -> length q1 = length q2 /\ length l1 = length l2 /\ length d1 = length d2) /\
    forall a b, fits F a b -> @adjoint_backward ROps fuel F m s atol rtol t_sol sol (mix a b gt1 gt2) (map2 (mix a b) gx1 gx2) =
    rmap (fun r => let '(q1, q2, (l1, l2), (d1, d2)) := r in @MkAdj ROps (mix a b q1 q2) (mix a b l1 l2) (mix a b d1 d2)) o).
  { unfold adjoint_backward.
    destruct sol as [|x0 sl]; [exists (Err IndexError); split; [discriminate|reflexivity]|].
    destruct (exists_last (l := x0 :: sl) ltac:(discriminate)) as (sol0 & xT & E). rewrite E in *. clear x0 sl E. rewrite pylast_app. cbn [rbind].
    assert (HxT : length xT = n) by (rewrite Forall_forall in Hsol; apply Hsol, in_or_app; right; now left).
    destruct gx1 as [|g0 gl1], gx2 as [|h0 gl2]; try discriminate; [exists (Err IndexError); split; [discriminate|reflexivity]|].
    destruct (exists_last (l := g0 :: gl1) ltac:(discriminate)) as (u1 & lT1 & E). rewrite E in *. clear g0 gl1 E.
    destruct (exists_last (l := h0 :: gl2) ltac:(discriminate)) as (u2 & lT2 & E). rewrite E in *. clear h0 gl2 E.
    assert (E1' : length u1 = length u2) by (rewrite !app_length in E1; cbn in E1; lia).
    assert (L1 : length lT1 = n) by (rewrite Forall_forall in G1; apply G1, in_or_app; right; now left).
    assert (L2 : length lT2 = n) by (rewrite Forall_forall in G2; apply G2, in_or_app; right; now left).
    destruct t_sol as [|w0 wl].
    { exists (Err IndexError). split; [discriminate|]. intros a b Hab. rewrite map2_snoc by exact E1'. rewrite pylast_app. reflexivity. }
    destruct (exists_last (l := w0 :: wl) ltac:(discriminate)) as (ts0 & tT & E). rewrite E in *. clear w0 wl E.
    set (z1 := dot lT1 (af_f F tT xT)). set (z2 := dot lT2 (af_f F tT xT)).
    set (r1 := lT1 ++ repeat 0 m ++ [z1]). set (r2 := lT2 ++ repeat 0 m ++ [z2]).
    assert (R1 : length r1 = (n + m + 1)%nat) by (unfold r1; rewrite !app_length, repeat_length; cbn [length]; lia).
    assert (R2 : length r2 = (n + m + 1)%nat) by (unfold r2; rewrite !app_length, repeat_length; cbn [length]; lia).
    assert (HB : length (xT ++ r1 ++ r2) = (n + ((n + m + 1) + (n + m + 1)))%nat) by (rewrite !app_length; lia).
    destruct (loop_joint F n m Hf Hl Hdg fuel s rows bb atol rtol Hs (rev (ts0 ++ [tT])) (rev (u1 ++ [lT1])) (rev (u2 ++ [lT2])) (rev gt1) (rev gt2)
      (xT ++ r1 ++ r2) (z1, z2) HB ltac:(rewrite !rev_length; exact E1) ltac:(rewrite !rev_length; exact E2) (Forall_rev G1) (Forall_rev G2)) as (o & Lo & Eo).
    assert (Run : forall a b, fits F a b ->
      @adj_loop ROps fuel F n m s atol rtol (rev (ts0 ++ [tT])) (rev (map2 (mix a b) (u1 ++ [lT1]) (u2 ++ [lT2]))) (rev (mix a b gt1 gt2))
        (xT ++ mix a b lT1 lT2 ++ @vzeros ROps m ++ [@vdot ROps (mix a b lT1 lT2) (af_f F tT xT)]) (@vdot ROps (mix a b lT1 lT2) (af_f F tT xT)) =
      rmap (view n m a b) o).
    { intros a b Hab. rewrite <- (Eo a b Hab). rewrite map2_rev by (now symmetry).
      rewrite (mix_map2 a b gt1 gt2), map2_rev by (now symmetry). rewrite <- mix_map2.
      pose proof (vdot_dot (mix a b lT1 lT2) (af_f F tT xT)) as D. change (num ROps) with R in *. change (vec ROps) with rvl in *.
      rewrite D, mix_dot by congruence. rewrite pick_app by auto. unfold r1, r2. rewrite !mix_app by (rewrite ?repeat_length; congruence).
      rewrite mix_zero. change (mix a b [z1] [z2]) with [a * z1 + b * z2].
      assert (Ez : @vzeros ROps m = repeat 0 m) by (unfold vzeros; f_equal; rops; lra).
      change (num ROps) with R in *. change (vec ROps) with rvl in *. rewrite Ez. reflexivity. }
    exists (rmap (fun r => (firstn m (skipn n (j1 n m (fst r))), firstn m (skipn n (j2 n m (fst r))),
      (firstn n (j1 n m (fst r)), firstn n (j2 n m (fst r))), ([fst (snd r); z1], [snd (snd r); z2]))) o).
    split.
    { intros q1 q2 l1 l2 d1 d2 E. destruct o as [[B d]|e|]; try discriminate. cbn [rmap rbind fst snd] in E.
      specialize (Lo B d eq_refl). destruct (j_len n m B Lo) as (_ & J1 & J2).
      injection E as <- <- <- <- <- <-. rewrite !firstn_length, !skipn_length, J1, J2. auto. }
    intros a b Hab. rewrite map2_snoc by exact E1'. rewrite !pylast_app. cbn [rbind]. rewrite <- map2_snoc by exact E1'. rewrite HxT.
    pose proof (Run a b Hab) as RU. change (num ROps) with R in *. change (vec ROps) with rvl in *. rewrite RU. clear Run RU.
    destruct o as [[B d]|e|]; try reflexivity. unfold view. cbn [rmap rbind fst snd].
    specialize (Lo B d eq_refl). destruct (j_len n m B Lo) as (Jx & J1 & J2).
    pose proof (pyslice_mu' n m (pick n m a b B) (pick_len n m a b B Lo)) as MF.
    change (num ROps) with R in *. change (vec ROps) with rvl in *. rewrite MF. clear MF.
    assert (EP : pick n m a b B = jx n B ++ mix a b (j1 n m B) (j2 n m B)) by reflexivity.
    revert EP. generalize (pick n m a b B). 
    destruct (split_rest n m _ J1) as (l1 & c1 & y1 & Hl1 & Hc1 & ->). destruct (split_rest n m _ J2) as (l2 & c2 & y2 & Hl2 & Hc2 & ->).
    intros P EP. rewrite !mix_app in EP by congruence. change (mix a b [y1] [y2]) with [a * y1 + b * y2] in EP.
    assert (Ml : length (mix a b l1 l2) = n) by (now apply mix_len).
    assert (Mc : length (mix a b c1 c2) = m) by (now apply mix_len).
    assert (MFv : block (n + n) m P = mix a b c1 c2) by (rewrite EP; now apply block_mu).
    destruct (first_two n (jx n B) (mix a b l1 l2) (mix a b c1 c2 ++ [a * y1 + b * y2]) Jx Ml) as [Q1 Q2].
    rewrite <- EP in Q1, Q2. rewrite MFv, Q2.
    rewrite !firstn_app_exact by auto.
    assert (K1 : firstn m (skipn n (l1 ++ c1 ++ [y1])) = c1) by (exact (block_app n m l1 c1 [y1] Hl1 Hc1)).
    assert (K2 : firstn m (skipn n (l2 ++ c2 ++ [y2])) = c2) by (exact (block_app n m l2 c2 [y2] Hl2 Hc2)).
    rewrite K1, K2.
    pose proof (vdot_dot (mix a b lT1 lT2) (af_f F tT xT)) as D. change (num ROps) with R in *. change (vec ROps) with rvl in *.
    rewrite D, mix_dot by congruence. reflexivity. }
  destruct Main as (o & Lo & Eo).
  pose proof (Eo 1 0 ltac:(right; lra)) as M1. pose proof (Eo 0 1 ltac:(right; lra)) as M2. rewrite (Eo a0 b0 Hab0).
  rewrite (map2_mix_10 gx1 gx2 (eq_sym E1) n G1 G2), (mix_10 gt1 gt2 (eq_sym E2)) in M1.
  rewrite (map2_mix_01 gx1 gx2 (eq_sym E1) n G1 G2), (mix_01 gt1 gt2 (eq_sym E2)) in M2.
  rewrite M1, M2. destruct o as [[[[q1 q2] [l1 l2]] [d1 d2]]|e|]; try reflexivity.
  destruct (Lo q1 q2 l1 l2 d1 d2 eq_refl) as (K1 & K2 & K3).
  cbn [rmap rbind ao_params ao_x ao_tspan]. rewrite !mix_10, !mix_01 by assumption. reflexivity.
Qed.

Section Interp.
Variables (F : adj_field (K := ROps)) (path : R -> rvl) (n m : nat).
Hypothesis Hl : linear_products n m F.
Hypothesis Hdg : forall dg t x, af_dg F = Some dg -> length x = n -> length (dg t x) = n.
Hypothesis Hp : forall t, length (path t) = n.
Hypothesis Hm : (0 < m)%nat.
Let k := (n + m)%nat.
Let J := (k + k)%nat.

Definition i1 (B : rvl) : rvl := block 0 k B.
Definition i2 (B : rvl) : rvl := block k k B.
Definition ipick (a b : R) (B : rvl) : rvl := mix a b (i1 B) (i2 B).
Definition idyn (t : R) (l : rvl) : rvl := @dlam ROps F t (path t) l ++ @cat_params ROps (af_vjp_p F t (path t) (@vopp ROps l)).
Definition ijoint (t : R) (B : rvl) : rvl := idyn t (firstn n (i1 B)) ++ idyn t (firstn n (i2 B)).

Lemma i_len B : length B = J -> length (i1 B) = k /\ length (i2 B) = k.
Proof. intros HB. unfold i1, i2. unfold J in HB. rewrite !block_len by lia. auto. Qed.

Lemma i_app (r1 r2 : rvl) : length r1 = k -> length r2 = k -> i1 (r1 ++ r2) = r1 /\ i2 (r1 ++ r2) = r2.
Proof.
  intros H1 H2. unfold i1, i2. split; [now apply block0_app|].
  rewrite <- (app_nil_r r2) at 1. now apply block_app.
Qed.

Lemma ipick_app a b (r1 r2 : rvl) : length r1 = k -> length r2 = k -> ipick a b (r1 ++ r2) = mix a b r1 r2.
Proof. intros H1 H2. unfold ipick. destruct (i_app r1 r2 H1 H2) as (-> & ->). reflexivity. Qed.

Lemma ipick_len a b B : length B = J -> length (ipick a b B) = k.
Proof. intros HB. destruct (i_len B HB). now apply mix_len. Qed.

Lemma idyn_len t l : length l = n -> length (idyn t l) = k.
Proof.
  intros H. unfold idyn. rewrite app_length. pose proof (dlam_len F n m Hl Hdg t (path t) l (Hp t) H) as E1.
  assert (Lu : length (@vopp ROps l) = n) by (now apply vopp_len).
  pose proof (proj2 (proj1 (Hl t (path t) (Hp t)) _ Lu)) as E2.
  change (num ROps) with R in *. change (vec ROps) with rvl in *. rewrite E1, E2. reflexivity.
Qed.

Lemma idyn_mix a b t u v : fits F a b -> length u = n -> length v = n -> idyn t (mix a b u v) = mix a b (idyn t u) (idyn t v).
Proof.
  intros Hab Hu Hv. unfold idyn. rewrite (dlam_mix F n m Hl Hdg), mix_opp by auto.
  assert (Lu : length (@vopp ROps u) = n) by (now apply vopp_len). assert (Lv : length (@vopp ROps v) = n) by (now apply vopp_len).
  destruct (proj2 (Hl t (path t) (Hp t)) a b _ _ Lu Lv) as (_ & E2 & _). rewrite E2.
  rewrite mix_app; [reflexivity|].
  etransitivity; [now apply (dlam_len F n m Hl Hdg)|symmetry; now apply (dlam_len F n m Hl Hdg)].
Qed.

Lemma ijoint_len t B : length B = J -> length (ijoint t B) = J.
Proof.
  intros HB. destruct (i_len B HB) as (H1 & H2). unfold ijoint. rewrite app_length, !idyn_len by (rewrite firstn_length; unfold k in *; lia). reflexivity.
Qed.

Lemma ipick_axpy a b c K B : length K = J -> length B = J -> ipick a b (axpy c K B) = axpy c (ipick a b K) (ipick a b B).
Proof.
  intros HK HB. unfold ipick. destruct (i_len B HB) as (H1 & H2). destruct (i_len K HK) as (H1' & H2').
  unfold i1, i2 in *. rewrite !block_axpy by (clear - HK HB; change (num ROps) with R in *; lia).
  apply mix_axpy; lia.
Qed.

Lemma idyn_value t A : @interp_dynamics ROps F path n t A = idyn t (firstn n A).
Proof. reflexivity. Qed.

Lemma idyn_pick a b t B : fits F a b -> length B = J -> @interp_dynamics ROps F path n t (ipick a b B) = ipick a b (ijoint t B).
Proof.
  intros Hab HB. destruct (i_len B HB) as (H1 & H2). unfold ijoint.
  assert (L1 : length (firstn n (i1 B)) = n) by (rewrite firstn_length; unfold k in *; lia).
  assert (L2 : length (firstn n (i2 B)) = n) by (rewrite firstn_length; unfold k in *; lia).
  rewrite ipick_app by (now apply idyn_len). rewrite idyn_value. unfold ipick. rewrite firstn_mix. now apply idyn_mix.
Qed.

Lemma idyn_on t A : length A = k -> length (@interp_dynamics ROps F path n t A) = k.
Proof. intros HA. rewrite idyn_value. apply idyn_len. rewrite firstn_length. unfold k in HA. lia. Qed.

Definition iafter (g : rvl) (o : res (list R * list rvl)) : res rvl :=
  rbind o (fun r => rbind (pylast (snd r)) (fun A => Ok (@vadd ROps (firstn n A) g ++ pyslice (Some (- Z.of_nat m)%Z) None A))).

Lemma iinterval_after fuel s atol rtol t_prev t_i g (A : rvl) : length (@interp_dynamics ROps F path n t_i A) = length A ->
  @interp_interval ROps fuel F path n m s atol rtol t_prev t_i g A =
  iafter g (snd (@odeint ROps fuel (@interp_dynamics ROps F path n) A (@TTensor ROps [t_i; t_prev]) s atol rtol false false [] None)).
Proof.
  intros E. apply Nat.eqb_eq in E. unfold interp_interval. change (num ROps) with R in *. change (vec ROps) with rvl in *. rewrite E. reflexivity.
Qed.

Lemma pyslice_tail (A : rvl) : length A = k -> pyslice (Some (- Z.of_nat m)%Z) None A = skipn n A.
Proof.
  intros HA. unfold pyslice, slice_bound, k in *. rewrite HA.
  replace (- Z.of_nat m <? 0)%Z with true by (symmetry; apply Z.ltb_lt; lia).
  replace (Nat.min (Z.to_nat (- Z.of_nat m + Z.of_nat (n + m))) (n + m)) with n by lia.
  apply firstn_all2. rewrite skipn_length. lia.
Qed.

Definition ibump (r g : rvl) : rvl := @vadd ROps (firstn n r) g ++ skipn n r.
Lemma ibump_len r g : length r = k -> length g = n -> length (ibump r g) = k.
Proof.
  intros Hr Hg. unfold ibump, k in *. assert (E : length (@vadd ROps (firstn n r) g) = n) by (apply vadd_len; auto; rewrite firstn_length; change (num ROps) with R in *; lia).
  rewrite app_length, skipn_length. change (num ROps) with R in *. change (vec ROps) with rvl in *. rewrite E. lia.
Qed.

Lemma skipn_mix a b : forall j (u v : rvl), skipn j (mix a b u v) = mix a b (skipn j u) (skipn j v).
Proof.
  unfold mix. induction j as [|j IH]; intros [|p u] [|q v]; try reflexivity.
  - cbn [combine map skipn]. destruct (skipn j u); reflexivity.
  - cbn. apply IH.
Qed.

Lemma ibump_mix a b r1 r2 g1 g2 : length r1 = k -> length r2 = k -> length g1 = n -> length g2 = n ->
  ibump (mix a b r1 r2) (mix a b g1 g2) = mix a b (ibump r1 g1) (ibump r2 g2).
Proof.
  intros H1 H2 H3 H4. unfold ibump. rewrite firstn_mix, skipn_mix.
  assert (F1 : length (firstn n r1) = n) by (rewrite firstn_length; unfold k in *; lia).
  assert (F2 : length (firstn n r2) = n) by (rewrite firstn_length; unfold k in *; lia).
  rewrite mix_add by congruence. rewrite mix_app; [reflexivity|].
  exact (eq_trans (L_Vec.vadd_len n _ _ F1 H3) (eq_sym (L_Vec.vadd_len n _ _ F2 H4))).
Qed.

Lemma iinterval_joint fuel s rows bb atol rtol t_prev t_i g1 g2 B : erk_solver s rows bb -> length B = J -> length g1 = n -> length g2 = n ->
  exists o : res rvl, (forall B', o = Ok B' -> length B' = J) /\
  forall a b, fits F a b ->
    @interp_interval ROps fuel F path n m s atol rtol t_prev t_i (mix a b g1 g2) (ipick a b B) = rmap (ipick a b) o.
Proof.
  intros Hs HB Hg1 Hg2.
  pose proof (fun times sol => odeint_fixed_len fuel s rows bb J ijoint B t_i t_prev [] atol rtol false false []
    None times sol Hs ijoint_len HB) as Elen.
  pose proof (fun a b (Hab : fits F a b) => odeint_fixed_map fuel s rows bb J k ijoint (@interp_dynamics ROps F path n) (ipick a b) (ipick a b) B t_i t_prev []
    atol rtol false false [] None Hs ijoint_len idyn_on HB (ipick_len a b B HB)
    (fun c K y HK Hy => ipick_axpy a b c K y HK Hy) (fun t y Hy => idyn_pick a b t y Hab Hy)) as Emap.
  assert (Eint : forall a b, fits F a b ->
    @interp_interval ROps fuel F path n m s atol rtol t_prev t_i (mix a b g1 g2) (ipick a b B) =
    iafter (mix a b g1 g2) (rmap (fun r => (fst r, map (ipick a b) (snd r)))
      (snd (@odeint ROps fuel ijoint B (@TTensor ROps [t_i; t_prev]) s atol rtol false false [] None)))).
  { intros a b Hab. rewrite iinterval_after.
    - exact (f_equal (iafter (mix a b g1 g2)) (Emap a b Hab)).
    - etransitivity; [apply idyn_on; now apply ipick_len|symmetry; now apply ipick_len]. }
  clear Emap. revert Elen Eint.
  generalize (snd (@odeint ROps fuel ijoint B (@TTensor ROps [t_i; t_prev]) s atol rtol false false [] None)).
  change (num ROps) with R in *. change (vec ROps) with rvl in *.
  intros [[times sol]|e|] Elen Eint; [|exists (Err e); split; [discriminate|exact Eint]|exists (@OutOfFuel _); split; [discriminate|exact Eint]].
  exists (rbind (pylast sol) (fun B => Ok (ibump (i1 B) g1 ++ ibump (i2 B) g2))).
  cbn [rmap rbind fst snd] in Eint. unfold iafter in *. cbn [rbind fst snd] in *.
  destruct sol as [|s0 sol0] eqn:Esol; [split; [discriminate|exact Eint]|].
  destruct (exists_last (l := s0 :: sol0) ltac:(discriminate)) as (sl & B1 & El).
  rewrite El in *. rewrite pylast_app. cbn [rbind].
  assert (HB1 : length B1 = J) by (apply (Elen times _ eq_refl); apply in_or_app; right; now left).
  clear Elen El Esol. destruct (i_len B1 HB1) as (L1 & L2).
  split.
  { intros B' E. injection E as <-. rewrite !app_length, !ibump_len by auto. reflexivity. }
  intros a b Hab. rewrite Eint by auto. clear Eint. rewrite map_app. cbn [map]. rewrite pylast_app. cbn [rbind rmap fst snd].
  rewrite ipick_app by (auto; now apply ibump_len). rewrite <- ibump_mix by auto.
  pose proof (pyslice_tail (ipick a b B1) (ipick_len a b B1 HB1)) as MF.
  change (num ROps) with R in *. change (vec ROps) with rvl in *. rewrite MF. reflexivity.
Qed.

Lemma iloop_joint fuel s rows bb atol rtol ts gx1 gx2 : erk_solver s rows bb ->
  length gx2 = length gx1 -> Forall (fun g => length g = n) gx1 -> Forall (fun g => length g = n) gx2 ->
  forall j B, length B = J ->
  exists o : res rvl, (forall B', o = Ok B' -> length B' = J) /\
  forall a b, fits F a b ->
    @interp_loop_adj ROps fuel F path n m s atol rtol ts (map2 (mix a b) gx1 gx2) j (ipick a b B) = rmap (ipick a b) o.
Proof.
  intros Hs E1 F1 F2. induction j as [|j IH]; intros B HB.
  { exists (Ok B). split; [intros B' E; injection E as <-; exact HB|reflexivity]. }
  cbn [interp_loop_adj]. unfold pyget.
  destruct (nth_error ts (S j)) as [t_i|] eqn:Ei.
  2:{ exists (Err IndexError). split; [discriminate|]. intros a b Hab. change (num ROps) with R in *. try rewrite Ei; reflexivity. }
  destruct (nth_error ts j) as [t_prev|] eqn:Ep.
  2:{ exists (Err IndexError). split; [discriminate|]. intros a b Hab. change (num ROps) with R in *. try rewrite Ei; try rewrite Ep; reflexivity. }
  assert (NE : forall a b, nth_error (map2 (mix a b) gx1 gx2) j = match nth_error gx1 j, nth_error gx2 j with Some g, Some h => Some (mix a b g h) | _, _ => None end).
  { intros a b. clear -gx1. revert gx1 gx2. induction j as [|j IH]; intros [|g gx1] [|h gx2]; cbn; try reflexivity.
    - destruct (nth_error gx1 j); reflexivity.
    - apply IH. }
  destruct (nth_error gx1 j) as [g|] eqn:Eg.
  2:{ exists (Err IndexError). split; [discriminate|]. intros a b Hab. change (num ROps) with R in *. change (vec ROps) with rvl in *. try rewrite Ei; try rewrite Ep; rewrite NE. reflexivity. }
  destruct (nth_error gx2 j) as [h|] eqn:Eh.
  2:{ exists (Err IndexError). split; [discriminate|]. intros a b Hab. change (num ROps) with R in *. change (vec ROps) with rvl in *. try rewrite Ei; try rewrite Ep; rewrite NE. reflexivity. }
  assert (Lg : length g = n) by (rewrite Forall_forall in F1; apply F1; now apply nth_error_In in Eg).
  assert (Lh : length h = n) by (rewrite Forall_forall in F2; apply F2; now apply nth_error_In in Eh).
  destruct (iinterval_joint fuel s rows bb atol rtol t_prev t_i g h B Hs HB Lg Lh) as (o & Lo & Eo).
  destruct o as [B1|e|].
  - destruct (IH B1 (Lo B1 eq_refl)) as (o & Lo' & Eo').
    exists o. split; [exact Lo'|]. intros a b Hab. change (num ROps) with R in *. change (vec ROps) with rvl in *. try rewrite Ei; try rewrite Ep; rewrite NE. cbn [rbind].
    rewrite <- (Eo' a b Hab). exact (f_equal (fun u => rbind u _) (Eo a b Hab)).
  - exists (Err e). split; [discriminate|]. intros a b Hab. change (num ROps) with R in *. change (vec ROps) with rvl in *. try rewrite Ei; try rewrite Ep; rewrite NE. cbn [rbind].
    exact (f_equal (fun u => rbind u _) (Eo a b Hab)).
  - exists (@OutOfFuel _). split; [discriminate|]. intros a b Hab. change (num ROps) with R in *. change (vec ROps) with rvl in *. try rewrite Ei; try rewrite Ep; rewrite NE. cbn [rbind].
    exact (f_equal (fun u => rbind u _) (Eo a b Hab)).
Qed.
End Interp.

(** C179, interpolated adjoint: the same; the result is (gradient of the parameters, gradient of the initial state). *)
Lemma C179_interpolated_linear_pf :
  forall fuel (F : adj_field (K := ROps)) path n m s rows bb atol rtol t_span gx1 gx2 a b,
  linear_products n m F -> (forall dg t x, af_dg F = Some dg -> length x = n -> length (dg t x) = n) -> (forall t, length (path t) = n) -> (0 < m)%nat ->
  (af_dg F = None \/ a + b = 1) -> erk_solver s rows bb ->
  Forall (fun g => length g = n) gx1 -> Forall (fun g => length g = n) gx2 -> length gx2 = length gx1 ->
  @interp_adjoint_backward ROps fuel F path m s atol rtol t_span (map2 (mix a b) gx1 gx2) =
  rbind (@interp_adjoint_backward ROps fuel F path m s atol rtol t_span gx1) (fun o1 =>
  rbind (@interp_adjoint_backward ROps fuel F path m s atol rtol t_span gx2) (fun o2 =>
  Ok (mix a b (fst o1) (fst o2), mix a b (snd o1) (snd o2)))).
Proof.
  intros fuel F path n m s rows bb atol rtol ts gx1 gx2 a0 b0 Hl Hdg Hp Hm Hab0 Hs G1 G2 E1.
  assert (Main : exists o : res (rvl * rvl * (rvl * rvl)),
    (forall q1 q2 l1 l2, o = Ok (q1, q2, (l1, l2)) -> length q1 = length q2 /\ length l1 = length l2) /\
    forall a b, fits F a b -> @interp_adjoint_backward ROps fuel F path m s atol rtol ts (map2 (mix a b) gx1 gx2) =
    rmap (fun r => let '(q1, q2, (l1, l2)) := r in (mix a b q1 q2, mix a b l1 l2)) o).
  { unfold interp_adjoint_backward.
    destruct gx1 as [|g0 gl1], gx2 as [|h0 gl2]; try discriminate; [exists (Err IndexError); split; [discriminate|reflexivity]|].
    destruct (exists_last (l := g0 :: gl1) ltac:(discriminate)) as (u1 & lT1 & E). rewrite E in *. clear g0 gl1 E.
    destruct (exists_last (l := h0 :: gl2) ltac:(discriminate)) as (u2 & lT2 & E). rewrite E in *. clear h0 gl2 E.
    assert (E1' : length u1 = length u2) by (rewrite !app_length in E1; cbn in E1; lia).
    assert (L1 : length lT1 = n) by (rewrite Forall_forall in G1; apply G1, in_or_app; right; now left).
    assert (L2 : length lT2 = n) by (rewrite Forall_forall in G2; apply G2, in_or_app; right; now left).
    set (r1 := lT1 ++ repeat 0 m). set (r2 := lT2 ++ repeat 0 m).
    assert (R1 : length r1 = (n + m)%nat) by (unfold r1; rewrite !app_length, repeat_length; lia).
    assert (R2 : length r2 = (n + m)%nat) by (unfold r2; rewrite !app_length, repeat_length; lia).
    assert (HB : length (r1 ++ r2) = (n + m + (n + m))%nat) by (rewrite !app_length; lia).
    destruct (iloop_joint F path n m Hl Hdg Hp Hm fuel s rows bb atol rtol ts (u1 ++ [lT1]) (u2 ++ [lT2]) Hs E1 G1 G2 (length ts - 1) (r1 ++ r2) HB) as (o & Lo & Eo).
    exists (rmap (fun B => (skipn n (i1 n m B), skipn n (i2 n m B), (firstn n (i1 n m B), firstn n (i2 n m B)))) o).
    split.
    { intros q1 q2 l1 l2 E. destruct o as [B|e|]; try discriminate. cbn [rmap rbind fst snd] in E.
      specialize (Lo B eq_refl). destruct (i_len n m Hm B Lo) as (J1 & J2).
      injection E as <- <- <- <-. rewrite !firstn_length, !skipn_length, J1, J2. auto. }
    intros a b Hab. rewrite map2_snoc by exact E1'. rewrite pylast_app. cbn [rbind]. rewrite <- map2_snoc by exact E1'.
    assert (LM : length (mix a b lT1 lT2) = n) by (now apply mix_len).
    assert (ES : mix a b lT1 lT2 ++ @vzeros ROps m = ipick n m a b (r1 ++ r2)).
    { rewrite ipick_app by auto. unfold r1, r2. rewrite mix_app by congruence. rewrite mix_zero.
      assert (Ez : @vzeros ROps m = repeat 0 m) by (unfold vzeros; f_equal; rops; lra).
      change (num ROps) with R in *. change (vec ROps) with rvl in *. rewrite Ez. reflexivity. }
    pose proof (Eo a b Hab) as RU. change (num ROps) with R in *. change (vec ROps) with rvl in *. rewrite LM, ES, RU.
    destruct o as [B|e|]; try reflexivity. cbn [rmap rbind].
    specialize (Lo B eq_refl).
    pose proof (pyslice_tail n m Hm (ipick n m a b B) (ipick_len n m Hm a b B Lo)) as MF.
    change (num ROps) with R in *. change (vec ROps) with rvl in *. rewrite MF.
    unfold ipick. rewrite firstn_mix, skipn_mix. reflexivity. }
  destruct Main as (o & Lo & Eo).
  pose proof (Eo 1 0 ltac:(right; lra)) as M1. pose proof (Eo 0 1 ltac:(right; lra)) as M2. rewrite (Eo a0 b0 Hab0).
  rewrite (map2_mix_10 gx1 gx2 (eq_sym E1) n G1 G2) in M1.
  rewrite (map2_mix_01 gx1 gx2 (eq_sym E1) n G1 G2) in M2.
  rewrite M1, M2. destruct o as [[[q1 q2] [l1 l2]]|e|]; try reflexivity.
  destruct (Lo q1 q2 l1 l2 eq_refl) as (K1 & K2).
  cbn [rmap rbind fst snd]. rewrite !mix_10, !mix_01 by assumption. reflexivity.
Qed.

(** f(t, x) = theta_1 x + theta_2 at theta = (2, 1): its products are linear, and the gradients of x(1) and of x(1/2)
    with euler are different from zero *)
Lemma C179_ex_pf :
  field_on 1 (af_f affine_field) /\ linear_products 1 2 affine_field /\ af_dg affine_field = None /\
  @adjoint_backward ROps 0 affine_field 2 (Euler ROps) 0 0 [0; 1] [[1]; [4]] [0; 0] [[0]; [1]] = Ok (@MkAdj ROps [4; 1] [3] [-27; 9]).
Proof.
  assert (Hf : field_on 1 (af_f affine_field)) by (intros t x Hx; cbn; now rewrite map_length).
  assert (Hl : linear_products 1 2 affine_field).
  { intros t x Hx. split.
    - intros w Hw. cbn. rewrite map_length. auto.
    - intros a b u v Hu Hv. destruct x as [|x [|]]; try discriminate. destruct u as [|u [|]]; try discriminate. destruct v as [|v [|]]; try discriminate.
      split; [|split]; [cbn; f_equal; ring| |cbn; ring]. unfold cat_params. cbn. f_equal; [ring|]. f_equal. ring. }
  split; [exact Hf|]. split; [exact Hl|]. split; [reflexivity|].
  unfold adjoint_backward. cbn [pylast rev app rbind length].
  set (z := @vdot ROps [1] (af_f affine_field 1 [4])).
  assert (Hz : z = 9) by (unfold z; cbn; unfold Q2R; cbn; lra).
  assert (EV : @vzeros ROps 2 = [0; 0]) by (cbn; unfold Q2R; cbn; f_equal; [|f_equal]; lra).
  rewrite EV. clearbody z. subst z. cbn [adj_loop rev app].
  assert (Dl : forall t B, length B = 5%nat -> length (@adjoint_dynamics ROps affine_field 1 t B) = 5%nat).
  { intros t B HB. exact (dyn_len affine_field 1 2 Hf Hl ltac:(discriminate) t B HB). }
  rewrite (interval_after 1 0 affine_field 2) by (now apply Dl).
  destruct (two_point 0 (Euler ROps) _ _ 5 (@adjoint_dynamics ROps affine_field 1) [4; 1; 0; 0; 9] 1 0 0 0 (Some 2%nat) Pf_Calls.erk_euler Dl eq_refl) as (tm & E).
  { intros [|[|i]] [|[|j]] a c Hij Ha Hb; try lia; cbn in Ha, Hb; try (destruct i; discriminate); try (destruct j; discriminate);
      injection Ha as <-; injection Hb as <-; unfold close_to; unfold Rabs; repeat destruct (Rcase_abs _); lra. }
  match goal with |- context [after _ _ _ _ _ _ ?o] => transitivity (rbind (rbind (after 1 affine_field 2 1 [0] 0 o) (fun '(A, dL) => Ok (A, dL))) (fun '(A, dL0) =>
    Ok (@MkAdj ROps (pyslice (Some (-2 - 1)%Z) (Some (-1)%Z) A) (firstn 1 (skipn 1 A)) [dL0; 9]))); [reflexivity|]; replace o with (@Ok (list R * list rvl) (tm, [[4; 1; 0; 0; 9];
    erk_step (to_R_rows q_euler) (to_R qb_euler) (@adjoint_dynamics ROps affine_field 1) 1 (0 - 1) [4; 1; 0; 0; 9]])) by (symmetry; exact E) end.
  unfold after. cbn [rbind snd pylast rev app].
  assert (ES : erk_step (to_R_rows q_euler) (to_R qb_euler) (@adjoint_dynamics ROps affine_field 1) 1 (0 - 1) [4; 1; 0; 0; 9] = [-5; 3; 4; 1; 9]).
  { unfold erk_step, erk_stages. cbn. unfold Q2R. cbn. repeat (apply f_equal2; [lra|]). reflexivity. }
  rewrite ES. cbn. unfold Q2R. cbn.
  repeat (f_equal; try lra).
Qed.
