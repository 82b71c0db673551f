(** Proofs of the properties about the parameters of a problem. *)
From Coq Require Import ZArith QArith Qreals Reals Lra Lia List Bool Floats.
From Verif Require Import Num Py Tensor M_SolversOde M_Utils M_Odeint M_Core M_Sens Spec_Ode Spec_RK Spec_Root.
From Verif Require Import L_Base L_Fixed L_Vec L_Steps L_Steps2 L_Fixed2 L_Jagged L_Conv L_Root L_Sens L_Inv Pf_Fixed Pf_Sens Pf_SensP.
Import ListNotations.
Local Open Scope R_scope.

(** every state of a fixed-step solve has the size of the field *)
Lemma select_in {X} sv : forall ts (xs : list X) y, In y (select sv ts xs) -> In y xs.
Proof.
  induction ts as [|t ts IH]; intros [|x xs] y H; simpl in H; try contradiction.
  destruct (Nat.eqb (@isclose_count ROps t sv) 0).
  - right. now apply IH.
  - destruct H as [<-|H]; [now left|right; now apply IH].
Qed.

Lemma odeint_fixed_len fuel s rows b n f x t0 t1 ts atol rtol interp all save_at semi times sol :
  erk_solver s rows b -> field_on n f -> length x = n ->
  snd (@odeint ROps fuel f x (@TTensor ROps (t0 :: t1 :: ts)) s atol rtol interp all save_at semi) = Ok (times, sol) ->
  forall y, In y sol -> length y = n.
Proof.
  intros Hs Hf Hx Ho y Hy.
  destruct (odeint_fixed_result fuel s rows b n f x t0 t1 ts atol rtol interp all save_at semi Hs Hf Hx) as [A1 B1].
  set (l := if Rlt_dec t1 t0 then map Ropp (t0 :: t1 :: ts) else t0 :: t1 :: ts) in *.
  set (sv := match save_at with [] => l | _ => save_at end) in *.
  destruct (Classical_Prop.classic (separated sv)) as [H|H].
  - assert (E : fixed_result sv l (one_step_traj (erk_step rows b f) x (t0 :: t1 :: ts)) = Ok (times, sol)) by exact (eq_trans (eq_sym (B1 H)) Ho).
    assert (Es : select sv l (one_step_traj (erk_step rows b f) x (t0 :: t1 :: ts)) = sol).
    { unfold fixed_result in E. clearbody sv l. clear -E. destruct (select sv l (one_step_traj (erk_step rows b f) x (t0 :: t1 :: ts))); [discriminate E|].
      injection E as _ E. exact E. }
    rewrite <- Es in Hy. apply select_in in Hy.
    assert (G : forall ts x, length x = n -> forall z, In z (one_step_traj (erk_step rows b f) x ts) -> length z = n).
    { clear -Hf. induction ts as [|t [|t1 ts] IH]; intros x Hx z Hz; [destruct Hz|destruct Hz as [<-|[]]; auto|].
      rewrite traj_cons in Hz. destruct Hz as [<-|Hz]; auto. apply (IH (erk_step rows b f t (t1 - t) x)); auto. now apply erk_step_len. }
    exact (G _ _ Hx _ Hy).
  - pose proof (eq_trans (eq_sym (A1 H)) Ho). discriminate.
Qed.

Lemma axpy_app (a : R) : forall (k x k' x' : rvl), length k = length x -> axpy a k x ++ axpy a k' x' = axpy a (k ++ k') (x ++ x').
Proof.
  induction k as [|k0 k IH]; intros [|x0 x] k' x' E; try discriminate; [reflexivity|].
  cbn [app]. change (axpy a (k0 :: k) (x0 :: x)) with ((x0 + a * k0) :: axpy a k x). cbn [app]. rewrite IH by (now injection E). reflexivity.
Qed.

Section Params.
Variables (F G : adj_field (K := ROps)) (n m q : nat) (mu : rvl -> rvl).
Hypothesis Ff : af_f G = af_f F.
Hypothesis Fx : af_vjp_x G = af_vjp_x F.
Hypothesis Ft : af_vjp_t G = af_vjp_t F.
Hypothesis Fg : af_dg G = af_dg F.
Hypothesis Lf : forall t x, length x = n -> length (af_f F t x) = n.
Hypothesis Lx : forall t x w, length x = n -> length w = n -> length (@dlam ROps F t x w) = n.
Hypothesis Lp : forall t x w, length x = n -> length w = n -> length (@cat_params ROps (af_vjp_p F t x w)) = m /\
  @cat_params ROps (af_vjp_p G t x w) = mu (@cat_params ROps (af_vjp_p F t x w)).
Hypothesis Lmu : forall c, length c = m -> length (mu c) = q.
Hypothesis Amu : forall a k c, length k = m -> length c = m -> mu (axpy a k c) = axpy a (mu k) (mu c).

Let N := (n + n + m + 1)%nat.
Let M := (n + n + q + 1)%nat.

Definition proj (A : rvl) : rvl := block 0 (n + n) A ++ mu (block (n + n) m A) ++ block (n + n + m) 1 A.

Lemma proj_axpy a k x : length k = N -> length x = N -> proj (axpy a k x) = axpy a (proj k) (proj x).
Proof.
  intros Hk Hx. unfold proj. unfold N in *. rewrite !block_axpy by lia. rewrite Amu by (apply block_len; lia).
  rewrite !axpy_app; auto; rewrite ?app_length, ?Lmu, ?block_len; rewrite ?block_len; lia.
Qed.

Lemma split_state A : length A = N -> exists (x l c : rvl) z, length x = n /\ length l = n /\ length c = m /\ A = x ++ l ++ c ++ [z].
Proof.
  intros HA. unfold N in HA. clear M N.
  assert (Cut : forall k (B : rvl) m, length B = (k + m)%nat -> exists u v, B = u ++ v /\ length u = k /\ length v = m).
  { intros k B j HB. exists (firstn k B), (skipn k B). rewrite firstn_skipn, firstn_length, skipn_length. repeat split; lia. }
  destruct (Cut n A (n + m + 1)%nat ltac:(lia)) as (x & A1 & -> & Hx & H1).
  destruct (Cut n A1 (m + 1)%nat ltac:(lia)) as (l & A2 & -> & Hl & H2).
  destruct (Cut m A2 1%nat ltac:(lia)) as (c & A3 & -> & Hc & H3).
  destruct A3 as [|z [|]]; try discriminate.
  exists x, l, c, z. repeat split; auto.
Qed.

Lemma block_mu k (x l c : rvl) z : length x = n -> length l = n -> length c = k -> block (n + n) k (x ++ l ++ c ++ [z]) = c.
Proof. clear M N. intros Hx Hl Hc. rewrite app_assoc. apply block_app; auto. rewrite app_length. lia. Qed.

Lemma proj_split (x l c : rvl) z : length x = n -> length l = n -> length c = m ->
  proj (x ++ l ++ c ++ [z]) = x ++ l ++ mu c ++ [z].
Proof.
  clear M N. intros Hx Hl Hc. unfold proj.
  assert (E1 : block 0 (n + n) (x ++ l ++ c ++ [z]) = x ++ l).
  { rewrite (app_assoc x l). apply block0_app. rewrite app_length. lia. }
  assert (E3 : block (n + n + m) 1 (x ++ l ++ c ++ [z]) = [z]).
  { replace (x ++ l ++ c ++ [z]) with ((x ++ l ++ c) ++ [z] ++ []) by (rewrite <- !app_assoc; cbn [app]; reflexivity).
    apply block_app; auto. rewrite !app_length. lia. }
  rewrite E1, E3, block_mu by auto. now rewrite <- app_assoc.
Qed.

Lemma first_two (x l y : rvl) : length x = n -> length l = n -> firstn n (x ++ l ++ y) = x /\ firstn n (skipn n (x ++ l ++ y)) = l.
Proof.
  intros Hx Hl. split.
  - exact (block0_app n x (l ++ y) Hx).
  - exact (block_app n n x l y Hx Hl).
Qed.

Lemma dyn_value (H : adj_field (K := ROps)) t (x l c : rvl) : length x = n -> length l = n ->
  @adjoint_dynamics ROps H n t (x ++ l ++ c) = af_f H t x ++ @dlam ROps H t x l ++ @cat_params ROps (af_vjp_p H t x (@vopp ROps l))
    ++ [match af_vjp_t H t x (@vopp ROps l) with Some d => d | None => @nQ ROps 0 end].
Proof.
  intros Hx Hl. unfold adjoint_dynamics. destruct (first_two x l c Hx Hl) as [E1 E2].
  change (num ROps) with R in *. change (vec ROps) with rvl in *. rewrite E1, E2. reflexivity.
Qed.

Lemma dlam_same t x w : @dlam ROps G t x w = @dlam ROps F t x w.
Proof. unfold dlam. now rewrite Fx, Fg. Qed.

Lemma dyn_F (A : rvl) t : length A = N -> length (@adjoint_dynamics ROps F n t A) = N /\
  @adjoint_dynamics ROps G n t (proj A) = proj (@adjoint_dynamics ROps F n t A).
Proof.
  intros HA. destruct (split_state A HA) as (x & l & c & z & Hx & Hl & Hc & ->).
  rewrite proj_split by auto. rewrite !dyn_value by auto.
  assert (Hw : length (@vopp ROps l) = n) by (now apply vopp_len).
  destruct (Lp t x (@vopp ROps l) Hx Hw) as (Lc & E2).
  rewrite E2, Ff, Ft, dlam_same. split.
  - rewrite !app_length. pose proof (Lf t x Hx) as H1. pose proof (Lx t x l Hx Hl) as H2.
    change (num ROps) with R in *. change (vec ROps) with rvl in *. rewrite H1, H2, Lc. unfold N. cbn [length]. lia.
  - symmetry. apply proj_split; auto.
Qed.

Lemma proj_len (A : rvl) : length A = N -> length (proj A) = M.
Proof.
  intros HA. destruct (split_state A HA) as (x & l & c & z & Hx & Hl & Hc & ->).
  rewrite proj_split by auto. rewrite !app_length, Lmu by auto. unfold M. cbn [length]. lia.
Qed.

Lemma dyn_G (A : rvl) t : length A = M -> length (@adjoint_dynamics ROps G n t A) = M.
Proof.
  intros HA. unfold M in *. unfold adjoint_dynamics.
  assert (Hx : length (firstn n A) = n) by (rewrite firstn_length; lia).
  assert (Hl : length (firstn n (skipn n A)) = n) by (rewrite firstn_length, skipn_length; lia).
  destruct (Lp t (firstn n A) (@vopp ROps (firstn n (skipn n A))) Hx ltac:(now apply vopp_len)) as (Lc & E2).
  pose proof (Lf t _ Hx) as H1. pose proof (Lx t _ _ Hx Hl) as H2.
  rewrite dlam_same, Ff. change (num ROps) with R in *. change (vec ROps) with rvl in *.
  rewrite !app_length, E2, H1, H2, Lmu by auto. cbn [length]. lia.
Qed.

Definition after (H : adj_field (K := ROps)) (k : nat) (t_i : R) (g : rvl) (gt : R) (o : res (list R * list rvl)) : res (rvl * R) :=
  rbind o (fun r => rbind (pylast (snd r)) (fun A =>
    rbind (pylast A) (fun lt => Ok (firstn n A ++ @vadd ROps (firstn n (skipn n A)) g
      ++ pyslice (Some (- Z.of_nat k - 1)%Z) (Some (-1)%Z) A ++ [lt - gt], @vdot ROps (firstn n (skipn n A)) (af_f H t_i (firstn n A)))))).

Lemma interval_after fuel H k s atol rtol t_prev t_i g gt (A : rvl) : length (@adjoint_dynamics ROps H n t_i A) = length A ->
  @adj_interval ROps fuel H n k s atol rtol t_prev t_i g gt A =
  after H k t_i g gt (snd (@odeint ROps fuel (@adjoint_dynamics ROps H n) A (@TTensor ROps [t_i; t_prev]) s atol rtol false false [] (Some (n + n)%nat))).
Proof.
  intros E. apply Nat.eqb_eq in E. unfold adj_interval. change (num ROps) with R in *. change (vec ROps) with rvl in *. rewrite E. reflexivity.
Qed.

Lemma interval_proj fuel s rows b atol rtol t_prev t_i g gt A : erk_solver s rows b -> length A = N -> length g = n ->
  @adj_interval ROps fuel G n q s atol rtol t_prev t_i g gt (proj A) =
  rmap (fun r => (proj (fst r), snd r)) (@adj_interval ROps fuel F n m s atol rtol t_prev t_i g gt A) /\
  forall A' dL, @adj_interval ROps fuel F n m s atol rtol t_prev t_i g gt A = Ok (A', dL) -> length A' = N.
Proof.
  intros Hs HA Hg.
  destruct (dyn_F A t_i HA) as [Ld Ed].
  assert (B1 : length (@adjoint_dynamics ROps F n t_i A) = length A) by congruence.
  assert (B2 : length (@adjoint_dynamics ROps G n t_i (proj A)) = length (proj A)) by (rewrite dyn_G; rewrite ?proj_len; auto).
  rewrite (interval_after fuel F m s atol rtol t_prev t_i g gt A B1), (interval_after fuel G q s atol rtol t_prev t_i g gt (proj A) B2).
  pose proof (odeint_fixed_map fuel s rows b N M (@adjoint_dynamics ROps F n) (@adjoint_dynamics ROps G n) proj proj A t_i t_prev [] atol rtol false false []
    (Some (n + n)%nat) Hs (fun t y Hy => proj1 (dyn_F y t Hy)) (fun t y Hy => dyn_G y t Hy) HA (proj_len A HA)
    (fun a k y Hk Hy => proj_axpy a k y Hk Hy) (fun t y Hy => proj2 (dyn_F y t Hy))) as Emap.
  pose proof (fun times sol => odeint_fixed_len fuel s rows b N (@adjoint_dynamics ROps F n) A t_i t_prev [] atol rtol false false []
    (Some (n + n)%nat) times sol Hs (fun t y Hy => proj1 (dyn_F y t Hy)) HA) as Elen.
  rewrite (f_equal (after G q t_i g gt) Emap). clear Emap. revert Elen.
  generalize (snd (@odeint ROps fuel (@adjoint_dynamics ROps F n) A (@TTensor ROps [t_i; t_prev]) s atol rtol false false [] (Some (n + n)%nat))).
  change (num ROps) with R in *. change (vec ROps) with rvl in *.
  intros [[times sol]|e|] Elen; [|split; [reflexivity|discriminate]|split; [reflexivity|discriminate]].
  unfold after.
  cbn [rmap rbind fst snd].
  destruct sol as [|s0 sol0] eqn:Esol; [split; [reflexivity|discriminate]|].
  destruct (exists_last (l := s0 :: sol0) ltac:(discriminate)) as (sl & A1 & El).
  rewrite El, map_app. cbn [map]. unfold pylast. rewrite !rev_app_distr. cbn [rev app rbind].
  assert (HA1 : length A1 = N) by (apply (Elen times (s0 :: sol0) eq_refl); rewrite El; apply in_or_app; right; now left).
  destruct (split_state A1 HA1) as (x & l & c & z & Hx & Hl & Hc & EA1).
  assert (EF1 : firstn n A1 = x /\ firstn n (skipn n A1) = l) by (rewrite EA1; now apply first_two).
  assert (EP : proj A1 = x ++ l ++ mu c ++ [z]) by (rewrite EA1; now apply proj_split).
  assert (EG1 : firstn n (proj A1) = x /\ firstn n (skipn n (proj A1)) = l) by (rewrite EP; now apply first_two).
  pose proof (pyslice_mu' n m A1 HA1) as MF.
  assert (MFv : block (n + n) m A1 = c) by (rewrite EA1; now apply block_mu).
  pose proof (pyslice_mu' n q (proj A1) (proj_len A1 HA1)) as MG.
  assert (MGv : block (n + n) q (proj A1) = mu c) by (rewrite EP; apply block_mu; auto).
  rewrite MF, MG, MFv, MGv. destruct EF1 as [-> ->]. destruct EG1 as [-> ->].
  assert (RF : rev A1 = z :: rev (x ++ l ++ c)).
  { rewrite EA1. rewrite (app_assoc l), (app_assoc x), rev_app_distr. reflexivity. }
  assert (RG : rev (proj A1) = z :: rev (x ++ l ++ mu c)).
  { rewrite EP. rewrite (app_assoc l), (app_assoc x), rev_app_distr. reflexivity. }
  rewrite RF, RG. cbn [rbind fst snd].
  assert (Lg : length (@vadd ROps l g) = n) by (now apply vadd_len).
  split.
  - rewrite Ff. exact (f_equal (fun u : rvl => Ok (u, _)) (eq_sym (proj_split x _ c _ Hx Lg Hc))).
  - intros A' dL E. injection E as <- _. rewrite !app_length in *. change (num ROps) with R in *. change (vec ROps) with rvl in *. rewrite Lg. clear Elen. unfold N. cbn [length]. lia.
Qed.

Lemma loop_proj fuel s rows b atol rtol : erk_solver s rows b -> forall rts rgs rgts A dL, length A = N -> Forall (fun g => length g = n) rgs ->
  @adj_loop ROps fuel G n q s atol rtol rts rgs rgts (proj A) dL =
  rmap (fun r => (proj (fst r), snd r)) (@adj_loop ROps fuel F n m s atol rtol rts rgs rgts A dL) /\
  forall A' dL', @adj_loop ROps fuel F n m s atol rtol rts rgs rgts A dL = Ok (A', dL') -> length A' = N.
Proof.
  intros Hs. induction rts as [|t_i rts IH]; intros rgs rgts A dL HA Hgs.
  { split; [reflexivity|]. intros A' dL' E. injection E as <- _. exact HA. }
  destruct rts as [|t_prev rts]; [split; [reflexivity|intros A' dL' E; injection E as <- _; exact HA]|].
  destruct rgs as [|g0 rgs]; [split; [reflexivity|intros A' dL' E; injection E as <- _; exact HA]|].
  destruct rgs as [|g_prev rgs]; [split; [reflexivity|intros A' dL' E; injection E as <- _; exact HA]|].
  destruct rgts as [|gt0 rgts]; [split; [reflexivity|intros A' dL' E; injection E as <- _; exact HA]|].
  destruct rgts as [|gt_prev rgts]; [split; [reflexivity|intros A' dL' E; injection E as <- _; exact HA]|].
  change (@adj_loop ROps fuel ?H n ?k s atol rtol (t_i :: t_prev :: rts) (g0 :: g_prev :: rgs) (gt0 :: gt_prev :: rgts) ?B dL) with
    (rbind (@adj_interval ROps fuel H n k s atol rtol t_prev t_i g_prev gt_prev B) (fun '(A, dL) =>
      @adj_loop ROps fuel H n k s atol rtol (t_prev :: rts) (g_prev :: rgs) (gt_prev :: rgts) A dL)).
  assert (Hg : length g_prev = n) by (inversion Hgs; subst; now inversion H2).
  assert (Hgs' : Forall (fun g => length g = n) (g_prev :: rgs)) by (now inversion Hgs).
  destruct (interval_proj fuel s rows b atol rtol t_prev t_i g_prev gt_prev A Hs HA Hg) as [E1 L1].
  rewrite E1. destruct (@adj_interval ROps fuel F n m s atol rtol t_prev t_i g_prev gt_prev A) as [[A1 dL1]|e|] eqn:EF;
    [|split; [reflexivity|discriminate]|split; [reflexivity|discriminate]].
  cbn [rmap rbind fst snd]. exact (IH (g_prev :: rgs) (gt_prev :: rgts) A1 dL1 (L1 A1 dL1 eq_refl) Hgs').
Qed.
End Params.

Lemma adjoint_mu fuel (F G : adj_field (K := ROps)) n m q mu s rows b atol rtol t_sol sol gt gx :
  af_f G = af_f F -> af_vjp_x G = af_vjp_x F -> af_vjp_t G = af_vjp_t F -> af_dg G = af_dg F ->
  field_on n (af_f F) -> (forall t x w, length x = n -> length w = n -> length (af_vjp_x F t x w) = n) ->
  (forall dg t x, af_dg F = Some dg -> length x = n -> length (dg t x) = n) ->
  (forall t x w, length x = n -> length w = n -> length (@cat_params ROps (af_vjp_p F t x w)) = m /\
     @cat_params ROps (af_vjp_p G t x w) = mu (@cat_params ROps (af_vjp_p F t x w))) ->
  (forall c, length c = m -> length (mu c) = q) ->
  (forall a k c, length k = m -> length c = m -> mu (axpy a k c) = axpy a (mu k) (mu c)) ->
  mu (repeat 0 m) = repeat 0 q ->
  erk_solver s rows b -> Forall (fun x => length x = n) sol -> Forall (fun g => length g = n) gx ->
  @adjoint_backward ROps fuel G q s atol rtol t_sol sol gt gx =
  rmap (fun o : @adj_out ROps => @MkAdj ROps (mu (ao_params o)) (ao_x o) (ao_tspan o)) (@adjoint_backward ROps fuel F m s atol rtol t_sol sol gt gx) /\
  forall o, @adjoint_backward ROps fuel F m s atol rtol t_sol sol gt gx = Ok o -> length (ao_params o) = m.
Proof.
  intros Ff Fx Ft Fg Hf Hx Hdg Lp Lmu Amu Zmu Hs Hsol Hgx.
  unfold adjoint_backward.
  destruct sol as [|x0 sl]; [split; [reflexivity|discriminate]|].
  destruct (exists_last (l := x0 :: sl) ltac:(discriminate)) as (sol0 & xT & E1). rewrite E1 in *.
  destruct gx as [|g0 gl]; [rewrite pylast_app; split; [reflexivity|discriminate]|].
  destruct (exists_last (l := g0 :: gl) ltac:(discriminate)) as (gx0 & lT & E2). rewrite E2 in *.
  destruct t_sol as [|u0 ul]; [rewrite !pylast_app; split; [reflexivity|discriminate]|].
  destruct (exists_last (l := u0 :: ul) ltac:(discriminate)) as (ts0 & tT & E3). rewrite E3 in *.
  clear x0 sl E1 g0 gl E2 u0 ul E3. rewrite !pylast_app. cbn [rbind].
  assert (HxT : length xT = n) by (rewrite Forall_forall in Hsol; apply Hsol, in_or_app; right; now left).
  assert (HlT : length lT = n) by (rewrite Forall_forall in Hgx; apply Hgx, in_or_app; right; now left).
  rewrite HxT, Ff.
  set (z := @vdot ROps lT (af_f F tT xT)).
  assert (Lx : forall t x w, length x = n -> length w = n -> length (@dlam ROps F t x w) = n).
  { intros t x w H1 H2. unfold dlam. assert (Hv : length (af_vjp_x F t x (@vopp ROps w)) = n) by (apply Hx; auto; now apply vopp_len).
    destruct (af_dg F) as [dg|] eqn:Edg; auto. apply vsub_len; auto. }
  assert (Lz : forall k, length (@vzeros ROps k) = k) by (intros k; unfold vzeros; apply repeat_length).
  set (A := xT ++ lT ++ @vzeros ROps m ++ [z]).
  assert (HA : length A = (n + n + m + 1)%nat).
  { unfold A. rewrite !app_length, HxT, HlT, Lz. cbn [length]. lia. }
  assert (EA : xT ++ lT ++ @vzeros ROps q ++ [z] = proj n m mu A).
  { unfold A. rewrite (proj_split n m mu) by auto. do 2 f_equal. f_equal.
    assert (Ez : forall k, @vzeros ROps k = repeat 0 k) by (intros k; unfold vzeros; f_equal; rops; lra). now rewrite !Ez. }
  rewrite EA.
  assert (Hrg : Forall (fun g : rvl => length g = n) (rev (gx0 ++ [lT]))) by (now apply Forall_rev).
  destruct (loop_proj F G n m q mu Ff Fx Ft Fg Hf Lx Lp Lmu Amu fuel s rows b atol rtol Hs (rev (ts0 ++ [tT])) (rev (gx0 ++ [lT])) (rev gt) A z HA Hrg) as [E L].
  change (num ROps) with R in *. change (vec ROps) with rvl in *. rewrite E.
  destruct (@adj_loop ROps fuel F n m s atol rtol (rev (ts0 ++ [tT])) (rev (gx0 ++ [lT])) (rev gt) A z) as [[A1 dL]|e|]; [|split; [reflexivity|discriminate]|split; [reflexivity|discriminate]].
  cbn [rmap rbind fst snd]. specialize (L A1 dL eq_refl).
  pose proof (pyslice_mu' n m A1 L) as MF.
  pose proof (pyslice_mu' n q (proj n m mu A1) (proj_len n m q mu Lmu A1 L)) as MG.
  change (num ROps) with R in *. change (vec ROps) with rvl in *. rewrite MF, MG. cbn [ao_params ao_x ao_tspan].
  destruct (split_state n m A1 L) as (x & l & c & w & Hx' & Hl & Hc & ->).
  rewrite proj_split by auto.
  destruct (first_two n x l (mu c ++ [w]) Hx' Hl) as [_ ->]. destruct (first_two n x l (c ++ [w]) Hx' Hl) as [_ ->].
  rewrite !block_mu by auto. split; [reflexivity|]. intros o Eo. injection Eo as <-. exact Hc.
Qed.

Definition rows_of (P : list rvl) (c : rvl) : rvl := map (fun row => dot row c) P.

Lemma rows_axpy P a k c : length k = length c -> rows_of P (axpy a k c) = axpy a (rows_of P k) (rows_of P c).
Proof.
  intros E. unfold rows_of. induction P as [|r P IH]; [reflexivity|]. cbn [map]. rewrite IH.
  change (axpy a (?k0 :: ?k) (?x0 :: ?x)) with ((x0 + a * k0) :: axpy a k x). now rewrite dot_axpy_r.
Qed.

Lemma rows_zero P m : rows_of P (repeat 0 m) = repeat 0 (length P).
Proof. unfold rows_of. induction P as [|r P IH]; [reflexivity|]. cbn [map length repeat]. now rewrite IH, dot_comm, dot_zero. Qed.

(** C119.  The chain rule for parameters.  F and G are the same vector field seen through different parameters: the
    parameters of F are a linear function theta = P^T eta of those of G, so that the vector-Jacobian
    products are related by the matrix P (given by its rows).  For every fixed-step Runge-Kutta solver the adjoint method
    returns for G the gradient P g, where g is the gradient it returns for F, and the same
    gradients of the initial state and the times.  Tied, scaled, split and unused parameters are instances. *)
Lemma C119_chain_rule_pf :
  forall fuel (F G : adj_field (K := ROps)) n m P s rows b atol rtol t_sol sol gt gx,
  af_f G = af_f F -> af_vjp_x G = af_vjp_x F -> af_vjp_t G = af_vjp_t F -> af_dg G = af_dg F ->
  field_on n (af_f F) -> (forall t x w, length x = n -> length w = n -> length (af_vjp_x F t x w) = n) ->
  (forall dg t x, af_dg F = Some dg -> length x = n -> length (dg t x) = n) ->
  (forall t x w, length x = n -> length w = n -> length (@cat_params ROps (af_vjp_p F t x w)) = m /\
     @cat_params ROps (af_vjp_p G t x w) = map (fun row => dot row (@cat_params ROps (af_vjp_p F t x w))) P) ->
  erk_solver s rows b -> Forall (fun x => length x = n) sol -> Forall (fun g => length g = n) gx ->
  @adjoint_backward ROps fuel G (length P) s atol rtol t_sol sol gt gx =
  rmap (fun o : @adj_out ROps => @MkAdj ROps (map (fun row => dot row (ao_params o)) P) (ao_x o) (ao_tspan o))
    (@adjoint_backward ROps fuel F m s atol rtol t_sol sol gt gx).
Proof.
  intros fuel F G n m P s rows b atol rtol t_sol sol gt gx Ff Fx Ft Fg Hf Hx Hdg Lp Hs Hsol Hgx.
  apply (adjoint_mu fuel F G n m (length P) (rows_of P) s rows b); auto.
  - intros c _. apply map_length.
  - intros a k c Hk Hc. apply rows_axpy. congruence.
  - apply rows_zero.
Qed.

(** C119, parameters that are not asked for: the products of F are a ++ c ++ d (p, q and r
    entries), those of G only c; the gradient for G is the corresponding part of the gradient for F. *)
Lemma C119_parameter_blocks_pf :
  forall fuel (F G : adj_field (K := ROps)) n p q r s rows b atol rtol t_sol sol gt gx,
  af_f G = af_f F -> af_vjp_x G = af_vjp_x F -> af_vjp_t G = af_vjp_t F -> af_dg G = af_dg F ->
  field_on n (af_f F) -> (forall t x w, length x = n -> length w = n -> length (af_vjp_x F t x w) = n) ->
  (forall dg t x, af_dg F = Some dg -> length x = n -> length (dg t x) = n) ->
  (forall t x w, length x = n -> length w = n -> exists a c d, length a = p /\ length c = q /\ length d = r /\
     @cat_params ROps (af_vjp_p F t x w) = a ++ c ++ d /\ @cat_params ROps (af_vjp_p G t x w) = c) ->
  erk_solver s rows b -> Forall (fun x => length x = n) sol -> Forall (fun g => length g = n) gx ->
  @adjoint_backward ROps fuel G q s atol rtol t_sol sol gt gx =
  rmap (fun o : @adj_out ROps => @MkAdj ROps (firstn q (skipn p (ao_params o))) (ao_x o) (ao_tspan o))
    (@adjoint_backward ROps fuel F (p + q + r) s atol rtol t_sol sol gt gx).
Proof.
  intros fuel F G n p q r s rows b atol rtol t_sol sol gt gx Ff Fx Ft Fg Hf Hx Hdg Lp Hs Hsol Hgx.
  apply (adjoint_mu fuel F G n (p + q + r)%nat q (block p q) s rows b); auto.
  - intros t x w H1 H2. destruct (Lp t x w H1 H2) as (a & c & d & La & Lc & Ld & E1 & E2).
    rewrite E1, E2. split; [rewrite !app_length; lia|]. symmetry. now apply block_app.
  - intros c Hc. apply block_len. change (num ROps) with R in *. lia.
  - intros a k c Hk Hc. apply block_axpy. congruence.
  - rewrite !repeat_app. rewrite <- app_assoc. apply block_app; apply repeat_length.
Qed.

(** C119, unused parameters: if autograd returns None for the only parameter (of one entry; this is the dummy parameter
    that ODEProblem registers if there is no other) its gradient is zero. *)
Lemma C119_unused_pf :
  forall fuel (F : adj_field (K := ROps)) n s rows b atol rtol t_sol sol gt gx o,
  field_on n (af_f F) -> (forall t x w, length x = n -> length w = n -> length (af_vjp_x F t x w) = n) ->
  (forall dg t x, af_dg F = Some dg -> length x = n -> length (dg t x) = n) ->
  (forall t x w, af_vjp_p F t x w = [None]) ->
  erk_solver s rows b -> Forall (fun x => length x = n) sol -> Forall (fun g => length g = n) gx ->
  @adjoint_backward ROps fuel F 1 s atol rtol t_sol sol gt gx = Ok o -> ao_params o = [0].
Proof.
  intros fuel F n s rows b atol rtol t_sol sol gt gx o Hf Hx Hdg Lp Hs Hsol Hgx Eo.
  assert (E0 : forall t x w, @cat_params ROps (af_vjp_p F t x w) = [0]).
  { intros t x w. rewrite Lp. unfold cat_params. cbn. f_equal. unfold Q2R. cbn. lra. }
  destruct (adjoint_mu fuel F F n 1 1 (rows_of [[0]]) s rows b atol rtol t_sol sol gt gx) as [E L]; auto.
  - intros t x w H1 H2. rewrite E0. split; [reflexivity|]. cbn. f_equal. lra.
  - intros a k c Hk Hc. apply rows_axpy. congruence.
  - apply rows_zero.
  - rewrite Eo in E. cbn [rmap rbind] in E. specialize (L o Eo). destruct o as [mu lam ts]. cbn [ao_params] in *.
    destruct mu as [|c [|]]; try discriminate. injection E as E. rewrite E. cbn. f_equal. lra.
Qed.

(** f(t, x) = theta_1 x + theta_2 at theta = (2, 1); the same with theta_1 = eta + 1, theta_2 = 3 eta - 2; the same with theta_1 fixed *)
Definition affine_field : adj_field (K := ROps) :=
  @MkAF ROps (fun _ x => map (fun a => 2 * a + 1) x) (fun _ _ w => map (fun a => 2 * a) w) (fun _ _ _ => None)
    (fun _ x w => [Some [dot x w]; Some [dot [1] w]]) None.
Definition tied_field : adj_field (K := ROps) :=
  @MkAF ROps (fun _ x => map (fun a => 2 * a + 1) x) (fun _ _ w => map (fun a => 2 * a) w) (fun _ _ _ => None)
    (fun _ x w => [Some [dot x w + 3 * dot [1] w]]) None.
Definition bias_field : adj_field (K := ROps) :=
  @MkAF ROps (fun _ x => map (fun a => 2 * a + 1) x) (fun _ _ w => map (fun a => 2 * a) w) (fun _ _ _ => None)
    (fun _ x w => [Some [dot [1] w]]) None.

Lemma C119_ex_pf :
  let s := Euler ROps in
  field_on 1 (af_f affine_field) /\ (forall t x w, length (@cat_params ROps (af_vjp_p affine_field t x w)) = 2%nat) /\
  (forall t x w, @cat_params ROps (af_vjp_p tied_field t x w) = map (fun row => dot row (@cat_params ROps (af_vjp_p affine_field t x w))) [[1; 3]]) /\
  (forall t x w, @cat_params ROps (af_vjp_p affine_field t x w) = [dot x w] ++ @cat_params ROps (af_vjp_p bias_field t x w) ++ []).
Proof.
  cbn zeta. split; [intros t x Hx; cbn; now rewrite map_length|]. split; [reflexivity|]. split; [|reflexivity].
  intros t x w. unfold cat_params. cbn. f_equal. ring.
Qed.

(** C120, refuted: the adjoint solve controls the error of the state and the adjoint only, whatever
    seminorm is set to.  The problem x' = theta g(t), g(t) = max(0, 1/2 - |t|), x(0) = 0, at theta = 0: x(1) = theta / 8,
    so the gradient of x(1) is 1/8.  With dopri5 the adjoint method returns a number larger than 0.1269 for each of the
    tolerances 1e-3, 1e-6, 1e-9 (binary64, any power function). *)
Lemma C120_parameter_error_refuted_pf :
  (forall theta t, 0 < t -> derivable_pt_lim (fun u => theta * (1 / 8 - (Rmax 0 (1 / 2 - u)) * (Rmax 0 (1 / 2 - u)) / 2)) t (theta * Rmax 0 (1 / 2 - Rabs t))) /\
  (forall theta, theta * (1 / 8 - (Rmax 0 (1 / 2 - 0)) * (Rmax 0 (1 / 2 - 0)) / 2) = 0) /\
  (forall theta, theta * (1 / 8 - (Rmax 0 (1 / 2 - 1)) * (Rmax 0 (1 / 2 - 1)) / 2) = theta * (1 / 8)) /\
  forall pw tol, In tol [0.001%float; 0x1.0c6f7a0b5ed8dp-20%float; 0x1.12e0be826d695p-30%float] ->
  let g := fun t : float => if PrimFloat.ltb (PrimFloat.abs t) 0.5 then (0.5 - PrimFloat.abs t)%float else 0%float in
  let F := @MkAF (FloatOps pw) (fun _ _ => [0%float]) (fun _ _ _ => [0%float]) (fun _ _ _ => None)
    (fun t _ w => [Some (map (fun a => (a * g t)%float) w)]) None in
  exists o y, @adjoint_backward (FloatOps pw) 40 F 1 (DormandPrince45 (FloatOps pw)) tol tol [0%float; 1%float] [[0%float]; [0%float]]
    [0%float; 0%float] [[0%float]; [1%float]] = Ok o /\ ao_params o = [y] /\ PrimFloat.ltb 0x1.04p-3 y = true.
Proof.
  split; [|split; [|split]].
  - intros theta t Htpos. rewrite (Rabs_right t) by lra. intros eps He.
    assert (K : forall h, Rabs (1 / 8 - Rmax 0 (1 / 2 - (t + h)) * Rmax 0 (1 / 2 - (t + h)) / 2 - (1 / 8 - Rmax 0 (1 / 2 - t) * Rmax 0 (1 / 2 - t) / 2)
        - h * Rmax 0 (1 / 2 - t)) <= h * h).
    { intros h. apply Rabs_le. unfold Rmax. destruct (Rle_dec 0 (1 / 2 - (t + h))), (Rle_dec 0 (1 / 2 - t)); split; nra. }
    assert (Hd : 0 < eps / (Rabs theta + 1)).
    { apply Rdiv_lt_0_compat; auto. pose proof (Rabs_pos theta). lra. }
    exists (mkposreal _ Hd). intros h Hh Hlt. cbn in Hlt. specialize (K h).
    set (D := 1 / 8 - _ - (1 / 8 - _) - _) in K.
    match goal with |- Rabs ?e < _ => replace e with (theta * (D / h)) by (unfold D; field; auto) end.
    rewrite Rabs_mult. unfold Rdiv at 1. rewrite Rabs_mult, Rabs_inv.
    assert (Hp : 0 < Rabs h) by (now apply Rabs_pos_lt).
    assert (Hhh : h * h = Rabs h * Rabs h) by (rewrite <- Rabs_mult; symmetry; apply Rabs_right; nra).
    assert (B : Rabs D * / Rabs h <= Rabs h).
    { apply (Rmult_le_reg_r (Rabs h)); auto. rewrite Rmult_assoc, Rinv_l by lra. lra. }
    pose proof (Rabs_pos theta).
    assert (Rabs h * (Rabs theta + 1) < eps).
    { apply (Rmult_lt_compat_r (Rabs theta + 1)) in Hlt; [|lra]. unfold Rdiv in Hlt. rewrite Rmult_assoc, Rinv_l in Hlt by lra. lra. }
    nra.
  - intros theta. rewrite Rmax_right by lra. field.
  - intros theta. rewrite Rmax_left by lra. field.
  - intros pw tol Ht g F.
    assert (Z : exists y, rmap ao_params (@adjoint_backward (FloatOps pw) 40 F 1 (DormandPrince45 (FloatOps pw)) tol tol [0%float; 1%float] [[0%float]; [0%float]]
      [0%float; 0%float] [[0%float]; [1%float]]) = Ok [y] /\ PrimFloat.ltb 0x1.04p-3 y = true).
    { exists 0x1.099df96f0d92ap-3%float. split; [|reflexivity].
      destruct Ht as [<-|[<-|[<-|[]]]]; vm_compute; reflexivity. }
    destruct Z as (y & E & Hy). revert E. generalize (@adjoint_backward (FloatOps pw) 40 F 1 (DormandPrince45 (FloatOps pw)) tol tol [0%float; 1%float] [[0%float]; [0%float]]
      [0%float; 0%float] [[0%float]; [1%float]]).
    intros [o|e|] E; try discriminate E. exists o, y. injection E as E. auto.
Qed.

(** C120, why: the acceptance test of the adjoint solve does not look at the parameter part. *)
Lemma C120_unchecked_components_pf :
  forall (K : NumOps) atol rtol k (x x' y y' e e' : vec K),
  firstn k x = firstn k x' -> firstn k y = firstn k y' -> firstn k e = firstn k e' ->
  error_ratio atol rtol (Some k) x y e = error_ratio atol rtol (Some k) x' y' e'.
Proof. intros K atol rtol k x x' y y' e e' E1 E2 E3. unfold error_ratio. now rewrite E1, E2, E3. Qed.

(** C121.  The parameter vector of a problem is the concatenation of the parameters of its vector field, it is never
    empty, and building a problem on the same field again does not change the parameters. *)
Lemma C121_tracked_pf :
  forall (own opt : list (vec ROps)),
  snd (@init_params ROps own opt) = concat (fst (@init_params ROps own opt)) /\ fst (@init_params ROps own opt) <> [] /\
  (forall opt', fst (@init_params ROps (fst (@init_params ROps own opt)) opt') = fst (@init_params ROps own opt)) /\
  (own = [] -> opt <> [] -> fst (@init_params ROps own opt) = opt) /\
  (own <> [] -> fst (@init_params ROps own opt) = own).
Proof.
  intros [|a own] [|c opt]; cbn; repeat split; intros; try congruence; try discriminate; auto.
Qed.

(** C121, refuted: optimizable_params are dropped if the field has parameters, own or registered by an
    earlier problem; without parameters the first problem registers a dummy one. *)
Lemma C121_optimizable_params_refuted_pf :
  (forall (p : vec ROps) own opt opt', @init_params ROps (p :: own) opt = @init_params ROps (p :: own) opt') /\
  fst (@init_params ROps [[1]] [[2]; [3]]) = [[1]] /\
  (let field := fst (@init_params ROps [] []) in fst (@init_params ROps field [[2]; [3]]) = field) /\
  (let field := fst (@init_params ROps [] [[2]]) in fst (@init_params ROps field [[3]]) = [[2]]).
Proof. repeat split. Qed.
