From Coq Require Import ZArith QArith Qreals Reals Lra Lia String List Bool.
From Verif Require Import Num Py Tensor M_SolversOde M_Odeint M_Core M_Nn M_Systems.
From Verif Require Import Spec_Ode Spec_RK Spec_Norm Spec_Adaptive Spec_Inv Spec_Core Spec_Systems Spec_Models L_Base L_Vec L_Reach L_Models Pf_Gal Pf_Core Pf_Inv.
Import ListNotations.
Local Open Scope R_scope.
Local Notation length := List.length.

Lemma mapr_map {A B} (f : A -> res B) (g : A -> B) l : (forall a, In a l -> f a = Ok (g a)) -> mapr f l = Ok (map g l).
Proof.
  induction l as [|a l IH]; intros H; [reflexivity|]. cbn [mapr map]. rewrite H by now left. cbn [rbind].
  rewrite IH by (intros; apply H; now right). reflexivity.
Qed.

Lemma q8_3 : Q2R 8 / Q2R 3 = 8 / 3. Proof. unfold Q2R. cbn. lra. Qed.
Ltac ql := repeat match goal with |- context [Q2R ?q] => let r := eval cbv in q in
  match r with Qmake ?n ?d => replace (Q2R q) with (IZR n / IZR (Z.pos d)) by (unfold Q2R, Rdiv; cbn; reflexivity) end end.

Lemma lorenz_row_ok x : length x = 3%nat -> @lorenz_row ROps x = Ok (lorenz 10 28 (8 / 3) x).
Proof.
  intros H. destruct x as [|x [|y [|z [|]]]]; try discriminate. unfold lorenz_row, bop. cbn. ql.
  f_equal. f_equal; [field|]. f_equal; [field|]. f_equal. field.
Qed.
Lemma vdp_row_ok mu x : length x = 2%nat -> @vdp_row ROps mu x = Ok (van_der_pol mu x).
Proof.
  intros H. destruct x as [|x [|y [|]]]; try discriminate. unfold vdp_row, bop. cbn. ql.
  f_equal. f_equal. f_equal. field.
Qed.
Lemma rf_row_ok x : length x = 3%nat -> @problem4_row ROps x = Ok (rabinovich_fabrikant (87 / 100) (11 / 10) x).
Proof.
  intros H. destruct x as [|x [|y [|z [|]]]]; try discriminate. unfold problem4_row, bop. cbn. ql.
  f_equal. f_equal; [field|]. f_equal; [field|]. f_equal. field.
Qed.

(** C93.  Called as f(t, x) on a batch, Lorenz is the Lorenz system with sigma = 10, rho = 28,
    beta = 8/3, VanDerPol(alpha) the van der Pol oscillator, ODEProblem4 the Rabinovich-Fabrikant
    equations with gamma = 0.87, alpha = 1.1, row by row. *)
Lemma C93_textbook_pf :
  forall (A : Type) depth t x mu,
  (Forall (fun row => length row = 3%nat) x ->
     call_callable (@Lorenz ROps A) depth [VTime t; VState x] [] = Ok (map (lorenz 10 28 (8 / 3)) x) /\
     call_callable (@ODEProblem4 ROps A) depth [VTime t; VState x] [] = Ok (map (rabinovich_fabrikant (87 / 100) (11 / 10)) x)) /\
  (Forall (fun row => length row = 2%nat) x ->
     call_callable (@VanDerPol ROps A mu) depth [VTime t; VState x] [] = Ok (map (van_der_pol mu) x)).
Proof.
  intros A depth t x mu. split; [intros H; split|intros H].
  - refine (mapr_map _ _ x _). intros r Hr. apply lorenz_row_ok. now apply (proj1 (Forall_forall _ _) H).
  - refine (mapr_map _ _ x _). intros r Hr. apply rf_row_ok. now apply (proj1 (Forall_forall _ _) H).
  - refine (mapr_map _ _ x _). intros r Hr. apply vdp_row_ok. now apply (proj1 (Forall_forall _ _) H).
Qed.

(** C93.  The remaining systems without parameters: growth with rate 1/2, decay with rate 1/10, and the sine of the
    time (not of the state) in every coordinate. *)
Lemma C93_scalar_pf :
  forall (A : Type) depth t x,
  call_callable (@ODEProblem2 ROps A) depth [VTime t; VState x] [] = Ok (map (map (fun u => u / 2)) x) /\
  call_callable (@ODEProblem3 ROps A) depth [VTime t; VState x] [] = Ok (map (map (fun u => - (u / 10))) x) /\
  call_callable (@SineSystem ROps A sin) depth [VTime t; VState x] [] = Ok (map (map (fun _ => sin t)) x).
Proof.
  intros A depth t x. split; [|split].
  - refine (mapr_map _ _ x _). intros r _. unfold problem2_row. apply f_equal. apply map_ext. intros u. cbn. ql. field.
  - refine (mapr_map _ _ x _). intros r _. unfold problem3_row. apply f_equal. apply map_ext. intros u. cbn. ql. field.
  - refine (mapr_map _ _ x _). intros r _. unfold sine_row. apply f_equal. apply map_ext. intros u. cbn. ql. f_equal. field.
Qed.

Lemma C93_ex_pf : call_callable (@Lorenz ROps unit) None [@VTime ROps unit 0; @VState ROps unit [[1; 2; 3]; [0; 0; 0]]] [] =
  Ok [[10; 23; -6]; [0; 0; 0]].
Proof.
  destruct (C93_textbook_pf unit None 0 [[1; 2; 3]; [0; 0; 0]] 0) as [H _]. destruct (H ltac:(repeat constructor)) as [E _].
  refine (eq_trans E _). cbn [map lorenz]. f_equal. f_equal; [|f_equal]; (f_equal; [lra|f_equal; [lra|f_equal; lra]]).
Qed.

(** C94, refuted: on rows that are too wide the result silently has another width than the state *)
Lemma C94_width_refuted_pf : forall (A : Type) depth t mu a b c d,
  (exists r, call_callable (@Lorenz ROps A) depth [VTime t; @VState ROps A [[a; b; c; d]]] [] = Ok [r] /\ length r = 5%nat) /\
  (exists r, call_callable (@VanDerPol ROps A mu) depth [VTime t; @VState ROps A [[a; b; c]]] [] = Ok [r] /\ length r = 2%nat).
Proof. intros. split; eexists; split; reflexivity. Qed.

(** C95.  The equilibria of the Lorenz system: the origin and (+-c, +-c, 27) with c^2 = 72. *)
Lemma C95_lorenz_equilibria_pf :
  forall (A : Type) x y z, (forall depth t, call_callable (@Lorenz ROps A) depth [VTime t; @VState ROps A [[x; y; z]]] [] = Ok [[0; 0; 0]]) <->
    (x = 0 /\ y = 0 /\ z = 0) \/ (x = y /\ z = 27 /\ x * x = 72).
Proof.
  intros A x y z. split.
  - intros H. specialize (H None 0). destruct (C93_textbook_pf A None 0 [[x; y; z]] 0) as [E _]. destruct (E ltac:(repeat constructor)) as [E' _].
    pose proof (eq_trans (eq_sym H) E') as F. cbn [map lorenz] in F. injection F as H1 H2 H3.
    assert (E0 : y = x) by lra. subst y. assert (F : x * (27 - z) = 0) by lra.
    apply Rmult_integral in F. destruct F as [F|F]; [left; subst x|right].
    + split; [reflexivity|]. split; [reflexivity|]. lra.
    + assert (z = 27) by lra. subst z. repeat split; auto. lra.
  - intros H depth t. destruct (C93_textbook_pf A depth t [[x; y; z]] 0) as [E _]. destruct (E ltac:(repeat constructor)) as [E' _].
    refine (eq_trans E' _). cbn [map lorenz]. destruct H as [(-> & -> & ->)|(-> & -> & H)]; do 2 f_equal; repeat (apply (f_equal2 cons); [lra|]); reflexivity.
Qed.

(** C95.  From an equilibrium every built-in solver returns the same state at all times. *)
Lemma C95_lorenz_rest_pf :
  forall fuel s rows b x y z ts atol rtol interp all save_at semi times sol,
  builtin_method s rows b -> monotone ts -> (2 <= length ts)%nat ->
  (x = 0 /\ y = 0 /\ z = 0) \/ (x = y /\ z = 27 /\ x * x = 72) ->
  snd (@odeint ROps fuel (fun t : R => lorenz 10 28 (8 / 3)) [x; y; z] (@TTensor ROps ts) s atol rtol interp all save_at semi) = Ok (times, sol) ->
  forall v, In v sol -> v = [x; y; z].
Proof.
  intros fuel s rows b x y z ts atol rtol interp all save_at semi times sol HM Hm Hl He Hr.
  apply (C84_equilibrium_pf fuel s rows b 3 (fun _ : R => lorenz 10 28 (8 / 3)) [x; y; z] ts atol rtol interp all save_at semi times sol HM); auto.
  - intros t v Hv. destruct v as [|? [|? [|? [|]]]]; try discriminate. reflexivity.
  - intros t. cbn [lorenz repeat]. destruct He as [(-> & -> & ->)|(-> & -> & H)]; repeat (apply (f_equal2 cons); [lra|]); reflexivity.
Qed.

(** C95.  Symmetry (x, y, z) -> (-x, -y, z), and dissipation: x^2 + y^2 + (z - 38)^2 decreases along the
    field outside an ellipsoid. *)
Lemma C95_lorenz_shape_pf :
  forall (A : Type) depth t x y z, exists u v w,
  call_callable (@Lorenz ROps A) depth [VTime t; @VState ROps A [[x; y; z]; [- x; - y; z]]] [] = Ok [[u; v; w]; [- u; - v; w]] /\
  x * u + y * v + (z - 38) * w = 8 / 3 * 19 ^ 2 - (10 * x ^ 2 + y ^ 2 + 8 / 3 * (z - 19) ^ 2).
Proof.
  intros A depth t x y z. exists (10 * (y - x)), (x * (28 - z) - y), (x * y - 8 / 3 * z). split; [|field].
  destruct (C93_textbook_pf A depth t [[x; y; z]; [- x; - y; z]] 0) as [E _]. destruct (E ltac:(repeat constructor)) as [E' _].
  refine (eq_trans E' _). cbn [map lorenz]. do 2 f_equal. f_equal. f_equal; [ring|]. f_equal; [ring|]. f_equal. ring.
Qed.

(** C95.  Van der Pol: the origin is the only equilibrium; the energy x^2 + y^2 grows exactly inside the
    strip |x| < 1. *)
Lemma C95_vdp_pf :
  forall (A : Type) depth t (mu x y : R), exists u v : R,
  call_callable (@VanDerPol ROps A mu) depth [VTime t; @VState ROps A [[x; y]]] [] = Ok [[u; v]] /\
  (u = 0 /\ v = 0 <-> x = 0 /\ y = 0) /\ x * u + y * v = mu * (1 - x ^ 2) * y ^ 2.
Proof.
  intros A depth t mu x y. destruct (C93_textbook_pf A depth t [[x; y]] mu) as [_ E].
  exists y, (mu * (1 - x ^ 2) * y - x). split; [exact (E ltac:(repeat constructor))|]. split; [|cbn; ring].
  split; intros [H1 H2].
  - rewrite H1, Rmult_0_r in H2. split; lra.
  - rewrite H1, H2. split; ring.
Qed.

(** C96.  As vector field of a NeuralODE (of order 1) or an ODEProblem: Lorenz and VanDerPol are called
    with the time and the state. *)
Lemma C96_usable_partial_pf :
  forall (A : Type) (empty : A) c mu, c = @Lorenz ROps A \/ c = @VanDerPol ROps A mu ->
  exists v w, odeproblem_vf c = Ok v /\ (forall sens, neuralode_vf c 1 None sens = Ok (w sens)) /\
  forall sens t x, solver_call empty v t x = call_callable c None [VTime t; VState x] [] /\
                   solver_call empty (w sens) t x = call_callable c (Some t) [VTime t; VState x] [].
Proof.
  intros A empty c mu [-> | ->]; do 2 eexists; (split; [reflexivity|]); (split; [reflexivity|]); intros sens t x; split; reflexivity.
Qed.

(** C96, refuted: the systems whose forward takes (s, x) or (s, z) are accepted, but every evaluation
    raises TypeError, because the state is passed as the only argument. *)
Lemma C96_usable_refuted_pf :
  forall (K : NumOps) (A : Type) (empty : A) (ncos nsin ntanh : K -> K) W b hidden last a phi w dim nh c,
  In c [@ODEProblem2 K A; @ODEProblem3 K A; @ODEProblem4 K A; @SineSystem K A nsin; @LTISystem K A W b;
        @MatMulSystem K A ntanh hidden last; @MatMulBoundedSystem K A ntanh hidden last;
        @FourierSystem K A ncos a phi w dim nh; @CoupledFourierSystem K A ncos W b a phi w dim nh] ->
  exists v u, odeproblem_vf c = Ok v /\ (forall sens, neuralode_vf c 1 None sens = Ok (u sens)) /\
  forall sens t x, solver_call empty v t x = Err TypeError /\ solver_call empty (u sens) t x = Err TypeError.
Proof.
  intros K A empty ncos nsin ntanh W b hidden last a phi w dim nh c Hc. cbn [In] in Hc.
  repeat (destruct Hc as [<-|Hc]); [..|contradiction];
  (do 2 eexists; split; [reflexivity|]; split; [reflexivity|]; intros sens t x; split; reflexivity).
Qed.

(** ** C97 *)
Lemma vsum_harm (g : nat -> R) n : @vsum ROps (map g (seq 0 n)) = sum_below n g.
Proof.
  refine (eq_trans (vsum_total _) _). induction n as [|n IH]; [reflexivity|].
  rewrite seq_S, map_app, total_app, IH. cbn [sum_below total map]. cbn [plus]. apply (f_equal (Rplus _)). apply Rplus_0_r.
Qed.

(** C97.  FourierSystem (and StiffFourierSystem) at a scalar time returns one row, the values of the
    sums of harmonics, whatever the state; at a vector of times it returns one row per time, that of the
    scalar time; CoupledFourierSystem returns the linear layer of these rows. *)
Lemma C97_fourier_pf :
  forall (a phi w : nat -> nat -> nat -> R) dim nh W b x,
  (forall s, @fourier_scalar ROps cos a phi w dim nh s x = [map (fun i => harmonics a phi w nh i s) (seq 0 dim)]) /\
  (forall s, @coupled_scalar ROps cos W b a phi w dim nh s x =
     map (@linear_row ROps W b) (@fourier_scalar ROps cos a phi w dim nh s x)) /\
  (forall ts, ts <> [] -> @fourier_vector ROps cos a phi w dim nh ts x =
     Ok (map (fun s => map (fun i => harmonics a phi w nh i s) (seq 0 dim)) ts)) /\
  (forall ts, ts <> [] -> @coupled_vector ROps cos W b a phi w dim nh ts x =
     Ok (map (fun s => @linear_row ROps W b (map (fun i => harmonics a phi w nh i s) (seq 0 dim))) ts)).
Proof.
  intros a phi w dim nh W b x.
  assert (E : forall s, @fourier_value ROps cos a phi w dim nh s = map (fun i => harmonics a phi w nh i s) (seq 0 dim)).
  { intros s. unfold fourier_value. apply map_ext. intros i. exact (vsum_harm (fun k => a i k 0%nat * cos (w i k 0%nat * s + phi i k 0%nat) + a i k 1%nat * cos (w i k 1%nat * s + phi i k 1%nat)) nh). }
  split; [|split; [|split]].
  - intros s. unfold fourier_scalar. now rewrite E.
  - reflexivity.
  - intros ts Ht. unfold fourier_vector. destruct ts as [|t ts]; [congruence|]. f_equal. clear Ht.
    rewrite (map_ext _ _ E (t :: ts)) || idtac. induction (t :: ts) as [|u us IH]; [reflexivity|]. cbn [map concat app]. rewrite E. f_equal. exact IH.
  - intros ts Ht. unfold coupled_vector. destruct ts as [|t ts]; [congruence|]. f_equal. clear Ht.
    induction (t :: ts) as [|u us IH]; [reflexivity|]. cbn [map concat app nth]. rewrite E. f_equal. exact IH.
Qed.

(** C97.  The linear layer of LTISystem, CoupledFourierSystem and the matrix products: W x + b. *)
Lemma C97_linear_layer_pf : forall W b x i, length W = length b -> (i < length b)%nat -> length (nth i W []) = length x ->
  exists y, @lti_row ROps W b x = Ok y /\ y = @linear_row ROps W b x /\
    nth i y 0 = sum_below (length x) (fun j => nth j (nth i W []) 0 * nth j x 0) + nth i b 0.
Proof.
  intros W b x i HL Hi Hw. exists (@linear_row ROps W b x). split; [reflexivity|]. split; [reflexivity|].
  assert (D : forall r v, length r = length v -> @vdot ROps r v = sum_below (length v) (fun j => nth j r 0 * nth j v 0)).
  { intros r v Hl. rewrite <- (vsum_harm (fun j => nth j r 0 * nth j v 0)). unfold vdot. f_equal. unfold vmul. rops. clear -Hl. revert v Hl.
    induction r as [|a r IH]; intros [|c v] Hl; try discriminate; [reflexivity|]. cbn [map2 length seq map nth]. f_equal. rewrite <- seq_shift, map_map. apply IH. now injection Hl. }
  rewrite <- D by exact Hw. clear D Hw. unfold linear_row. revert W b HL Hi. induction i as [|i IH]; intros [|r W] [|c b] HL Hi; cbn in HL, Hi; try lia; [reflexivity|].
  cbn [map2 nth]. apply IH; [exact (eq_add_S _ _ HL)|exact (proj2 (Nat.succ_lt_mono _ _) Hi)].
Qed.

(** C97.  The values are bounded by the sum of the amplitudes, at all times. *)
Lemma C97_bounded_pf :
  forall (a phi w : nat -> nat -> nat -> R) dim nh s x row i, In row (@fourier_scalar ROps cos a phi w dim nh s x) -> (i < dim)%nat ->
  Rabs (nth i row 0) <= amplitude a nh i.
Proof.
  intros a phi w dim nh s x row i Hr Hi. destruct (C97_fourier_pf a phi w dim nh [] [] x) as [E _]. rewrite (E s) in Hr.
  destruct Hr as [<-|[]]. rewrite nth_map_seq by auto. unfold harmonics, amplitude. clear.
  induction nh as [|nh IH]; cbn [sum_below]; [rewrite Rabs_R0; lra|].
  assert (C : forall u v, Rabs (u * cos v) <= Rabs u).
  { intros u v. rewrite Rabs_mult. rewrite <- (Rmult_1_r (Rabs u)) at 2. apply Rmult_le_compat_l; [apply Rabs_pos|].
    apply Rabs_le. destruct (COS_bound v). lra. }
  eapply Rle_trans; [apply Rabs_triang|]. apply Rplus_le_compat; [exact IH|].
  eapply Rle_trans; [apply Rabs_triang|]. apply Rplus_le_compat; apply C.
Qed.

Lemma C97_ex_pf :
  let a := fun i k c : nat => if (c =? 0)%nat then 3 else 0 in
  let z := fun i k c : nat => 0 in
  @fourier_vector ROps cos a z z 1 2 [5; 7] [] = Ok [[6]; [6]] /\ amplitude a 2 0 = 6.
Proof.
  intros a z. split.
  - destruct (C97_fourier_pf a z z 1 2 [] [] []) as (_ & _ & E & _). refine (eq_trans (E [5; 7] ltac:(discriminate)) _).
    unfold harmonics, a, z. cbn. rewrite !Rmult_0_l, !Rplus_0_l, cos_0.
    f_equal. apply (f_equal2 cons); [|apply (f_equal2 cons); [|reflexivity]]; (apply (f_equal2 cons); [lra|reflexivity]).
  - unfold amplitude, a. cbn. rewrite Rabs_R0, Rabs_pos_eq by lra. lra.
Qed.

(** C98.  Every entry of the output of MatMulBoundedSystem lies strictly between -1 and 1; its output is
    the hyperbolic tangent of that of the MatMulSystem with the same weights. *)
Lemma C98_bounded_pf :
  forall hidden last x, exists y z,
  @matmul_row ROps tanh hidden last x = Ok y /\ @matmul_bounded_row ROps tanh hidden last x = Ok z /\ z = map tanh y /\
  Forall (fun v => -1 < v < 1) z.
Proof.
  intros hidden last x. do 2 eexists. split; [reflexivity|]. split; [reflexivity|]. split; [reflexivity|].
  unfold tanh_layer. apply Forall_forall. intros v Hv. apply in_map_iff in Hv. destruct Hv as (u & <- & _).
  unfold tanh, sinh, cosh. assert (0 < exp u) by apply exp_pos. assert (0 < exp (- u)) by apply exp_pos.
  split.
  - apply (Rmult_lt_reg_r ((exp u + exp (- u)) / 2)); [lra|]. unfold Rdiv at 2. rewrite Rmult_assoc, Rinv_l by lra. lra.
  - apply (Rmult_lt_reg_r ((exp u + exp (- u)) / 2)); [lra|]. unfold Rdiv at 1. rewrite Rmult_assoc, Rinv_l by lra. lra.
Qed.

(** C99, refuted: the arguments layers and activation of the two classes change nothing *)
Lemma C99_arguments_refuted_pf :
  forall dim act act' layers layers' hdim,
  matmul_net dim act layers hdim = matmul_net dim act' layers' hdim /\
  matmul_bounded_net dim act layers hdim = matmul_bounded_net dim act' layers' hdim.
Proof. split; reflexivity. Qed.
(** C99: dim and hdim do *)
Lemma C99_sizes_partial_pf :
  forall dim act layers hdim net, net = matmul_net dim act layers hdim \/ net = matmul_bounded_net dim act layers hdim ->
  filter (fun l => match l with Lin _ _ => true | _ => false end) net =
    [Lin dim hdim; Lin hdim hdim; Lin hdim hdim; Lin hdim hdim; Lin hdim hdim; Lin hdim dim].
Proof. intros dim act layers hdim net [->| ->]; reflexivity. Qed.

(** C100, refuted: the solver templates BaseExplicit and BaseImplicit cannot be instantiated, nor any class
    that derives from them by calling their constructor *)
Lemma C100_templates_refuted_pf :
  forall stepping, new_base "BaseExplicit" stepping = Err TypeError /\ new_base "BaseImplicit" stepping = Err TypeError.
Proof. intros. split; reflexivity. Qed.

(** C101.  The two base methods of a multiple-shooting solver, given by name *)
Lemma C101_named_methods_partial_pf :
  forall (S : Type) (lookup : string -> res S) c f sc sf, lookup c = Ok sc -> lookup f = Ok sf ->
  ms_methods lookup (MStr c) (MStr f) = Ok (sc, sf).
Proof. intros S lookup c f sc sf H1 H2. unfold ms_methods, stored_method. rewrite H1, H2. reflexivity. Qed.
(** C101, refuted: given as solver modules they are dropped, and the first use raises AttributeError *)
Lemma C101_module_methods_refuted_pf :
  forall (S : Type) (lookup : string -> res S) m (s s' : S) n, lookup n = Ok s' ->
  m = MModule s \/ m = MStr n ->
  ms_methods lookup (MModule s) m = Err AttributeError /\ ms_methods lookup m (MModule s) = Err AttributeError.
Proof.
  intros S lookup m s s' n Hn [-> | ->]; unfold ms_methods, stored_method; rewrite ?Hn; split; reflexivity.
Qed.
