(** Sequences of calls of a NeuralODE with data control. *)
From Coq Require Import ZArith QArith Qreals Reals Lra Lia List Bool.
From Verif Require Import Num Py Tensor M_SolversOde M_Utils M_Odeint M_Root M_Sens M_Calls Spec_Ode Spec_Trees Spec_RK Spec_Root Spec_Sens.
From Verif Require Import M_Constants M_Autograd Spec_Autograd.
From Verif Require Import L_Base L_Fixed L_Vec L_Steps L_Steps2 L_Fixed2 L_Root L_Sens Pf_Fixed Pf_Sens Pf_Autograd.
Import ListNotations.
Local Notation length := List.length.
Local Open Scope R_scope.

(** ** The state after a sequence of calls *)
Section Run.
Context {K : NumOps}.
Variables (fuel : nat) (nd : @cnode K).
Fixpoint after (st : @cstate K) (ops : list (@call_op K)) : cstate :=
  match ops with [] => st | o :: ops => after (fst (run_op fuel nd st o)) ops end.
Lemma run_app ops1 ops2 : forall st, run_ops fuel nd st (ops1 ++ ops2) = run_ops fuel nd st ops1 ++ run_ops fuel nd (after st ops1) ops2.
Proof.
  induction ops1 as [|o ops IH]; intros st; [reflexivity|]. cbn [app run_ops after]. destruct (run_op fuel nd st o) as [st' r]. cbn [fst]. now rewrite IH.
Qed.
End Run.

(** Parameters after a sequence of calls, and the number of forward calls in it *)
Definition params_after {K : NumOps} (p : vec K) (ops : list (@call_op K)) : vec K :=
  fold_left (fun p o => match o with OUpdate q => q | _ => p end) ops p.
Definition forwards {K : NumOps} (ops : list (@call_op K)) : nat :=
  length (filter (fun o => match o with OForward _ _ => true | _ => false end) ops).

(** The gradients that a fresh NeuralODE with parameters p returns when backward follows forward at once *)
Definition fresh_gradients {K : NumOps} (fuel : nat) (nd : @cnode K) (p x : vec K) (ts gt : list K) (gx : list (vec K)) : list call_out :=
  skipn 1 (run_ops fuel nd (MkCS p [] []) [OForward x ts; OBackward 0 gt gx]).

(** Calls that may come between the forward call for x and its backward pass: other backward passes, and calls that give the field a control
    with which it is the same as with x *)
Definition harmless {K : NumOps} (nd : @cnode K) (x : vec K) (o : @call_op K) : Prop :=
  match o with
  | OForward y _ | OTrajectory y _ => forall p, cn_field nd p y = cn_field nd p x
  | OUpdate _ => False
  | OBackward _ _ _ => True
  end.

Section Own.
Context {K : NumOps}.
Variables (fuel : nat) (nd : @cnode K) (x : vec K).
Lemma after_params ops : forall st, cs_params (after fuel nd st ops) = params_after (cs_params st) ops.
Proof. induction ops as [|o ops IH]; intros st; [reflexivity|]. cbn [after]. rewrite IH. now destruct o. Qed.
Lemma after_saved ops : forall st, length (cs_saved (after fuel nd st ops)) = (length (cs_saved st) + forwards ops)%nat.
Proof.
  induction ops as [|o ops IH]; intros st; [cbn; lia|]. cbn [after]. rewrite IH. unfold forwards. destruct o; cbn [run_op fst cs_saved filter length]; try reflexivity.
  rewrite app_length. cbn [length]. lia.
Qed.
Lemma after_prefix ops : forall st, exists more, cs_saved (after fuel nd st ops) = cs_saved st ++ more.
Proof.
  induction ops as [|o ops IH]; intros st; [exists []; now rewrite app_nil_r|]. cbn [after]. destruct (IH (fst (run_op fuel nd st o))) as (m & E). rewrite E.
  destruct o; cbn [run_op fst cs_saved]; try (exists m; reflexivity). rewrite <- app_assoc. eauto.
Qed.
Lemma after_harmless ops : Forall (harmless nd x) ops -> forall st, (forall p, cn_field nd p (cs_control st) = cn_field nd p x) ->
  cs_params (after fuel nd st ops) = cs_params st /\ forall p, cn_field nd p (cs_control (after fuel nd st ops)) = cn_field nd p x.
Proof.
  induction 1 as [|o ops Ho _ IH]; intros st Hc; [split; auto|]. cbn [after].
  destruct (IH (fst (run_op fuel nd st o))) as [E1 E2].
  - destruct o; cbn [run_op fst cs_control]; auto.
  - split; [|exact E2]. rewrite E1. destruct o; try reflexivity. destruct Ho.
Qed.
End Own.

(** C158.  Whatever was called before, and if only harmless calls come between a forward call and its backward pass, the backward pass returns the gradients
    that a fresh module returns.  Missing: other calls in between, for which this is false. *)
Lemma C158_own_partial_pf :
  forall (K : NumOps) fuel (nd : @cnode K) p u ops1 x ts ops2 gt gx,
  Forall (harmless nd x) ops2 ->
  exists outs,
  run_ops fuel nd (MkCS p u []) (ops1 ++ OForward x ts :: ops2 ++ [OBackward (forwards ops1) gt gx]) =
  outs ++ fresh_gradients fuel nd (params_after p ops1) x ts gt gx.
Proof.
  intros K fuel nd p u ops1 x ts ops2 gt gx H.
  change (OForward x ts :: ops2 ++ [OBackward (forwards ops1) gt gx]) with ((OForward x ts :: ops2) ++ [OBackward (forwards ops1) gt gx]).
  rewrite app_assoc, run_app. eexists. f_equal.
  set (st0 := MkCS p u []). set (st1 := after fuel nd st0 ops1).
  assert (E : after fuel nd st0 (ops1 ++ OForward x ts :: ops2) = after fuel nd (fst (run_op fuel nd st1 (OForward x ts))) ops2).
  { unfold st1. generalize st0. induction ops1 as [|o ops IH]; intros st; [reflexivity|]. cbn [app after]. apply IH. }
  rewrite E. set (st2 := fst (run_op fuel nd st1 (OForward x ts))).
  destruct (after_harmless fuel nd x ops2 H st2) as [P C]; [reflexivity|].
  destruct (after_prefix fuel nd ops2 st2) as (more & S).
  assert (P1 : cs_params st1 = params_after p ops1) by (unfold st1; now rewrite after_params).
  assert (L1 : length (cs_saved st1) = forwards ops1) by (unfold st1; now rewrite after_saved).
  unfold fresh_gradients. cbn [run_ops run_op skipn]. do 2 f_equal. unfold call_backward. rewrite P, C, S.
  unfold st2. cbn [run_op fst cs_params cs_saved cs_control]. rewrite P1.
  unfold pyget. rewrite <- app_assoc, nth_error_app2 by lia. rewrite L1, Nat.sub_diag. cbn [app nth_error rbind].
  unfold call_forward. cbn [cs_params]. rewrite P1. reflexivity.
Qed.

(** A module without data control: only updates of the parameters matter. *)
Lemma C158_uncontrolled_partial_pf :
  forall (K : NumOps) fuel (nd : @cnode K) p u ops1 x ts ops2 gt gx,
  (forall p y z, cn_field nd p y = cn_field nd p z) -> (forall q, ~ In (OUpdate q) ops2) ->
  exists outs,
  run_ops fuel nd (MkCS p u []) (ops1 ++ OForward x ts :: ops2 ++ [OBackward (forwards ops1) gt gx]) =
  outs ++ fresh_gradients fuel nd (params_after p ops1) x ts gt gx.
Proof.
  intros K fuel nd p u ops1 x ts ops2 gt gx Hf Hu. apply C158_own_partial_pf. apply Forall_forall. intros [y r|y r|q|i a b] Ho; cbn; auto. now apply (Hu q).
Qed.

(** The field p u x in one dimension, u the control, with its products *)
Definition pux (p u : list R) : adj_field (K := ROps) :=
  let k := nth 0 p 0 * nth 0 u 0 in
  @MkAF ROps (fun _ x => [k * nth 0 x 0]) (fun _ _ w => [k * nth 0 w 0]) (fun _ _ _ => None) (fun _ x w => [Some [nth 0 u 0 * nth 0 x 0 * nth 0 w 0]]) None.
Definition pux_node (path : option (list R -> list (list R) -> R -> list R)) : @cnode ROps :=
  @MkNode ROps pux 1 (Euler ROps) (1/1000) (1/1000) false (Euler ROps) (1/1000) (1/1000) path.

Lemma pux_jac p u : constant_jacobian 1 [[nth 0 p 0 * nth 0 u 0]] (af_f (pux p u)).
Proof.
  split; [|split].
  - split; [reflexivity|]. repeat constructor.
  - intros t x Hx. reflexivity.
  - intros t [|y [|? ?]] [|z [|? ?]] Hy Hz; try discriminate. unfold apply, minus_vec, dot. cbn. f_equal. ring.
Qed.
Lemma pux_vjp p u : transposed_product 1 [[nth 0 p 0 * nth 0 u 0]] (af_vjp_x (pux p u)).
Proof.
  intros t x [|w [|? ?]] Hw; try discriminate. split; [reflexivity|]. intros [|v [|? ?]] Hv; try discriminate. unfold apply, dot. cbn. ring.
Qed.
Lemma pair_sep : separated [0; 1].
Proof.
  intros i j a d Hij Ha Hd. destruct i as [|[|i]], j as [|[|j]]; try lia; simpl in Ha, Hd;
    try (destruct i; discriminate); try (destruct j; discriminate); injection Ha as <-; injection Hd as <-; unfold close_to.
  - rewrite (Rabs_left (0 - 1)), (Rabs_right 1) by lra. lra.
  - rewrite (Rabs_right (1 - 0)), Rabs_R0 by lra. lra.
Qed.
Lemma erk_euler : erk_solver (Euler ROps) (to_R_rows q_euler) (to_R qb_euler).
Proof. exact C05_euler_pf. Qed.
Lemma pux_forward path fuel p u sv x :
  call_forward fuel (pux_node path) (@MkCS ROps p u sv) [x] [0; 1] = Ok ([0; 1], [[x]; [x + nth 0 p 0 * x * x]]).
Proof.
  unfold call_forward. cbn [cn_field cn_solver cn_atol cn_rtol cn_interp cn_path cs_params pux_node].
  destruct erk_euler as (Hfix & Hs). destruct (Hs 1%nat (af_f (pux p [x])) (proj1 (proj2 (pux_jac p [x])))) as (one & lg & Hst & Hone).
  refine (eq_trans (C01_fixed_trajectory_pf fuel _ _ one lg [x] 0 1 [] _ _ _ _ _ Hfix Hst pair_sep ltac:(lra)) _).
  assert (EX : forall a b : list R, a = b -> @Ok (list R * list (list R)) ([0; 1], [[x]; a]) = Ok ([0; 1], [[x]; b])) by (intros; subst; reflexivity).
  cbn [one_step_traj]. apply EX. rewrite Hone by reflexivity. unfold erk_step. cbn. f_equal. unfold Q2R. cbn. field.
Qed.
Lemma pux_backward path fuel p u sol gx0 gx1 sv ts : length (last sol []) = 1%nat -> sol <> [] -> (forall q, path = Some q -> ts = [0; 1]) ->
  exists mu, call_backward fuel (pux_node path) (@MkCS ROps p u ((ts, Ok ([0; 1], sol)) :: sv)) 0 [0; 0] [[gx0]; [gx1]] =
    Ok (mu, [gx0 + gx1 + nth 0 p 0 * nth 0 u 0 * gx1]).
Proof.
  intros H1 H2 H3. unfold call_backward. change (pyget (cs_saved (@MkCS ROps p u ((ts, Ok ([0; 1], sol)) :: sv))) 0) with (Ok (ts, @Ok (list R * list (list R)) ([0; 1], sol))).
  cbn [rbind snd fst cn_path pux_node cs_params cs_control cn_field cn_nparams cn_adj_solver cn_adj_atol cn_adj_rtol cn_solver cn_atol cn_rtol]. cbv zeta.
  assert (V : forall (k : R) (lam : list R), length lam = 1%nat ->
    (forall w, length w = 1%nat -> dot lam w = pairing [[gx0]; [gx1]] (one_step_traj (erk_step (to_R_rows q_euler) (to_R qb_euler) (fun _ => apply [[k]])) w [0; 1])) ->
    lam = [gx0 + gx1 + k * gx1]).
  { intros k [|l [|? ?]] Hl H; try discriminate. specialize (H [1] eq_refl). f_equal. unfold pairing, dot, one_step_traj, erk_step, apply in H. cbn in H. unfold Q2R in H. cbn in H.
    unfold dot in H. cbn in H. transitivity (l * 1 + 0); [ring|]. rewrite H, Rinv_1. ring. }
  destruct path as [path|].
  - rewrite (H3 _ eq_refl).
    destruct (interp_backward_lti 1 1 [[nth 0 p 0 * nth 0 u 0]] (pux p u) (proj1 (pux_jac p u)) (pux_vjp p u) eq_refl (fun _ _ _ _ => eq_refl) fuel (Euler ROps) _ _ (1/1000) (1/1000) erk_euler (path [0; 1] sol)
      [0; 1] [[gx0]; [gx1]] ltac:(lia) pair_sep ltac:(discriminate) eq_refl ltac:(repeat constructor)) as (mu & lam & E & Hl & HI).
    exists mu. refine (eq_trans E _). now rewrite (V _ lam Hl HI).
  - destruct (adjoint_backward_lti 1 1 [[nth 0 p 0 * nth 0 u 0]] (pux p u) (proj1 (pux_jac p u)) (pux_vjp p u) eq_refl (proj1 (proj2 (pux_jac p u))) (fun _ _ _ _ => eq_refl) fuel (Euler ROps) _ _ (1/1000) (1/1000) erk_euler
      [0; 1] sol [0; 0] [[gx0]; [gx1]] pair_sep ltac:(discriminate) eq_refl eq_refl H1 H2 ltac:(repeat constructor)) as (out & E & Hl & HI).
    exists (ao_params out). unfold rmap. refine (eq_trans (f_equal (fun r => rbind r _) E) _). cbn [rbind]. now rewrite (V _ _ Hl HI).
Qed.

Lemma out3 (a b : @call_out ROps) c d : c = d -> [a; b; Gradients c] = [a; b; Gradients d].
Proof. now intros ->. Qed.
Lemma out1 (c d : res (list R * list R)) : c = d -> [@Gradients ROps c] = [@Gradients ROps d].
Proof. now intros ->. Qed.
Lemma back_eq fuel nd p u s s' gt gx : s = s' -> call_backward fuel nd (@MkCS ROps p u s) 0 gt gx = call_backward fuel nd (@MkCS ROps p u s') 0 gt gx.
Proof. now intros ->. Qed.
Lemma saved_eq (ts : list R) (r r' : res (list R * list (list R))) l : r = r' -> (ts, r) :: l = (ts, r') :: l.
Proof. now intros ->. Qed.
Lemma grad_eq (mu : list R) (a b : R) : a = b -> @Ok (list R * list R) (mu, [a]) = Ok (mu, [b]).
Proof. now intros ->. Qed.

(** C158 is violated for both adjoints: after node([1]) and node([2]) the backward pass of the first call returns 3 for the initial state, the control of the second call
    having replaced that of the first; a fresh module returns 2. *)
Lemma C158_control_refuted_pf : forall fuel path,
  let nd := pux_node path in
  exists mu mu' r r',
    run_ops fuel nd (@MkCS ROps [1] [] []) [@OForward ROps [1] [0; 1]; @OForward ROps [2] [0; 1]; @OBackward ROps 0 [0; 0] [[0]; [1]]] = [r; r'; @Gradients ROps (Ok (mu, [3]))] /\
    fresh_gradients fuel nd [1] [1] [0; 1] [0; 0] [[0]; [1]] = [@Gradients ROps (Ok (mu', [2]))].
Proof.
  intros fuel path nd.
  unfold fresh_gradients. cbn [run_ops run_op skipn cs_params cs_saved].
  pose proof (pux_forward path fuel [1] [] [] 1) as F1. fold nd in F1.
  destruct (pux_backward path fuel [1] [2] [[1]; [1 + 1 * 1 * 1]] 0 1 [([0; 1], call_forward fuel nd (@MkCS ROps [1] [1] [([0; 1], call_forward fuel nd (@MkCS ROps [1] [] []) [1] [0; 1])]) [2] [0; 1])] [0; 1] eq_refl ltac:(discriminate) ltac:(auto)) as (mu & B1).
  destruct (pux_backward path fuel [1] [1] [[1]; [1 + 1 * 1 * 1]] 0 1 [] [0; 1] eq_refl ltac:(discriminate) ltac:(auto)) as (mu' & B2).
  exists mu, mu'. do 2 eexists. split.
  - refine (out3 _ _ _ _ (eq_trans (back_eq fuel nd _ _ _ _ _ _ (saved_eq _ _ _ _ F1)) (eq_trans B1 (grad_eq _ _ _ _)))). cbn [nth]. ring.
  - refine (out1 _ _ (eq_trans (back_eq fuel nd _ _ _ _ _ _ (saved_eq _ _ _ _ F1)) (eq_trans B2 (grad_eq _ _ _ _)))). cbn [nth]. ring.
Qed.

(** The same for a change of the parameters between forward and backward, which autograd would reject: parameter 1 in the forward call, 3 in the backward pass *)
Lemma C158_update_refuted_pf : forall fuel path,
  let nd := pux_node path in
  exists mu mu' r,
    run_ops fuel nd (@MkCS ROps [1] [] []) [@OForward ROps [1] [0; 1]; @OUpdate ROps [3]; @OBackward ROps 0 [0; 0] [[0]; [1]]] = [r; @Updated ROps; @Gradients ROps (Ok (mu, [4]))] /\
    fresh_gradients fuel nd [1] [1] [0; 1] [0; 0] [[0]; [1]] = [@Gradients ROps (Ok (mu', [2]))].
Proof.
  intros fuel path nd.
  unfold fresh_gradients. cbn [run_ops run_op skipn cs_params cs_saved cs_control].
  pose proof (pux_forward path fuel [1] [] [] 1) as F1. fold nd in F1.
  destruct (pux_backward path fuel [3] [1] [[1]; [1 + 1 * 1 * 1]] 0 1 [] [0; 1] eq_refl ltac:(discriminate) ltac:(auto)) as (mu & B1).
  destruct (pux_backward path fuel [1] [1] [[1]; [1 + 1 * 1 * 1]] 0 1 [] [0; 1] eq_refl ltac:(discriminate) ltac:(auto)) as (mu' & B2).
  exists mu, mu'. eexists. split.
  - refine (out3 _ _ _ _ (eq_trans (back_eq fuel nd _ _ _ _ _ _ (saved_eq _ _ _ _ F1)) (eq_trans B1 (grad_eq _ _ _ _)))). cbn [nth]. ring.
  - refine (out1 _ _ (eq_trans (back_eq fuel nd _ _ _ _ _ _ (saved_eq _ _ _ _ F1)) (eq_trans B2 (grad_eq _ _ _ _)))). cbn [nth]. ring.
Qed.

(** The same for a plot of another trajectory between forward and backward: node.trajectory([2], t_span) replaces the control. *)
Lemma C158_trajectory_refuted_pf : forall fuel path,
  let nd := pux_node path in
  exists mu mu' r r',
    run_ops fuel nd (@MkCS ROps [1] [] []) [@OForward ROps [1] [0; 1]; @OTrajectory ROps [2] [0; 1]; @OBackward ROps 0 [0; 0] [[0]; [1]]] = [r; r'; @Gradients ROps (Ok (mu, [3]))] /\
    fresh_gradients fuel nd [1] [1] [0; 1] [0; 0] [[0]; [1]] = [@Gradients ROps (Ok (mu', [2]))].
Proof.
  intros fuel path nd.
  unfold fresh_gradients. cbn [run_ops run_op skipn cs_params cs_saved].
  pose proof (pux_forward path fuel [1] [] [] 1) as F1. fold nd in F1.
  destruct (pux_backward path fuel [1] [2] [[1]; [1 + 1 * 1 * 1]] 0 1 [] [0; 1] eq_refl ltac:(discriminate) ltac:(auto)) as (mu & B1).
  destruct (pux_backward path fuel [1] [1] [[1]; [1 + 1 * 1 * 1]] 0 1 [] [0; 1] eq_refl ltac:(discriminate) ltac:(auto)) as (mu' & B2).
  exists mu, mu'. do 2 eexists. split.
  - refine (out3 _ _ _ _ (eq_trans (back_eq fuel nd _ _ _ _ _ _ (saved_eq _ _ _ _ F1)) (eq_trans B1 (grad_eq _ _ _ _)))). cbn [nth]. ring.
  - refine (out1 _ _ (eq_trans (back_eq fuel nd _ _ _ _ _ _ (saved_eq _ _ _ _ F1)) (eq_trans B2 (grad_eq _ _ _ _)))). cbn [nth]. ring.
Qed.

(** Forward calls and trajectories are not affected: whatever was called before, they return the solve with the parameters of that moment and their own input as
    control; the interpolated adjoint asks for the states of all steps, trajectory never interpolates. *)
Lemma C158_results_partial_pf :
  forall (K : NumOps) fuel (nd : @cnode K) p u ops x ts,
  let solve interp all := snd (odeint fuel (af_f (cn_field nd (params_after p ops) x)) x (TTensor ts) (cn_solver nd) (cn_atol nd) (cn_rtol nd) interp all [] None) in
  exists outs,
  run_ops fuel nd (MkCS p u []) (ops ++ [OForward x ts; OTrajectory x ts]) =
  outs ++ [Solved (solve (cn_interp nd) (match cn_path nd with None => false | Some _ => true end)); Solved (solve false false)].
Proof.
  intros K fuel nd p u ops x ts solve. rewrite run_app. eexists. f_equal. cbn [run_ops run_op]. unfold call_forward, call_trajectory. cbn [cs_params].
  rewrite after_params. reflexivity.
Qed.

(** Harmless calls: a backward pass of another forward call, a trajectory from the same state *)
Lemma C158_ex_pf : Forall (harmless (pux_node None) [1]) [@OBackward ROps 0 [0; 0] [[0]; [1]]; @OTrajectory ROps [1] [0; 2]] /\
  ~ harmless (pux_node None) [1] (@OForward ROps [2] [0; 1]).
Proof.
  split; [repeat constructor|]. intros H. specialize (H [1]). apply (f_equal (fun F => @af_f ROps F 0 [1])) in H. cbn in H. injection H. lra.
Qed.

(** The gradients a fresh module returns are right when the control is held fixed: fields M x + c(t) with M and c depending on parameters and control, fixed-step
    solvers.  (The control is detached: how the solution depends on the initial state through the control is not differentiated, see C159.) *)
Lemma C158_fresh_partial_pf :
  forall fuel s rows b n nmu (fld : list R -> list R -> adj_field (K := ROps)) M p x t0 t1 ts gt gx atol rtol atol' rtol' interp,
  let F := fld p x in
  erk_solver s rows b -> constant_jacobian n M (af_f F) -> transposed_product n M (af_vjp_x F) -> af_dg F = None ->
  (forall t y w, length w = n -> length (cat_params (af_vjp_p F t y w)) = nmu) ->
  separated (t0 :: t1 :: ts) -> t0 <= t1 -> length x = n ->
  length gx = length (t0 :: t1 :: ts) -> length gt = length (t0 :: t1 :: ts) -> Forall (fun g => length g = n) gx ->
  let nd := @MkNode ROps fld nmu s atol rtol interp s atol' rtol' None in
  let solve y := snd (@odeint ROps fuel (af_f F) y (@TTensor ROps (t0 :: t1 :: ts)) s atol rtol interp false [] None) in
  exists mu lam sol, fresh_gradients fuel nd p x (t0 :: t1 :: ts) gt gx = [@Gradients ROps (Ok (mu, lam))] /\ length lam = n /\
    solve x = Ok (t0 :: t1 :: ts, sol) /\
    forall x', length x' = n -> exists sol', solve x' = Ok (t0 :: t1 :: ts, sol') /\ pairing gx sol' - pairing gx sol = dot lam (minus_vec x' x).
Proof.
  intros fuel s rows b n nmu fld M p x t0 t1 ts gt gx atol rtol atol' rtol' interp F Hs HM HJ Hdg HP Hsep Hle Hx Hgx Hgt Hg nd solve.
  destruct (C48_adjoint_gradient_pf fuel fuel s rows b n nmu M F x t0 t1 ts gt gx atol rtol atol' rtol' interp Hs HM HJ Hdg HP Hsep Hle Hx Hgx Hgt Hg) as (t_sol & sol & out & E1 & E2 & L & H).
  assert (Et : t_sol = t0 :: t1 :: ts).
  { pose proof HM as (_ & Hf & _). destruct Hs as (Hfix & Hs'). destruct (Hs' n (af_f F) Hf) as (one & lg & Hst & Hone).
    assert (E := C01_fixed_trajectory_pf fuel s (af_f F) one lg x t0 t1 ts atol rtol interp false None Hfix Hst Hsep Hle).
    pose proof (eq_trans (eq_sym E1) E) as Q. now injection Q. }
  subst t_sol. exists (ao_params out), (ao_x out), sol. split; [|split; [exact L|split; [exact E1|exact H]]].
  unfold fresh_gradients. cbn [run_ops run_op skipn]. apply out1. unfold call_backward. cbn [cs_saved app]. unfold pyget. cbn [nth_error rbind snd fst].
  unfold call_forward. cbn [cs_params cs_control cn_field cn_solver cn_atol cn_rtol cn_interp cn_path nd].
  refine (eq_trans (f_equal (fun r => rbind r _) E1) _). cbn [rbind fst snd cn_nparams cn_adj_solver cn_adj_atol cn_adj_rtol]. cbv zeta. unfold rmap.
  refine (eq_trans (f_equal (fun r => rbind r _) E2) _). reflexivity.
Qed.

(** ** Gradients with respect to the input *)
(** Forward call of a NeuralODE with sensitivity='autograd' and a field that depends on a control: the control is the initial state (neuralde.py line 121) *)
Definition controlled_solve (fuel : nat) (f : list R -> R -> list R -> list R) (x ts : list R) s atol rtol :=
  snd (@odeint ROps fuel (f x) x (@TTensor ROps ts) s atol rtol false false [] None).
(** The same on numbers with derivatives: the control is detached *)
Definition controlled_autograd (fuel : nat) (F : list (R * R) -> R * R -> list (R * R) -> list (R * R)) (X : list (R * R)) (ts : list R) s atol rtol :=
  snd (@odeint_autograd ROps fuel (F (@detv ROps X)) X (@TTensor DR (map (fun t => (t, 0)) ts)) s atol rtol false false [] None).

(** C159 when the control is held fixed: the gradients are those of the solution of the field with the control fixed at the initial state.  Missing: the dependence
    of the solution on the initial state through the control. *)
Lemma C159_fixed_control_partial_pf :
  forall fuel fuel' n sd sr (F : list (R * R) -> R * R -> list (R * R) -> list (R * R)) f X x ts atol rtol atol' rtol',
  fixed_family n sd sr -> tracks_vec n X x -> tracks_field n (F (@detv ROps X)) (fun e => f e (x 0)) ->
  tracks_solve n (controlled_autograd fuel F X ts sd atol' rtol')
    (fun e => snd (@odeint ROps fuel' (f e (x 0)) (x e) (@TTensor ROps ts) (sr e) atol rtol false false [] None)).
Proof.
  intros fuel fuel' n sd sr F f X x ts atol rtol atol' rtol' Hfam HX HF.
  exact (C143_fixed_step_pf fuel fuel' n sd sr (F (@detv ROps X)) (fun e => f e (x 0)) X x ts [] atol rtol atol' rtol' false false None Hfam HF HX).
Qed.

(** C159 is violated: x' = u with control u = x(0), euler over [0, 1]: node(x) = 2 x, but the gradient is 1. *)
Lemma C159_control_refuted_pf : forall fuel atol rtol atol' rtol',
  (forall x, exists ts, controlled_solve fuel (fun u _ _ => u) [x] [0; 1] (Euler ROps) atol rtol = Ok (ts, [[x]; [2 * x]])) /\
  (forall x, exists ts, controlled_autograd fuel (fun U _ _ => U) [(x, 1)] [0; 1] (Euler DR) atol' rtol' = Ok (ts, [[(x, 1)]; [(2 * x, 1)]])).
Proof.
  intros fuel atol rtol atol' rtol'.
  assert (A : forall x y, snd (@odeint ROps fuel (fun _ _ => [y]) [x] (@TTensor ROps [0; 1]) (Euler ROps) atol rtol false false [] None) = Ok ([0; 1], [[x]; [x + y]])).
  { intros x y. destruct erk_euler as (Hfix & Hs). destruct (Hs 1%nat (fun _ _ => [y]) (fun _ _ _ => eq_refl)) as (one & lg & Hst & Hone).
    refine (eq_trans (C01_fixed_trajectory_pf fuel _ _ one lg [x] 0 1 [] _ _ _ _ _ Hfix Hst pair_sep ltac:(lra)) _).
    assert (EX : forall a b : list R, a = b -> @Ok (list R * list (list R)) ([0; 1], [[x]; a]) = Ok ([0; 1], [[x]; b])) by (intros; subst; reflexivity).
    cbn [one_step_traj]. apply EX. rewrite Hone by reflexivity. unfold erk_step. cbn. f_equal. unfold Q2R. cbn. field. }
  split.
  - intros x. exists [0; 1]. refine (eq_trans (A x x) _). replace (2 * x) with (x + x) by ring. reflexivity.
  - intros x. exists [(0, 0); (1, 0)].
    assert (I : tracks_vec 1 [(x, 1)] (fun e => [x + e])).
    { split; [reflexivity|]. split; [reflexivity|]. intros [|i] Hi; [|lia]. cbn [nth]. split; [cbn; lra|]. cbn [snd]. replace 1 with (0 + 1) by lra.
      apply (derivable_pt_lim_plus (fun _ => x) (fun e => e)); [apply derivable_pt_lim_const|apply (derivable_pt_lim_id 0)]. }
    assert (HF : tracks_field 1 (fun _ _ => @detv ROps [(x, 1)]) (fun _ _ _ => [x])).
    { intros t Y y _. split; [reflexivity|]. split; [reflexivity|]. intros [|i] Hi; [|lia]. cbn [nth detv map]. apply (tr_cst x). }
    destruct (C143_gradient_pf fuel fuel 1 _ _ (fun _ _ => @detv ROps [(x, 1)]) (fun _ _ _ => [x]) [(x, 1)] (fun e => [x + e]) 0 1 [] atol rtol atol' rtol' false false None (ff_euler 1) HF I pair_sep ltac:(lra))
      as (SS & s & E1 & E2 & L & HT).
    refine (eq_trans E1 _). cbn [map].
    assert (Es : forall e, s e = [[x + e]; [x + e + x]]).
    { intros e. pose proof (eq_trans (eq_sym (E2 e)) (A (x + e) x)) as Q. now injection Q. }
    destruct HT as [_ HT]. destruct SS as [|S0 [|S1 [|? ?]]]; try discriminate.
    assert (U : forall S (c : R -> R) l, tracks_vec 1 S (fun e => [c e]) -> derivable_pt_lim c 0 l -> S = [(c 0, l)]).
    { intros S c l (L1 & _ & H) Hl. destruct S as [|[a b] [|? ?]]; try discriminate. destruct (H 0%nat ltac:(lia)) as [Ea Eb]. cbn in Ea, Eb. subst a. do 2 f_equal. now apply (uniqueness_limite c 0). }
    assert (D : derivable_pt_lim (fun e => x + e) 0 1).
    { replace 1 with (0 + 1) by lra. apply (derivable_pt_lim_plus (fun _ => x) (fun e => e)); [apply derivable_pt_lim_const|apply (derivable_pt_lim_id 0)]. }
    rewrite (U S0 (fun e => x + e) 1); [|apply (tv_ext 1 _ (fun e => nth 0 (s e) [])); [intros e; rewrite Es; reflexivity|apply (HT 0%nat); cbn; lia]|exact D].
    rewrite (U S1 (fun e => x + e + x) 1); [|apply (tv_ext 1 _ (fun e => nth 1 (s e) [])); [intros e; rewrite Es; reflexivity|apply (HT 1%nat); cbn; lia]|].
    + assert (EX : forall a b c d : R, a = c -> b = d -> @Ok (list (R * R) * list (list (R * R))) ([(0, 0); (1, 0)], [[(a, 1)]; [(b, 1)]]) = Ok ([(0, 0); (1, 0)], [[(c, 1)]; [(d, 1)]])) by (intros; subst; reflexivity).
      apply EX; ring.
    + replace 1 with (1 + 0) by lra. apply (derivable_pt_lim_plus (fun e => x + e) (fun _ => x)); [exact D|apply derivable_pt_lim_const].
Qed.

(** The field u x with control u, started at x + e, meets the hypotheses of C159. *)
Lemma C159_ex_pf : tracks_vec 1 [(2, 1)] (fun e => [2 + e]) /\
  tracks_field 1 ((fun U (_ : R * R) Y => map2 (@nmul DR) U Y) (@detv ROps [(2, 1)])) (fun e => (fun _ u _ y => map2 Rmult u y) e [2 + 0]).
Proof.
  assert (I : tracks_vec 1 [(2, 1)] (fun e => [2 + e])).
  { split; [reflexivity|]. split; [reflexivity|]. intros [|i] Hi; [|lia]. cbn [nth]. split; [cbn; lra|]. cbn [snd]. replace 1 with (0 + 1) by lra.
    apply (derivable_pt_lim_plus (fun _ => 2) (fun e => e)); [apply derivable_pt_lim_const|apply (derivable_pt_lim_id 0)]. }
  split; [exact I|]. intros t Y y HY. apply (tv_map2 1 (@nmul DR) Rmult); [apply tr_mul| |exact HY].
  split; [reflexivity|]. split; [reflexivity|]. intros [|i] Hi; [|lia]. cbn [nth detv map]. rewrite Rplus_0_r. apply (tr_cst 2).
Qed.
