(** Proofs of the properties of the core package: call signatures, higher order, NeuralODE, problems. *)
From Coq Require Import ZArith QArith Reals Lra Lia String List Bool Floats.
From Verif Require Import Num Py Tensor M_SolversOde M_Odeint M_Core Spec_Core L_Base.
Import ListNotations.
Local Open Scope nat_scope.
Notation length := List.length.

(** ** C44 *)

Lemma cols_concat {T} w : forall (bs : list (list T)) i b, Forall (fun b => length b = w) bs -> nth_error bs i = Some b ->
  firstn w (skipn (w * i) (concat bs)) = b.
Proof.
  induction bs as [|a bs IH]; intros i b HF Hn; [destruct i; discriminate|].
  apply Forall_cons_iff in HF. destruct HF as (Ha & HF). destruct i as [|i].
  - cbn in Hn. injection Hn as ->. rewrite Nat.mul_0_r. cbn [skipn concat]. rewrite firstn_app, Ha, Nat.sub_diag. cbn. rewrite app_nil_r.
    apply firstn_all2. lia.
  - cbn [concat]. replace (w * S i) with (length a + w * i) by (rewrite Ha; lia).
    rewrite skipn_app. rewrite skipn_all2 by lia. cbn [app]. replace (length a + w * i - length a) with (w * i) by lia. apply IH; auto.
Qed.

Lemma concat_len {T} w : forall (bs : list (list T)), Forall (fun b => length b = w) bs -> length (concat bs) = w * length bs.
Proof.
  induction bs as [|a bs IH]; intros HF; cbn; [lia|]. apply Forall_cons_iff in HF. destruct HF as (Ha & HF).
  rewrite app_length, IH by assumption. rewrite Ha. lia.
Qed.

Lemma cat1_cons {K : NumOps} (p : list (vec K)) (qs : list (list (vec K))) :
  Forall (fun q => length q = length p) qs ->
  cat1 (p :: qs) = Ok (fold_left (fun a q => map2 (@app K) a q) qs p).
Proof.
  cbn. revert p. induction qs as [|q qs IH]; intros p HF; cbn; [reflexivity|].
  apply Forall_cons_iff in HF. destruct HF as (Hq & HF). 
  match goal with |- context [if ?b then _ else _] => replace b with true by (symmetry; apply Nat.eqb_eq; symmetry; exact Hq) end. apply IH.
  eapply Forall_impl; [|exact HF]. cbn. intros a Ha. rewrite Ha. symmetry. apply map2_length_eq; [reflexivity|exact Hq].
Qed.

Lemma shifted_stacked {K : NumOps} n w (x : list (list (vec K))) : 1 <= n -> stacked n w x ->
  shifted_blocks n (map (@concat K) x) = map (fun i => map (fun row => nth i row []) x) (seq 1 (n - 1)).
Proof.
  intros Hn Hs. unfold shifted_blocks.
  destruct x as [|r x0] eqn:Ex.
  { cbn [map]. apply map_ext. reflexivity. }
  rewrite <- Ex in *.
  assert (Hw : width (map (@concat K) x) / n = w).
  { rewrite Ex in *. apply Forall_cons_iff in Hs. destruct Hs as ((H1 & H2) & _). cbn. 
    rewrite (concat_len w) by exact H2. change (num K) with (num K). rewrite H1. apply Nat.div_mul. lia. }
  rewrite Hw. clear Ex Hw r x0. apply map_ext_in. intros i Hi. apply in_seq in Hi.
  unfold cols. rewrite map_map. apply map_ext_in. intros row Hr.
  unfold stacked in Hs. rewrite Forall_forall in Hs. destruct (Hs _ Hr) as (H1 & H2).
  replace (w * (i + 1) - w * i) with w by lia.
  destruct (nth_error row i) as [b|] eqn:Eb.
  - rewrite (nth_error_nth _ _ _ Eb). apply (cols_concat w); assumption.
  - apply nth_error_None in Eb. lia.
Qed.

Lemma fold_rows {K : NumOps} (x : list (list (vec K))) (g : nat -> list (vec K) -> vec K) : forall is (h : list (vec K) -> vec K),
  fold_left (fun a q => map2 (@app K) a q) (map (fun i => map (g i) x) is) (map h x)
  = map (fun row => fold_left (fun acc i => acc ++ g i row) is (h row)) x.
Proof.
  induction is as [|i is IH]; intros h; [reflexivity|]. cbn [map fold_left].
  rewrite <- (IH (fun row => h row ++ g i row)). f_equal. rewrite map2_map_l, map2_map_r. rewrite map2_same. reflexivity.
Qed.

Lemma fold_nths {T} : forall (bs pre : list (list T)) acc,
  fold_left (fun acc i => acc ++ nth i (pre ++ bs) []) (seq (length pre) (length bs)) acc = acc ++ concat bs.
Proof.
  induction bs as [|b bs IH]; intros pre acc; cbn [length seq fold_left concat]; [now rewrite app_nil_r|].
  rewrite app_nth2 by lia. rewrite Nat.sub_diag. cbn [nth].
  specialize (IH (pre ++ [b]) (acc ++ b)). rewrite app_length, <- app_assoc in IH. cbn in IH.
  replace (length pre + 1) with (S (length pre)) in IH by lia. rewrite IH. now rewrite <- app_assoc.
Qed.

Lemma cat_stacked {K : NumOps} n w (x : list (list (vec K))) (d : list (vec K)) : 2 <= n -> stacked n w x -> length d = length x ->
  cat1 (shifted_blocks n (map (@concat K) x) ++ [d]) = Ok (map (fun q => concat (tl (fst q)) ++ snd q) (combine x d)).
Proof.
  intros Hn Hs Hd. rewrite (shifted_stacked n w) by (auto; lia).
  destruct n as [|[|m]]; [lia|lia|]. cbn [Nat.sub]. cbn [seq map app].
  rewrite cat1_cons.
  2:{ apply Forall_app. split; [|constructor; [now rewrite map_length|constructor]].
      apply Forall_map. apply Forall_forall. intros i _. now rewrite !map_length. }
  rewrite fold_left_app. cbn [fold_left]. 
  pose proof (fold_rows x (fun i row => nth i row []) (seq 2 m) (fun row => nth 1 row [])) as E.
  etransitivity; [apply f_equal; apply (f_equal (fun z => map2 (@app K) z d)); exact E|]. clear E. f_equal.
  etransitivity; [apply map2_combine|].
  assert (Hc : forall l (e : list (vec K)), incl l x ->
     map (fun ab => @app K (fst ab) (snd ab)) (combine (map (fun row => fold_left (fun acc i => acc ++ nth i row []) (seq 2 m) (nth 1 row [])) l) e)
     = map (fun q => concat (tl (fst q)) ++ snd q) (combine l e)).
  { induction l as [|r l IH]; intros [|e0 e] Hi; cbn [map combine fst snd]; auto. f_equal.
    - assert (Hr : In r x) by (apply Hi; now left). unfold stacked in Hs. rewrite Forall_forall in Hs. destruct (Hs _ Hr) as (H1 & _).
      destruct r as [|b0 [|b1 bs]]; cbn in H1; try lia. f_equal.
      injection H1 as H1. cbn [tl concat nth]. rewrite <- H1.
      exact (fold_nths bs [b0; b1] b1).
    - apply IH. intros q Hq. apply Hi. now right. }
  apply (Hc x d). intros q Hq. exact Hq.
Qed.

Lemma neq_eqb a b : a <> b -> String.eqb a b = false.
Proof. apply String.eqb_neq. Qed.

Arguments String.eqb : simpl never.
Ltac eqbs := repeat match goal with
  | H : ?a <> ?b |- _ => match goal with |- context [String.eqb a b] => rewrite (neq_eqb a b H) end
  | H : ?a <> ?b |- _ => match goal with |- context [String.eqb b a] => rewrite (neq_eqb b a (fun e => H (eq_sym e))) end
  | |- context [String.eqb ?a ?a] => rewrite (String.eqb_refl a)
  | |- context [String.eqb ?a ?b] => let v := eval compute in (String.eqb a b) in
      match v with true => change (String.eqb a b) with true | false => change (String.eqb a b) with false end
  end; cbn [andb orb negb].

Section Calls.
Context {K : NumOps} {A : Type} (empty : A).
Notation callable := (@callable K A).

Lemma evaluates_call (c : callable) t x env : evaluates empty c t x env ->
  exists v, standardize c = Ok v /\ forall dep, call_vf empty v dep t x None = c_body c dep env.
Proof.
  intros H. unfold standardize. destruct H as [p Hs Hp|p Hm Hs Hp|p nd Hm Hs Hn Hp Hq]; unfold takes in Hs; rewrite Hs; cbn [sg_params mem existsb].
  - exists (Base c false). split.
    + eqbs. now destruct (c_module c).
    + intros dep. cbn [call_vf]. unfold call_callable. rewrite Hs. unfold bind_args. cbn. eqbs. reflexivity.
  - exists (User c). split.
    + rewrite Hm. reflexivity.
    + intros dep. cbn [call_vf]. unfold call_callable. rewrite Hs. unfold bind_args. cbn. eqbs. reflexivity.
  - exists (Base c true). split.
    + rewrite Hm. reflexivity.
    + intros dep. cbn [call_vf]. unfold call_callable. rewrite Hs. unfold bind_args. cbn. eqbs.
      destruct nd as [|[|nd]]; [| |lia]; cbn; eqbs; reflexivity.
Qed.
End Calls.

(** C44.  A NeuralODE of any order n >= 2 around any of the vector fields of [evaluates], without an
    integral loss in the state: on a batch whose rows are n blocks of equal width (the derivatives of
    order 0 to n - 1), if the user's field, called once at (t, x), returns one row per row of x, then the
    value seen by the solver has in each row the blocks 1 to n - 1 followed by the field's row. *)
Lemma C44_higher_order_partial_pf :
  forall (K : NumOps) (A : Type) (empty : A) (c : @callable K A) n w iloss sens t (x : list (list (vec K))) env d,
  2 <= n -> stacked n w x -> iloss = None \/ sens <> "autograd"%string ->
  evaluates empty c t (map (@concat K) x) env -> c_body c (Some t) env = Ok d -> length d = length x ->
  exists v, neuralode_vf c n iloss sens = Ok v /\
    solver_call empty v t (map (@concat K) x) = Ok (map (fun q => concat (tl (fst q)) ++ snd q) (combine x d)).
Proof.
  intros K A empty c n w iloss sens t x env d Hn Hs Hi He Hd Hl.
  destruct (evaluates_call empty c t _ env He) as (v & Hv & Hc).
  unfold neuralode_vf. rewrite Hv. cbn [rbind]. eexists. split; [reflexivity|].
  unfold solver_call. cbn [call_vf]. specialize (Hc (Some t)). rewrite Hd in Hc.
  assert (Hn2 : (1 <? n) = true) by (apply Nat.ltb_lt; lia).
  assert (E : rbind (call_vf empty v (Some t) t (map (@concat K) x) None) (fun d => cat1 (shifted_blocks n (map (@concat K) x) ++ [d]))
     = Ok (map (fun q => concat (tl (fst q)) ++ snd q) (combine x d))).
  { rewrite Hc. cbn [rbind]. apply (cat_stacked n w); assumption. }
  rewrite Hn2. destruct Hi as [-> | Hi]; [exact E|]. rewrite (neq_eqb _ _ Hi). destruct iloss; exact E.
Qed.

(** C44 fails with an integral loss: for every vector field, state and order above 1, evaluating a
    NeuralODE with sensitivity 'autograd' and an integral loss raises AttributeError
    ([self.horder_forward]). *)
Lemma C44_integral_loss_refuted_pf :
  forall (K : NumOps) (A : Type) (empty : A) (c : @callable K A) n il t x v, 2 <= n ->
  neuralode_vf c n (Some il) "autograd" = Ok v ->
  solver_call empty v t x = Err AttributeError.
Proof.
  intros K A empty c n il t x v Hn H. unfold neuralode_vf in H. destruct (standardize c) as [v0| |]; try discriminate. cbn in H. injection H as <-.
  unfold solver_call. cbn [call_vf]. rewrite String.eqb_refl. assert (Hn2 : (1 <? n) = true) by (apply Nat.ltb_lt; lia). now rewrite Hn2.
Qed.

(** C44, order 1 with an integral loss (one value l_i per row): the loss is the first column, the field
    is evaluated on the other columns. *)
Lemma C44_integral_loss_order1_pf :
  forall (K : NumOps) (A : Type) (empty : A) (c : @callable K A) il t (a : vec K) (x : list (vec K)) l env d,
  length a = length x -> il t x = Loss1 l -> length l = length d ->
  evaluates empty c t x env -> c_body c (Some t) env = Ok d ->
  exists v, neuralode_vf c 1 (Some il) "autograd" = Ok v /\
    solver_call empty v t (map (fun q => fst q :: snd q) (combine a x)) = Ok (map (fun q => fst q :: snd q) (combine l d)).
Proof.
  intros K A empty c il t a x l env d Ha Hl Hll He Hd.
  destruct (evaluates_call empty c t _ env He) as (v & Hv & Hc).
  unfold neuralode_vf. rewrite Hv. cbn [rbind]. eexists. split; [reflexivity|].
  unfold solver_call. cbn [call_vf]. rewrite String.eqb_refl. cbn [Nat.ltb Nat.leb].
  assert (Ex : cols_from 1 (map (fun q : K * vec K => fst q :: snd q) (combine a x)) = x).
  { clear - Ha. revert x Ha. induction a as [|a0 a IH]; intros x Ha; destruct x as [|x0 x]; [reflexivity|discriminate|discriminate|].
    cbn. f_equal. apply IH. now injection Ha. }
  match goal with |- rbind (call_vf _ _ _ _ ?y _) _ = _ => replace y with x by (symmetry; exact Ex) end.
  rewrite (Hc (Some t)), Hd. cbn [rbind].
  rewrite Hl. cbn [loss_cols].
  rewrite cat1_cons. 2:{ constructor; [|constructor]. rewrite map_length. now symmetry. }
  cbn [fold_left]. f_equal. clear. revert d. induction l as [|l0 l IH]; intros [|d0 d]; cbn; auto. f_equal. apply IH.
Qed.

(** ** C45 *)

(** C45: f(x), module or function, whatever the name of its parameter (not t). *)
Lemma C45_state_only_partial_pf :
  forall (K : NumOps) (A : Type) (empty : A) (c : @callable K A) p, takes c [p] 0 -> p <> "t"%string ->
  exists v w, odeproblem_vf c = Ok v /\ (forall sens, neuralode_vf c 1 None sens = Ok (w sens)) /\
  forall sens t x,
    solver_call empty v t x = c_body c None [(p, VState x)] /\
    solver_call empty (w sens) t x = c_body c (Some t) [(p, VState x)].
Proof.
  intros K A empty c p Hs Hp. unfold takes in Hs.
  assert (E : standardize c = Ok (Base c false)).
  { unfold standardize. rewrite Hs. cbn [sg_params mem existsb]. eqbs. now destruct (c_module c). }
  exists (Base c false), (Def (Base c false) 1 None). unfold odeproblem_vf, neuralode_vf. rewrite E. cbn [rbind].
  split; [reflexivity|]. split; [reflexivity|]. intros sens t x. unfold solver_call. cbn [call_vf]. unfold call_callable. rewrite Hs.
  unfold bind_args. cbn. eqbs. split; reflexivity.
Qed.

(** C45: a function or module taking (t, x, args), args with a default; the parameters get the time,
    the state and, for functions and in NeuralODE, the empty dictionary (an ODEProblem leaves args of a
    module to its default). *)
Lemma C45_time_state_args_partial_pf :
  forall (K : NumOps) (A : Type) (empty : A) (c : @callable K A) p,
  takes c ["t"; p; "args"]%string 1 -> p <> "t"%string -> p <> "args"%string ->
  exists v w, odeproblem_vf c = Ok v /\ (forall sens, neuralode_vf c 1 None sens = Ok (w sens)) /\
  forall sens t x,
    let full := [("t"%string, VTime t); (p, VState x); ("args"%string, VArgs empty)] in
    solver_call empty v t x = c_body c None (if c_module c then firstn 2 full else full) /\
    solver_call empty (w sens) t x = c_body c (Some t) full.
Proof.
  intros K A empty c p Hs Hp Hq. unfold takes in Hs.
  set (v := if c_module c then User c else Base c true).
  assert (E : standardize c = Ok v).
  { unfold standardize, v. rewrite Hs. cbn [sg_params mem existsb]. eqbs. now destruct (c_module c). }
  exists v, (Def v 1 None). unfold odeproblem_vf, neuralode_vf. rewrite E. cbn [rbind].
  split; [reflexivity|]. split; [reflexivity|]. intros sens t x. unfold solver_call. cbn [call_vf].
  unfold v. destruct (c_module c); cbn [call_vf]; unfold call_callable; rewrite Hs;
  unfold bind_args; cbn; eqbs; split; reflexivity.
Qed.

(** C45 fails for f(t, x), the signature the documentation asks for: a plain function is called with
    an extra args and raises TypeError, in ODEProblem and in NeuralODE; a module works in ODEProblem
    but raises TypeError in a NeuralODE of order 1 without integral loss.  For all bodies and inputs. *)
Lemma C45_time_state_refuted_pf :
  forall (K : NumOps) (A : Type) (empty : A) (c : @callable K A), takes c ["t"; "x"]%string 0 ->
  exists v w, odeproblem_vf c = Ok v /\ (forall sens, neuralode_vf c 1 None sens = Ok (w sens)) /\
  forall sens t x,
    solver_call empty v t x = (if c_module c then c_body c None [("t", VTime t); ("x", VState x)]%string else Err TypeError) /\
    solver_call empty (w sens) t x = Err TypeError.
Proof.
  intros K A empty c Hs. unfold takes in Hs.
  set (v := if c_module c then User c else Base c true).
  assert (E : standardize c = Ok v).
  { unfold standardize, v. rewrite Hs. cbn [sg_params mem existsb]. eqbs. now destruct (c_module c). }
  exists v, (Def v 1 None). unfold odeproblem_vf, neuralode_vf. rewrite E. cbn [rbind].
  split; [reflexivity|]. split; [reflexivity|]. intros sens t x. unfold solver_call. cbn [call_vf].
  unfold v. destruct (c_module c); cbn [call_vf]; unfold call_callable; rewrite Hs;
  unfold bind_args; cbn; eqbs; split; reflexivity.
Qed.

(** C45: a callable with the parameters (x, t, args) is accepted, and gets the time as x and the state
    as t. *)
Lemma C45_swapped_refuted_pf :
  forall (K : NumOps) (A : Type) (empty : A) (c : @callable K A), takes c ["x"; "t"; "args"]%string 1 ->
  exists w, (forall sens, neuralode_vf c 1 None sens = Ok (w sens)) /\
  forall sens t x,
    solver_call empty (w sens) t x = c_body c (Some t) [("x", VTime t); ("t", VState x); ("args", VArgs empty)]%string.
Proof.
  intros K A empty c Hs. unfold takes in Hs.
  set (v := if c_module c then User c else Base c true).
  assert (E : standardize c = Ok v).
  { unfold standardize, v. rewrite Hs. cbn [sg_params mem existsb]. eqbs. now destruct (c_module c). }
  exists (Def v 1 None). unfold odeproblem_vf, neuralode_vf. rewrite E. cbn [rbind].
  split; [reflexivity|]. intros sens t x. unfold solver_call. cbn [call_vf].
  unfold v. destruct (c_module c); cbn [call_vf]; unfold call_callable; rewrite Hs;
  unfold bind_args; cbn; eqbs; reflexivity.
Qed.

(** C44, C45: concrete fields meet the hypotheses. *)
Lemma C44_C45_ex_pf :
  let oscillator := @MkCall ROps unit true (Some (MkSig ["t"; "x"]%string 0 false false)) (fun _ env =>
    match env with
    | [_; (_, VState x)] => Ok (map (fun row => match row with q :: _ => [(- q)%R] | _ => [] end) x)
    | _ => Err TypeError
    end) in
  let x : list (list (vec ROps)) := [[[1]; [2]]; [[3]; [4]]]%R in
  stacked 2 1 x /\
  evaluates tt oscillator (0 : ROps)%R (map (@concat ROps) x) [("t", VTime (0 : ROps)%R); ("x", VState (map (@concat ROps) x))]%string /\
  (exists v, neuralode_vf oscillator 2 None "adjoint" = Ok v /\
     solver_call tt v (0 : ROps)%R (map (@concat ROps) x) = Ok [[2; - (1)]; [4; - (3)]]%R) /\
  (exists v, neuralode_vf oscillator 1 None "adjoint" = Ok v /\
     solver_call tt v (0 : ROps)%R (map (@concat ROps) x) = Err TypeError).
Proof.
  cbv zeta. split; [repeat constructor|]. split; [apply (by_module tt _ _ _ "x"%string); [reflexivity|reflexivity|discriminate]|].
  split; eexists; split; reflexivity.
Qed.

(** C45: a field with a further required argument cannot be solved: every call raises TypeError *)
Lemma C45_extra_argument_pf :
  forall (K : NumOps) (A : Type) (empty : A) (c : @callable K A) u, u <> "t"%string -> u <> "x"%string -> u <> "args"%string ->
  takes c ["t"; "x"; "args"; u]%string 0 \/ takes c ["x"; u]%string 0 ->
  exists v w, odeproblem_vf c = Ok v /\ (forall sens, neuralode_vf c 1 None sens = Ok (w sens)) /\
  forall sens t x, solver_call empty v t x = Err TypeError /\ solver_call empty (w sens) t x = Err TypeError.
Proof.
  intros K A empty c u H1 H2 H3 [Hs|Hs]; unfold takes in Hs.
  - set (v := if c_module c then User c else Base c true).
    assert (E : standardize c = Ok v).
    { unfold standardize, v. rewrite Hs. cbn [sg_params mem existsb]. eqbs. now destruct (c_module c). }
    exists v, (Def v 1 None). unfold odeproblem_vf, neuralode_vf. rewrite E. cbn [rbind]. split; [reflexivity|]. split; [reflexivity|].
    intros sens t x. unfold v, solver_call, call_vf, call_callable, bind_args. destruct (c_module c); rewrite Hs; cbn; eqbs; cbn; now rewrite ?andb_false_r.
  - assert (E : standardize c = Ok (Base c false)).
    { unfold standardize. rewrite Hs. cbn [sg_params mem existsb]. eqbs. now destruct (c_module c). }
    exists (Base c false), (Def (Base c false) 1 None). unfold odeproblem_vf, neuralode_vf. rewrite E. cbn [rbind]. split; [reflexivity|]. split; [reflexivity|].
    intros sens t x. unfold solver_call, call_vf, call_callable, bind_args. rewrite Hs; cbn; eqbs; cbn; now rewrite ?andb_false_r.
Qed.

(** ** C46 *)

(** C46.  Without t_span forward is the solve over the span stored in the model, or over [0, 1] if none is stored; with
    return_t_eval=False it returns the second component of what it returns otherwise, after the same
    evaluations of the field. *)
Lemma C46_forward_partial_pf :
  forall (K : NumOps) fuel p x (ts : option (tspan K)) save_at nargs,
  neuralode_forward fuel p None x None save_at nargs = problem_odeint fuel p x (TTensor [n0; n1]) save_at nargs /\
  (forall l, neuralode_forward fuel p (Some l) x None save_at nargs = problem_odeint fuel p x (TTensor l) save_at nargs) /\
  (forall l own, neuralode_forward fuel p own x (Some l) save_at nargs = problem_odeint fuel p x l save_at nargs) /\
  forall own log t s,
    neuralode_call fuel p own true x ts save_at nargs = (log, Ok (WithTimes t s)) ->
    neuralode_call fuel p own false x ts save_at nargs = (log, Ok (OnlySol s)).
Proof.
  intros K fuel p x ts save_at nargs. split; [reflexivity|]. split; [reflexivity|]. split; [reflexivity|]. intros own log t s.
  unfold neuralode_call. destruct (neuralode_forward fuel p own x ts save_at nargs) as (l & [[t' s']|e|]); cbn; intros H; try discriminate.
  injection H as <- <- <-. reflexivity.
Qed.

(** C46.  trajectory returns the states of forward (and evaluates the field at the same points) for the
    sensitivities 'autograd' and 'adjoint' when no interpolation takes place: a fixed-step solver, tsit5,
    or no interpolator. *)
Lemma C46_trajectory_partial_pf :
  forall (K : NumOps) fuel p own x (ts : option (tspan K)),
  pr_sens p = "autograd"%string \/ pr_sens p = "adjoint"%string ->
  s_fixed (pr_solver p) = true \/ s_is_tsit5 (pr_solver p) = true \/ pr_interp p = false ->
  fst (trajectory fuel p own x ts) = fst (neuralode_forward fuel p own x ts [] 0) /\
  snd (trajectory fuel p own x ts) = rmap snd (snd (neuralode_forward fuel p own x ts [] 0)).
Proof.
  intros K fuel p own x ts Hs Hi. unfold trajectory, neuralode_forward.
  set (l := prep_span own ts).
  assert (E : neuralode_forward fuel p own x ts [] 0 = odeint fuel (pr_f p) x l (pr_solver p) (pr_atol p) (pr_rtol p) (pr_interp p) false [] None).
  { unfold neuralode_forward, problem_odeint. fold l. destruct Hs as [-> | ->]; cbn [sens_of String.eqb Ascii.eqb Bool.eqb]; [reflexivity|].
    change (sens_of "adjoint") with Adjoint. rewrite andb_false_r.
    match goal with |- mbind ?m _ = _ => destruct m as (lg & [r|e|]) end; cbn; now rewrite ?app_nil_r. }
  unfold neuralode_forward in E. fold l in E. rewrite E.
  assert (E2 : odeint fuel (pr_f p) x l (pr_solver p) (pr_atol p) (pr_rtol p) (pr_interp p) false [] None
            = odeint fuel (pr_f p) x l (pr_solver p) (pr_atol p) (pr_rtol p) false false [] None).
  { unfold odeint. destruct (prep_time (pr_f p) l) as [[f' l']|e|]; try reflexivity. cbn.
    destruct Hi as [-> | [-> | ->]]; reflexivity. }
  rewrite E2. match goal with |- context [mbind ?m _] => destruct m as (lg & [r|e|]) end; cbn; rewrite ?app_nil_r; split; reflexivity.
Qed.

(** C46 fails with 'interpolated_adjoint' and an adaptive solver: forward returns every accepted step,
    trajectory only the requested times (dopri5, zero field, binary64, for every pow). *)
Lemma C46_trajectory_refuted_pf :
  forall pw : float -> float -> float,
  let p := MkProb (K := FloatOps pw) (fun _ x => [0%float]) (DormandPrince45 (FloatOps pw)) false 0.001%float 0.001%float "interpolated_adjoint" in
  exists sol sol',
    snd (trajectory (K := FloatOps pw) 20 p None [1%float] None) = Ok sol /\ length sol = 2 /\
    rmap snd (snd (neuralode_forward (K := FloatOps pw) 20 p None [1%float] None [] 0)) = Ok sol' /\ length sol' = 8.
Proof.
  intros pw p. do 2 eexists. split; [vm_compute; reflexivity|]. split; [vm_compute; reflexivity|]. split; vm_compute; reflexivity.
Qed.

(** ** Data control *)

Lemma assign_after mods : controls_after_traces mods -> forall e (K : NumOps) (x : list (vec K)) i m,
  nth_error mods i = Some m ->
  nth_error (assign_controls mods e x) i
  = Some (if m_control m then Some (map (skipn (e + length (filter m_trace mods))) x) else None).
Proof.
  induction mods as [|q mods IH]; intros H e K x i m Hm; [destruct i; discriminate|].
  destruct H as (H1 & H2). destruct i as [|i]; cbn [assign_controls].
  - cbn in Hm. injection Hm as <-. cbn [nth_error]. f_equal. destruct (m_control q) eqn:Eq; [|reflexivity].
    specialize (H1 eq_refl). assert (E : filter m_trace mods = []).
    { clear - H1. induction mods as [|r mods IH]; [reflexivity|]. apply Forall_cons_iff in H1. destruct H1 as (H1 & H2). cbn. rewrite H1. auto. }
    cbn [filter]. rewrite E. unfold cols_from. destruct (m_trace q); cbn [length]; [reflexivity|]. now rewrite Nat.add_0_r.
  - cbn [nth_error] in *. rewrite (IH H2 _ K x i m Hm). cbn [filter]. destruct (m_trace q); cbn [length]; [|reflexivity].
    now replace (e + 1 + length (filter m_trace mods)) with (e + S (length (filter m_trace mods))) by lia.
Qed.

(** C46.  If no divergence module comes after a control module in named_modules(), every control module
    receives the initial condition without its leading loss and divergence columns; the other modules
    receive nothing. *)
Lemma C46_control_partial_pf :
  forall (K : NumOps) mods has_loss sens (x : list (vec K)) i m,
  controls_after_traces mods -> nth_error mods i = Some m ->
  nth_error (prep_controls mods has_loss sens x) i =
  Some (if m_control m
        then Some (map (skipn (extra_columns mods (has_loss && String.eqb sens "autograd"))) x) else None).
Proof.
  intros K mods hl sens x i m Hc Hm. unfold prep_controls, extra_columns. now apply assign_after.
Qed.

(** C46 fails if a control module precedes the divergence module: it gets the divergence column too. *)
Lemma C46_control_refuted_pf :
  exists mods : list submodule,
    @prep_controls ROps mods false "autograd" [[7; 1; 2]]%R = [Some [[7; 1; 2]]%R; None] /\
    extra_columns mods false = 1.
Proof. exists [MkMod false true; MkMod true false]. split; reflexivity. Qed.

(** the usual arrangement, a CNF around a network that contains a DataControl layer *)
Lemma C46_control_ex_pf :
  let mods := [MkMod false false; MkMod true false; MkMod false false; MkMod false true] in
  controls_after_traces mods /\
  @prep_controls ROps mods true "autograd" [[0; 0; 1; 2]; [0; 0; 3; 4]]%R = [None; None; None; Some [[1; 2]; [3; 4]]%R].
Proof. cbn. repeat split; intros; repeat constructor; try discriminate. Qed.

(** ** C47 *)

(** C47 holds for 'autograd' and fixed-step solvers: if the solve returns, the times are the requested
    save_at, and the result does not depend on the dictionary. *)
Lemma C47_autograd_partial_pf :
  forall (K : NumOps) fuel p x (ts : tspan K) s save_at nargs times sol,
  pr_sens p = "autograd"%string -> s_fixed (pr_solver p) = true ->
  snd (problem_odeint fuel p x ts (s :: save_at) nargs) = Ok (times, sol) -> times = s :: save_at.
Proof.
  intros K fuel p x ts s save_at nargs times sol Hs Hf. unfold problem_odeint. rewrite Hs. change (sens_of "autograd") with Autograd. cbv iota beta.
  unfold odeint. destruct (prep_time (pr_f p) ts) as [[f l]|e|]; cbn; try discriminate. rewrite Hf. unfold fixed_odeint.
  destruct (negb _); [discriminate|]. destruct (pyget l 0) as [t0| |]; try discriminate. cbn.
  destruct (pylast l) as [tl| |]; try discriminate. cbn. destruct (pyget l 1) as [t1| |]; try discriminate. cbn.
  match goal with |- context [mbind ?m _] => destruct m as (lg & [[|y r]|e|]) end; cbn; try discriminate.
  intros H. injection H as <- _. reflexivity.
Qed.

(** C47 fails for the adjoint sensitivities: save_at is ignored, for every problem and input. *)
Lemma C47_adjoint_save_at_refuted_pf :
  forall (K : NumOps) fuel p x (ts : tspan K) save_at nargs,
  pr_sens p = "adjoint"%string \/ pr_sens p = "interpolated_adjoint"%string ->
  problem_odeint fuel p x ts save_at nargs = problem_odeint fuel p x ts [] nargs /\
  (forall t0 t1 l times sol, ts = TTensor (t0 :: t1 :: l) -> (t1 <? t0)%N = false -> s_fixed (pr_solver p) = true ->
     snd (problem_odeint fuel p x ts save_at nargs) = Ok (times, sol) -> times = t0 :: t1 :: l).
Proof.
  intros K fuel p x ts save_at nargs Hs. split.
  - unfold problem_odeint. destruct Hs as [-> | ->]; reflexivity.
  - intros t0 t1 l times sol -> Ht Hf. unfold problem_odeint. rewrite Hf. cbn [andb].
    assert (E : forall b, snd (odeint fuel (pr_f p) x (TTensor (t0 :: t1 :: l)) (pr_solver p) (pr_atol p) (pr_rtol p) (pr_interp p) b [] None) = Ok (times, sol) -> times = t0 :: t1 :: l).
    { intros b. unfold odeint, prep_time. cbn. rewrite Ht. cbn. rewrite Hf. unfold fixed_odeint.
      destruct (negb _); [discriminate|]. cbn. destruct (pylast (t0 :: t1 :: l)) as [tl| |]; try discriminate. cbn.
      match goal with |- context [mbind ?m _] => destruct m as (lg & [[|y r]|e|]) end; cbn; try discriminate.
      intros H. injection H as <- _. reflexivity. }
    destruct (0 <? nargs).
    + destruct Hs as [-> | ->]; cbn; rewrite Ht; discriminate.
    + destruct Hs as [-> | ->]; [change (sens_of "adjoint") with Adjoint | change (sens_of "interpolated_adjoint") with InterpAdjoint]; cbv iota beta;
      [specialize (E false)|specialize (E true)]; match goal with |- context [mbind ?m _] => destruct m as (lg & [[a b]|e|]) end; cbn in *; intros H; try discriminate;
      apply E; exact H.
Qed.

(** C47: with an adjoint sensitivity and a fixed-step solver a non-empty args makes the solve raise. *)
Lemma C47_adjoint_args_refuted_pf :
  forall (K : NumOps) fuel p x t0 t1 (l : list K) save_at nargs,
  pr_sens p = "adjoint"%string \/ pr_sens p = "interpolated_adjoint"%string -> s_fixed (pr_solver p) = true -> 0 < nargs ->
  snd (problem_odeint fuel p x (TTensor (t0 :: t1 :: l)) save_at nargs) = Err RuntimeError.
Proof.
  intros K fuel p x t0 t1 l save_at nargs Hs Hf Hn. unfold problem_odeint. rewrite Hf.
  assert (E : (0 <? nargs) = true) by now apply Nat.ltb_lt. rewrite E.
  destruct Hs as [-> | ->]; cbn; destruct (t1 <? t0)%N; reflexivity.
Qed.

(** C47: args never reaches the vector field, which is given the empty dictionary for every args. *)
Lemma C47_args_refuted_pf :
  forall (K : NumOps) (A : Type) (empty : A) (c : @callable K A) sens,
  takes c ["t"; "x"; "args"]%string 1 ->
  exists v, neuralode_vf c 1 None sens = Ok v /\
  forall a t x, field_during_solve empty v a t x = c_body c (Some t) [("t", VTime t); ("x", VState x); ("args", VArgs empty)]%string.
Proof.
  intros K A empty c sens H. destruct (C45_time_state_args_partial_pf K A empty c "x" H ltac:(discriminate) ltac:(discriminate)) as (v & w & _ & Hw & E).
  exists (w sens). split; [apply Hw|]. intros a t x. apply E.
Qed.

(** ** C50 *)

(** C50 holds for 'autograd'. *)
Lemma C50_autograd_partial_pf :
  forall (T : Type) (run : string -> nat -> Z -> res T) solver maxiter fine_steps,
  msproblem_odeint run "autograd" solver maxiter fine_steps = run solver fine_steps (Z.of_nat maxiter).
Proof. reflexivity. Qed.

(** C50 fails for the adjoint sensitivities: the forward solve always raises AttributeError (the solver
    passed on is None), and the two counts are exchanged in the call. *)
Lemma C50_adjoint_refuted_pf :
  forall (T : Type) (run : string -> nat -> Z -> res T) sens solver maxiter fine_steps,
  sens = "adjoint"%string \/ sens = "interpolated_adjoint"%string ->
  msproblem_odeint run sens solver maxiter fine_steps = Err AttributeError /\
  msproblem_call sens solver maxiter fine_steps = Ok (MkMsCall None maxiter (Z.of_nat fine_steps)).
Proof. intros T run sens solver m f [-> | ->]; split; reflexivity. Qed.

(** ** C65, C66 *)

(** C65 fails: a solver module as solver_adjoint raises KeyError; None and every known name work. *)
Lemma C65_solver_adjoint_refuted_pf :
  forall s : named_solver,
  adjoint_solver s AdjModule = Err KeyError /\ adjoint_solver s AdjNone = Ok s.
Proof. intros s. split; reflexivity. Qed.

(** C65 for strings: every name of the solver table gives a solver. *)
Lemma C65_solver_adjoint_names_partial_pf :
  forall (s : named_solver) n c, In (n, c) SOLVER_DICT -> exists r, adjoint_solver s (AdjStr n) = Ok r /\ ns_class r = c.
Proof.
  intros s n c H. cbn in H. repeat (destruct H as [H|H]; [injection H as <- <-; eexists; split; reflexivity|]). destruct H.
Qed.

(** C66 fails: NeuralSDE.trajectory raises TypeError for every input. *)
Lemma C66_sde_trajectory_refuted_pf :
  forall (K : NumOps) (x t_span : list (vec K)), neuralsde_trajectory x t_span = Err TypeError.
Proof. reflexivity. Qed.
