(** Gradients through the multiple-shooting solvers. *)
From Coq Require Import ZArith QArith Qreals Reals Lra Lia List Bool.
From Verif Require Import Num Py Tensor M_Constants M_SolversOde M_Utils M_Interp M_Odeint M_MS M_Autograd M_ShootGrad.
From Verif Require Import Spec_Ode Spec_Autograd L_Base L_Fixed L_Vec L_Steps L_Rel L_MS Pf_Fixed Pf_Values Pf_Autograd Pf_Implicit.
Import ListNotations.
Local Notation length := List.length.
Local Open Scope R_scope.

(** ** Results *)
Definition tracked {A B} (P : A -> (R -> B) -> Prop) (rd : res A) (rr : R -> res B) : Prop :=
  (exists a b, rd = Ok a /\ (forall e, rr e = Ok (b e)) /\ P a b) \/ (exists er, rd = Err er /\ forall e, rr e = Err er).
Lemma tracked_bind {A B C D} (P : A -> (R -> B) -> Prop) (Q : C -> (R -> D) -> Prop) rd rr (kd : A -> res C) (kr : R -> B -> res D) :
  tracked P rd rr -> (forall a b, P a b -> tracked Q (kd a) (fun e => kr e (b e))) ->
  tracked Q (rbind rd kd) (fun e => rbind (rr e) (kr e)).
Proof.
  intros [(a & b & -> & Hr & Hp)|(er & -> & Hr)] Hk.
  - destruct (Hk a b Hp) as [(c & d & E & Hd & Hq)|(er & E & Hd)].
    + left. exists c, d. split; [exact E|]. split; [|exact Hq]. intros e. rewrite Hr. cbn. apply Hd.
    + right. exists er. split; [exact E|]. intros e. rewrite Hr. cbn. apply Hd.
  - right. exists er. split; [reflexivity|]. intros e. now rewrite Hr.
Qed.
Lemma tracked_ret {A B} (P : A -> (R -> B) -> Prop) a b : P a b -> tracked P (Ok a) (fun e => Ok (b e)).
Proof. left. exists a, b. auto. Qed.
Lemma tracked_ext {A B} (P : A -> (R -> B) -> Prop) rd rr rr' : (forall e, rr e = rr' e) -> tracked P rd rr -> tracked P rd rr'.
Proof.
  intros E [(a & b & H1 & H2 & H3)|(er & H1 & H2)]; [left; exists a, b|right; exists er]; repeat apply conj; auto; intros e; now rewrite <- E.
Qed.

Lemma nth_seq {A} (d : A) l : map (fun k => nth k l d) (seq 0 (length l)) = l.
Proof. induction l as [|a l IH]; cbn; [reflexivity|]. f_equal. rewrite <- seq_shift, map_map. exact IH. Qed.

Section Rows.
Variable n : nat.
Notation curve := (R -> list R).
Definition at_ (e : R) (L : list curve) : list (list R) := map (fun c => c e) L.
(** lists of states as lists of curves *)
Definition rows (S : list (vec DR)) (s : R -> list (list R)) : Prop :=
  exists L, (forall e, s e = at_ e L) /\ Forall2 (tracks_vec n) S L.
Lemma rows_states S s : rows S s -> tracks_states n S s.
Proof.
  intros (L & E & H). split.
  - intros e. rewrite E. unfold at_. rewrite map_length. symmetry. apply (F2_len _ _ _ H).
  - intros k Hk. assert (Hl : (k < length L)%nat) by (rewrite <- (F2_len _ _ _ H); exact Hk).
    apply (tv_ext n _ (nth k L (fun _ => []))).
    + intros e. rewrite E. unfold at_. symmetry. exact (map_nth (fun c : curve => c e) L (fun _ => []) k).
    + clear E. revert k Hk Hl. induction H as [|X c S L Hc H IH]; intros [|k] Hk Hl; cbn in *; try lia; [exact Hc|]. apply IH; lia.
Qed.
Lemma states_rows S s : tracks_states n S s -> rows S s.
Proof.
  intros [Hlen H]. exists (map (fun k e => nth k (s e) []) (seq 0 (length S))). split.
  - intros e. unfold at_. rewrite map_map. rewrite <- (Hlen e). generalize (s e). clear. intros l.
    symmetry. apply nth_seq.
  - clear Hlen. assert (G : forall m, (forall k, (k < length S)%nat -> tracks_vec n (nth k S []) (fun e => nth (m + k) (s e) [])) ->
      Forall2 (tracks_vec n) S (map (fun k e => nth k (s e) []) (seq m (length S)))); [|exact (G 0%nat H)].
    clear H. induction S as [|X S IH]; intros m H; cbn; constructor.
    + specialize (H 0%nat ltac:(cbn; lia)). cbn in H. now rewrite Nat.add_0_r in H.
    + apply IH. intros k Hk. specialize (H (Datatypes.S k) ltac:(cbn; lia)). cbn [nth] in H. replace (m + Datatypes.S k)%nat with (Datatypes.S m + k)%nat in H by lia. exact H.
Qed.
Lemma rows_get S s i : rows S s -> tracked (tracks_vec n) (pyget S i) (fun e => pyget (s e) i).
Proof.
  intros (L & E & H). apply (tracked_ext _ _ (fun e => rmap (fun c : curve => c e) (pyget L i))).
  { intros e. rewrite E. symmetry. apply (pyget_map (fun c : curve => c e)). }
  pose proof (rel_pyget (A:=vec DR) (B:=curve) _ _ _ i H) as G. destruct (pyget S i) eqn:ES, (pyget L i); cbn in G; try contradiction.
  - left. do 2 eexists. split; [reflexivity|]; split; [reflexivity|exact G].
  - right. exists e. split; [reflexivity|]. now rewrite G.
  - unfold pyget in ES. destruct (nth_error S i) in ES; discriminate.
Qed.
Lemma rows_last S s : rows S s -> tracked (tracks_vec n) (pylast S) (fun e => pylast (s e)).
Proof.
  intros (L & E & H). apply (tracked_ext _ _ (fun e => rmap (fun c : curve => c e) (pylast L))).
  { intros e. rewrite E. symmetry. apply (pylast_map (fun c : curve => c e)). }
  pose proof (rel_pylast (A:=vec DR) (B:=curve) _ _ _ H) as G. destruct (pylast S) eqn:ES, (pylast L) eqn:EL; cbn in G; try contradiction.
  - left. do 2 eexists. split; [reflexivity|]; split; [reflexivity|exact G].
  - right. exists e. split; [reflexivity|]. now rewrite G.
  - unfold pylast in ES. destruct (rev S) in ES; discriminate.
Qed.
Lemma rows_cons X x S s : tracks_vec n X x -> rows S s -> rows (X :: S) (fun e => x e :: s e).
Proof. intros Hx (L & E & H). exists (x :: L). split; [intros e; now rewrite E|now constructor]. Qed.
Lemma rows_nil : rows [] (fun _ => []).
Proof. exists []. split; [reflexivity|constructor]. Qed.
Lemma rows_skipn k S s : rows S s -> rows (skipn k S) (fun e => skipn k (s e)).
Proof. intros (L & E & H). exists (skipn k L). split; [intros e; rewrite E; apply skipn_map|now apply F2_skipn]. Qed.
Lemma rows_firstn k S s : rows S s -> rows (firstn k S) (fun e => firstn k (s e)).
Proof. intros (L & E & H). exists (firstn k L). split; [intros e; rewrite E; apply firstn_map|now apply F2_firstn]. Qed.
Lemma rows_app S s T t : rows S s -> rows T t -> rows (S ++ T) (fun e => s e ++ t e).
Proof. intros (L & E & H) (M & E' & H'). exists (L ++ M). split; [intros e; rewrite E, E'; symmetry; apply map_app|now apply Forall2_app]. Qed.
Lemma rows_length S s e : rows S s -> length (s e) = length S.
Proof. intros H. apply rows_states in H. apply H. Qed.
Lemma zeros_tracks : tracks_vec n (@vzeros DR n) (fun _ => @vzeros ROps n).
Proof.
  split; [apply repeat_length|]. split; [intros; apply repeat_length|]. intros i Hi.
  assert (Z : forall m, nth i (@vzeros DR m) (0, 0) = (0, 0)).
  { clear. intros m. unfold vzeros. revert i. induction m as [|m IH]; intros [|i]; cbn; try reflexivity; [f_equal; unfold Q2R; cbn; lra|apply IH]. }
  assert (W : forall m, nth i (@vzeros ROps m) 0 = 0).
  { clear. intros m. unfold vzeros. revert i. induction m as [|m IH]; intros [|i]; cbn; try reflexivity; [unfold Q2R; cbn; lra|apply IH]. }
  refine (eq_ind_r (fun d => tracks d _) _ (Z n)). apply (tr_ext _ (fun _ => 0)); [intros _; symmetry; apply W|].
  rewrite <- cst_eq. apply tr_cst.
Qed.
Lemma rows_zeros S s : rows S s -> rows (map (fun b => @vzeros DR (length b)) S) (fun e => map (fun b => @vzeros ROps (length b)) (s e)).
Proof.
  intros (L & E & H). exists (map (fun _ _ => @vzeros ROps n) L). split.
  - intros e. rewrite E. unfold at_. rewrite !map_map. clear E. induction H as [|X c S L Hc H IH]; cbn; [reflexivity|]. f_equal; [|exact IH]. f_equal. apply Hc.
  - clear E. induction H as [|X c S L Hc H IH]; cbn; constructor; [|exact IH]. refine (eq_ind_r (fun m => tracks_vec n (@vzeros DR m) _) zeros_tracks (proj1 Hc)).
Qed.
Lemma rows_traverse (gd : vec DR -> res (vec DR)) (gr : R -> list R -> res (list R)) S s :
  (forall X x, tracks_vec n X x -> tracked (tracks_vec n) (gd X) (fun e => gr e (x e))) -> rows S s ->
  tracked rows (traverse gd S) (fun e => traverse (gr e) (s e)).
Proof.
  intros Hg (L & E & H). apply (tracked_ext _ _ (fun e => traverse (gr e) (at_ e L))); [intros e; now rewrite E|]. clear E.
  induction H as [|X c S L Hc H IH]; cbn [traverse at_ map].
  - apply tracked_ret, rows_nil.
  - refine (tracked_bind _ _ _ _ _ (fun e b => rbind (traverse (gr e) (at_ e L)) (fun bs => Ok (b :: bs))) (Hg _ _ Hc) _).
    intros Y y Hy. refine (tracked_bind _ _ _ _ _ (fun e bs => Ok (y e :: bs)) IH _). intros T t Ht. apply tracked_ret, rows_cons; assumption.
Qed.

(** ** Parareal *)
Section Zero.
Variables (cd fd : vec DR -> res (vec DR)) (cr fr : R -> list R -> res (list R)).
Hypothesis Hc : forall X x, tracks_vec n X x -> tracked (tracks_vec n) (cd X) (fun e => cr e (x e)).
Hypothesis Hf : forall X x, tracks_vec n X x -> tracked (tracks_vec n) (fd X) (fun e => fr e (x e)).

Lemma zero_inner_tracks Bc bc Bf bf len i : rows Bc bc -> rows Bf bf -> forall k m X x, tracks_vec n X x ->
  tracked rows (zero_inner cd Bc Bf len i k m X) (fun e => @zero_inner ROps (cr e) (bc e) (bf e) len i k m (x e)).
Proof.
  intros HBc HBf. induction k as [|k IH]; intros m X x Hx; cbn [zero_inner]; [apply tracked_ret, rows_nil|].
  refine (tracked_bind _ _ _ _ _ (fun e b => _) (Hc _ _ Hx) _). intros Y y Hy.
  refine (tracked_bind _ _ _ _ _ (fun e c => _) (rows_get _ _ (m - i) HBc) _). intros C c HC.
  refine (tracked_bind _ _ _ _ _ (fun e c => _) (rows_get _ _ (m - i) HBf) _). intros D d HD. cbv zeta.
  assert (Hb : tracks_vec n (@vadd DR (@vsub DR Y C) D) (fun e => @vadd ROps (@vsub ROps (y e) (c e)) (d e))) by (apply tv_add; [now apply tv_sub|assumption]).
  refine (tracked_bind (fun _ _ => True) _ (in_range m len) (fun _ => in_range m len) _ (fun e _ => _) _ _).
  - unfold in_range. destruct (m <? len)%nat; [left; exists tt, (fun _ => tt); auto|right; exists IndexError; auto].
  - intros _ _ _. refine (tracked_bind _ _ _ _ _ (fun e bs => Ok (_ :: bs)) (IH (m + 1)%nat _ _ Hb) _). intros T t Ht. apply tracked_ret, (rows_cons _ _ _ _ Hb Ht).
Qed.
Lemma ms_out_tracks B b i T t : rows B b -> rows T t -> rows (@ms_out DR B i T) (fun e => @ms_out ROps (b e) i (t e)).
Proof.
  intros HB HT. unfold ms_out. apply rows_app; [now apply rows_firstn|]. apply rows_app; [exact HT|].
  destruct (rows_zeros _ _ (rows_skipn (i + length T) _ _ HB)) as (L & E & H). exists L. split; [|exact H].
  intros e. rewrite <- E. exact (f_equal (fun l => map (fun b => @vzeros ROps (length b)) (skipn (i + l) (b e))) (rows_length _ _ e HT)).
Qed.
Lemma zero_sweep_tracks ns i B b : rows B b -> tracked rows (zero_sweep cd fd ns i B) (fun e => @zero_sweep ROps (cr e) (fr e) ns i (b e)).
Proof.
  intros HB. unfold zero_sweep.
  refine (tracked_bind _ _ _ _ _ (fun e c => _) (rows_traverse _ _ _ _ Hc (rows_skipn (i - 1) _ _ HB)) _). intros C c HC.
  refine (tracked_bind _ _ _ _ _ (fun e c => _) (rows_traverse _ _ _ _ Hf (rows_skipn (i - 1) _ _ HB)) _). intros D d HD.
  refine (tracked_bind _ _ _ _ _ (fun e c => _) (rows_get _ _ (i - 1) HB) _). intros X x Hx.
  refine (tracked_bind rows _ _ (fun e => @zero_inner ROps (cr e) (c e) (d e) (length (b e)) i (ns - i) i (x e)) _ (fun e r => Ok (@ms_out ROps (b e) i r)) _ _).
  - eapply tracked_ext; [|apply (zero_inner_tracks _ _ _ _ (length B) i HC HD (ns - i) i _ _ Hx)]. intros e. cbv beta. now rewrite (rows_length _ _ e HB).
  - intros T t HT. apply tracked_ret, ms_out_tracks; assumption.
Qed.
End Zero.
Lemma sweeps_tracks (sd : nat -> list (vec DR) -> res (list (vec DR))) (sr : R -> nat -> list (list R) -> res (list (list R))) :
  (forall i B b, rows B b -> tracked rows (sd i B) (fun e => sr e i (b e))) ->
  forall k i B b, rows B b -> tracked rows (sweeps sd k i B) (fun e => @sweeps ROps (sr e) k i (b e)).
Proof.
  intros Hs. induction k as [|k IH]; intros i B b HB; cbn [sweeps]; [now apply tracked_ret|].
  refine (tracked_bind _ _ _ _ _ (fun e c => _) (Hs i _ _ HB) _). intros C c HC. now apply IH.
Qed.
End Rows.

Lemma linspace_tracks dt k : @linspace0 DR (dt, 0) k = map c0 (@linspace0 ROps dt k).
Proof.
  assert (G : forall l, map (fun j => @ndiv DR (@nmul DR (dt, 0) (@nnat DR j)) (@nnat DR (k - 1))) l = map c0 (map (fun j => @ndiv ROps (@nmul ROps dt (@nnat ROps j)) (@nnat ROps (k - 1))) l)).
  { intros l. rewrite map_map. apply map_ext. intros j. unfold nnat. cbn. f_equal. replace (Q2R 0) with 0 by (unfold Q2R; cbn; lra). unfold Rdiv. ring. }
  unfold linspace0. destruct k as [|[|k]]; [reflexivity| |apply G]. cbn. do 2 f_equal; unfold Q2R; cbn; lra.
Qed.
Lemma flow_tracks n sd sr F f sub X x : fixed_family n sd sr -> tracks_field n F f -> tracks_vec n X x ->
  tracked (tracks_vec n) (@ms_flow DR F sd (map c0 sub) X) (fun e => @ms_flow ROps (f e) (sr e) sub (x e)).
Proof.
  intros Hs HF HX. unfold ms_flow. destruct (family_steps _ _ _ Hs) as (_ & _ & Hst).
  pose proof (fixed_odeint_tracks n _ _ F f X x sub [] Hst HF HX) as G. cbn [map] in G.
  refine (tracked_bind (fun a b => tracks_states n (snd a) (fun e => snd (b e))) _ _ _ _ (fun e r => pylast (snd r)) _ _).
  - destruct G as [(times & S & s & E & Er & H)|(er & E & Er)]; [left|right; exists er; auto].
    exists (map c0 times, S), (fun e => (times, s e)). auto.
  - intros a b H. apply (rows_last n (snd a) (fun e => snd (b e))), states_rows, H.
Qed.

Lemma autograd_fixed fuel F X ts sd atol rtol interp all sv semi : s_fixed sd = true ->
  @odeint_autograd ROps fuel F X ts sd atol rtol interp all sv semi = @odeint DR fuel F X ts sd atol rtol interp all sv semi.
Proof. intros H. unfold odeint_autograd, odeint_ad, odeint. rewrite H. reflexivity. Qed.
Lemma root_solve_tracks n cd cr fd fr F f ts fs mi B b : fixed_family n cd cr -> fixed_family n fd fr -> tracks_field n F f -> rows n B b ->
  tracked (rows n) (@mszero_root_solve DR cd fd F (map c0 ts) B fs mi) (fun e => @mszero_root_solve ROps (cr e) (fr e) (f e) ts (b e) fs mi).
Proof.
  intros Hc Hf HF HB. destruct ts as [|t0 [|t1 ts]]; [right; exists IndexError; split; reflexivity|right; exists IndexError; split; reflexivity|].
  set (sub := @linspace0 ROps (@nsub ROps t1 t0) fs).
  assert (EL : @linspace0 DR (@nsub DR (t1, 0) (t0, 0)) fs = map c0 (@linspace0 ROps (@nsub ROps t1 t0) fs)) by exact (eq_trans (f_equal (fun d => @linspace0 DR d fs) (t_sub t1 t0)) (linspace_tracks _ fs)).
  assert (G : tracked (rows n) (sweeps (@zero_sweep DR (@ms_flow DR F cd (map c0 sub)) (@ms_flow DR F fd (map c0 sub)) (length (t0 :: t1 :: ts))) (Z.to_nat (mi + 1)) 1 B)
    (fun e => @sweeps ROps (@zero_sweep ROps (@ms_flow ROps (f e) (cr e) sub) (@ms_flow ROps (f e) (fr e) sub) (length (t0 :: t1 :: ts))) (Z.to_nat (mi + 1)) 1 (b e))).
  { apply (sweeps_tracks n _ (fun e => _)); [|exact HB].
    intros i C c HC. apply (zero_sweep_tracks n _ _ (fun e => _) (fun e => _)); [| |exact HC]; intros; now apply flow_tracks. }
  unfold sub in G. rewrite <- EL in G. unfold mszero_root_solve. rewrite map_length. exact G.
Qed.
Lemma solve_of_rows n ts (rd : res (list (vec DR))) rr : tracked (rows n) rd rr ->
  tracks_solve n (rbind rd (fun B => Ok (map c0 ts, B))) (fun e => rbind (rr e) (fun B => Ok (ts, B))).
Proof.
  intros [(S & s & E & Er & H)|(er & E & Er)].
  - left. exists ts, S, s. rewrite E. split; [reflexivity|]. split; [intros e; now rewrite Er|now apply rows_states].
  - right. exists er. rewrite E. split; [reflexivity|]. intros e. now rewrite Er.
Qed.

Lemma bind_assoc {A B C} (m : res A) (k : A -> res B) (j : B -> res C) : rbind (rbind m k) j = rbind m (fun a => rbind (k a) j).
Proof. now destruct m. Qed.
Lemma solve_ext n rd rr rd' rr' : rd = rd' -> (forall e, rr e = rr' e) -> tracks_solve n rd rr -> tracks_solve n rd' rr'.
Proof.
  intros E1 E2 [(times & S & s & H1 & H2 & H3)|(er & H1 & H2)]; [left; exists times, S, s|right; exists er].
  - split; [congruence|]. split; [intros e; now rewrite <- E2|exact H3].
  - split; [congruence|]. intros e. now rewrite <- E2.
Qed.

Lemma guess_tracks fuel fuel' n cd cr F f X x ts : fixed_family n cd cr -> tracks_field n F f -> tracks_vec n X x ->
  tracked (rows n) (@ms_first_guess DR fuel F X (map c0 ts) cd None) (fun e => @ms_first_guess ROps fuel' (f e) (x e) ts (cr e) None).
Proof.
  intros Hc HF HX.
  pose proof (C143_fixed_step_pf fuel fuel' n cd cr F f X x ts [] (@nQ ROps (1 # 1000)) (@nQ ROps (1 # 1000)) (@nQ DR (1 # 1000)) (@nQ DR (1 # 1000)) false false None Hc HF HX) as G.
  unfold ms_first_guess. change (map (fun t : R => (t, 0)) []) with (@nil DR) in G. rewrite autograd_fixed in G by apply (family_steps _ _ _ Hc).
  destruct G as [(times & S & s & E & Er & H)|(er & E & Er)].
  - left. exists S, s. split; [exact (f_equal (rmap snd) E)|]. split; [intros e; exact (f_equal (rmap snd) (Er e))|now apply states_rows].
  - right. exists er. split; [exact (f_equal (rmap snd) E)|]. intros e. exact (f_equal (rmap snd) (Er e)).
Qed.

(** C154: gradients through parareal.  For all solvers, vector fields with correct derivatives, initial states and grids: the states returned by odeint_mshooting with MSZero
    have the values and the derivatives of the states that the solve returns as the parameter varies, or the solves all raise the same exception. *)
Lemma C154_parareal_pf :
  forall fuel fuel' n cd cr fd fr F f X x ts fine_steps maxiter,
  fixed_family n cd cr -> fixed_family n fd fr -> tracks_field n F f -> tracks_vec n X x ->
  tracks_solve n (@odeint_mszero DR fuel F X (map (fun t => (t, 0)) ts) cd fd None fine_steps maxiter)
    (fun e => @odeint_mszero ROps fuel' (f e) (x e) ts (cr e) (fr e) None fine_steps maxiter).
Proof.
  intros fuel fuel' n cd cr fd fr F f X x ts fs mi Hc Hf HF HX.
  apply (solve_ext n _ _ _ _ (bind_assoc _ _ _) (fun e => bind_assoc _ _ _)). apply (solve_of_rows n ts).
  refine (tracked_bind (rows n) _ _ (fun e => @ms_first_guess ROps fuel' (f e) (x e) ts (cr e) None) _ (fun e B => @mszero_root_solve ROps (cr e) (fr e) (f e) ts B fs mi) _ _).
  - now apply guess_tracks.
  - intros B b HB. now apply root_solve_tracks.
Qed.

(** The same for a given first guess, differentiable in the parameter. *)
Lemma C154_parareal_guess_pf :
  forall fuel fuel' n cd cr fd fr F f X x ts B b fine_steps maxiter,
  fixed_family n cd cr -> fixed_family n fd fr -> tracks_field n F f -> tracks_states n B b ->
  tracks_solve n (@odeint_mszero DR fuel F X (map (fun t => (t, 0)) ts) cd fd (Some B) fine_steps maxiter)
    (fun e => @odeint_mszero ROps fuel' (f e) (x e) ts (cr e) (fr e) (Some (b e)) fine_steps maxiter).
Proof.
  intros fuel fuel' n cd cr fd fr F f X x ts B b fs mi Hc Hf HF HB. unfold odeint_mszero, ms_first_guess. cbn [rbind].
  apply (solve_of_rows n ts). apply root_solve_tracks; auto. now apply states_rows.
Qed.

(** ** MSBackward: values *)
Section Values.
Context {K : NumOps}.
Notation D := (DualOps K).
Notation rv := (Forall2 (@rp K)).
Lemma rel_traverse {A B A' B'} (P : A -> A' -> Prop) (Q : B -> B' -> Prop) g g' l l' : (forall a a', P a a' -> rel_res Q (g a) (g' a')) -> Forall2 P l l' ->
  rel_res (Forall2 Q) (traverse g l) (traverse g' l').
Proof.
  intros Hg H. induction H as [|a a' l l' Ha H IH]; cbn [traverse]; [constructor|].
  eapply rel_rbind; [apply Hg, Ha|]. intros b b' Hb. eapply rel_rbind; [exact IH|]. intros bs bs' Hbs. now constructor.
Qed.
Lemma rel_back_inner v v' B B' Bf Bf' len i : (forall o o' w w', rv o o' -> rv w w' -> rv (v o w) (v' o' w')) -> Forall2 rv B B' -> Forall2 rv Bf Bf' ->
  forall k m b b', rv b b' -> rel_res (Forall2 rv) (@back_inner D v B Bf len i k m b) (@back_inner K v' B' Bf' len i k m b').
Proof.
  intros Hv HB HBf. pose proof (@rp_related K) as HR. induction k as [|k IH]; intros m b b' Hb; cbn [back_inner]; [constructor|].
  eapply rel_rbind; [apply rel_pyget, HBf|]. intros fi fi' Hfi. eapply rel_rbind; [apply rel_pyget, HB|]. intros o o' Ho. cbv zeta.
  assert (HJ : rv (if (i =? 1)%nat then v o (b - o)%V else vzeros (length o)) (if (i =? 1)%nat then v' o' (b' - o')%V else vzeros (length o'))).
  { destruct (i =? 1)%nat; [apply Hv; [exact Ho|now apply (rv_sub _ HR)]|]. rewrite (F2_len _ _ _ Ho). apply (rv_zeros _ HR). }
  assert (Hn : rv (fi + (if (i =? 1)%nat then v o (b - o) else vzeros (length o)))%V (fi' + (if (i =? 1)%nat then v' o' (b' - o') else vzeros (length o')))%V) by now apply (rv_add _ HR).
  eapply (rel_rbind (fun _ _ => True)); [unfold in_range; destruct (m <? len)%nat; cbn; auto|]. intros _ _ _.
  eapply rel_rbind; [apply (IH (m + 1)%nat _ _ Hn)|]. intros r r' Hr. now constructor.
Qed.
Lemma rel_out B B' i r r' : Forall2 rv B B' -> Forall2 rv r r' -> Forall2 rv (@ms_out D B i r) (@ms_out K B' i r').
Proof.
  intros HB Hr. pose proof (@rp_related K) as HR. unfold ms_out. apply Forall2_app; [now apply F2_firstn|]. apply Forall2_app; [exact Hr|].
  apply (F2_map rv rv); [|refine (eq_ind _ (fun l => Forall2 rv (skipn (i + length r) B) (skipn (i + l) B')) _ _ (F2_len _ _ _ Hr)); now apply F2_skipn]. intros a a' Ha. rewrite (F2_len _ _ _ Ha). apply (rv_zeros _ HR).
Qed.
Lemma rel_back_sweep g g' v v' ns i B B' : (forall a a', rv a a' -> rel_res rv (g a) (g' a')) -> (forall o o' w w', rv o o' -> rv w w' -> rv (v o w) (v' o' w')) -> Forall2 rv B B' ->
  rel_res (Forall2 rv) (@back_sweep D g v ns i B) (@back_sweep K g' v' ns i B').
Proof.
  intros Hg Hv HB. unfold back_sweep. eapply rel_rbind; [apply (rel_traverse rv rv); [exact Hg|apply F2_skipn, HB]|]. intros Bf Bf' HBf.
  eapply rel_rbind; [apply rel_pyget, HB|]. intros b b' Hb. assert (EL : @length (vec D) B = @length (vec K) B') by exact (F2_len _ _ _ HB). rewrite EL.
  eapply rel_rbind; [apply (rel_back_inner v v' B B' Bf Bf'); assumption|]. intros r r' Hr. cbn. now apply rel_out.
Qed.
Lemma rel_sweeps s s' : (forall i B B', Forall2 rv B B' -> rel_res (Forall2 rv) (s i B) (s' i B')) -> forall k i B B', Forall2 rv B B' ->
  rel_res (Forall2 rv) (@sweeps D s k i B) (@sweeps K s' k i B').
Proof.
  intros Hs. induction k as [|k IH]; intros i B B' HB; cbn [sweeps]; [exact HB|]. eapply rel_rbind; [apply Hs, HB|]. intros C C' HC. now apply IH.
Qed.
Lemma rel_linspace dt dt' k : rp dt dt' -> rv (@linspace0 D dt k) (@linspace0 K dt' k).
Proof.
  intros H. assert (G : forall l, rv (map (fun j => @ndiv D (@nmul D dt (@nnat D j)) (@nnat D (k - 1))) l) (map (fun j => @ndiv K (@nmul K dt' (@nnat K j)) (@nnat K (k - 1))) l)).
  { intros l. induction l as [|j l IH]; cbn [map]; constructor; [|exact IH]. pose proof (@rp_related K) as HR.
    apply (r_div _ _ _ HR); [apply (r_mul _ _ _ HR); [exact H|apply (r_nnat _ HR)]|apply (r_nnat _ HR)]. }
  unfold linspace0. destruct k as [|[|k]]; [constructor| |apply G]. constructor; [reflexivity|constructor].
Qed.
Lemma rel_flow F f sd s sub sub' b b' : values_of F f -> same_solver sd s -> rv sub sub' -> rv b b' ->
  rel_res rv (@ms_flow D F sd sub b) (@ms_flow K f s sub' b').
Proof.
  intros HF Hs Hsub Hb. unfold ms_flow. pose proof (@rp_related K) as HR.
  eapply rel_rbind; [apply (fixed_rel rp HR rv F f); [now apply rp_field|apply (rp_solver _ _ Hs)|exact Hsub|constructor|exact Hb]|].
  intros [a1 a2] [b1 b2] [_ H]. now apply rel_pylast.
Qed.
Lemma rel_rmap_snd {A B A' B'} (P : A -> A' -> Prop) (Q : B -> B' -> Prop) (a : res (A * B)) (b : res (A' * B')) :
  rel_res (rel_pair P Q) a b -> rel_res Q (rmap snd a) (rmap snd b).
Proof. destruct a, b; cbn; try contradiction; auto. intros [_ H]. exact H. Qed.
End Values.

(** C154 (partial): the values.  In any arithmetic: odeint_mshooting with MSBackward (coarse fixed-step solver) returns the same states, or raises the same exception,
    with and without gradients. *)
Lemma C154_backward_values_partial_pf : forall (K : NumOps) fuel (F : DualOps K -> vec (DualOps K) -> vec (DualOps K)) (f : K -> vec K -> vec K) X ts cd c fd s vjp fine_steps maxiter,
  values_of F f -> same_solver cd c -> s_fixed c = true -> same_solver fd s ->
  plain_res (odeint_msbackward_autograd fuel F X ts cd fd vjp None fine_steps maxiter) =
  odeint_msbackward fuel f (plain_vec X) (plain_vec ts) c s vjp None fine_steps maxiter.
Proof.
  intros K fuel F f X ts cd c fd s vjp fs mi HF Hc Hfix Hs. pose proof (@rp_related K) as HR.
  assert (G : rel_res (rel_pair (Forall2 rp) (Forall2 (Forall2 rp))) (odeint_msbackward_autograd fuel F X ts cd fd vjp None fs mi)
    (odeint_msbackward fuel f (plain_vec X) (plain_vec ts) c s vjp None fs mi)); [|exact (proj2 (rp_out ([], _) ([], _) (conj (Forall2_nil _) G)))].
  unfold odeint_msbackward_autograd, odeint_msbackward. eapply (rel_rbind (Forall2 (Forall2 rp))).
  - unfold ms_first_guess.
    assert (E : odeint fuel F X (TTensor ts) cd (nQ (1 # 1000)) (nQ (1 # 1000)) false false [] None = odeint_autograd fuel F X (TTensor ts) cd (nQ (1 # 1000)) (nQ (1 # 1000)) false false [] None).
    { unfold odeint_autograd, odeint_ad, odeint. assert (Hcd : s_fixed cd = true) by (destruct (rp_solver _ _ Hc) as (_ & -> & _); exact Hfix). rewrite Hcd. reflexivity. }
    rewrite E. clear E.
    assert (G : rel_m rp (Forall2 rp) (rel_pair (Forall2 rp) (Forall2 (Forall2 rp))) (odeint_autograd fuel F X (TTensor ts) cd (nQ (1 # 1000)) (nQ (1 # 1000)) false false [] None)
      (odeint fuel f (plain_vec X) (TTensor (plain_vec ts)) c (nQ (1 # 1000)) (nQ (1 # 1000)) false false [] None)).
    { unfold odeint_autograd. apply (odeint_rel rp HR); auto; try reflexivity; [now apply rp_field|apply rp_vec'|exact (rp_vec' ts)|now apply rp_solver]. }
    destruct G as [_ G]. exact (rel_rmap_snd _ _ _ _ G).
  - intros B B' HB. eapply (rel_rbind (Forall2 (Forall2 rp))); [|intros C C' HC; split; [apply rp_vec'|exact HC]].
    unfold msbackward_root_solve. pose proof (rp_vec' ts) as Hts.
    eapply rel_rbind; [apply rel_pyget, Hts|]. intros t1 t1' H1. eapply rel_rbind; [apply rel_pyget, Hts|]. intros t0 t0' H0. cbv zeta.
    assert (Hsub : Forall2 rp (linspace0 (t1 - t0)%N fs) (linspace0 (t1' - t0')%N fs)) by (apply rel_linspace, (r_sub _ _ _ HR); assumption).
    assert (EL : @length (DualOps K) ts = @length K (plain_vec ts)) by exact (F2_len _ _ _ Hts). rewrite EL. apply rel_sweeps; [|exact HB]. intros i C C' HC. apply rel_back_sweep; [| |exact HC].
    + intros a a' Ha. now apply rel_flow.
    + intros o o' w w' Ho Hw. unfold detached_vjp. apply rp_vec. unfold plain_vec. rewrite map_map.
      change (fun x => plain (cst x)) with (fun x : K => x). rewrite map_id. apply rp_vec in Ho, Hw, Hsub. unfold plain_vec, plain in *. now rewrite <- Ho, <- Hw, <- Hsub.
Qed.

(** ** MSBackward: derivatives.  x' = x over [0, 1, 2], both methods euler, three fine steps, one pass *)
Definition same_ {K : NumOps} (_ : K) (x : vec K) : vec K := x.
Lemma same_tracks n : tracks_field n (@same_ DR) (fun _ => @same_ ROps).
Proof. intros t Y y H. exact H. Qed.
Lemma sep3 a b c : a = 0 -> 1 / 2 <= b <= 1 -> 1 <= c <= 2 -> b + 1 / 4 <= c -> separated [a; b; c].
Proof.
  intros Ha Hb Hc H i j s t Hne Hi Hj.
  destruct i as [|[|[|i]]], j as [|[|[|j]]]; cbn in Hi, Hj; try congruence;
    try (destruct i; discriminate); try (destruct j; discriminate); injection Hi as <-; injection Hj as <-; unfold close_to, Rabs; repeat destruct Rcase_abs; lra.
Qed.
Lemma lin3 : @linspace0 ROps (@nsub ROps 1 0) 3 = [0; 1 / 2; 1].
Proof. unfold linspace0, nnat. cbn [map seq Nat.sub]. rops. qlit. cbn [Z.of_nat Pos.of_succ_nat Pos.succ]. repeat (apply f_equal2; [lra|]). reflexivity. Qed.
Lemma flow3 a : @ms_flow ROps same_ (Euler ROps) [0; 1 / 2; 1] [a] = Ok [9 / 4 * a].
Proof.
  rewrite (ms_flow_ok (Euler ROps) _ _ _ _ _ (euler_stepper _)); [|cbn; lia|apply sep3; lra].
  cbn [one_step_traj last]. unfold euler_one, same_, vadd, vscale. cbn [map map2]. rops. do 2 f_equal. lra.
Qed.
Lemma guess3 fuel a : @ms_first_guess ROps fuel same_ [a] [0; 1; 2] (Euler ROps) None = Ok [[a]; [2 * a]; [4 * a]].
Proof.
  unfold ms_first_guess. rewrite (C01_fixed_trajectory_pf fuel (Euler ROps) _ _ _ _ _ _ _ _ _ _ _ _ eq_refl (euler_stepper _)); [|apply sep3; lra|lra].
  unfold rmap; cbn [one_step_traj rbind snd]. unfold euler_one, same_, vadd, vscale. cbn [map map2]. rops. apply f_equal. repeat (apply f_equal2; [first [reflexivity | apply f_equal2; [lra|reflexivity]]|]). reflexivity.
Qed.
Lemma back3 fuel (vjp : list R -> list R -> list R -> list R) a : (forall b v, vjp [0; 1 / 2; 1] [b] [v] = [9 / 4 * v]) ->
  @odeint_msbackward ROps fuel same_ [a] [0; 1; 2] (Euler ROps) (Euler ROps) vjp None 3 0 = Ok ([0; 1; 2], [[a]; [9 / 4 * a]; [81 / 16 * a]]).
Proof.
  intros Hv. unfold odeint_msbackward. refine (eq_trans (f_equal (fun r => rbind r _) (guess3 fuel a)) _). cbn [rbind].
  assert (E : @msbackward_root_solve ROps (Euler ROps) vjp same_ [0; 1; 2] [[a]; [2 * a]; [4 * a]] 3 0 = Ok [[a]; [9 / 4 * a]; [81 / 16 * a]]);
    [|exact (f_equal (fun r => rbind r _) E)].
  unfold msbackward_root_solve. change (@pyget ROps [0; 1; 2] 1) with (@Ok R 1). change (@pyget ROps [0; 1; 2] 0) with (@Ok R 0). cbn [rbind]. cbv zeta.
  refine (eq_trans (f_equal (fun l => @sweeps ROps (@back_sweep ROps (@ms_flow ROps same_ (Euler ROps) l) (vjp l) _) _ _ _) lin3) _).
  change (Z.to_nat (0 + 1)) with 1%nat. change (length [0; 1; 2]) with 3%nat. cbn [sweeps]. unfold back_sweep. change (1 - 1)%nat with 0%nat. cbn [skipn].
  assert (T : @traverse (vec ROps) (vec ROps) (@ms_flow ROps same_ (Euler ROps) [0; 1 / 2; 1]) [[a]; [2 * a]; [4 * a]] = Ok [[9 / 4 * a]; [9 / 4 * (2 * a)]; [9 / 4 * (4 * a)]]).
  { cbn [traverse]. rewrite !flow3. reflexivity. }
  refine (eq_trans (f_equal (fun r => rbind (rbind r _) _) T) _). cbn [rbind length pyget nth_error Nat.sub back_inner Nat.eqb Nat.add in_range Nat.ltb Nat.leb ms_out firstn skipn app map].
  unfold in_range. cbn [Nat.ltb Nat.leb]. unfold vadd, vsub. cbn [map2]. repeat (rewrite !Hv; cbn [rbind map2]). unfold ms_out. cbn [firstn skipn app map length Nat.add]. rops.
  apply f_equal. repeat (apply f_equal2; [first [reflexivity | apply f_equal2; [lra|reflexivity]]|]). reflexivity.
Qed.
Lemma line_tracks a b k : tracks (k * a, k * b) (fun e => k * (a + b * e)).
Proof.
  split; cbn [fst snd]; [ring|].
  assert (D : derivable_pt_lim (fun e => b * e) 0 b) by (pose proof (derivable_pt_lim_scal id b 0 1 (derivable_pt_lim_id 0)) as H; rewrite Rmult_1_r in H; exact H).
  assert (D' : derivable_pt_lim (fun e => a + b * e) 0 b) by (pose proof (derivable_pt_lim_plus (fun _ => a) _ 0 0 b (derivable_pt_lim_const a 0) D) as H; rewrite Rplus_0_l in H; exact H).
  exact (derivable_pt_lim_scal _ k 0 b D').
Qed.
Lemma line_is a b k (Y : list (R * R)) c : tracks_vec 1 Y c -> (forall e, c e = [k * (a + b * e)]) -> Y = [(k * a, k * b)].
Proof.
  intros (H1 & _ & H) E. destruct Y as [|[v d] [|]]; try discriminate. specialize (H 0%nat (le_n _)). cbn [nth] in H.
  apply (tr_ext _ _ (fun e => k * (a + b * e))) in H; [|intros e; now rewrite E]. destruct H as [Hv Hd]. destruct (line_tracks a b k) as [Lv Ld]. cbn [fst snd] in *.
  do 2 f_equal; [|exact (uniqueness_limite _ _ _ _ Hd Ld)]. rewrite Hv. ring.
Qed.
Lemma vec1_tracks a b : tracks_vec 1 [(a, b)] (fun e => [a + b * e]).
Proof.
  split; [reflexivity|]. split; [reflexivity|]. intros i Hi. destruct i; [|lia]. cbn [nth].
  pose proof (line_tracks a b 1) as H. rewrite !Rmult_1_l in H. eapply tr_ext; [|exact H]. intros e. cbv beta. ring.
Qed.
Lemma dflow3 a b : @ms_flow DR same_ (Euler DR) (map c0 [0; 1 / 2; 1]) [(a, b)] = Ok [(9 / 4 * a, 9 / 4 * b)].
Proof.
  destruct (flow_tracks 1 (Euler DR) (fun _ => Euler ROps) _ _ [0; 1 / 2; 1] _ _ (ff_euler 1) (same_tracks 1) (vec1_tracks a b)) as [(Y & y & E & Er & H)|(er & _ & Er)].
  - refine (eq_trans E _). f_equal. apply (line_is a b (9 / 4) Y y H). intros e. specialize (Er e). rewrite flow3 in Er.
    exact (eq_sym (f_equal (fun r => match r with Ok v => v | _ => [] end) Er)).
  - specialize (Er 0). rewrite flow3 in Er. discriminate.
Qed.
Lemma dguess3 fuel a b : @ms_first_guess DR fuel same_ [(a, b)] (map c0 [0; 1; 2]) (Euler DR) None = Ok [[(a, b)]; [(2 * a, 2 * b)]; [(4 * a, 4 * b)]].
Proof.
  destruct (guess_tracks fuel fuel 1 (Euler DR) (fun _ => Euler ROps) _ _ _ _ [0; 1; 2] (ff_euler 1) (same_tracks 1) (vec1_tracks a b)) as [(S & s & E & Er & (L & EL & H))|(er & _ & Er)].
  - refine (eq_trans E _). f_equal.
    assert (Es : forall e, at_ e L = [[a + b * e]; [2 * (a + b * e)]; [4 * (a + b * e)]]).
    { intros e. specialize (Er e). rewrite guess3 in Er. rewrite <- EL. exact (eq_sym (f_equal (fun r => match r with Ok v => v | _ => [] end) Er)). }
    clear EL Er E. destruct L as [|c1 [|c2 [|c3 [|]]]]; try (specialize (Es 0); discriminate).
    inversion H as [|S1 ? ? ? H1 K1]; subst. inversion K1 as [|S2 ? ? ? H2 K2]; subst. inversion K2 as [|S3 ? ? ? H3 K3]; subst. inversion K3; subst.
    rewrite (line_is a b 1 S1 c1 H1), (line_is a b 2 S2 c2 H2), (line_is a b 4 S3 c3 H3); [now rewrite !Rmult_1_l|..]; intros e; specialize (Es e); unfold at_ in Es; cbn [map] in Es; injection Es as E1 E2 E3; try assumption.
    rewrite E1. f_equal. ring.
  - specialize (Er 0). rewrite guess3 in Er. discriminate.
Qed.

(** C154 fails for MSBackward.  x' = x from x = a over [0, 1, 2], euler as coarse and fine method, fine_steps = 3, one pass (maxiter = 0), [vjp] the product with the Jacobian
    9/4 of the fine flow: the solve returns 81/16 a at time 2, for every a; its derivative in a is 81/16; autograd returns 9/2. *)
Lemma C154_backward_refuted_pf : forall fuel (vjp : list R -> list R -> list R -> list R) a,
  (forall b v, vjp [0; 1 / 2; 1] [b] [v] = [9 / 4 * v]) ->
  (forall b, @ms_flow ROps (fun _ x => x) (Euler ROps) [0; 1 / 2; 1] [b] = Ok [9 / 4 * b]) /\
  (forall e, @odeint_msbackward ROps fuel (fun _ x => x) [a + e] [0; 1; 2] (Euler ROps) (Euler ROps) vjp None 3 0
     = Ok ([0; 1; 2], [[a + e]; [9 / 4 * (a + e)]; [81 / 16 * (a + e)]])) /\
  @odeint_msbackward_autograd ROps fuel (fun _ x => x) [(a, 1)] [(0, 0); (1, 0); (2, 0)] (Euler DR) (Euler DR) vjp None 3 0
     = Ok ([(0, 0); (1, 0); (2, 0)], [[(a, 1)]; [(9 / 4 * a, 9 / 4)]; [(81 / 16 * a, 9 / 2)]]) /\
  derivable_pt_lim (fun e => 81 / 16 * (a + e)) 0 (81 / 16).
Proof.
  intros fuel vjp a Hv. split; [|split; [|split]].
  - exact flow3.
  - intros e. exact (back3 fuel vjp (a + e) Hv).
  - unfold odeint_msbackward_autograd, odeint_msbackward. refine (eq_trans (f_equal (fun r => rbind r _) (dguess3 fuel a 1)) _). cbn [rbind].
    assert (E : @msbackward_root_solve DR (Euler DR) (@detached_vjp ROps vjp) same_ [(0, 0); (1, 0); (2, 0)] [[(a, 1)]; [(2 * a, 2 * 1)]; [(4 * a, 4 * 1)]] 3 0 = Ok [[(a, 1)]; [(9 / 4 * a, 9 / 4)]; [(81 / 16 * a, 9 / 2)]]);
      [|exact (f_equal (fun r => rbind r _) E)].
    unfold msbackward_root_solve. change (@pyget DR [(0, 0); (1, 0); (2, 0)] 1) with (@Ok DR (1, 0)). change (@pyget DR [(0, 0); (1, 0); (2, 0)] 0) with (@Ok DR (0, 0)). cbn [rbind]. cbv zeta.
    assert (EL : @linspace0 DR (@nsub DR (1, 0) (0, 0)) 3 = map c0 [0; 1 / 2; 1])
      by (refine (eq_trans (f_equal (fun d => @linspace0 DR d 3) (t_sub 1 0)) _); rewrite linspace_tracks; exact (f_equal (map c0) lin3)).
    refine (eq_trans (f_equal (fun l => @sweeps DR (@back_sweep DR (@ms_flow DR same_ (Euler DR) l) (@detached_vjp ROps vjp l) _) _ _ _) EL) _).
    change (Z.to_nat (0 + 1)) with 1%nat. change (length [(0, 0); (1, 0); (2, 0)]) with 3%nat. cbn [sweeps]. unfold back_sweep. change (1 - 1)%nat with 0%nat. cbn [skipn].
    assert (T : @traverse (vec DR) (vec DR) (@ms_flow DR same_ (Euler DR) (map c0 [0; 1 / 2; 1])) [[(a, 1)]; [(2 * a, 2 * 1)]; [(4 * a, 4 * 1)]]
      = Ok [[(9 / 4 * a, 9 / 4 * 1)]; [(9 / 4 * (2 * a), 9 / 4 * (2 * 1))]; [(9 / 4 * (4 * a), 9 / 4 * (4 * 1))]]).
    { cbn [traverse]. rewrite !dflow3. reflexivity. }
    refine (eq_trans (f_equal (fun r => rbind (rbind r _) _) T) _). cbn [rbind length pyget nth_error Nat.sub back_inner Nat.eqb Nat.add].
    unfold in_range. cbn [Nat.ltb Nat.leb]. unfold vadd, vsub, detached_vjp. cbn [map2 map fst]. repeat (rewrite !Hv; cbn [rbind map2 map fst]).
    cbn [nsub nadd DualOps fst snd cst]. repeat (rewrite !Hv; cbn [rbind map2 map fst snd cst]). unfold ms_out. cbn [firstn skipn app map length Nat.add]. rops.
    apply f_equal. repeat (apply f_equal2; [first [reflexivity | apply f_equal2; [f_equal; (replace (Q2R 0) with 0 by (unfold Q2R; cbn; lra)); lra|reflexivity]]|]). reflexivity.
  - destruct (line_tracks a 1 (81 / 16)) as [_ H]. cbn [snd] in H. rewrite Rmult_1_r in H. intros eps He. destruct (H eps He) as (del & Hd). exists del.
    intros h Hh Hl. specialize (Hd h Hh Hl). rewrite !Rmult_1_l in Hd. exact Hd.
Qed.

(** ** ParallelImplicitEuler *)
(** A first guess with fewer than two states raises IndexError in the residual, in any arithmetic and whatever the optimiser, with and without derivatives. *)
Lemma C154_implicit_short_guess_pf : forall (K : NumOps) minimize fuel f F x X ts cs Ts cd B0 B0',
  (length B0 <= 1)%nat -> (length B0' <= 1)%nat ->
  @odeint_pie K minimize fuel f x ts cs (Some B0) = Err IndexError /\ @odeint_pie_autograd K minimize fuel F X Ts cd (Some B0') = Err IndexError.
Proof.
  intros K mz fuel f F x X ts cs Ts cd B0 B0' H H'.
  destruct B0 as [|a [|b B0]]; [| |cbn in H; lia]; (destruct B0' as [|a' [|b' B0']]; [| |cbn in H'; lia]); split; reflexivity.
Qed.

(** C154: in any arithmetic, for any optimiser, field, grid, initial state and first guess, no state returned with ParallelImplicitEuler carries a derivative. *)
Lemma C154_implicit_leaf_pf : forall (K : NumOps) minimize fuel (F : DualOps K -> vec (DualOps K) -> vec (DualOps K)) X ts cd B0 times sol,
  odeint_pie_autograd minimize fuel F X ts cd B0 = Ok (times, sol) -> Forall no_gradient sol.
Proof.
  intros K mz fuel F X ts cd B0 times sol E. unfold odeint_pie_autograd in E.
  destruct (ms_first_guess _ _ _ _ _ _) as [B| |]; try discriminate. cbn [rbind] in E. destruct (pie_residual _ _ _ _) as [r| |]; try discriminate. cbn [rbind] in E.
  assert (Es : sol = snd (times, sol)) by reflexivity. rewrite Es. clear Es. injection E as _ <-. cbn [snd].
  apply Forall_forall. intros s Hs. apply in_map_iff in Hs. destruct Hs as (b & <- & _). apply Forall_forall. intros c Hc. apply in_map_iff in Hc. destruct Hc as (d & <- & _). reflexivity.
Qed.

(** Optimisers that leave the first row alone when the objective does not depend on it *)
Definition keeps_first {K : NumOps} (m : (list (vec K) -> K) -> list (vec K) -> list (vec K)) : Prop :=
  forall r, (forall b b' rest, r (b :: rest) = r (b' :: rest)) -> forall b rest, exists rest', m r (b :: rest) = b :: rest'.

(** C154 fails for ParallelImplicitEuler.  x' = x from x = a over [0, 1, 2], any optimiser that leaves unused variables alone: the first returned state is the initial
    state a, for every a; its derivative in a is 1; autograd returns 0. *)
Lemma C154_implicit_refuted_pf : forall fuel (minimize : (list (list R) -> R) -> list (list R) -> list (list R)) a, @keeps_first ROps minimize ->
  (forall e, exists rest, @odeint_pie ROps minimize fuel (fun _ x => x) [a + e] [0; 1; 2] (Euler ROps) None = Ok ([0; 1; 2], [a + e] :: rest)) /\
  (exists rest, @odeint_pie_autograd ROps minimize fuel (fun _ x => x) [(a, 1)] [(0, 0); (1, 0); (2, 0)] (Euler DR) None = Ok ([(0, 0); (1, 0); (2, 0)], [(a, 0)] :: rest)) /\
  derivable_pt_lim (fun e => a + e) 0 1.
Proof.
  intros fuel mz a Hm. split; [|split].
  - intros e. unfold odeint_pie.
    assert (P : forall b b' rest, @objective_of ROps (@pie_residual ROps same_ [a + e] (b :: rest) [0; 1; 2]) = @objective_of ROps (@pie_residual ROps same_ [a + e] (b' :: rest) [0; 1; 2])) by reflexivity.
    destruct (Hm (fun B => @objective_of ROps (@pie_residual ROps same_ [a + e] B [0; 1; 2])) P [a + e] [[2 * (a + e)]; [4 * (a + e)]]) as (rest & Hr). exists rest.
    refine (eq_trans (f_equal (fun r => rbind r _) (guess3 fuel (a + e))) _). cbn [rbind].
    refine (eq_trans (y := Ok ([0; 1; 2], mz (fun B => @objective_of ROps (@pie_residual ROps same_ [a + e] B [0; 1; 2])) [[a + e]; [2 * (a + e)]; [4 * (a + e)]])) _ (f_equal (fun s => Ok ([0; 1; 2], s)) Hr)).
    reflexivity.
  - unfold odeint_pie_autograd.
    assert (P : forall b b' rest, @dual_objective_of ROps (@pie_residual DR same_ [(a, 1)] (map (map (@cst ROps)) (b :: rest)) (map c0 [0; 1; 2])) = @dual_objective_of ROps (@pie_residual DR same_ [(a, 1)] (map (map (@cst ROps)) (b' :: rest)) (map c0 [0; 1; 2]))) by reflexivity.
    destruct (Hm (fun B => @dual_objective_of ROps (@pie_residual DR same_ [(a, 1)] (map (map (@cst ROps)) B) (map c0 [0; 1; 2]))) P [a] [[2 * a]; [4 * a]]) as (rest & Hr).
    exists (map (map (@cst ROps)) rest).
    refine (eq_trans (f_equal (fun r => rbind r _) (dguess3 fuel a 1)) _). cbn [rbind].
    refine (eq_trans (y := Ok (map c0 [0; 1; 2], map (map (@cst ROps)) (mz (fun B => @dual_objective_of ROps (@pie_residual DR same_ [(a, 1)] (map (map (@cst ROps)) B) (map c0 [0; 1; 2]))) [[a]; [2 * a]; [4 * a]]))) eq_refl _).
    refine (eq_trans (f_equal (fun s => Ok (map c0 [0; 1; 2], map (map (@cst ROps)) s)) Hr) _). cbn [map]. rewrite cst_eq. reflexivity.
  - apply (shift_tracks a).
Qed.

(** The hypotheses of C154 are met: x' = (1 + e) x with initial state 2 + e, hypersolver and euler; a Jacobian product; an optimiser. *)
Lemma C154_ex_pf :
  let F := fun (_ : R * R) (Y : list (R * R)) => map (@nmul DR (1, 1)) Y in
  let f := fun (e _ : R) (y : list R) => map (Rmult (1 + e)) y in
  tracks_field 1 F f /\ tracks_vec 1 [(2, 1)] (fun e => [2 + e]) /\ fixed_family 1 (@HyperEuler DR F) (fun e => @HyperEuler ROps (f e)) /\
  (forall b v, (fun (_ _ w : list R) => map (Rmult (9 / 4)) w) [0; 1 / 2; 1] [b] [v] = [9 / 4 * v]) /\
  @keeps_first ROps (fun _ B => match B with b :: rest => b :: map (map (Rmult 2)) rest | [] => [] end) /\
  same_solver (Euler DR) (Euler ROps) /\ s_fixed (Euler ROps) = true.
Proof.
  assert (H : tracks_field 1 (fun (_ : R * R) (Y : list (R * R)) => map (@nmul DR (1, 1)) Y) (fun (e _ : R) (y : list R) => map (Rmult (1 + e)) y)) by apply (map_tracks (1, 1) (fun e => 1 + e)), shift_tracks.
  cbv zeta. split; [exact H|]. split; [|split; [now constructor|split; [reflexivity|split; [|split; [constructor|reflexivity]]]]].
  - split; [reflexivity|]. split; [reflexivity|]. intros i Hi. destruct i; [|lia]. apply shift_tracks.
  - intros r _ b rest. now eexists.
Qed.
