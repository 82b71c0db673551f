(** Proofs of the property about the symplectic form of leapfrog solves. *)
From Coq Require Import ZArith QArith Reals Lra Lia List Bool.
From Verif Require Import Num Py Tensor M_SolversOde M_Odeint Spec_Ode Spec_RK Spec_Conv Spec_Order Spec_Leap.
From Verif Require Import L_Base L_Fixed L_Vec L_Steps L_Steps2 L_Fixed2 L_Jagged L_Conv L_Sens L_Leap Pf_Fixed Pf_Leap.
Import ListNotations.
Local Notation length := List.length.
Local Open Scope R_scope.

(** [p] is the derivative at 0 of the curve [c] of vectors with [m] entries. *)
Definition derivative_at0 (m : nat) (c : R -> list R) (p : nat -> R) : Prop :=
  (forall e, length (c e) = m) /\ forall i, (i < m)%nat -> derivable_pt_lim (fun e => nth i (c e) 0) 0 (p i).
(** [A t x i j] is the derivative of component i of the field by component j of the state (chain rule along every curve). *)
Definition field_derivative (n : nat) (f : R -> list R -> list R) (A : R -> list R -> nat -> nat -> R) : Prop :=
  forall t c d, derivative_at0 n c d -> derivative_at0 n (fun e => f t (c e)) (mat_vec n (A t (c 0)) d).
Definition symmetric (n : nat) (A : R -> list R -> nat -> nat -> R) : Prop := forall t x i j, (i < n)%nat -> (j < n)%nat -> A t x i j = A t x j i.
(** The symplectic form: sum of dx_i dv_i' - dv_i dx_i' over positions x and velocities v; the area in one dimension. *)
Definition omega (n : nat) (p q : nat -> R) : R := rsum n (fun i => p i * q (n + i)%nat - p (n + i)%nat * q i).

Lemma rs_ext N g h : (forall j, (j < N)%nat -> g j = h j) -> rsum N g = rsum N h.
Proof. intros E. induction N as [|N IH]; cbn [rsum]; [reflexivity|]. rewrite IH, E; auto. Qed.
Lemma rs_plus N g h : rsum N (fun j => g j + h j) = rsum N g + rsum N h.
Proof. induction N as [|N IH]; cbn [rsum]; [ring|]. rewrite IH. ring. Qed.
Lemma rs_scal N c g : rsum N (fun j => c * g j) = c * rsum N g.
Proof. induction N as [|N IH]; cbn [rsum]; [ring|]. rewrite IH. ring. Qed.
Lemma rs_zero N : rsum N (fun _ => 0) = 0.
Proof. induction N as [|N IH]; cbn [rsum]; [ring|]. rewrite IH. ring. Qed.
Lemma rs_swap N M g : rsum N (fun i => rsum M (fun j => g i j)) = rsum M (fun j => rsum N (fun i => g i j)).
Proof.
  induction N as [|N IH]; cbn [rsum]; [now rewrite rs_zero|]. rewrite IH, <- rs_plus. reflexivity.
Qed.
Lemma sym_form n (B : nat -> nat -> R) d e : (forall i j, (i < n)%nat -> (j < n)%nat -> B i j = B j i) ->
  rsum n (fun i => d i * mat_vec n B e i) = rsum n (fun i => mat_vec n B d i * e i).
Proof.
  intros HB. unfold mat_vec.
  rewrite (rs_ext n (fun i => d i * _) (fun i => rsum n (fun j => d i * (B i j * e j)))) by (intros; now rewrite rs_scal).
  rewrite rs_swap. apply rs_ext. intros j Hj. rewrite (Rmult_comm _ (e j)), <- rs_scal. apply rs_ext. intros i Hi. rewrite (HB i j) by auto. ring.
Qed.

(** One step *)
Definition step_dir (n : nat) (B : nat -> nat -> R) (h : R) (p : nat -> R) : nat -> R :=
  let g := mat_vec n B (fun i => p i + h / 2 * p (n + i)%nat) in
  fun i => if (i <? n)%nat then p i + h * g i else 2 * g (i - n)%nat - p i.
Lemma step_omega n B h p q : (forall i j, (i < n)%nat -> (j < n)%nat -> B i j = B j i) ->
  omega n (step_dir n B h p) (step_dir n B h q) = - omega n p q.
Proof.
  intros HB. pose proof (sym_form n B (fun i => p i + h / 2 * p (n + i)%nat) (fun i => q i + h / 2 * q (n + i)%nat) HB) as S. cbv beta in S.
  set (gp := mat_vec n B (fun i => p i + h / 2 * p (n + i)%nat)) in *. set (gq := mat_vec n B (fun i => q i + h / 2 * q (n + i)%nat)) in *.
  unfold omega. rewrite (rs_ext n _ (fun i => -1 * (p i * q (n + i)%nat - p (n + i)%nat * q i) +
     (2 * ((p i + h / 2 * p (n + i)%nat) * gq i) + -2 * (gp i * (q i + h / 2 * q (n + i)%nat))))).
  - rewrite !rs_plus, !rs_scal, S. ring.
  - intros i Hi. unfold step_dir. fold gp gq. rewrite (proj2 (Nat.ltb_lt i n) Hi), (proj2 (Nat.ltb_ge (n + i) n) ltac:(lia)). replace (n + i - n)%nat with i by lia. field.
Qed.
Lemma d_ext (g h : R -> R) t l : (forall s, g s = h s) -> derivable_pt_lim g t l -> derivable_pt_lim h t l.
Proof. intros E H eps He. destruct (H eps He) as (d & Hd). exists d. intros k Hn Hk. rewrite <- !E. now apply Hd. Qed.
Lemma d_comb (g h : R -> R) t a b l m : derivable_pt_lim g t l -> derivable_pt_lim h t m -> derivable_pt_lim (fun s => a * g s + b * h s) t (a * l + b * m).
Proof. intros H1 H2. exact (derivable_pt_lim_plus _ _ t _ _ (derivable_pt_lim_scal g a t l H1) (derivable_pt_lim_scal h b t m H2)). Qed.

(** A curve of states is a curve of pairs. *)
Definition split_at (n : nat) (s : list R) : list R * list R := (firstn n s, skipn n s).
Lemma split_on n s : length s = (2 * n)%nat -> pair_on n (split_at n s).
Proof. intros H. unfold split_at. split; cbn [fst snd]; [rewrite firstn_length|rewrite skipn_length]; lia. Qed.
Lemma split_join n s : join (split_at n s) = s.
Proof. apply firstn_skipn. Qed.
Lemma join_nth1 n p i : pair_on n p -> (i < n)%nat -> nth i (join p) 0 = nth i (fst p) 0.
Proof. intros [H1 H2] Hi. unfold join. apply app_nth1. lia. Qed.
Lemma join_nth2 n p i : pair_on n p -> nth (n + i) (join p) 0 = nth i (snd p) 0.
Proof. intros [H1 H2]. unfold join. rewrite app_nth2 by lia. f_equal. lia. Qed.
Lemma join_len n p : pair_on n p -> length (join p) = (2 * n)%nat.
Proof. intros [H1 H2]. unfold join. rewrite app_length. lia. Qed.

Lemma leap_deriv n f A t h (c : R -> list R * list R) p : field_on n f -> field_derivative n f A -> (forall e, pair_on n (c e)) ->
  derivative_at0 (2 * n) (fun e => join (c e)) p ->
  derivative_at0 (2 * n) (fun e => join (leap f t h (c e))) (step_dir n (A (t + h / 2) (axpy (h / 2) (snd (c 0)) (fst (c 0)))) h p).
Proof.
  intros Hf HA Hc [_ Hd]. split; [intros e; apply join_len; now apply leap_on|].
  set (mid := fun e => axpy (h / 2) (snd (c e)) (fst (c e))).
  assert (D1 : forall i, (i < n)%nat -> derivable_pt_lim (fun e => nth i (fst (c e)) 0) 0 (p i)).
  { intros i Hi. apply (d_ext (fun e => nth i (join (c e)) 0)); [intros e; now apply (join_nth1 n)|apply Hd; lia]. }
  assert (D2 : forall i, (i < n)%nat -> derivable_pt_lim (fun e => nth i (snd (c e)) 0) 0 (p (n + i)%nat)).
  { intros i Hi. apply (d_ext (fun e => nth (n + i) (join (c e)) 0)); [intros e; now apply (join_nth2 n)|apply Hd; lia]. }
  assert (Lm : forall e, length (mid e) = n) by (intros e; unfold mid; destruct (Hc e); now apply axpy_len).
  assert (Dm : derivative_at0 n mid (fun i => p i + h / 2 * p (n + i)%nat)).
  { split; [exact Lm|]. intros i Hi. replace (p i + h / 2 * p (n + i)%nat) with (1 * p i + h / 2 * p (n + i)%nat) by ring.
    apply (d_ext (fun e => 1 * nth i (fst (c e)) 0 + h / 2 * nth i (snd (c e)) 0)).
    - intros e. unfold mid. destruct (Hc e). rewrite (nth_axpy' n) by auto. ring.
    - apply d_comb; auto. }
  destruct (HA (t + h / 2) mid _ Dm) as [Lg Dg]. change (A (t + h / 2) (axpy (h / 2) (snd (c 0)) (fst (c 0)))) with (A (t + h / 2) (mid 0)).
  intros i Hi. unfold step_dir. destruct (i <? n)%nat eqn:E.
  - apply Nat.ltb_lt in E. apply (d_ext (fun e => 1 * nth i (fst (c e)) 0 + h * nth i (f (t + h / 2) (mid e)) 0)).
    + intros e. rewrite (join_nth1 n) by (auto using leap_on). unfold leap. cbn [fst]. fold (mid e). destruct (Hc e). rewrite (nth_axpy' n); auto; ring.
    + match goal with |- derivable_pt_lim _ _ (?a + ?b) => replace (a + b) with (1 * a + b) by ring end. apply d_comb; auto.
  - apply Nat.ltb_ge in E. set (j := (i - n)%nat). replace i with (n + j)%nat by (unfold j; lia). assert (Hj : (j < n)%nat) by (unfold j; lia).
    apply (d_ext (fun e => 2 * nth j (f (t + h / 2) (mid e)) 0 + -1 * nth j (snd (c e)) 0)).
    + intros e. rewrite (join_nth2 n) by (auto using leap_on). unfold leap. cbn [snd]. fold (mid e). destruct (Hc e). rewrite (nth_axpy' n); auto; [rewrite nth_map_lin; ring|rewrite map_length; apply Lg].
    + match goal with |- derivable_pt_lim _ _ (?a - ?b) => replace (a - b) with (a + -1 * b) by ring end. apply d_comb; auto.
Qed.

Lemma traj_omega n f A : field_on n f -> field_derivative n f A -> symmetric n A ->
  forall ts t (c1 c2 : R -> list R * list R) p q, (forall e, pair_on n (c1 e)) -> (forall e, pair_on n (c2 e)) -> c1 0 = c2 0 ->
  derivative_at0 (2 * n) (fun e => join (c1 e)) p -> derivative_at0 (2 * n) (fun e => join (c2 e)) q ->
  forall k, (k < length (t :: ts))%nat -> exists pk qk,
    derivative_at0 (2 * n) (fun e => nth k (map join (one_step_traj (leap f) (c1 e) (t :: ts))) []) pk /\
    derivative_at0 (2 * n) (fun e => nth k (map join (one_step_traj (leap f) (c2 e) (t :: ts))) []) qk /\
    omega n pk qk = (-1) ^ k * omega n p q.
Proof.
  intros Hf HA HS. induction ts as [|t1 ts IH]; intros t c1 c2 p q H1 H2 E0 Dp Dq k Hk.
  - cbn in Hk. replace k with 0%nat by lia. exists p, q. split; [exact Dp|]. split; [exact Dq|]. cbn. ring.
  - destruct k as [|k].
    + exists p, q. split; [exact Dp|]. split; [exact Dq|]. cbn. ring.
    + set (h := t1 - t).
      pose proof (leap_deriv n f A t h c1 p Hf HA H1 Dp) as D1. pose proof (leap_deriv n f A t h c2 q Hf HA H2 Dq) as D2. rewrite <- E0 in D2.
      set (B := A (t + h / 2) (axpy (h / 2) (snd (c1 0)) (fst (c1 0)))) in *.
      destruct (IH t1 (fun e => leap f t h (c1 e)) (fun e => leap f t h (c2 e)) _ _ (fun e => leap_on n f t h _ Hf (H1 e)) (fun e => leap_on n f t h _ Hf (H2 e)) (f_equal (leap f t h) E0) D1 D2 k ltac:(cbn in *; lia)) as (pk & qk & P1 & P2 & P3).
      exists pk, qk. split; [|split].
      * destruct P1 as [Q1 Q2]. split; [intros e; specialize (Q1 e); rewrite traj_cons; exact Q1|intros i Hi; apply (d_ext (fun e => nth i (nth k (map join (one_step_traj (leap f) (leap f t h (c1 e)) (t1 :: ts))) []) 0)); [intros e; rewrite traj_cons; reflexivity|now apply Q2]].
      * destruct P2 as [Q1 Q2]. split; [intros e; specialize (Q1 e); rewrite traj_cons; exact Q1|intros i Hi; apply (d_ext (fun e => nth i (nth k (map join (one_step_traj (leap f) (leap f t h (c2 e)) (t1 :: ts))) []) 0)); [intros e; rewrite traj_cons; reflexivity|now apply Q2]].
      * rewrite P3, step_omega by (intros; now apply HS). cbn [pow]. ring.
Qed.

(** For fields with symmetric Jacobian (gradients), on every grid: whenever two curves of initial states (position, velocity) start from the
    same state in the directions p and q, the states recorded at the k-th time are differentiable along them and the symplectic form of
    the derivatives is (-1)^k times that of p and q.  So an even number of steps, of any sizes, is symplectic. *)
Lemma C186_form_partial_pf :
  forall n f A o c1 c2 p q t0 t1 ts fuel atol rtol all,
  field_on n f -> field_derivative n f A -> symmetric n A -> o <> 2%nat -> separated (t0 :: t1 :: ts) -> t0 <= t1 ->
  derivative_at0 (2 * n) c1 p -> derivative_at0 (2 * n) c2 q -> c1 0 = c2 0 ->
  exists s1 s2 : R -> list (list R),
    (forall e, snd (@odeint_symplectic ROps fuel f (Some o) (c1 e) (@TTensor ROps (t0 :: t1 :: ts)) (AsynchronousLeapfrog ROps false) true atol rtol all []) = Ok (t0 :: t1 :: ts, s1 e)) /\
    (forall e, snd (@odeint_symplectic ROps fuel f (Some o) (c2 e) (@TTensor ROps (t0 :: t1 :: ts)) (AsynchronousLeapfrog ROps false) true atol rtol all []) = Ok (t0 :: t1 :: ts, s2 e)) /\
    forall k, (k < length (t0 :: t1 :: ts))%nat -> exists pk qk,
      derivative_at0 (2 * n) (fun e => nth k (s1 e) []) pk /\ derivative_at0 (2 * n) (fun e => nth k (s2 e) []) qk /\
      omega n pk qk = (-1) ^ k * omega n p q.
Proof.
  intros n f A o c1 c2 p q t0 t1 ts fuel atol rtol all Hf HA HS Ho Hsep Hle [L1 D1] [L2 D2] E0.
  exists (fun e => map join (one_step_traj (leap f) (split_at n (c1 e)) (t0 :: t1 :: ts))), (fun e => map join (one_step_traj (leap f) (split_at n (c2 e)) (t0 :: t1 :: ts))).
  assert (G : forall s, length s = (2 * n)%nat -> snd (@odeint_symplectic ROps fuel f (Some o) s (@TTensor ROps (t0 :: t1 :: ts)) (AsynchronousLeapfrog ROps false) true atol rtol all [])
      = Ok (t0 :: t1 :: ts, map join (one_step_traj (leap f) (split_at n s) (t0 :: t1 :: ts)))).
  { intros s Hs. destruct (split_on n s Hs) as [A1 A2]. rewrite <- (split_join n s) at 1. unfold join. exact (C115_trajectory_pf n f o _ _ t0 t1 ts fuel atol rtol all Hf A1 A2 Ho Hsep Hle). }
  split; [intros e; apply G, L1|]. split; [intros e; apply G, L2|].
  apply (traj_omega n f A Hf HA HS (t1 :: ts) t0 (fun e => split_at n (c1 e)) (fun e => split_at n (c2 e)) p q).
  - intros e. now apply split_on.
  - intros e. now apply split_on.
  - now rewrite E0.
  - split; [intros e; now rewrite split_join|intros i Hi; apply (d_ext (fun e => nth i (c1 e) 0)); [intros e; now rewrite split_join|now apply D1]].
  - split; [intros e; now rewrite split_join|intros i Hi; apply (d_ext (fun e => nth i (c2 e) 0)); [intros e; now rewrite split_join|now apply D2]].
Qed.

(** Solves with an odd number of steps are not symplectic: in one dimension the map from the initial state to the state at any odd
    index reverses the sign of every area, for every differentiable field.  The derivatives exist and are unique. *)
Lemma C186_symplectic_refuted_pf :
  forall f A o x v t0 t1 ts k fuel atol rtol all,
  field_on 1 f -> field_derivative 1 f A -> o <> 2%nat -> separated (t0 :: t1 :: ts) -> t0 <= t1 -> (k < length (t0 :: t1 :: ts))%nat -> Nat.Odd k ->
  exists sx sv : R -> list (list R), exists a b c d,
    (forall e, snd (@odeint_symplectic ROps fuel f (Some o) [x + e; v] (@TTensor ROps (t0 :: t1 :: ts)) (AsynchronousLeapfrog ROps false) true atol rtol all []) = Ok (t0 :: t1 :: ts, sx e)) /\
    (forall e, snd (@odeint_symplectic ROps fuel f (Some o) [x; v + e] (@TTensor ROps (t0 :: t1 :: ts)) (AsynchronousLeapfrog ROps false) true atol rtol all []) = Ok (t0 :: t1 :: ts, sv e)) /\
    derivable_pt_lim (fun e => nth 0 (nth k (sx e) []) 0) 0 a /\ derivable_pt_lim (fun e => nth 1 (nth k (sx e) []) 0) 0 b /\
    derivable_pt_lim (fun e => nth 0 (nth k (sv e) []) 0) 0 c /\ derivable_pt_lim (fun e => nth 1 (nth k (sv e) []) 0) 0 d /\
    a * d - b * c = -1.
Proof.
  intros f A o x v t0 t1 ts k fuel atol rtol all Hf HA Ho Hsep Hle Hk [m Em].
  assert (D1 : derivative_at0 2 (fun e => [x + e; v]) (fun i => if (i =? 0)%nat then 1 else 0)).
  { split; [reflexivity|]. intros [|[|i]] Hi; [| |lia]; cbn.
    - replace 1 with (0 + 1) by ring. exact (derivable_pt_lim_plus _ _ 0 _ _ (derivable_pt_lim_const x 0) (derivable_pt_lim_id 0)).
    - apply derivable_pt_lim_const. }
  assert (D2 : derivative_at0 2 (fun e => [x; v + e]) (fun i => if (i =? 0)%nat then 0 else 1)).
  { split; [reflexivity|]. intros [|[|i]] Hi; [| |lia]; cbn.
    - apply derivable_pt_lim_const.
    - replace 1 with (0 + 1) by ring. exact (derivable_pt_lim_plus _ _ 0 _ _ (derivable_pt_lim_const v 0) (derivable_pt_lim_id 0)). }
  destruct (C186_form_partial_pf 1 f A o _ _ _ _ t0 t1 ts fuel atol rtol all Hf HA ltac:(intros t y i j Hi Hj; replace i with 0%nat by lia; replace j with 0%nat by lia; reflexivity) Ho Hsep Hle D1 D2 ltac:(cbv beta; now rewrite !Rplus_0_r)) as (s1 & s2 & S1 & S2 & K).
  destruct (K k Hk) as (pk & qk & [_ P] & [_ Q] & W). exists s1, s2, (pk 0%nat), (pk 1%nat), (qk 0%nat), (qk 1%nat).
  split; [exact S1|]. split; [exact S2|]. split; [apply P; lia|]. split; [apply P; lia|]. split; [apply Q; lia|]. split; [apply Q; lia|].
  unfold omega in W. cbn [rsum Nat.add Nat.eqb] in W. subst k. replace (2 * m + 1)%nat with (S (2 * m)) in W by lia. rewrite <- tech_pow_Rmult, pow_1_even in W. lra.
Qed.

(** The hypotheses are met by the gradient of x^2 + xy + y^2 in two dimensions. *)
Lemma C186_ex_pf :
  let f := fun (_ : R) (x : list R) => [2 * nth 0 x 0 + nth 1 x 0; nth 0 x 0 + 2 * nth 1 x 0] in
  let A := fun (_ : R) (_ : list R) i j => if (i =? j)%nat then 2 else 1 in
  field_on 2 f /\ field_derivative 2 f A /\ symmetric 2 A /\ separated [0; 1; 2] /\
  derivative_at0 4 (fun e => [e; 0; 0; 0]) (fun i => if (i =? 0)%nat then 1 else 0) /\ omega 2 (fun i => if (i =? 0)%nat then 1 else 0) (fun i => if (i =? 2)%nat then 1 else 0) = 1.
Proof.
  intros f A. split; [intros t x Hx; reflexivity|]. split.
  { intros t c d [Hl Hd]. split; [reflexivity|]. pose proof (Hd 0%nat ltac:(lia)) as D0. pose proof (Hd 1%nat ltac:(lia)) as D1.
    intros [|[|i]] Hi; [| |lia]; unfold mat_vec; cbn.
    - replace (0 + 2 * d 0%nat + 1 * d 1%nat) with (2 * d 0%nat + 1 * d 1%nat) by ring. apply (d_ext (fun e => 2 * nth 0 (c e) 0 + 1 * nth 1 (c e) 0)); [intros; ring|now apply d_comb].
    - replace (0 + 1 * d 0%nat + 2 * d 1%nat) with (1 * d 0%nat + 2 * d 1%nat) by ring. apply (d_ext (fun e => 1 * nth 0 (c e) 0 + 2 * nth 1 (c e) 0)); [intros; ring|now apply d_comb]. }
  split; [intros t x i j _ _; unfold A; now rewrite Nat.eqb_sym|]. split; [exact (proj1 (proj2 C115_ex_pf))|]. split.
  - split; [reflexivity|]. intros [|[|[|[|i]]]] Hi; [| | | |lia]; cbn; [apply derivable_pt_lim_id|apply derivable_pt_lim_const|apply derivable_pt_lim_const|apply derivable_pt_lim_const].
  - unfold omega. cbn. ring.
Qed.
