(** Local error of an explicit Runge-Kutta method along a smooth solution, from order conditions computed
    on the tableau.  Stage errors are expanded in powers of the step size; the coefficients are rational
    multiples of J_a1 (J_a2 (... y^(k))), J_a the a-th time derivative of the Jacobian along the solution. *)
From Coq Require Import ZArith QArith Qreals Reals Lra Lia List Bool Factorial Arith.
From Verif Require Import Num Py Tensor Spec_Ode Spec_Trees Spec_RK Spec_Conv Spec_Order.
From Verif Require Import L_Base L_Vec L_Steps L_Tables L_Steps2 L_Sens L_Conv.
Import ListNotations.
Local Open Scope R_scope.
Local Notation length := List.length.

(** ** Taylor's formula with a bound on the remainder *)
Fixpoint psum (N : nat) (g : nat -> R) : R := match N with O => 0 | S m => psum m g + g m end.
Lemma psum_ext N g g' : (forall m, (m < N)%nat -> g m = g' m) -> psum N g = psum N g'.
Proof. induction N as [|N IH]; intros H; simpl; auto. rewrite IH, H; auto. Qed.
Lemma psum_plus N g g' : psum N (fun m => g m + g' m) = psum N g + psum N g'.
Proof. induction N; simpl; lra. Qed.
Lemma psum_scal N c g : psum N (fun m => c * g m) = c * psum N g.
Proof. induction N; simpl; lra. Qed.
Lemma psum_zero N : psum N (fun _ => 0) = 0.
Proof. induction N; simpl; lra. Qed.
Lemma psum_shift N g : psum (S N) g = g 0%nat + psum N (fun m => g (S m)).
Proof. induction N as [|N IH]; [simpl; lra|]. simpl in *. lra. Qed.

Lemma dlim_pow a c m : derivable_pt_lim (fun s => (s - a) ^ S m / INR (fact (S m))) c ((c - a) ^ m / INR (fact m)).
Proof.
  assert (D : derivable_pt_lim (fun s => s - a) c 1).
  { replace 1 with (1 - 0) by lra. apply (derivable_pt_lim_minus id (fct_cte a)); [apply derivable_pt_lim_id|apply derivable_pt_lim_const]. }
  pose proof (derivable_pt_lim_comp (fun s => s - a) (fun u => u ^ S m) c 1 _ D (derivable_pt_lim_pow _ (S m))) as D2.
  pose proof (derivable_pt_lim_scal _ (/ INR (fact (S m))) c _ D2) as D3.
  eapply dlim_ext; [| |exact D3].
  - intros s. unfold mult_real_fct, comp. cbv beta. unfold Rdiv. ring.
  - cbn [pred]. rewrite fact_simpl, mult_INR. field. split; apply not_0_INR; [apply fact_neq_0|lia].
Qed.

Lemma dlim_psum (g dg : nat -> R -> R) c N : (forall m, (m < N)%nat -> derivable_pt_lim (g m) c (dg m c)) ->
  derivable_pt_lim (fun s => psum N (fun m => g m s)) c (psum N (fun m => dg m c)).
Proof.
  induction N as [|N IH]; intros H; simpl.
  - apply (derivable_pt_lim_const 0).
  - apply (derivable_pt_lim_plus (fun s => psum N (fun m => g m s)) (g N)); auto.
Qed.

Lemma taylor_n (u : nat -> R -> R) M a b N : a <= b ->
  (forall m c, (m <= N)%nat -> a <= c <= b -> derivable_pt_lim (u m) c (u (S m) c)) ->
  (forall c, a <= c <= b -> Rabs (u (S N) c) <= M) ->
  Rabs (u 0%nat b - psum (S N) (fun m => (b - a) ^ m / INR (fact m) * u m a)) <= M * ((b - a) ^ S N / INR (fact (S N))).
Proof.
  revert u b. induction N as [|N IH]; intros u b Hab Hd HM.
  - pose proof (diff_bound (u 0%nat) (u 1%nat) (fun s => M * s + 0) (fun _ => M) a b Hab) as B.
    replace (u 0%nat b - psum 1 (fun m => (b - a) ^ m / INR (fact m) * u m a)) with (u 0%nat b - u 0%nat a) by (simpl; field).
    replace (M * ((b - a) ^ 1 / INR (fact 1))) with (M * b + 0 - (M * a + 0)) by (simpl; field). apply B.
    + intros c Hc. apply Hd; auto.
    + intros c _. apply dlim_lin.
    + intros c Hc. apply HM. lra.
  - set (P := fun s => psum (S N) (fun m => (s - a) ^ S m / INR (fact (S m)) * u (S m) a)).
    assert (IH' : forall c, a <= c <= b -> Rabs (u 1%nat c - psum (S N) (fun m => (c - a) ^ m / INR (fact m) * u (S m) a)) <= M * ((c - a) ^ S N / INR (fact (S N)))).
    { intros c Hc. apply (IH (fun m => u (S m)) c (proj1 Hc)); [|intros e He; apply HM; lra].
      intros m e Hm He. apply Hd; [lia|lra]. }
    pose proof (diff_bound (minus_fct (u 0%nat) P) (fun c => u 1%nat c - psum (S N) (fun m => (c - a) ^ m / INR (fact m) * u (S m) a))
      (fun s => M * ((s - a) ^ S (S N) / INR (fact (S (S N))))) (fun c => M * ((c - a) ^ S N / INR (fact (S N)))) a b Hab) as B.
    assert (Pa : P a = 0).
    { unfold P. rewrite (psum_ext _ _ (fun _ => 0)); [apply psum_zero|]. intros m _. rewrite Rminus_diag_eq by reflexivity. rewrite pow_i by lia. unfold Rdiv. ring. }
    match type of B with _ -> _ -> _ -> Rabs ?l <= ?r =>
      replace (u 0%nat b - psum (S (S N)) (fun m => (b - a) ^ m / INR (fact m) * u m a)) with l;
      [replace (M * ((b - a) ^ S (S N) / INR (fact (S (S N))))) with r|] end.
    + apply B.
      * intros c Hc. apply derivable_pt_lim_minus; [apply Hd; [lia|lra]|]. unfold P.
        apply (dlim_psum (fun m s => (s - a) ^ S m / INR (fact (S m)) * u (S m) a) (fun m c => (c - a) ^ m / INR (fact m) * u (S m) a)).
        intros m _. pose proof (derivable_pt_lim_scal _ (u (S m) a) c _ (dlim_pow a c m)) as D.
        eapply dlim_ext; [| |exact D]; [intros s; unfold mult_real_fct; ring|ring].
      * intros c _. apply (derivable_pt_lim_scal (fun s => (s - a) ^ S (S N) / INR (fact (S (S N)))) M c). apply dlim_pow.
      * intros c Hc. apply IH'. lra.
    + rewrite (Rminus_diag_eq a a eq_refl), pow_i by lia. unfold Rdiv. ring.
    + unfold minus_fct. rewrite Pa, psum_shift. unfold P. simpl (fact 0). simpl (_ ^ 0). simpl INR. lra.
Qed.

(** ** Formal expansions *)
Definition term := (Q * (list nat * nat))%type.
Definition weight (w : list nat * nat) : nat := snd w + list_sum (map S (fst w)).
Definition ifact (m : nat) : Q := (1 # Pos.of_nat (fact m))%Q.
Lemma ifact_R m : Q2R (ifact m) = / INR (fact m).
Proof.
  unfold ifact, Q2R. simpl. rewrite Rmult_1_l. f_equal. rewrite <- INR_IPR || idtac.
  rewrite <- positive_nat_Z, Nat2Pos.id by apply fact_neq_0. now rewrite <- INR_IZR_INZ.
Qed.

Fixpoint qpow (c : Q) (m : nat) : Q := match m with O => 1%Q | S m' => Qred (c * qpow c m') end.
Lemma qpow_R c m : Q2R (qpow c m) = Q2R c ^ m.
Proof.
  induction m as [|m IH]; [unfold Q2R; simpl; lra|]. cbn [qpow pow].
  rewrite (Qeq_eqR _ _ (Qred_correct _)), Q2R_mult, IH. reflexivity.
Qed.

Definition same (a b : list nat * nat) : bool := Nat.eqb (snd a) (snd b) && (if list_eq_dec Nat.eq_dec (fst a) (fst b) then true else false).
Lemma same_eq a b : same a b = true -> a = b.
Proof.
  unfold same. intros H. apply andb_prop in H. destruct H as [H1 H2]. apply Nat.eqb_eq in H1.
  destruct (list_eq_dec Nat.eq_dec (fst a) (fst b)); [|discriminate]. destruct a, b; simpl in *; congruence.
Qed.
Fixpoint insert (x : term) (l : list term) : list term :=
  match l with
  | [] => [x]
  | z :: l' => if same (snd x) (snd z) then (Qred (fst x + fst z), snd z) :: l' else z :: insert x l'
  end.
Definition merge (l : list term) : list term :=
  filter (fun x => negb (Qeq_bool (fst x) 0)) (fold_right insert [] l).
Definition trunc (N : nat) (l : list term) : list term := filter (fun x => Nat.leb (weight (snd x)) N) l.
Definition scale (a : Q) (l : list term) : list term := map (fun x => (a * fst x, snd x)%Q) l.
(** the a-th Taylor term of the Jacobian applied, for a < A *)
Fixpoint lift (A : nat) (c : Q) (l : list term) : list term :=
  match A with O => [] | S a => lift a c l ++ map (fun x => ((qpow c a * ifact a) * fst x, (a :: fst (snd x), snd (snd x)))%Q) l end.
(** coefficient of y^(S k) in y + h sum_j a_j y'(t + c_j h) - y(t + c h) *)
Fixpoint quad_coef (row cs : list Q) (k : nat) : Q :=
  match row, cs with a :: row', c :: cs' => (a * (qpow c k * ifact k) + quad_coef row' cs' k)%Q | _, _ => 0%Q end.
Fixpoint defect (N : nat) (c : Q) (row cs : list Q) : list term :=
  match N with O => [] | S k => defect k c row cs ++ [((quad_coef row cs k - qpow c (S k) * ifact (S k))%Q, ([], S k))] end.
Fixpoint fsum (A : nat) (row : list Q) (done : list (Q * list term)) : list term :=
  match row, done with a :: row', (c, l) :: done' => scale a (lift A c l) ++ fsum A row' done' | _, _ => [] end.
Definition minweight (p : nat) (l : list term) : nat := fold_right (fun x m => Nat.min (weight (snd x)) m) p l.

Section Check.
Variable p : nat.
Definition fstage (done : list (Q * list term)) (r : Q * list Q) : list term :=
  trunc (p - 1) (merge (defect p (fst r) (snd r) (map fst done) ++ fsum (p - 1) (snd r) done)).
Fixpoint row_ok (q : nat) (row : list Q) (done : list (Q * list term)) : bool :=
  match row, done with
  | a :: row', (_, l) :: done' => (Qeq_bool a 0 || Nat.leb q (2 * minweight p l + 1)) && row_ok q row' done'
  | _, _ => true
  end.
Definition in01 (c : Q) : bool := Qle_bool 0 c && Qle_bool c 1.
Fixpoint stages_check (done : list (Q * list term)) (rows : list (Q * list Q)) : option (list (Q * list term)) :=
  match rows with
  | [] => Some done
  | r :: rows' => if in01 (fst r) && row_ok p (snd r) done then stages_check (done ++ [(fst r, fstage done r)]) rows' else None
  end.
Definition order_check (rows : qrows) (b : list Q) : bool :=
  match stages_check [] rows with
  | Some done => row_ok (S p) b done && match trunc p (merge (defect p 1 b (map fst done) ++ fsum (p - 1) b done)) with [] => true | _ => false end
  | None => false
  end.
End Check.

Lemma check_euler : order_check 1 q_euler qb_euler = true. Proof. vm_compute. reflexivity. Qed.
Lemma check_midpoint : order_check 2 q_midpoint qb_midpoint = true. Proof. vm_compute. reflexivity. Qed.
Lemma check_rk4 : order_check 4 q_rk4 qb_rk4 = true. Proof. vm_compute. reflexivity. Qed.
Lemma check_dopri5 : order_check 5 q_dopri5 qb5_dopri5 = true. Proof. vm_compute. reflexivity. Qed.
Lemma check_dopri5_4 : order_check 4 q_dopri5 qb4_dopri5 = true. Proof. vm_compute. reflexivity. Qed.

Lemma rsum_psum N g : rsum N g = psum N g.
Proof. induction N; simpl; congruence. Qed.

Section Local.
Variables (n p : nat) (f : R -> list R -> list R) (y : R -> list R) (yd : nat -> R -> list R)
  (J : nat -> R -> nat -> nat -> R) (K M t0 T H0 : R).
Hypothesis Hp : (1 <= p)%nat.
Hypothesis Hf : field_on n f.
Hypothesis HH0 : 0 <= H0.
Hypothesis HM : 0 <= M.
Hypothesis HK : 0 <= K.
Hypothesis Hs : smooth_solution n t0 T p f y yd J K M.

Definition dom (t h : R) : Prop := t0 <= t /\ 0 <= h <= H0 /\ t + h <= T.
Definition fam := R -> R -> nat -> R.
(** |u t h| <= C h^k in every component *)
Definition bigO (k : nat) (u : fam) : Prop :=
  exists C, 0 <= C /\ forall t h i, dom t h -> (i < n)%nat -> Rabs (u t h i) <= C * h ^ k.

Lemma O_ext k u v : (forall t h i, dom t h -> (i < n)%nat -> u t h i = v t h i) -> bigO k u -> bigO k v.
Proof. intros H (C & HC & HB). exists C. split; auto. intros t h i Hd Hi. rewrite <- H by auto. auto. Qed.
Lemma hpow t h k : dom t h -> 0 <= h ^ k.
Proof. intros (_ & Hh & _). apply pow_le; lra. Qed.
Lemma O_plus k u v : bigO k u -> bigO k v -> bigO k (fun t h i => u t h i + v t h i).
Proof.
  intros (C & HC & HB) (C' & HC' & HB'). exists (C + C'). split; [lra|]. intros t h i Hd Hi.
  eapply Rle_trans; [apply Rabs_triang|]. rewrite Rmult_plus_distr_r. apply Rplus_le_compat; auto.
Qed.
Lemma O_scal k a u : bigO k u -> bigO k (fun t h i => a * u t h i).
Proof.
  intros (C & HC & HB). exists (Rabs a * C). split; [apply Rmult_le_pos; auto; apply Rabs_pos|]. intros t h i Hd Hi.
  rewrite Rabs_mult, Rmult_assoc. apply Rmult_le_compat_l; auto. apply Rabs_pos.
Qed.
Lemma O_opp k u : bigO k u -> bigO k (fun t h i => - u t h i).
Proof. intros H. eapply O_ext; [|apply (O_scal k (-1) u H)]. intros. cbv beta. ring. Qed.
Lemma O_minus k u v : bigO k u -> bigO k v -> bigO k (fun t h i => u t h i - v t h i).
Proof. intros H1 H2. apply O_plus; auto. now apply O_opp. Qed.
Lemma O_zero k : bigO k (fun _ _ _ => 0).
Proof. exists 0. split; [lra|]. intros. rewrite Rabs_R0. lra. Qed.
Lemma O_weaken k k' u : (k' <= k)%nat -> bigO k u -> bigO k' u.
Proof.
  intros Hk (C & HC & HB). exists (C * H0 ^ (k - k')). split; [apply Rmult_le_pos; auto; now apply pow_le|].
  intros t h i Hd Hi. eapply Rle_trans; [now apply HB|]. replace k with ((k - k') + k')%nat at 1 by lia.
  rewrite pow_add, Rmult_assoc. apply Rmult_le_compat_l; auto. apply Rmult_le_compat_r; [now apply (hpow t)|].
  apply pow_incr. destruct Hd as (_ & Hh & _). lra.
Qed.
Lemma O_hmul k m u : bigO k u -> bigO (m + k) (fun t h i => h ^ m * u t h i).
Proof.
  intros (C & HC & HB). exists C. split; auto. intros t h i Hd Hi. rewrite Rabs_mult, pow_add.
  rewrite (Rabs_right (h ^ m)) by (apply Rle_ge, (hpow t); auto).
  replace (C * (h ^ m * h ^ k)) with (h ^ m * (C * h ^ k)) by ring. apply Rmult_le_compat_l; auto. now apply (hpow t).
Qed.
Lemma O_sum k N (u : nat -> fam) : (forall m, (m < N)%nat -> bigO k (u m)) -> bigO k (fun t h i => psum N (fun m => u m t h i)).
Proof.
  induction N as [|N IH]; intros H; [apply O_zero|]. simpl. apply O_plus; auto.
Qed.
(** products with matrices *)
Lemma O_mat k m (A : R -> R -> nat -> nat -> R) (v : fam) C : 0 <= C ->
  (forall t h i j, dom t h -> (i < n)%nat -> (j < n)%nat -> Rabs (A t h i j) <= C * h ^ m) -> bigO k v ->
  bigO (m + k) (fun t h i => mat_vec n (A t h) (v t h) i).
Proof.
  intros HC HA (C' & HC' & HB). exists (INR n * (C * C')). split; [apply Rmult_le_pos; [apply pos_INR|now apply Rmult_le_pos]|].
  intros t h i Hd Hi. unfold mat_vec. rewrite rsum_psum.
  assert (G : forall N, (N <= n)%nat -> Rabs (psum N (fun j => A t h i j * v t h j)) <= INR N * (C * C' * h ^ (m + k))).
  { induction N as [|N IH]; intros HN; [simpl; rewrite Rabs_R0; lra|]. rewrite S_INR. cbn [psum].
    eapply Rle_trans; [apply Rabs_triang|]. rewrite Rmult_plus_distr_r, Rmult_1_l. apply Rplus_le_compat; [apply IH; lia|].
    rewrite Rabs_mult, pow_add. replace (C * C' * (h ^ m * h ^ k)) with ((C * h ^ m) * (C' * h ^ k)) by ring.
    apply Rmult_le_compat; try apply Rabs_pos; auto. }
  rewrite Rmult_assoc. apply (G n). lia.
Qed.

Lemma mv_plus A u v i : mat_vec n A (fun j => u j + v j) i = mat_vec n A u i + mat_vec n A v i.
Proof. unfold mat_vec. rewrite !rsum_psum, <- psum_plus. apply psum_ext. intros. ring. Qed.
Lemma mv_scal A c v i : mat_vec n A (fun j => c * v j) i = c * mat_vec n A v i.
Proof. unfold mat_vec. rewrite !rsum_psum, <- psum_scal. apply psum_ext. intros. ring. Qed.
Lemma mv_ext A u v i : (forall j, (j < n)%nat -> u j = v j) -> mat_vec n A u i = mat_vec n A v i.
Proof. intros H. unfold mat_vec. rewrite !rsum_psum. apply psum_ext. intros. now rewrite H. Qed.
Lemma mv_minus A u v i : mat_vec n A (fun j => u j - v j) i = mat_vec n A u i - mat_vec n A v i.
Proof.
  unfold mat_vec. generalize n as N. induction N as [|m IH]; cbn [rsum]; [ring|]. rewrite IH. ring.
Qed.
Lemma mv_zero A i : mat_vec n A (fun _ => 0) i = 0.
Proof. unfold mat_vec. rewrite rsum_psum, (psum_ext _ _ (fun _ => 0)); [apply psum_zero|]. intros. ring. Qed.

(** ** Meaning of formal expansions *)
Fixpoint word (w : list nat) (k : nat) (t : R) : nat -> R :=
  match w with [] => fun i => nth i (yd k t) 0 | a :: w' => mat_vec n (J a t) (word w' k t) end.
Definition tden (x : term) : fam := fun t h i => Q2R (fst x) * h ^ weight (snd x) * word (fst (snd x)) (snd (snd x)) t i.
Definition den (l : list term) : fam := fun t h i => fold_right (fun x s => tden x t h i + s) 0 l.

Definition wf1 (x : term) : Prop := (1 <= snd (snd x) <= p)%nat /\ Forall (fun a => (a < p - 1)%nat) (fst (snd x)).
Definition wf := Forall wf1.

Lemma den_app l l' t h i : den (l ++ l') t h i = den l t h i + den l' t h i.
Proof. unfold den. induction l as [|x l IH]; simpl; [lra|]. rewrite IH. lra. Qed.
Lemma den_cons x l t h i : den (x :: l) t h i = tden x t h i + den l t h i.
Proof. reflexivity. Qed.

Lemma den_insert x l t h i : den (insert x l) t h i = tden x t h i + den l t h i.
Proof.
  induction l as [|z l IH]; [reflexivity|]. cbn [insert]. destruct (same (snd x) (snd z)) eqn:E.
  - apply same_eq in E. rewrite !den_cons. unfold tden. cbn [fst snd]. rewrite E.
    rewrite (Qeq_eqR _ _ (Qred_correct _)), Q2R_plus. ring.
  - rewrite !den_cons, IH. ring.
Qed.
Lemma den_merge l t h i : den (merge l) t h i = den l t h i.
Proof.
  unfold merge. transitivity (den (fold_right insert [] l) t h i).
  - generalize (fold_right insert [] l). clear l. intros l. induction l as [|x l IH]; [reflexivity|]. cbn [filter].
    destruct (Qeq_bool (fst x) 0) eqn:E; simpl negb; cbv iota; rewrite den_cons; [|rewrite den_cons, IH; reflexivity].
    rewrite IH. apply Qeq_bool_iff in E. unfold tden. rewrite (Qeq_eqR _ _ E). unfold Q2R at 1. simpl. lra.
  - induction l as [|x l IH]; [reflexivity|]. cbn [fold_right]. rewrite den_insert, IH. reflexivity.
Qed.
Lemma wf_insert x l : wf1 x -> wf l -> wf (insert x l).
Proof.
  intros Hx Hl. induction Hl as [|z l Hz Hl IH]; [repeat constructor; apply Hx|]. cbn [insert].
  destruct (same (snd x) (snd z)); constructor; auto.
Qed.
Lemma wf_merge l : wf l -> wf (merge l).
Proof.
  intros Hl. unfold merge. assert (G : wf (fold_right insert [] l)).
  { induction Hl as [|x l Hx Hl IH]; [constructor|]. cbn [fold_right]. now apply wf_insert. }
  apply Forall_forall. intros x Hx. apply filter_In in Hx. eapply Forall_forall in G; [exact G|apply Hx].
Qed.
Lemma wf_trunc N l : wf l -> wf (trunc N l).
Proof. intros H. apply Forall_forall. intros x Hx. apply filter_In in Hx. eapply Forall_forall in H; [exact H|apply Hx]. Qed.

Lemma J_bound a t i j : (a < p)%nat -> t0 <= t <= T -> (i < n)%nat -> (j < n)%nat -> Rabs (J a t i j) <= M.
Proof. intros. destruct Hs as (_ & _ & _ & _ & _ & _ & HJ & _). auto. Qed.

Lemma dom_t t h : dom t h -> t0 <= t <= T.
Proof. intros (A & B & C). lra. Qed.

Lemma O_word w k : (k <= S p)%nat -> Forall (fun a => (a < p - 1)%nat) w -> bigO 0 (fun t h i => word w k t i).
Proof.
  intros Hk Hw. induction Hw as [|a w Ha Hw IH].
  - exists M. split; auto. intros t h i Hd Hi. rewrite pow_O, Rmult_1_r. cbn [word].
    destruct Hs as (_ & _ & _ & _ & HB & _). apply HB; auto. now apply (dom_t t h).
  - cbn [word]. apply (O_mat 0 0 (fun t h => J a t) _ M HM); auto. intros t h i j Hd Hi Hj.
    rewrite pow_O, Rmult_1_r. apply J_bound; auto; [lia|now apply (dom_t t h)].
Qed.
Lemma O_tden x : wf1 x -> bigO (weight (snd x)) (tden x).
Proof.
  intros [Hk Hw]. pose proof (O_hmul 0 (weight (snd x)) _ (O_scal 0 (Q2R (fst x)) _ (O_word (fst (snd x)) (snd (snd x)) ltac:(lia) Hw))) as O1.
  rewrite Nat.add_0_r in O1. eapply O_ext; [|exact O1]. intros. unfold tden. cbv beta. ring.
Qed.
Lemma O_den k l : wf l -> (forall x, In x l -> (k <= weight (snd x))%nat) -> bigO k (den l).
Proof.
  intros Hw Hk. induction Hw as [|x l Hx Hw IH]; [apply O_zero|].
  eapply O_ext; [intros; symmetry; apply den_cons|]. apply O_plus; [|apply IH; intros; apply Hk; now right].
  apply (O_weaken (weight (snd x))); [apply Hk; now left|]. now apply O_tden.
Qed.
Lemma O_trunc N l : wf l -> bigO (S N) (fun t h i => den l t h i - den (trunc N l) t h i).
Proof.
  intros Hw. induction Hw as [|x l Hx Hw IH].
  - eapply O_ext; [|apply (O_zero (S N))]. intros. unfold den. simpl. ring.
  - cbn [trunc filter]. destruct (Nat.leb (weight (snd x)) N) eqn:E.
    + eapply O_ext; [|exact IH]. intros. cbv beta. rewrite !den_cons. fold (trunc N l). ring.
    + apply Nat.leb_gt in E. eapply O_ext; [|apply (O_plus _ _ _ (O_weaken _ (S N) _ E (O_tden x Hx)) IH)].
      intros. cbv beta. rewrite den_cons. fold (trunc N l). ring.
Qed.
Lemma minweight_le l x : In x l -> (minweight p l <= weight (snd x))%nat.
Proof. induction l as [|z l IH]; intros []; simpl; [subst; lia|]. specialize (IH H). lia. Qed.
Lemma minweight_p l : (minweight p l <= p)%nat.
Proof. induction l; simpl; lia. Qed.

Lemma den_scale a l t h i : den (scale a l) t h i = Q2R a * den l t h i.
Proof.
  induction l as [|x l IH]; [unfold den; simpl; ring|]. cbn [scale map]. fold (scale a l). rewrite !den_cons, IH. unfold tden. cbn [fst snd].
  rewrite Q2R_mult. ring.
Qed.
Lemma wf_scale a l : wf l -> wf (scale a l).
Proof. intros H. induction H as [|x l Hx H IH]; [constructor|]. constructor; auto. Qed.

(** h J_0(t + c h) v expanded *)
Lemma den_lift A c l t h i : den (lift A c l) t h i =
  h * psum A (fun a => (Q2R c * h) ^ a / INR (fact a) * mat_vec n (J a t) (fun j => den l t h j) i).
Proof.
  induction A as [|A IH]; [unfold den; simpl; ring|]. cbn [lift psum]. rewrite den_app, IH, Rmult_plus_distr_l. f_equal. clear IH.
  induction l as [|x l IH].
  - unfold den. cbn [map fold_right]. rewrite mv_zero. ring.
  - cbn [map]. rewrite den_cons. rewrite IH.
    transitivity (h * ((Q2R c * h) ^ A / INR (fact A) * (mat_vec n (J A t) (fun j => tden x t h j) i + mat_vec n (J A t) (fun j => den l t h j) i))).
    2:{ rewrite <- mv_plus. reflexivity. }
    rewrite !Rmult_plus_distr_l. f_equal. unfold tden. cbn [fst snd word weight]. rewrite mv_scal.
    rewrite !Q2R_mult, qpow_R, ifact_R, Rpow_mult_distr. unfold weight. cbn [fst snd map list_sum fold_right]. fold (list_sum (map S (fst (snd x)))).
    replace (snd (snd x) + (S A + list_sum (map S (fst (snd x)))))%nat with (S A + (snd (snd x) + list_sum (map S (fst (snd x)))))%nat by lia.
    rewrite pow_add. cbn [pow]. field. apply not_0_INR, fact_neq_0.
Qed.
Lemma wf_lift A c l : (A <= p - 1)%nat -> wf l -> wf (lift A c l).
Proof.
  intros HA H. induction A as [|A IH]; [constructor|]. cbn [lift]. apply Forall_app. split; [apply IH; lia|].
  apply Forall_forall. intros x Hx. apply in_map_iff in Hx. destruct Hx as (z & <- & Hz). eapply Forall_forall in H; [|exact Hz].
  destruct H as [H1 H2]. split; cbn [fst snd]; [exact H1|constructor; [lia|exact H2]].
Qed.
Lemma wf_fsum row : forall done, Forall (fun d => wf (snd d)) done -> wf (fsum (p - 1) row done).
Proof.
  induction row as [|a row IH]; intros [|[c l] done] H; cbn [fsum]; try constructor. inversion H; subst.
  apply Forall_app. split; [|now apply IH]. now apply wf_scale, wf_lift.
Qed.
Lemma wf_defect N c row cs : (N <= p)%nat -> wf (defect N c row cs).
Proof.
  induction N as [|N IH]; intros HN; [constructor|]. cbn [defect]. apply Forall_app. split; [apply IH; lia|].
  constructor; [|constructor]. split; cbn [fst snd]; [lia|constructor].
Qed.

(** Taylor expansion of the Jacobian *)
Lemma O_jac c (v : fam) : 0 <= Q2R c <= 1 -> bigO 1 v ->
  bigO (S p) (fun t h i => h * mat_vec n (J 0%nat (t + Q2R c * h)) (v t h) i -
    h * psum (p - 1) (fun a => (Q2R c * h) ^ a / INR (fact a) * mat_vec n (J a t) (v t h) i)).
Proof.
  intros Hc Hv.
  set (A := fun (t h : R) i j => J 0%nat (t + Q2R c * h) i j - psum (p - 1) (fun a => (Q2R c * h) ^ a / INR (fact a) * J a t i j)).
  assert (HA : forall t h i j, dom t h -> (i < n)%nat -> (j < n)%nat -> Rabs (A t h i j) <= M * h ^ (p - 1)).
  { intros t h i j Hd Hi Hj. pose proof Hd as (D1 & D2 & D3). unfold A.
    assert (Hch : 0 <= Q2R c * h <= h).
    { split; [apply Rmult_le_pos; lra|]. rewrite <- (Rmult_1_l h) at 2. apply Rmult_le_compat_r; lra. }
    destruct (p - 1)%nat as [|N] eqn:EN.
    - simpl. rewrite Rminus_0_r, Rmult_1_r. apply J_bound; auto; lra.
    - pose proof (taylor_n (fun m s => J m s i j) M t (t + Q2R c * h) N ltac:(lra)) as B. cbv beta in B.
      replace (t + Q2R c * h - t) with (Q2R c * h) in B by ring.
      eapply Rle_trans; [apply B|].
      + intros m e Hm He. destruct Hs as (_ & _ & _ & _ & _ & HJ & _). apply HJ; auto; try lia; lra.
      + intros e He. apply J_bound; auto; try lia; lra.
      + apply Rmult_le_compat_l; auto. apply Rle_trans with (h ^ S N / 1).
        * unfold Rdiv. apply Rmult_le_compat; [apply pow_le; lra|left; apply Rinv_0_lt_compat, INR_fact_lt_0|apply pow_incr; lra|].
          apply Rinv_le_contravar; [lra|]. change 1 with (INR 1). apply le_INR. pose proof (lt_O_fact (S N)). lia.
        * lra. }
  pose proof (O_hmul _ 1 _ (O_mat 1 (p - 1) A v M HM HA Hv)) as O1.
  replace (1 + (p - 1 + 1))%nat with (S p) in O1 by lia. eapply O_ext; [|exact O1].
  intros t h i Hd Hi. cbv beta. rewrite pow_1, <- Rmult_minus_distr_l. f_equal. unfold A.
  clear HA O1. revert Hi. generalize (p - 1)%nat as N. intros N Hi. induction N as [|N IH]; cbn [psum].
  - rewrite Rminus_0_r. unfold mat_vec. rewrite !rsum_psum. apply psum_ext. intros. ring.
  - unfold Rminus in *. rewrite Ropp_plus_distr, <- Rplus_assoc, <- IH.
    replace (- ((Q2R c * h) ^ N / INR (fact N) * mat_vec n (J N t) (v t h) i)) with
      (- ((Q2R c * h) ^ N / INR (fact N)) * mat_vec n (J N t) (v t h) i) by ring.
    unfold mat_vec. rewrite !rsum_psum, <- psum_scal, <- psum_plus. apply psum_ext. intros. ring.
Qed.

(** Quadrature part *)
Lemma yd_taylor m N c : (m + N <= p)%nat -> 0 <= Q2R c <= 1 ->
  bigO (S N) (fun t h i => nth i (yd m (t + Q2R c * h)) 0 - psum (S N) (fun k => (Q2R c * h) ^ k / INR (fact k) * nth i (yd (m + k) t) 0)).
Proof.
  intros Hm Hc. exists M. split; auto. intros t h i Hd Hi. pose proof Hd as (D1 & D2 & D3).
  assert (Hch : 0 <= Q2R c * h <= h).
  { split; [apply Rmult_le_pos; lra|]. rewrite <- (Rmult_1_l h) at 2. apply Rmult_le_compat_r; lra. }
  pose proof (taylor_n (fun k s => nth i (yd (m + k)%nat s) 0) M t (t + Q2R c * h) N ltac:(lra)) as B. cbv beta in B.
  replace (t + Q2R c * h - t) with (Q2R c * h) in B by ring. rewrite Nat.add_0_r in B.
  eapply Rle_trans; [apply B|].
  - intros k e Hk He. rewrite <- Nat.add_succ_comm. cbn [plus]. destruct Hs as (_ & _ & _ & HD & _).
    pose proof (HD (m + k)%nat ltac:(lia) i e Hi ltac:(lra)) as D. rewrite Nat.add_succ_comm || idtac. exact D.
  - intros e He. destruct Hs as (_ & _ & _ & _ & HB & _). apply HB; auto; try lia; lra.
  - apply Rmult_le_compat_l; auto. apply Rle_trans with (h ^ S N / 1).
    + unfold Rdiv. apply Rmult_le_compat; [apply pow_le; lra|left; apply Rinv_0_lt_compat, INR_fact_lt_0|apply pow_incr; lra|].
      apply Rinv_le_contravar; [lra|]. change 1 with (INR 1). apply le_INR. pose proof (lt_O_fact (S N)). lia.
    + lra.
Qed.

(** sum_j a_j y'(t + c_j h) *)
Fixpoint ysum (row cs : list Q) : fam :=
  match row, cs with
  | a :: row', c :: cs' => fun t h i => Q2R a * nth i (yd 1 (t + Q2R c * h)) 0 + ysum row' cs' t h i
  | _, _ => fun _ _ _ => 0
  end.
Lemma ysum_taylor row : forall cs, Forall (fun c => 0 <= Q2R c <= 1) cs ->
  bigO p (fun t h i => ysum row cs t h i - psum p (fun k => Q2R (quad_coef row cs k) * h ^ k * nth i (yd (S k) t) 0)).
Proof.
  assert (Z : forall (X : R -> nat -> R), bigO p (fun t h i => 0 - psum p (fun k => Q2R 0 * h ^ k * X t k))).
  { intros X. eapply O_ext; [|apply (O_zero p)]. intros. cbv beta. rewrite (psum_ext _ _ (fun _ => 0)), psum_zero; [ring|].
    intros. replace (Q2R 0) with 0 by (unfold Q2R; simpl; lra). ring. }
  induction row as [|a row IH]; intros [|c cs] Hc; cbn [ysum quad_coef];
    try (eapply O_ext; [|apply (O_zero p)]; intros; cbv beta; rewrite (psum_ext _ _ (fun _ => 0)), psum_zero; [ring|];
         intros; replace (Q2R 0) with 0 by (unfold Q2R; simpl; lra); ring).
  inversion Hc as [|? ? Hc1 Hc2]; subst.
  pose proof (yd_taylor 1 (p - 1) c ltac:(lia) Hc1) as O1. replace (S (p - 1)) with p in O1 by lia.
  eapply O_ext; [|apply (O_plus _ _ _ (O_scal _ (Q2R a) _ O1) (IH cs Hc2))].
  intros t h i Hd Hi. cbv beta. cbn [plus].
  replace (psum p (fun k => Q2R (a * (qpow c k * ifact k) + quad_coef row cs k) * h ^ k * nth i (yd (S k) t) 0)) with
    (Q2R a * psum p (fun k => (Q2R c * h) ^ k / INR (fact k) * nth i (yd (S k) t) 0)
     + psum p (fun k => Q2R (quad_coef row cs k) * h ^ k * nth i (yd (S k) t) 0)); [ring|].
  rewrite <- psum_scal, <- psum_plus. apply psum_ext. intros k Hk. rewrite Q2R_plus, !Q2R_mult, qpow_R, ifact_R, Rpow_mult_distr.
  field. apply not_0_INR, fact_neq_0.
Qed.
Lemma den_defect N c row cs t h i : den (defect N c row cs) t h i =
  psum N (fun k => (Q2R (quad_coef row cs k) - Q2R c ^ S k / INR (fact (S k))) * h ^ S k * nth i (yd (S k) t) 0).
Proof.
  induction N as [|N IH]; [reflexivity|]. cbn [defect psum]. rewrite den_app, IH. f_equal. unfold den, tden. cbn [fold_right fst snd word weight].
  unfold weight. cbn [fst snd map list_sum fold_right]. rewrite Nat.add_0_r, Q2R_minus, Q2R_mult, qpow_R, ifact_R. unfold Rdiv. ring.
Qed.
Lemma O_defect c row cs : 0 <= Q2R c <= 1 -> Forall (fun c => 0 <= Q2R c <= 1) cs ->
  bigO (S p) (fun t h i => nth i (y t) 0 + h * ysum row cs t h i - nth i (y (t + Q2R c * h)) 0 - den (defect p c row cs) t h i).
Proof.
  intros Hc Hcs. pose proof (O_hmul _ 1 _ (ysum_taylor row cs Hcs)) as O1.
  pose proof (yd_taylor 0 p c ltac:(lia) Hc) as O2.
  eapply O_ext; [|apply (O_minus _ _ _ O1 O2)]. intros t h i Hd Hi. cbv beta.
  destruct Hs as (_ & HY & _). rewrite <- (HY (t + Q2R c * h)), <- (HY t).
  rewrite psum_shift. cbn [plus pow]. simpl (fact 0). rewrite den_defect.
  replace (psum p (fun k => (Q2R (quad_coef row cs k) - Q2R c ^ S k / INR (fact (S k))) * h ^ S k * nth i (yd (S k) t) 0)) with
    (h * psum p (fun k => Q2R (quad_coef row cs k) * h ^ k * nth i (yd (S k) t) 0)
     - psum p (fun m => Q2R c * h * (Q2R c * h) ^ m / INR (fact (S m)) * nth i (yd (S m) t) 0)).
  - simpl INR. field.
  - rewrite <- psum_scal. unfold Rminus at 1. rewrite <- (Rmult_1_l (psum p (fun m => Q2R c * h * _ / _ * _))), Ropp_mult_distr_l, <- psum_scal, <- psum_plus.
    apply psum_ext. intros k Hk. cbn [pow]. rewrite Rpow_mult_distr. unfold Rdiv. ring.
Qed.

(** ** Stages *)
Definition stage_ok (d : Q * list term) (k : R -> R -> list R) : Prop :=
  0 <= Q2R (fst d) <= 1 /\ wf (snd d) /\ (forall t h, length (k t h) = n) /\
  bigO (Nat.min (S p) (2 * minweight p (snd d) + 1))
    (fun t h i => h * (nth i (k t h) 0 - nth i (yd 1 (t + Q2R (fst d) * h)) 0) - den (lift (p - 1) (fst d) (snd d)) t h i).

Lemma stage_sum q row : forall done ks, (q <= S p)%nat -> row_ok p q row done = true -> Forall2 stage_ok done ks ->
  bigO q (fun t h i => h * wsum i (map Q2R row) (map (fun k => k t h) ks) - h * ysum row (map fst done) t h i - den (fsum (p - 1) row done) t h i).
Proof.
  induction row as [|a row IH]; intros done ks Hq Hok HF.
  - eapply O_ext; [|apply (O_zero q)]. intros. unfold den. simpl. ring.
  - destruct HF as [|[c l] k done ks Hd HF].
    + eapply O_ext; [|apply (O_zero q)]. intros. unfold den. simpl. ring.
    + cbn [row_ok] in Hok. apply andb_prop in Hok. destruct Hok as [H1 H2]. destruct Hd as (Hc & Hw & Hl & HO). cbn [fst snd] in *.
      assert (O1 : bigO q (fun t h i => Q2R a * (h * (nth i (k t h) 0 - nth i (yd 1 (t + Q2R c * h)) 0) - den (lift (p - 1) c l) t h i))).
      { apply orb_prop in H1. destruct H1 as [E|E].
        - apply Qeq_bool_iff in E. eapply O_ext; [|apply (O_zero q)]. intros. cbv beta. rewrite (Qeq_eqR _ _ E).
          replace (Q2R 0) with 0 by (unfold Q2R; simpl; lra). ring.
        - apply Nat.leb_le in E. apply O_scal. eapply O_weaken; [|exact HO]. lia. }
      eapply O_ext; [|apply (O_plus _ _ _ O1 (IH done ks Hq H2 HF))]. intros t h i Hd Hi. cbv beta.
      cbn [map wsum ysum fsum fst]. rewrite den_app, den_scale. ring.
Qed.

Lemma ks_len done ks t h : Forall2 stage_ok done ks -> forall k, In k (map (fun k => k t h) ks) -> length k = n.
Proof.
  intros HF k Hk. apply in_map_iff in Hk. destruct Hk as (g & <- & Hg).
  induction HF as [|d k ds ks Hd HF IH]; [destruct Hg|]. destruct Hg as [<-|Hg]; auto. apply Hd.
Qed.
Lemma y_len t : length (y t) = n.
Proof. destruct Hs as (Hy & _). apply Hy. Qed.

(** Error of x + h sum_j a_j k_j as approximation of y(t + c h) *)
Lemma comb_error q c row done ks : (q <= S p)%nat -> 0 <= Q2R c <= 1 -> row_ok p q row done = true -> Forall2 stage_ok done ks ->
  bigO q (fun t h i => nth i (comb (y t) h (map Q2R row) (map (fun k => k t h) ks)) 0 - nth i (y (t + Q2R c * h)) 0
            - den (defect p c row (map fst done) ++ fsum (p - 1) row done) t h i).
Proof.
  intros Hq Hc Hok HF. pose proof (stage_sum q row done ks Hq Hok HF) as O1.
  assert (Hcs : Forall (fun c => 0 <= Q2R c <= 1) (map fst done)).
  { clear O1 Hok. induction HF as [|d k ds ks Hd HF IH]; constructor; auto. apply Hd. }
  pose proof (O_weaken _ q _ Hq (O_defect c row (map fst done) Hc Hcs)) as O2.
  eapply O_ext; [|apply (O_plus _ _ _ O1 O2)]. intros t h i Hd Hi. cbv beta.
  rewrite (nth_comb n) by (auto; try apply y_len; now apply (ks_len done)). rewrite den_app. ring.
Qed.

Lemma O_square k (u : fam) (r : fam) C : 0 <= C ->
  (forall t h D, dom t h -> (forall i, (i < n)%nat -> Rabs (u t h i) <= D) -> forall i, (i < n)%nat -> Rabs (r t h i) <= C * (D * D)) ->
  bigO k u -> bigO (2 * k) r.
Proof.
  intros HC Hr (B & HB & Hu). exists (C * (B * B)). split; [apply Rmult_le_pos; auto; now apply Rmult_le_pos|].
  intros t h i Hd Hi. eapply Rle_trans; [apply (Hr t h (B * h ^ k) Hd); auto|].
  replace (2 * k)%nat with (k + k)%nat by lia. rewrite pow_add. right. ring.
Qed.

Lemma den_weights l k : wf l -> (forall x, In x l -> (k <= weight (snd x))%nat) -> bigO k (den l).
Proof. apply O_den. Qed.

Lemma in01_R c : in01 c = true -> 0 <= Q2R c <= 1.
Proof.
  unfold in01. intros H. apply andb_prop in H. destruct H as [H1 H2]. apply Qle_bool_iff in H1, H2.
  apply Qle_Rle in H1, H2. replace (Q2R 0) with 0 in H1 by (unfold Q2R; simpl; lra). replace (Q2R 1) with 1 in H2 by (unfold Q2R; simpl; lra). lra.
Qed.

Lemma wf_weight x : wf1 x -> (1 <= weight (snd x))%nat.
Proof. intros [H _]. unfold weight. lia. Qed.

Lemma stage_step r done ks : 0 <= Q2R (fst r) <= 1 -> row_ok p p (snd r) done = true -> Forall2 stage_ok done ks ->
  stage_ok (fst r, fstage p done r) (fun t h => f (t + Q2R (fst r) * h) (comb (y t) h (map Q2R (snd r)) (map (fun k => k t h) ks))).
Proof.
  intros Hc Hok HF. destruct r as [c row]. cbn [fst snd] in *.
  pose proof (comb_error p c row done ks ltac:(lia) Hc Hok HF) as O1.
  set (F := defect p c row (map fst done) ++ fsum (p - 1) row done) in *.
  assert (WD : Forall (fun d => wf (snd d)) done).
  { clear O1 Hok F. induction HF as [|d k ds ks Hd HF IH]; constructor; auto. apply Hd. }
  assert (WF : wf F) by (apply Forall_app; split; [now apply wf_defect|now apply wf_fsum]).
  set (Sg := fstage p done (c, row)).
  assert (WS : wf Sg) by (apply wf_trunc, wf_merge, WF).
  set (X := fun t h => comb (y t) h (map Q2R row) (map (fun k => k t h) ks)).
  assert (LX : forall t h, length (X t h) = n) by (intros; apply comb_len; [apply y_len|now apply (ks_len done)]).
  set (dl := fun t h i => nth i (X t h) 0 - nth i (y (t + Q2R c * h)) 0).
  assert (OS : bigO p (fun t h i => dl t h i - den Sg t h i)).
  { pose proof (O_trunc (p - 1) (merge F) (wf_merge _ WF)) as O2. replace (S (p - 1)) with p in O2 by lia.
    eapply O_ext; [|apply (O_plus _ _ _ O1 O2)]. intros t h i Hd Hi. cbv beta. rewrite den_merge. unfold dl, X, Sg, fstage. cbn [fst snd]. fold F. ring. }
  set (s := minweight p Sg).
  assert (Os : forall k, (k <= p)%nat -> (forall x, In x Sg -> (k <= weight (snd x))%nat) -> bigO k dl).
  { intros k Hk Hx. eapply O_ext; [|apply (O_plus _ _ _ (O_weaken _ k _ Hk OS) (O_den k Sg WS Hx))]. intros. cbv beta. ring. }
  assert (Odl : bigO s dl) by (apply Os; [apply minweight_p|intros; now apply minweight_le]).
  assert (Odl1 : bigO 1 dl) by (apply Os; [lia|intros x Hx; apply wf_weight; eapply Forall_forall in WS; eauto]).
  split; [exact Hc|]. split; [exact WS|]. split; [intros; apply Hf, LX|]. cbn [fst snd]. fold Sg. fold s.
  assert (Hdt : forall t h, dom t h -> t0 <= t + Q2R c * h <= T).
  { intros t h (D1 & D2 & D3). assert (Hch : 0 <= Q2R c * h <= h); [|lra].
    split; [apply Rmult_le_pos; lra|]. rewrite <- (Rmult_1_l h) at 2. apply Rmult_le_compat_r; lra. }
  (* nonlinear remainder *)
  assert (O3 : bigO (S (2 * s)) (fun t h i => h * (nth i (f (t + Q2R c * h) (X t h)) 0 - nth i (f (t + Q2R c * h) (y (t + Q2R c * h))) 0
      - mat_vec n (J 0%nat (t + Q2R c * h)) (dl t h) i))).
  { pose proof (O_square s dl (fun t h i => nth i (f (t + Q2R c * h) (X t h)) 0 - nth i (f (t + Q2R c * h) (y (t + Q2R c * h))) 0
      - mat_vec n (J 0%nat (t + Q2R c * h)) (dl t h) i) K HK) as O3.
    assert (O3' := O3 ltac:(intros t h D Hd HD i Hi; destruct Hs as (_ & _ & _ & _ & _ & _ & _ & HLn); apply HLn; auto; now apply Hdt) Odl).
    pose proof (O_hmul _ 1 _ O3') as O4. eapply O_ext; [|exact O4]. intros. cbv beta. now rewrite pow_1. }
  (* Jacobian expanded on dl, then dl replaced by its expansion *)
  pose proof (O_jac c dl Hc Odl1) as O4.
  assert (O5 : bigO (S p) (fun t h i => h * psum (p - 1) (fun a => (Q2R c * h) ^ a / INR (fact a) * mat_vec n (J a t) (dl t h) i) - den (lift (p - 1) c Sg) t h i)).
  { assert (O6 : bigO p (fun t h i => psum (p - 1) (fun a => (Q2R c * h) ^ a / INR (fact a) * mat_vec n (J a t) (fun j => dl t h j - den Sg t h j) i))).
    { apply (O_sum p (p - 1) (fun a t h i => (Q2R c * h) ^ a / INR (fact a) * mat_vec n (J a t) (fun j => dl t h j - den Sg t h j) i)).
      intros a Ha.
      pose proof (O_mat p 0 (fun t h => J a t) (fun t h j => dl t h j - den Sg t h j) M HM) as O7.
      assert (O8 : bigO p (fun t h i => mat_vec n (J a t) (fun j => dl t h j - den Sg t h j) i)).
      { apply O7; auto. intros t h i j Hd Hi Hj. rewrite pow_O, Rmult_1_r. apply J_bound; auto; first [lia|now apply (dom_t t h)]. }
      pose proof (O_hmul _ a _ (O_scal _ (Q2R c ^ a / INR (fact a)) _ O8)) as O9.
      eapply O_ext; [|apply (O_weaken (a + p)%nat p _ ltac:(lia) O9)]. intros. cbv beta. rewrite Rpow_mult_distr. field. apply not_0_INR, fact_neq_0. }
    pose proof (O_hmul _ 1 _ O6) as O7. eapply O_ext; [|exact O7]. intros t h i Hd Hi. cbv beta. rewrite pow_1, den_lift, <- Rmult_minus_distr_l.
    f_equal. generalize (p - 1)%nat as N. induction N as [|N IH]; cbn [psum]; [ring|]. rewrite IH.
    rewrite (mv_minus (J N t) (dl t h) (den Sg t h) i). change (fun j : nat => den Sg t h j) with (den Sg t h). ring. }
  set (m := Nat.min (S p) (2 * s + 1)).
  assert (O3m := O_weaken (S (2 * s)) m _ ltac:(unfold m; lia) O3). assert (O4m := O_weaken (S p) m _ ltac:(unfold m; lia) O4). assert (O5m := O_weaken (S p) m _ ltac:(unfold m; lia) O5).
  eapply O_ext; [|apply (O_plus _ _ _ O3m (O_plus _ _ _ O4m O5m))]. intros t h i Hd Hi. cbv beta.
  destruct Hs as (_ & _ & HY1 & _). rewrite (HY1 (t + Q2R c * h)) by now apply Hdt. unfold X. ring.
Qed.

Lemma stages_inv rows : forall done ks done', stages_check p done rows = Some done' -> Forall2 stage_ok done ks ->
  exists ks', Forall2 stage_ok done' ks' /\ forall t h,
    fold_left (fun ks r => ks ++ [f (t + fst r * h) (comb (y t) h (snd r) ks)]) (to_R_rows rows) (map (fun k => k t h) ks) = map (fun k => k t h) ks'.
Proof.
  induction rows as [|r rows IH]; intros done ks done' Hc HF; cbn [stages_check] in Hc.
  - injection Hc as <-. exists ks. split; auto.
  - destruct (in01 (fst r) && row_ok p p (snd r) done) eqn:E; [|discriminate]. apply andb_prop in E. destruct E as [E1 E2].
    pose proof (stage_step r done ks (in01_R _ E1) E2 HF) as Hok.
    destruct (IH (done ++ [(fst r, fstage p done r)]) (ks ++ [fun t h => f (t + Q2R (fst r) * h) (comb (y t) h (map Q2R (snd r)) (map (fun k => k t h) ks))]) done' Hc)
      as (ks' & H1 & H2).
    { apply Forall2_app; auto. }
    exists ks'. split; auto. intros t h. rewrite <- H2, map_app. reflexivity.
Qed.

Theorem local_error rows b : order_check p rows b = true ->
  bigO (S p) (fun t h i => nth i (erk_step (to_R_rows rows) (to_R b) f t h (y t)) 0 - nth i (y (t + h)) 0).
Proof.
  unfold order_check. destruct (stages_check p [] rows) as [done|] eqn:E; [|discriminate]. intros H. apply andb_prop in H. destruct H as [H1 H2].
  destruct (stages_inv rows [] [] done E ltac:(constructor)) as (ks & HF & Hk).
  assert (C1 : 0 <= Q2R 1 <= 1) by (unfold Q2R; simpl; lra).
  pose proof (comb_error (S p) 1 b done ks ltac:(lia) C1 H1 HF) as O1.
  set (F := defect p 1 b (map fst done) ++ fsum (p - 1) b done) in *.
  assert (WD : Forall (fun d => wf (snd d)) done).
  { clear - HF. induction HF as [|d k ds ks Hd HF IH]; constructor; auto. apply Hd. }
  assert (WF : wf F) by (apply Forall_app; split; [now apply wf_defect|now apply wf_fsum]).
  pose proof (O_trunc p (merge F) (wf_merge _ WF)) as O2.
  destruct (trunc p (merge F)) eqn:ET; [|discriminate].
  eapply O_ext; [|apply (O_plus _ _ _ O1 O2)]. intros t h i Hd Hi. cbv beta. rewrite den_merge.
  replace (Q2R 1 * h) with h by (unfold Q2R; simpl; lra).
  unfold erk_step, erk_stages. rewrite (Hk t h : fold_left _ (to_R_rows rows) [] = _). unfold to_R.
  unfold den at 3. cbn [fold_right]. ring.
Qed.
(** ** Approximations inside a step *)
Definition point_check (q : nat) (c : Q) (rows : qrows) (b : list Q) : bool :=
  match stages_check p [] rows with
  | Some done => Nat.leb q (S p) && in01 c && row_ok p q b done
      && match trunc (q - 1) (merge (defect p c b (map fst done) ++ fsum (p - 1) b done)) with [] => true | _ => false end
  | None => false
  end.

Theorem point_error q c rows b : point_check q c rows b = true ->
  bigO q (fun t h i => nth i (erk_step (to_R_rows rows) (to_R b) f t h (y t)) 0 - nth i (y (t + Q2R c * h)) 0).
Proof.
  unfold point_check. destruct (stages_check p [] rows) as [done|] eqn:E; [|discriminate]. intros H. repeat (apply andb_prop in H; destruct H as [H ?]).
  destruct (stages_inv rows [] [] done E ltac:(constructor)) as (ks & HF & Hk).
  apply Nat.leb_le in H. match goal with X : in01 c = true |- _ => apply in01_R in X; rename X into Hc end.
  match goal with X : row_ok p q b done = true |- _ => rename X into Hrow end.
  pose proof (comb_error q c b done ks H Hc Hrow HF) as O1.
  set (F := defect p c b (map fst done) ++ fsum (p - 1) b done) in *.
  assert (WD : Forall (fun d => wf (snd d)) done).
  { clear - HF. induction HF as [|d k ds ks Hd HF IH]; constructor; auto. apply Hd. }
  assert (WF : wf F) by (apply Forall_app; split; [now apply wf_defect|now apply wf_fsum]).
  pose proof (O_trunc (q - 1) (merge F) (wf_merge _ WF)) as O2.
  destruct (trunc (q - 1) (merge F)) eqn:ET; [|discriminate].
  assert (O3 := O_weaken (S (q - 1)) q _ ltac:(lia) O2).
  eapply O_ext; [|apply (O_plus _ _ _ O1 O3)]. intros t h i Hd Hi. cbv beta. rewrite den_merge.
  unfold erk_step, erk_stages. rewrite (Hk t h : fold_left _ (to_R_rows rows) [] = _). unfold to_R.
  unfold den at 3. cbn [fold_right]. ring.
Qed.
End Local.
