(** Moments of the SDE solvers over independent increments. *)
From Coq Require Import ZArith QArith Qreals Reals Lra Lia String List Bool Psatz.
From Verif Require Import Num Py Tensor M_SolversOde M_Odeint M_Sde Spec_Ode Spec_RK Spec_Sde Spec_Lin Spec_Moment.
From Verif Require Import L_Base L_Fixed L_Fixed2 L_Vec L_Steps L_Conv L_Sde Pf_Fixed Pf_Sde.
Import ListNotations.
Local Notation length := List.length.
Local Open Scope R_scope.

Lemma Ok_pair {A B} (a c : A) (b d : B) : Ok (a, b) = Ok (c, d) -> a = c /\ b = d.
Proof. intros E. split; congruence. Qed.

(** ** Averages *)
Lemma average_ext {A} (f g : A -> R) l : (forall a, In a l -> f a = g a) -> average f l = average g l.
Proof. intros H. unfold average. f_equal. now apply map_ext_in. Qed.

Lemma INR_len {A} (l : list A) : l <> [] -> INR (length l) <> 0.
Proof. destruct l; [congruence|]. intros _. apply not_0_INR. discriminate. Qed.

Lemma average_const {A} c (l : list A) : l <> [] -> average (fun _ => c) l = c.
Proof.
  intros Hl. unfold average, mean. rewrite map_length.
  assert (E : fold_right Rplus 0 (map (fun _ => c) l) = c * INR (length l)).
  { clear Hl. induction l as [|a l IH]; [cbn; ring|]. cbn [map fold_right length]. rewrite IH, S_INR. ring. }
  rewrite E. field. now apply INR_len.
Qed.

Lemma average_lin {A} a (f g : A -> R) l : average (fun w => a * f w + g w) l = a * average f l + average g l.
Proof.
  unfold average, mean. rewrite !map_length.
  assert (E : fold_right Rplus 0 (map (fun w => a * f w + g w) l) = a * fold_right Rplus 0 (map f l) + fold_right Rplus 0 (map g l)).
  { induction l as [|b l IH]; cbn [map fold_right]; [ring|]. rewrite IH. ring. }
  rewrite E. unfold Rdiv. ring.
Qed.

Lemma average_zero {A} (l : list A) : average (fun _ => 0) l = 0.
Proof.
  unfold average, mean. assert (E : fold_right Rplus 0 (map (fun _ : A => 0) l) = 0).
  { induction l as [|a l IH]; cbn; [reflexivity|]. rewrite IH. ring. }
  rewrite E. unfold Rdiv. ring.
Qed.

Lemma average_scal {A} a (f : A -> R) l : average (fun w => a * f w) l = a * average f l.
Proof.
  pose proof (average_lin a f (fun _ => 0) l) as H.
  rewrite average_zero in H. rewrite (average_ext _ (fun w => a * f w + 0)); [lra | intros; ring].
Qed.

Lemma average_plus {A} (f g : A -> R) l : average (fun w => f w + g w) l = average f l + average g l.
Proof. pose proof (average_lin 1 f g l) as H. rewrite (average_ext _ (fun w => 1 * f w + g w)); [lra | intros; ring]. Qed.

Lemma average_fsum {A} n (f : nat -> A -> R) l : average (fun w => fsum n (fun k => f k w)) l = fsum n (fun k => average (f k) l).
Proof.
  induction n as [|n IH]; cbn [fsum].
  - apply average_zero.
  - rewrite average_plus. now rewrite IH.
Qed.

Lemma fsum_ext n f g : (forall k, (k < n)%nat -> f k = g k) -> fsum n f = fsum n g.
Proof. intros H. induction n as [|n IH]; cbn [fsum]; [reflexivity|]. rewrite IH, H by auto. reflexivity. Qed.

Lemma paths_nonempty {A} (D : list (list A)) : Forall (fun d => d <> []) D -> paths D <> [].
Proof.
  induction 1 as [|d D Hd HD IH]; cbn [paths]; [discriminate|].
  destruct d as [|w d]; [congruence|]. cbn [flat_map]. destruct (paths D); [congruence|]. discriminate.
Qed.

Lemma paths_length {A} (D : list (list A)) : forall p, In p (paths D) -> length p = length D.
Proof.
  induction D as [|d D IH]; cbn [paths]; intros p Hp.
  - destruct Hp as [<-|[]]. reflexivity.
  - apply in_flat_map in Hp. destruct Hp as (w & _ & Hp). apply in_map_iff in Hp. destruct Hp as (q & <- & Hq).
    cbn. f_equal. now apply IH.
Qed.

Lemma average_prod {A} (F : list A -> R) (d : list A) (P : list (list A)) : P <> [] -> d <> [] ->
  average F (flat_map (fun w => map (cons w) P) d) = average (fun w => average (fun p => F (w :: p)) P) d.
Proof.
  intros HP Hd. unfold average, mean.
  assert (S : fold_right Rplus 0 (map F (flat_map (fun w => map (cons w) P) d)) =
              fold_right Rplus 0 (map (fun w => fold_right Rplus 0 (map (fun p => F (w :: p)) P)) d)).
  { clear. induction d as [|w d IH]; cbn [flat_map map fold_right]; [reflexivity|]. rewrite map_app, fold_right_app, IH, map_map.
    generalize (fold_right Rplus 0 (map (fun w0 : A => fold_right Rplus 0 (map (fun p : list A => F (w0 :: p)) P)) d)).
    intros r. clear. induction P as [|p P IH]; cbn; [lra|]. rewrite IH. ring. }
  assert (L : length (flat_map (fun w => map (cons w) P) d) = (length d * length P)%nat).
  { clear. induction d as [|w d IH]; cbn; [reflexivity|]. now rewrite app_length, map_length, IH. }
  rewrite !map_length, L, S, mult_INR.
  assert (E : fold_right Rplus 0 (map (fun w => fold_right Rplus 0 (map (fun p => F (w :: p)) P) / INR (length (map (fun p => F (w :: p)) P))) d)
            = fold_right Rplus 0 (map (fun w => fold_right Rplus 0 (map (fun p => F (w :: p)) P)) d) / INR (length P)).
  { clear - HP. induction d as [|w d IH]; cbn [map fold_right]; [unfold Rdiv; ring|]. rewrite IH, map_length. field. now apply INR_len. }
  rewrite E. field. split; now apply INR_len.
Qed.

(** ** Paths of one-step methods *)
Fixpoint ptraj (one : R -> R -> list R -> list R -> list R) (x : list R) (ts : list R) (p : list (list R)) : list (list R) :=
  match ts, p with
  | t0 :: ((t1 :: _) as ts'), w :: p' => x :: ptraj one (one t0 t1 w x) ts' p'
  | _, _ => [x]
  end.

Lemma tower one phi : forall ts D x i s t d, length ts = S (length D) -> Forall (fun d => d <> []) D ->
  nth_error ts i = Some s -> nth_error ts (S i) = Some t -> nth_error D i = Some d ->
  average (fun p => phi (nth (S i) (ptraj one x ts p) [])) (paths D) =
  average (fun p => average (fun w => phi (one s t w (nth i (ptraj one x ts p) []))) d) (paths D).
Proof.
  intros ts. induction ts as [|t0 ts IH]; intros D x i s t d HL HD Hs Ht Hd; [destruct i; discriminate|].
  destruct D as [|d0 D]; [destruct i; discriminate|]. destruct ts as [|t1 ts]; [discriminate|].
  pose proof (Forall_inv HD) as Hd0. pose proof (Forall_inv_tail HD) as HD'. cbv beta in Hd0.
  pose proof (paths_nonempty D HD') as HP. cbn [paths]. rewrite !average_prod by assumption.
  destruct i as [|i].
  - cbn in Hs, Ht, Hd. injection Hs as <-. injection Ht as <-. injection Hd as <-.
    transitivity (average (fun w => phi (one t0 t1 w x)) d0).
    { apply average_ext. intros w Hw.
      rewrite (average_ext _ (fun _ => phi (one t0 t1 w x))); [now apply average_const|].
      intros p Hp. f_equal. change (nth 0 (ptraj one (one t0 t1 w x) (t1 :: ts) p) [] = one t0 t1 w x).
      destruct ts; [reflexivity|]. destruct p; reflexivity. }
    symmetry. rewrite (average_ext _ (fun _ => average (fun w => phi (one t0 t1 w x)) d0)); [now apply average_const|].
    intros w Hw. apply (average_const (average (fun w0 => phi (one t0 t1 w0 x)) d0)). exact HP.
  - apply average_ext. intros w Hw. apply (IH D (one t0 t1 w x) i s t d); auto.
Qed.

Lemma follows_ptraj n one (S0 : R -> R -> list R -> list R -> Prop) :
  (forall s t w a, length (one s t w a) = n) ->
  forall ts p x xs, length ts = S (length p) -> length x = n -> follows S0 x ts xs ->
  (forall i s t a b, nth_error ts i = Some s -> nth_error ts (S i) = Some t -> length a = n -> S0 s t a b -> b = one s t (nth i p []) a) ->
  xs = ptraj one x ts p.
Proof.
  intros Ho. induction ts as [|t0 ts IH]; intros p x xs HL Hx (Lxs & H0 & HS) Hb; [discriminate|].
  destruct xs as [|x0 xs]; [discriminate|]. cbn in H0. injection H0 as ->.
  destruct ts as [|t1 ts].
  - destruct xs; [|discriminate]. destruct p; [reflexivity | discriminate].
  - destruct p as [|w p]; [discriminate|]. destruct xs as [|x1 xs]; [discriminate|].
    change (x :: x1 :: xs = x :: ptraj one (one t0 t1 w x) (t1 :: ts) p). f_equal.
    assert (E : x1 = one t0 t1 w x).
    { apply (Hb 0%nat t0 t1 x x1); auto. apply (HS 0%nat); reflexivity. }
    subst x1. apply (IH p (one t0 t1 w x)); auto.
    + split; [cbn in *; lia|]. split; [reflexivity|]. intros i s t a b A1 A2 A3 A4. apply (HS (S i)); auto.
    + intros i s t a b A1 A2 A3 A4. apply (Hb (S i) s t a b); auto.
Qed.

Lemma ptraj_len n one : (forall s t w a, length (one s t w a) = n) -> forall ts x p i, length x = n -> length ts = S (length p) ->
  (i < length ts)%nat -> length (nth i (ptraj one x ts p) []) = n.
Proof.
  intros Ho. induction ts as [|t0 [|t1 ts] IH]; intros x p i Hx HL Hi; [discriminate| |].
  - destruct p; [|discriminate]. destruct i; [exact Hx | cbn in Hi; lia].
  - destruct p as [|w p]; [discriminate|]. destruct i as [|i]; [exact Hx|].
    change (length (nth i (ptraj one (one t0 t1 w x) (t1 :: ts) p) []) = n). apply IH; auto. cbn in *; lia.
Qed.

Lemma ptraj_0 one x ts p : ts <> [] -> nth 0 (ptraj one x ts p) [] = x.
Proof. destruct ts as [|t0 [|t1 ts]]; [congruence| |]; destruct p; reflexivity. Qed.

Lemma comp_map n h j : (j < n)%nat -> comp (map h (seq 0 n)) j = h j.
Proof.
  intros Hj. unfold comp. rewrite (nth_indep _ 0 (h 0%nat)) by (rewrite map_length, seq_length; auto).
  rewrite map_nth, seq_nth by auto. reflexivity.
Qed.

Lemma comp_ext n y h : length y = n -> (forall j, (j < n)%nat -> comp y j = h j) -> y = map h (seq 0 n).
Proof.
  intros Hy H. apply (nth_ext _ _ 0 0); [now rewrite map_length, seq_length|].
  intros j Hj. rewrite Hy in Hj. specialize (H j Hj). rewrite <- (comp_map n h j Hj) in H. exact H.
Qed.

(** ** The schemes as functions *)
Definition one_em (n : nat) (f g : R -> list R -> list R) (s t : R) (w x : list R) : list R :=
  map (fun j => comp x j + comp (f s x) j * (t - s) + comp (g s x) j * comp w j) (seq 0 n).
Definition one_heun (n : nat) (f g : R -> list R -> list R) (s t : R) (w x : list R) : list R :=
  map (fun j => comp x j + comp (f s x) j * (t - s) +
    (comp (g s x) j + comp (g t (map (fun j => comp x j + comp (g s x) j * comp w j) (seq 0 n))) j) / 2 * comp w j) (seq 0 n).
Definition one_mil (n : nat) (c : R) (f g : R -> list R -> list R) (s t : R) (w x : list R) : list R :=
  map (fun j => comp x j + comp (f s x) j * (t - s) + comp (g s x) j * comp w j +
    (comp (g s (map (fun j => comp x j + comp (f s x) j * (t - s) + comp (g s x) j * sqrt (t - s)) (seq 0 n))) j - comp (g s x) j)
      / (2 * sqrt (t - s)) * (comp w j ^ 2 - c * (t - s))) (seq 0 n).

Definition scheme_fun (name : string) n f g : option (R -> R -> list R -> list R -> list R) :=
  (if name =? "euler" then Some (one_em n f g)
   else if name =? "eulerHeun" then Some (one_heun n f g)
   else if name =? "milstein_ito" then Some (one_mil n 1 f g)
   else if name =? "milstein_stratonovich" then Some (one_mil n 0 f g)
   else None)%string.

Lemma scheme_fun_ok name n f g W S0 : scheme_of name f g W = Some S0 ->
  exists one, scheme_fun name n f g = Some one /\ (forall s t w a, length (one s t w a) = n) /\
  forall s t a b, length a = n -> S0 s t a b -> b = one s t (W s t) a.
Proof.
  unfold scheme_of, scheme_fun.
  destruct (name =? "euler")%string.
  { intros [= <-]. eexists. split; [reflexivity|]. split; [intros; unfold one_em; now rewrite map_length, seq_length|].
    intros s t a b Ha (Lb & Hb). rewrite Ha in *. now apply comp_ext. }
  destruct (name =? "eulerHeun")%string.
  { intros [= <-]. eexists. split; [reflexivity|]. split; [intros; unfold one_heun; now rewrite map_length, seq_length|].
    intros s t a b Ha (Lb & p & Lp & Hp & Hb). rewrite Ha in *. rewrite (comp_ext n p _ Lp Hp) in Hb. now apply comp_ext. }
  destruct (name =? "milstein_ito")%string.
  { intros [= <-]. eexists. split; [reflexivity|]. split; [intros; unfold one_mil; now rewrite map_length, seq_length|].
    intros s t a b Ha (Lb & p & Lp & Hp & Hb). rewrite Ha in *. rewrite (comp_ext n p _ Lp Hp) in Hb. now apply comp_ext. }
  destruct (name =? "milstein_stratonovich")%string; [|discriminate].
  intros [= <-]. eexists. split; [reflexivity|]. split; [intros; unfold one_mil; now rewrite map_length, seq_length|].
  intros s t a b Ha (Lb & p & Lp & Hp & Hb). rewrite Ha in *. rewrite (comp_ext n p _ Lp Hp) in Hb. now apply comp_ext.
Qed.

Lemma sdeint_ptraj n name sde W p x t0 t1 ts times sol :
  sized n sde W -> length x = n -> length (t0 :: t1 :: ts) = S (length p) -> increments W (t0 :: t1 :: ts) p ->
  @sdeint ROps sde x (t0 :: t1 :: ts) name W [] = Ok (times, sol) ->
  exists one, scheme_fun name n (sde_f sde) (sde_g sde) = Some one /\ (forall s t w a, length (one s t w a) = n) /\
  times = t0 :: t1 :: ts /\ sol = ptraj one x (t0 :: t1 :: ts) p.
Proof.
  intros Hz Hx HL HW Hr.
  assert (Hs : exists s, @sde_str_to_solver ROps name sde W = Ok s).
  { unfold sdeint in Hr. destruct (@sde_str_to_solver ROps name sde W); [eauto | discriminate | discriminate]. }
  destruct Hs as [s Hs].
  assert (HS : exists S0, scheme_of name (sde_f sde) (sde_g sde) W = Some S0).
  { unfold sde_str_to_solver in Hs. unfold scheme_of. destruct (name =? "euler")%string; [eauto|]. destruct (name =? "eulerHeun")%string; [eauto|].
    destruct (name =? "midpoint")%string; [discriminate|].
    destruct (name =? "milstein_ito")%string; [eauto|]. destruct (name =? "milstein_stratonovich")%string; [eauto | discriminate]. }
  destruct HS as [S0 HS].
  destruct (C41_sde_trajectory_pf n name sde W s S0 x t0 t1 ts Hz Hx Hs HS) as (xs & E & F).
  destruct (scheme_fun_ok name n _ _ _ _ HS) as (one & E1 & L1 & H1).
  assert (E' := eq_trans (eq_sym Hr) E). exists one. split; [exact E1|]. split; [exact L1|].
  destruct (Ok_pair _ _ _ _ E') as [Et Es]. split; [exact Et|]. rewrite Es.
  apply (follows_ptraj n one S0 L1); auto.
  intros i u v a b Hu Hv Ha Hb. rewrite (H1 u v a b Ha Hb), (HW i u v Hu Hv). reflexivity.
Qed.

(** ** Means *)
Definition commutes (Rf : R -> R -> (nat -> R) -> nat -> R) : Prop :=
  forall (l : list (list (list R))) (a : list (list R) -> list R) s t j, l <> [] ->
  average (fun p => Rf s t (comp (a p)) j) l = Rf s t (fun k => average (fun p => comp (a p) k) l) j.

Lemma white_nonempty n : forall hs D, Forall2 (white n) hs D -> Forall (fun d => d <> []) D.
Proof. induction 1 as [|h d hs D [H _] HD IH]; constructor; auto. Qed.

Lemma spacings_nth : forall ts i s t, nth_error ts i = Some s -> nth_error ts (S i) = Some t -> nth_error (spacings ts) i = Some (t - s).
Proof.
  induction ts as [|t0 [|t1 ts] IH]; intros [|i] s t Hs Ht; try discriminate.
  - injection Hs as <-. injection Ht as <-. reflexivity.
  - apply (IH i s t Hs Ht).
Qed.

Lemma spacings_length ts : length (spacings ts) = (length ts - 1)%nat.
Proof. induction ts as [|t0 [|t1 ts] IH]; auto. cbn [spacings length] in *. rewrite IH. lia. Qed.

Lemma Forall2_nth {A B} (P : A -> B -> Prop) : forall l m i a, Forall2 P l m -> nth_error l i = Some a -> exists b, nth_error m i = Some b /\ P a b.
Proof. intros l m i a H. revert i. induction H as [|x y l m H F IH]; intros [|i] E; try discriminate; [injection E as <-; exists y; split; auto | apply IH, E]. Qed.

Lemma Forall2_len {A B} (P : A -> B -> Prop) l m : Forall2 P l m -> length l = length m.
Proof. induction 1; cbn; auto. Qed.

Lemma means n one Rf x ts D ys :
  (forall s t w a, length (one s t w a) = n) -> commutes Rf ->
  (forall s t m m' j, (j < n)%nat -> (forall k, (k < n)%nat -> m k = m' k) -> Rf s t m j = Rf s t m' j) ->
  length x = n -> ts <> [] -> Forall2 (white n) (spacings ts) D ->
  (forall s t d a j, In (t - s) (spacings ts) -> white n (t - s) d -> length a = n -> (j < n)%nat -> average (fun w => comp (one s t w a) j) d = Rf s t (comp a) j) ->
  follows (fun s t a b => length a = n -> length b = n /\ forall j, (j < n)%nat -> comp b j = Rf s t (comp a) j) x ts ys ->
  forall i y j, nth_error ys i = Some y -> (j < n)%nat ->
  length y = n /\ average (fun p => comp (nth i (ptraj one x ts p) []) j) (paths D) = comp y j.
Proof.
  intros Ho Hc He Hx Hts HD Hone (Lys & Y0 & HY).
  assert (HL : length ts = S (length D)).
  { pose proof (Forall2_len _ _ _ HD) as E. rewrite spacings_length in E. destruct ts; [congruence|]. cbn in *. lia. }
  pose proof (white_nonempty n _ _ HD) as HN. pose proof (paths_nonempty D HN) as HP.
  induction i as [|i IH]; intros y j Hy Hj.
  - assert (y = x) by congruence. subst y. split; [exact Hx|].
    rewrite (average_ext _ (fun _ => comp x j)); [now apply average_const|]. intros p _. now rewrite ptraj_0.
  - assert (B : (S i < length ts)%nat) by (rewrite <- Lys; apply nth_error_Some; congruence).
    destruct (nth_error ts (S i)) as [t|] eqn:Ht; [|apply nth_error_None in Ht; lia].
    destruct (nth_error ts i) as [s|] eqn:Hs; [|apply nth_error_None in Hs; lia].
    destruct (nth_error ys i) as [a|] eqn:Ha; [|apply nth_error_None in Ha; lia].
    pose proof (spacings_nth ts i s t Hs Ht) as Hsp.
    destruct (Forall2_nth _ _ _ _ _ HD Hsp) as (d & Hd & Hw).
    assert (La : length a = n) by (destruct n as [|n']; [lia|]; apply (IH a 0%nat eq_refl); lia).
    destruct (HY i s t a y Hs Ht Ha Hy La) as [Ly Ey]. split; [exact Ly|].
    rewrite (tower one (fun z => comp z j) ts D x i s t d HL HN Hs Ht Hd).
    rewrite (average_ext _ (fun p => Rf s t (comp (nth i (ptraj one x ts p) [])) j)).
    2: { intros p Hp. apply Hone; auto; [eapply nth_error_In; eauto|]. apply ptraj_len; auto; [|lia]. now rewrite (paths_length D p Hp). }
    rewrite (Hc (paths D) (fun p => nth i (ptraj one x ts p) []) s t j HP), Ey by auto.
    apply He; auto. intros k Hk. apply (IH a k); auto.
Qed.

Definition drift_step n (A : R -> nat -> nat -> R) (b : R -> nat -> R) (beta : nat -> R) (s t : R) (m : nat -> R) (j : nat) : R :=
  m j + (t - s) * (fsum n (fun k => A s j k * m k) + b s j + beta j * m j).

Lemma drift_commutes n A b beta : commutes (drift_step n A b beta).
Proof.
  intros l a s t j Hl. unfold drift_step.
  rewrite (average_ext _ (fun p => (t - s) * (fsum n (fun k => A s j k * comp (a p) k) + (b s j + beta j * comp (a p) j)) + comp (a p) j)) by (intros; ring).
  rewrite average_lin, average_plus, average_fsum, average_plus, average_scal, (average_const (b s j)) by assumption.
  rewrite (fsum_ext n _ (fun k => A s j k * average (fun p => comp (a p) k) l)) by (intros; apply average_scal). ring.
Qed.

Lemma drift_ext n A b beta s t m m' j : (j < n)%nat -> (forall k, (k < n)%nat -> m k = m' k) -> drift_step n A b beta s t m j = drift_step n A b beta s t m' j.
Proof. intros Hj H. unfold drift_step. rewrite (H j Hj). rewrite (fsum_ext n (fun k => A s j k * m k) (fun k => A s j k * m' k)); auto. intros k Hk. now rewrite H. Qed.

(** the Euler solution of an affine field *)
Lemma euler_follows n F A b beta fuel x t0 t1 ts atol rtol interp all semi times ode :
  (forall t y, length y = n -> length (F t y) = n) ->
  (forall t y j, length y = n -> (j < n)%nat -> comp (F t y) j = fsum n (fun k => A t j k * comp y k) + b t j + beta j * comp y j) ->
  length x = n -> separated (t0 :: t1 :: ts) -> t0 <= t1 ->
  snd (@odeint ROps fuel F x (@TTensor ROps (t0 :: t1 :: ts)) (Euler ROps) atol rtol interp all [] semi) = Ok (times, ode) ->
  times = t0 :: t1 :: ts /\
  follows (fun s t a c => length a = n -> length c = n /\ forall j, (j < n)%nat -> comp c j = drift_step n A b beta s t (comp a) j) x (t0 :: t1 :: ts) ode.
Proof.
  intros HF HA Hx Hsep Hle Hr.
  pose proof (C01_fixed_trajectory_pf fuel (Euler ROps) F (euler_one F) euler_log x t0 t1 ts atol rtol interp all semi eq_refl (euler_stepper F) Hsep Hle) as E.
  assert (E' := eq_trans (eq_sym Hr) E). destruct (Ok_pair _ _ _ _ E') as [Et Eo].
  split; [exact Et|]. rewrite Eo.
  change (euler_one F) with (fun t h y => (fun y t h => euler_one F t h y) y t h).
  assert (Len : forall y t h, length y = n -> length (euler_one F t h y) = n).
  { intros y t h Hy. unfold euler_one. apply vadd_len; auto. rewrite vscale_len; auto. }
  apply (traj_follows n (fun s t a c => length a = n -> length c = n /\ forall j, (j < n)%nat -> comp c j = drift_step n A b beta s t (comp a) j)
    (fun y t h => euler_one F t h y)); auto; [|discriminate].
  intros y ta tb Hy _. split; [auto|]. intros j Hj. unfold euler_one, drift_step, comp.
  rewrite (nth_vadd _ _ j n), nth_vscale by (rewrite ?vscale_len; auto).
  specialize (HA ta y j Hy Hj). unfold comp in HA. rewrite HA. ring.
Qed.

Lemma length_of_forall2 n ts D : ts <> [] -> Forall2 (white n) (spacings ts) D -> length ts = S (length D).
Proof. intros H F. pose proof (Forall2_len _ _ _ F) as E. rewrite spacings_length in E. destruct ts; [congruence|]. cbn in *. lia. Qed.

(** all solutions at once *)
Lemma all_ptraj n name sde B D x t0 t1 ts sol :
  length x = n -> Forall2 (white n) (spacings (t0 :: t1 :: ts)) D ->
  (forall p, In p (paths D) -> sized n sde (B p) /\ increments (B p) (t0 :: t1 :: ts) p /\
     @sdeint ROps sde x (t0 :: t1 :: ts) name (B p) [] = Ok (t0 :: t1 :: ts, sol p)) ->
  exists one, scheme_fun name n (sde_f sde) (sde_g sde) = Some one /\ (forall s t w a, length (one s t w a) = n) /\
  (forall t y, length y = n -> length (sde_f sde t y) = n) /\ (forall t y, length y = n -> length (sde_g sde t y) = n) /\
  forall p, In p (paths D) -> sol p = ptraj one x (t0 :: t1 :: ts) p.
Proof.
  intros Hx HD H.
  pose proof (length_of_forall2 n (t0 :: t1 :: ts) D ltac:(discriminate) HD) as HL.
  pose proof (paths_nonempty D (white_nonempty n _ _ HD)) as HP.
  assert (HH : forall p, In p (paths D) -> exists one, scheme_fun name n (sde_f sde) (sde_g sde) = Some one /\
    (forall s t w a, length (one s t w a) = n) /\ sol p = ptraj one x (t0 :: t1 :: ts) p).
  { intros p Hp. destruct (H p Hp) as (A1 & A2 & A3).
    assert (Lp : length (t0 :: t1 :: ts) = S (length p)) by now rewrite (paths_length D p Hp).
    destruct (sdeint_ptraj n name sde (B p) p x t0 t1 ts _ _ A1 Hx Lp A2 A3) as (one & E1 & E2 & _ & E3). exists one. auto. }
  destruct (paths D) as [|p0 P]; [congruence|].
  destruct (HH p0 (or_introl eq_refl)) as (one & E1 & E2 & _). exists one. split; [exact E1|]. split; [exact E2|].
  destruct (H p0 (or_introl eq_refl)) as ((S1 & S2 & _) & _). split; [exact S1|]. split; [exact S2|].
  intros p Hp. destruct (HH p Hp) as (one' & E1' & _ & E3). congruence.
Qed.

(** C127.  The average of the solutions of the Ito solvers over all paths with independent increments of mean zero and
    variance h is the Euler solution of the drift, if the drift is affine in the state, for every diffusion. *)
Lemma C127_ito_mean_pf :
  forall n name (sde : sde_func ROps) A b D B x t0 t1 ts sol fuel atol rtol interp all semi times ode,
  name = "euler"%string \/ name = "milstein_ito"%string ->
  affine_field n (sde_f sde) A b -> length x = n -> separated (t0 :: t1 :: ts) -> t0 <= t1 ->
  Forall2 (white n) (spacings (t0 :: t1 :: ts)) D ->
  (forall p, In p (paths D) -> sized n sde (B p) /\ increments (B p) (t0 :: t1 :: ts) p /\
     @sdeint ROps sde x (t0 :: t1 :: ts) name (B p) [] = Ok (t0 :: t1 :: ts, sol p)) ->
  snd (@odeint ROps fuel (sde_f sde) x (@TTensor ROps (t0 :: t1 :: ts)) (Euler ROps) atol rtol interp all [] semi) = Ok (times, ode) ->
  forall i y j, nth_error ode i = Some y -> (j < n)%nat ->
  average (fun p => comp (nth i (sol p) []) j) (paths D) = comp y j.
Proof.
  intros n name sde A b D B x t0 t1 ts sol fuel atol rtol interp all semi times ode Hn HA Hx Hsep Hle HD H Hr i y j Hy Hj.
  destruct (all_ptraj n name sde B D x t0 t1 ts sol Hx HD H) as (one & E1 & E2 & F1 & F2 & E3).
  rewrite (average_ext _ (fun p => comp (nth i (ptraj one x (t0 :: t1 :: ts) p) []) j)) by (intros p Hp; now rewrite E3).
  destruct (euler_follows n (sde_f sde) A b (fun _ => 0) fuel x t0 t1 ts atol rtol interp all semi times ode F1) as [_ HF]; auto.
  { intros t z k Hz Hk. rewrite (HA t z k Hz Hk). ring. }
  apply (means n one (drift_step n A b (fun _ => 0)) x (t0 :: t1 :: ts) D ode) with (i := i); auto.
  - apply drift_commutes.
  - intros; now apply drift_ext.
  - discriminate.
  - intros s t d a k Hin [Hd Hw] La Hk. destruct (Hw k Hk) as [W1 W2].
    destruct Hn as [-> | ->]; injection E1 as <-.
    + rewrite (average_ext _ (fun w => comp (sde_g sde s a) k * comp w k + (comp a k + comp (sde_f sde s a) k * (t - s)))).
      2: { intros w _. unfold one_em. rewrite comp_map by auto. ring. }
      rewrite average_lin, W1, (average_const _ d Hd), (HA s a k La Hk). unfold drift_step. ring.
    + set (K := (comp (sde_g sde s (map (fun j => comp a j + comp (sde_f sde s a) j * (t - s) + comp (sde_g sde s a) j * sqrt (t - s)) (seq 0 n))) k
        - comp (sde_g sde s a) k) / (2 * sqrt (t - s))).
      rewrite (average_ext _ (fun w => comp (sde_g sde s a) k * comp w k + (K * comp w k ^ 2 + (comp a k + comp (sde_f sde s a) k * (t - s) - K * (t - s))))).
      2: { intros w _. unfold one_mil. rewrite comp_map by auto. fold K. ring. }
      rewrite average_lin, average_lin, W1, W2, (average_const _ d Hd), (HA s a k La Hk). unfold drift_step. ring.
Qed.

Definition corrected (n : nat) (f : R -> list R -> list R) (beta : nat -> R) (t : R) (x : list R) : list R :=
  map (fun j => comp (f t x) j + beta j ^ 2 / 2 * comp x j) (seq 0 n).

(** C128.  Stratonovich, diffusion beta x per component: the average of the solutions of the Euler-Heun solver is the
    Euler solution of the drift with the correction beta^2 x / 2. *)
Lemma C128_heun_mean_pf :
  forall n (sde : sde_func ROps) A b beta D B x t0 t1 ts sol fuel atol rtol interp all semi times ode,
  affine_field n (sde_f sde) A b ->
  (forall t y j, length y = n -> (j < n)%nat -> comp (sde_g sde t y) j = beta j * comp y j) ->
  length x = n -> separated (t0 :: t1 :: ts) -> t0 <= t1 ->
  Forall2 (white n) (spacings (t0 :: t1 :: ts)) D ->
  (forall p, In p (paths D) -> sized n sde (B p) /\ increments (B p) (t0 :: t1 :: ts) p /\
     @sdeint ROps sde x (t0 :: t1 :: ts) "eulerHeun" (B p) [] = Ok (t0 :: t1 :: ts, sol p)) ->
  snd (@odeint ROps fuel (corrected n (sde_f sde) beta) x (@TTensor ROps (t0 :: t1 :: ts)) (Euler ROps) atol rtol interp all [] semi) = Ok (times, ode) ->
  forall i y j, nth_error ode i = Some y -> (j < n)%nat ->
  average (fun p => comp (nth i (sol p) []) j) (paths D) = comp y j.
Proof.
  intros n sde A b beta D B x t0 t1 ts sol fuel atol rtol interp all semi times ode HA Hg Hx Hsep Hle HD H Hr i y j Hy Hj.
  destruct (all_ptraj n _ sde B D x t0 t1 ts sol Hx HD H) as (one & E1 & E2 & F1 & F2 & E3).
  rewrite (average_ext _ (fun p => comp (nth i (ptraj one x (t0 :: t1 :: ts) p) []) j)) by (intros p Hp; now rewrite E3).
  destruct (euler_follows n (corrected n (sde_f sde) beta) A b (fun j => beta j ^ 2 / 2) fuel x t0 t1 ts atol rtol interp all semi times ode) as [_ HF]; auto.
  { intros t z Hz. unfold corrected. now rewrite map_length, seq_length. }
  { intros t z k Hz Hk. unfold corrected. rewrite comp_map by auto. rewrite (HA t z k Hz Hk). ring. }
  apply (means n one (drift_step n A b (fun j => beta j ^ 2 / 2)) x (t0 :: t1 :: ts) D ode) with (i := i); auto.
  - apply drift_commutes.
  - intros; now apply drift_ext.
  - discriminate.
  - intros s t d a k Hin [Hd Hw] La Hk. destruct (Hw k Hk) as [W1 W2]. injection E1 as <-.
    rewrite (average_ext _ (fun w => beta k * comp a k * comp w k + (beta k ^ 2 / 2 * comp a k * comp w k ^ 2 + (comp a k + comp (sde_f sde s a) k * (t - s))))).
    2: { intros w _. unfold one_heun. rewrite comp_map by auto. rewrite !Hg by (auto; now rewrite map_length, seq_length).
         rewrite comp_map by auto. rewrite !Hg by auto. field. }
    rewrite average_lin, average_lin, W1, W2, (average_const _ d Hd), (HA s a k La Hk). unfold drift_step. field.
Qed.

(** C128, milstein_stratonovich under the same hypotheses: the average follows another recursion, in which the drift is
    multiplied by 1 + beta sqrt(h) / 2. *)
Lemma C128_milstein_mean_pf :
  forall n (sde : sde_func ROps) A b beta D B x t0 t1 ts sol ys,
  affine_field n (sde_f sde) A b ->
  (forall t y j, length y = n -> (j < n)%nat -> comp (sde_g sde t y) j = beta j * comp y j) ->
  length x = n -> (forall h, In h (spacings (t0 :: t1 :: ts)) -> 0 < h) ->
  Forall2 (white n) (spacings (t0 :: t1 :: ts)) D ->
  (forall p, In p (paths D) -> sized n sde (B p) /\ increments (B p) (t0 :: t1 :: ts) p /\
     @sdeint ROps sde x (t0 :: t1 :: ts) "milstein_stratonovich" (B p) [] = Ok (t0 :: t1 :: ts, sol p)) ->
  follows (fun s t a c => length a = n -> length c = n /\ forall j, (j < n)%nat -> comp c j =
     comp a j + (t - s) * (comp (sde_f sde s a) j * (1 + beta j * sqrt (t - s) / 2) + beta j ^ 2 / 2 * comp a j)) x (t0 :: t1 :: ts) ys ->
  forall i y j, nth_error ys i = Some y -> (j < n)%nat ->
  average (fun p => comp (nth i (sol p) []) j) (paths D) = comp y j.
Proof.
  intros n sde A b beta D B x t0 t1 ts sol ys HA Hg Hx Hpos HD H HF i y j Hy Hj.
  destruct (all_ptraj n _ sde B D x t0 t1 ts sol Hx HD H) as (one & E1 & E2 & F1 & F2 & E3).
  rewrite (average_ext _ (fun p => comp (nth i (ptraj one x (t0 :: t1 :: ts) p) []) j)) by (intros p Hp; now rewrite E3).
  set (Rf := fun s t (m : nat -> R) j => m j + (t - s) * ((fsum n (fun k => A s j k * m k) + b s j) * (1 + beta j * sqrt (t - s) / 2) + beta j ^ 2 / 2 * m j)).
  apply (means n one Rf x (t0 :: t1 :: ts) D ys) with (i := i); auto.
  - intros l a s t k Hl. unfold Rf.
    rewrite (average_ext _ (fun p => (t - s) * ((1 + beta k * sqrt (t - s) / 2) * (fsum n (fun k0 => A s k k0 * comp (a p) k0) + b s k) + beta k ^ 2 / 2 * comp (a p) k) + comp (a p) k)) by (intros; ring).
    rewrite average_lin, average_lin, average_plus, average_fsum, average_scal, (average_const (b s k)) by assumption.
    rewrite (fsum_ext n _ (fun k0 => A s k k0 * average (fun p => comp (a p) k0) l)) by (intros; apply average_scal). ring.
  - intros s t m m' k Hk He. unfold Rf. rewrite (He k Hk), (fsum_ext n (fun k0 => A s k k0 * m k0) (fun k0 => A s k k0 * m' k0)); auto. intros k0 Hk0. now rewrite He.
  - discriminate.
  - intros s t d a k Hin [Hd Hw] La Hk. destruct (Hw k Hk) as [W1 W2]. injection E1 as <-.
    pose proof (Hpos _ Hin) as Hh. pose proof (sqrt_lt_R0 _ Hh) as Hs. pose proof (sqrt_sqrt (t - s) ltac:(lra)) as Hq.
    set (r := sqrt (t - s)) in *. set (F := comp (sde_f sde s a) k).
    rewrite (average_ext _ (fun w => beta k * comp a k * comp w k + ((beta k * (F * r + beta k * comp a k) / 2) * comp w k ^ 2 + (comp a k + F * (t - s))))).
    2: { intros w _. unfold one_mil. rewrite comp_map by auto. fold r. rewrite !Hg by (auto; now rewrite map_length, seq_length).
         rewrite comp_map by auto. rewrite !Hg by auto. fold F. rewrite <- Hq. field. lra. }
    rewrite average_lin, average_lin, W1, W2, (average_const _ d Hd). unfold Rf. fold r. unfold F. rewrite <- (HA s a k La Hk). field.
  - destruct HF as (L & Y0 & HY). split; [exact L|]. split; [exact Y0|]. intros i0 s t a c A1 A2 A3 A4 La.
    destruct (HY i0 s t a c A1 A2 A3 A4 La) as [Lc Hc]. split; [exact Lc|]. intros k Hk. unfold Rf. rewrite (Hc k Hk), (HA s a k La Hk). reflexivity.
Qed.

(** ** Examples: geometric Brownian motion dX = X dt + X dW, increments 1 or -1 *)
Definition gbm (ty : string) : sde_func ROps := @MkSde ROps (fun _ x => x) (fun _ x => x) (Some "diagonal"%string) (Some ty).
Definition coin : list (list R) := [[1]; [-1]].
Definition walk (p : list (list R)) : brownian ROps := fun s _ => if Rlt_dec s (1 / 2) then nth 0 p [0] else nth 1 p [0].
Definition solutions (sde : sde_func ROps) (x grid : list R) (name : string) (p : list (list R)) : list (list R) :=
  match @sdeint ROps sde x grid name (walk p) [] with Ok (_, l) => l | _ => [] end.

Lemma coin_white : white 1 1 coin.
Proof.
  split; [discriminate|]. intros j Hj. assert (j = 0%nat) by lia. subst j. unfold average, mean, comp, coin.
  cbn [map nth fold_right length INR]. split; field.
Qed.

Lemma walk_ok ty name (s : string) p : In p (paths [coin; coin]) -> name = "euler"%string /\ ty = "ito"%string \/ name = "eulerHeun"%string /\ ty = "stratonovich"%string
   \/ name = "milstein_ito"%string \/ name = "milstein_stratonovich"%string ->
  sized 1 (gbm ty) (walk p) /\ increments (walk p) [0; 1; 2] p /\
  @sdeint ROps (gbm ty) [1] [0; 1; 2] name (walk p) [] = Ok ([0; 1; 2], solutions (gbm ty) [1] [0; 1; 2] name p).
Proof.
  intros Hp Hn.
  assert (Hz : sized 1 (gbm ty) (walk p)).
  { repeat split; intros; auto. unfold walk. destruct (Rlt_dec s0 (1 / 2)); cbn in Hp; intuition; subst; reflexivity. }
  split; [exact Hz|]. split.
  - intros [|[|i]] u v Hu Hv; cbn in Hu, Hv.
    + injection Hu as <-. unfold walk. destruct (Rlt_dec 0 (1 / 2)); [|lra]. cbn in Hp; intuition; subst; reflexivity.
    + injection Hu as <-. unfold walk. destruct (Rlt_dec 1 (1 / 2)); [lra|]. cbn in Hp; intuition; subst; reflexivity.
    + destruct i as [|[|i]]; discriminate.
  - assert (E : exists sv S0, @sde_str_to_solver ROps name (gbm ty) (walk p) = Ok sv /\ scheme_of name (sde_f (gbm ty)) (sde_g (gbm ty)) (walk p) = Some S0).
    { destruct Hn as [[-> ->]|[[-> ->]|[->| ->]]]; do 2 eexists; split; reflexivity. }
    destruct E as (sv & S0 & E1 & E2).
    destruct (C41_sde_trajectory_pf 1 name (gbm ty) (walk p) sv S0 [1] 0 1 [2] Hz eq_refl E1 E2) as (xs & E & _).
    assert (M : solutions (gbm ty) [1] [0; 1; 2] name p = xs) by exact (f_equal (fun r => match r with Ok (_, l) => l | _ => [] end) E).
    rewrite M. exact E.
Qed.

Lemma coin_grid : Forall2 (white 1) (spacings [0; 1; 2]) [coin; coin].
Proof.
  cbn [spacings]. replace (1 - 0) with 1 by ring. replace (2 - 1) with 1 by ring.
  constructor; [apply coin_white|]. constructor; [apply coin_white | constructor].
Qed.

Lemma gbm_affine ty : affine_field 1 (sde_f (gbm ty)) (fun _ _ _ => 1) (fun _ _ => 0).
Proof. intros t x j Hx Hj. assert (j = 0%nat) by lia. subst j. cbn [fsum gbm sde_f]. ring. Qed.

Lemma C127_ito_mean_ex_pf :
  affine_field 1 (sde_f (gbm "ito")) (fun _ _ _ => 1) (fun _ _ => 0) /\ separated [0; 1; 2] /\
  Forall2 (white 1) (spacings [0; 1; 2]) [coin; coin] /\ List.length (paths [coin; coin]) = 4%nat /\
  (forall p, In p (paths [coin; coin]) -> sized 1 (gbm "ito") (walk p) /\ increments (walk p) [0; 1; 2] p /\
     @sdeint ROps (gbm "ito") [1] [0; 1; 2] "euler" (walk p) [] = Ok ([0; 1; 2], solutions (gbm "ito") [1] [0; 1; 2] "euler" p)) /\
  average (fun p => comp (nth 2 (solutions (gbm "ito") [1] [0; 1; 2] "euler" p) []) 0) (paths [coin; coin]) = 4.
Proof.
  assert (H : forall p, In p (paths [coin; coin]) -> sized 1 (gbm "ito") (walk p) /\ increments (walk p) [0; 1; 2] p /\
     @sdeint ROps (gbm "ito") [1] [0; 1; 2] "euler" (walk p) [] = Ok ([0; 1; 2], solutions (gbm "ito") [1] [0; 1; 2] "euler" p)).
  { intros p Hp. apply walk_ok; auto. exact ""%string. }
  split; [apply gbm_affine|]. split; [apply grid3_separated|]. split; [apply coin_grid|]. split; [reflexivity|]. split; [exact H|].
  pose proof (C01_fixed_trajectory_pf 0 (Euler ROps) (fun _ x => x) (euler_one (fun _ x => x)) euler_log [1] 0 1 [2] 0 0 false false None
    eq_refl (euler_stepper _) grid3_separated ltac:(lra)) as E.
  refine (eq_trans (C127_ito_mean_pf 1 "euler" (gbm "ito") (fun _ _ _ => 1) (fun _ _ => 0) [coin; coin] walk [1] 0 1 [2] _ 0 0 0 false false None _ _
    (or_introl eq_refl) (gbm_affine _) eq_refl grid3_separated ltac:(lra) coin_grid H E 2%nat [4] 0%nat _ _) _); [|lia|reflexivity].
  cbn. f_equal. apply f_equal2; [ring | reflexivity].
Qed.

(** C128 fails for milstein_stratonovich: dX = X dt + X o dW, one step of length 1 with increments 1 and -1.  The
    average is 3; the corrected drift gives 5/2. *)
Lemma C128_milstein_refuted_pf :
  exists n (sde : sde_func ROps) A b beta D B x sol ode,
  affine_field n (sde_f sde) A b /\
  (forall t y j, length y = n -> (j < n)%nat -> comp (sde_g sde t y) j = beta j * comp y j) /\
  length x = n /\ separated [0; 1; 2] /\ Forall2 (white n) (spacings [0; 1; 2]) D /\
  (forall p, In p (paths D) -> sized n sde (B p) /\ increments (B p) [0; 1; 2] p /\
     @sdeint ROps sde x [0; 1; 2] "milstein_stratonovich" (B p) [] = Ok ([0; 1; 2], sol p)) /\
  snd (@odeint ROps 0 (corrected n (sde_f sde) beta) x (@TTensor ROps [0; 1; 2]) (Euler ROps) 0 0 false false [] None) = Ok ([0; 1; 2], ode) /\
  average (fun p => comp (nth 1 (sol p) []) 0) (paths D) = 3 /\ comp (nth 1 ode []) 0 = 5 / 2.
Proof.
  exists 1%nat, (gbm "stratonovich"), (fun _ _ _ => 1), (fun _ _ => 0), (fun _ => 1), [coin; coin], walk, [1],
    (solutions (gbm "stratonovich") [1] [0; 1; 2] "milstein_stratonovich"),
    (one_step_traj (euler_one (corrected 1 (sde_f (gbm "stratonovich")) (fun _ => 1))) [1] [0; 1; 2]).
  assert (H : forall p, In p (paths [coin; coin]) -> sized 1 (gbm "stratonovich") (walk p) /\ increments (walk p) [0; 1; 2] p /\
     @sdeint ROps (gbm "stratonovich") [1] [0; 1; 2] "milstein_stratonovich" (walk p) []
     = Ok ([0; 1; 2], solutions (gbm "stratonovich") [1] [0; 1; 2] "milstein_stratonovich" p)).
  { intros p Hp. apply walk_ok; auto. exact ""%string. }
  assert (G : forall t y j, length y = 1%nat -> (j < 1)%nat -> comp (sde_g (gbm "stratonovich") t y) j = 1 * comp y j).
  { intros t y j _ _. cbn [gbm sde_g]. ring. }
  split; [apply gbm_affine|]. split; [exact G|]. split; [reflexivity|]. split; [apply grid3_separated|]. split; [apply coin_grid|]. split; [exact H|].
  split.
  { apply (C01_fixed_trajectory_pf 0 (Euler ROps) _ _ euler_log [1] 0 1 [2] 0 0 false false None eq_refl (euler_stepper _) grid3_separated). lra. }
  split.
  2: { cbn. unfold comp. cbn. field. }
  set (st := fun a : R => a * (1 + 3 / 2 + 1 / 2)).
  apply (C128_milstein_mean_pf 1 (gbm "stratonovich") (fun _ _ _ => 1) (fun _ _ => 0) (fun _ => 1) [coin; coin] walk [1] 0 1 [2] _ [[1]; [3]; [9]]) with (i := 1%nat) (y := [3]) (j := 0%nat).
  - apply gbm_affine.
  - exact G.
  - reflexivity.
  - cbn. intros h [<-|[<-|[]]]; lra.
  - apply coin_grid.
  - exact H.
  - split; [reflexivity|]. split; [reflexivity|].
    intros [|[|i]] s t a c A1 A2 A3 A4 La; cbn in A1, A2, A3, A4.
    + injection A1 as <-. injection A2 as <-. injection A3 as <-. injection A4 as <-. split; [reflexivity|].
      intros j Hj. assert (j = 0%nat) by lia. subst j. unfold comp. cbn. replace (1 - 0) with 1 by ring. rewrite sqrt_1. field.
    + injection A1 as <-. injection A2 as <-. injection A3 as <-. injection A4 as <-. split; [reflexivity|].
      intros j Hj. assert (j = 0%nat) by lia. subst j. unfold comp. cbn. replace (2 - 1) with 1 by ring. rewrite sqrt_1. field.
    + destruct i as [|[|i]]; discriminate.
  - reflexivity.
  - lia.
Qed.

Lemma C128_heun_mean_ex_pf :
  (forall p, In p (paths [coin; coin]) -> sized 1 (gbm "stratonovich") (walk p) /\ increments (walk p) [0; 1; 2] p /\
     @sdeint ROps (gbm "stratonovich") [1] [0; 1; 2] "eulerHeun" (walk p) [] = Ok ([0; 1; 2], solutions (gbm "stratonovich") [1] [0; 1; 2] "eulerHeun" p)) /\
  average (fun p => comp (nth 1 (solutions (gbm "stratonovich") [1] [0; 1; 2] "eulerHeun" p) []) 0) (paths [coin; coin]) = 5 / 2.
Proof.
  assert (H : forall p, In p (paths [coin; coin]) -> sized 1 (gbm "stratonovich") (walk p) /\ increments (walk p) [0; 1; 2] p /\
     @sdeint ROps (gbm "stratonovich") [1] [0; 1; 2] "eulerHeun" (walk p) []
     = Ok ([0; 1; 2], solutions (gbm "stratonovich") [1] [0; 1; 2] "eulerHeun" p)).
  { intros p Hp. apply walk_ok; auto. exact ""%string. }
  split; [exact H|].
  pose proof (C01_fixed_trajectory_pf 0 (Euler ROps) (corrected 1 (sde_f (gbm "stratonovich")) (fun _ => 1)) _ euler_log [1] 0 1 [2] 0 0 false false None
    eq_refl (euler_stepper _) grid3_separated ltac:(lra)) as E.
  refine (eq_trans (C128_heun_mean_pf 1 (gbm "stratonovich") (fun _ _ _ => 1) (fun _ _ => 0) (fun _ => 1) [coin; coin] walk [1] 0 1 [2] _ 0 0 0 false false None _ _
    (gbm_affine _) ltac:(intros; cbn [gbm sde_g]; ring) eq_refl grid3_separated ltac:(lra) coin_grid H E 1%nat [5 / 2] 0%nat _ _) _); [|lia|reflexivity].
  cbn. f_equal. apply f_equal2; [unfold comp; cbn; field | reflexivity].
Qed.

(** ** Second moments *)

(** C129.  dX = (a X + c) dt + (b X + sigma) dW with the Euler-Maruyama solver: the average of the squares obeys an
    explicit recursion. *)
Lemma C129_second_moment_pf :
  forall (sde : sde_func ROps) a c b sigma D B x t0 t1 ts sol,
  (forall t y, length y = 1%nat -> comp (sde_f sde t y) 0 = a * comp y 0 + c) ->
  (forall t y, length y = 1%nat -> comp (sde_g sde t y) 0 = b * comp y 0 + sigma) ->
  length x = 1%nat -> Forall2 (white 1) (spacings (t0 :: t1 :: ts)) D ->
  (forall p, In p (paths D) -> sized 1 sde (B p) /\ increments (B p) (t0 :: t1 :: ts) p /\
     @sdeint ROps sde x (t0 :: t1 :: ts) "euler" (B p) [] = Ok (t0 :: t1 :: ts, sol p)) ->
  let M := fun i => average (fun p => comp (nth i (sol p) []) 0) (paths D) in
  let Q := fun i => average (fun p => comp (nth i (sol p) []) 0 ^ 2) (paths D) in
  M 0%nat = comp x 0 /\ Q 0%nat = comp x 0 ^ 2 /\
  forall i s t, nth_error (t0 :: t1 :: ts) i = Some s -> nth_error (t0 :: t1 :: ts) (S i) = Some t ->
  let h := t - s in
  M (S i) = (1 + a * h) * M i + c * h /\
  Q (S i) = ((1 + a * h) ^ 2 + b ^ 2 * h) * Q i + 2 * h * ((1 + a * h) * c + b * sigma) * M i + h * (c ^ 2 * h + sigma ^ 2).
Proof.
  intros sde a c b sigma D B x t0 t1 ts sol Hf Hg Hx HD H M Q.
  destruct (all_ptraj 1 _ sde B D x t0 t1 ts sol Hx HD H) as (one & E1 & E2 & F1 & F2 & E3). injection E1 as <-.
  set (one := one_em 1 (sde_f sde) (sde_g sde)) in *. set (grid := t0 :: t1 :: ts) in *.
  pose proof (length_of_forall2 1 grid D ltac:(discriminate) HD) as HL.
  pose proof (white_nonempty 1 _ _ HD) as HN. pose proof (paths_nonempty D HN) as HP.
  assert (HM : forall i, M i = average (fun p => comp (nth i (ptraj one x grid p) []) 0) (paths D)).
  { intros i. unfold M. apply average_ext. intros p Hp. now rewrite E3. }
  assert (HQ : forall i, Q i = average (fun p => comp (nth i (ptraj one x grid p) []) 0 ^ 2) (paths D)).
  { intros i. unfold Q. apply average_ext. intros p Hp. now rewrite E3. }
  split; [|split].
  - rewrite HM, (average_ext _ (fun _ => comp x 0)); [now apply average_const|]. intros p _. now rewrite ptraj_0.
  - rewrite HQ, (average_ext _ (fun _ => comp x 0 ^ 2)); [now apply average_const|]. intros p _. now rewrite ptraj_0.
  - intros i s t Hs Ht h. rewrite !HM, !HQ.
    pose proof (spacings_nth grid i s t Hs Ht) as Hsp. destruct (Forall2_nth _ _ _ _ _ HD Hsp) as (d & Hd & Hd0 & Hw).
    destruct (Hw 0%nat ltac:(lia)) as [W1 W2].
    assert (Bi : (S i < length grid)%nat) by (apply nth_error_Some; congruence).
    assert (Ho : forall w z, length z = 1%nat -> comp (one s t w z) 0 = (b * comp z 0 + sigma) * comp w 0 + ((1 + a * h) * comp z 0 + c * h)).
    { intros w z Hz. unfold one, one_em. rewrite comp_map by lia. rewrite Hf, Hg by exact Hz. unfold h. ring. }
    assert (Lz : forall p, In p (paths D) -> length (nth i (ptraj one x grid p) []) = 1%nat).
    { intros p Hp. apply ptraj_len; auto; [|lia]. now rewrite (paths_length D p Hp). }
    split.
    + rewrite (tower one (fun z => comp z 0) grid D x i s t d HL HN Hs Ht Hd).
      rewrite (average_ext _ (fun p => (1 + a * h) * comp (nth i (ptraj one x grid p) []) 0 + c * h)).
      * rewrite average_lin, (average_const _ _ HP). reflexivity.
      * intros p Hp. rewrite (average_ext _ (fun w => (b * comp (nth i (ptraj one x grid p) []) 0 + sigma) * comp w 0 + ((1 + a * h) * comp (nth i (ptraj one x grid p) []) 0 + c * h))).
        -- rewrite average_lin, W1, (average_const _ _ Hd0). ring.
        -- intros w _. apply Ho. now apply Lz.
    + rewrite (tower one (fun z => comp z 0 ^ 2) grid D x i s t d HL HN Hs Ht Hd).
      rewrite (average_ext _ (fun p => ((1 + a * h) ^ 2 + b ^ 2 * h) * comp (nth i (ptraj one x grid p) []) 0 ^ 2 +
        (2 * h * ((1 + a * h) * c + b * sigma) * comp (nth i (ptraj one x grid p) []) 0 + h * (c ^ 2 * h + sigma ^ 2)))).
      * rewrite average_lin, average_lin, (average_const _ _ HP). ring.
      * intros p Hp. set (z := comp (nth i (ptraj one x grid p) []) 0).
        rewrite (average_ext _ (fun w => (b * z + sigma) ^ 2 * comp w 0 ^ 2 + (2 * (b * z + sigma) * ((1 + a * h) * z + c * h) * comp w 0 + ((1 + a * h) * z + c * h) ^ 2))).
        -- rewrite average_lin, average_lin, W1, W2, (average_const _ _ Hd0). fold h. ring.
        -- intros w _. rewrite Ho by now apply Lz. fold z. ring.
Qed.

Lemma average_nonneg {A} (f : A -> R) l : (forall a, 0 <= f a) -> 0 <= average f l.
Proof.
  intros H. unfold average, mean. apply Rmult_le_pos.
  - induction l as [|p l IH]; cbn [map fold_right]; [lra|]. specialize (H p). lra.
  - destruct l as [|p l]; [cbn; rewrite Rinv_0; lra|]. apply Rlt_le, Rinv_0_lt_compat, lt_0_INR. cbn. lia.
Qed.

Lemma product_step g : forall ts i s t, nth_error ts i = Some s -> nth_error ts (S i) = Some t ->
  grid_product g ts (S i) = grid_product g ts i * g (t - s).
Proof.
  induction ts as [|t0 [|t1 ts] IH]; intros [|i] s t Hs Ht; try discriminate.
  - injection Hs as <-. injection Ht as <-. cbn. ring.
  - change (grid_product g (t0 :: t1 :: ts) (S (S i))) with (g (t1 - t0) * grid_product g (t1 :: ts) (S i)).
    change (grid_product g (t0 :: t1 :: ts) (S i)) with (g (t1 - t0) * grid_product g (t1 :: ts) i).
    rewrite (IH i s t Hs Ht). ring.
Qed.

(** C129.  Geometric Brownian motion dX = a X dt + b X dW: the mean square is multiplied by (1 + a h)^2 + b^2 h per
    step.  It never grows if 2 a + b^2 + a^2 h <= 0 for all spacings h, and grows in every step if 2 a + b^2 + a^2 h > 0. *)
Lemma C129_mean_square_stability_pf :
  forall (sde : sde_func ROps) a b D B x t0 t1 ts sol,
  (forall t y, length y = 1%nat -> comp (sde_f sde t y) 0 = a * comp y 0) ->
  (forall t y, length y = 1%nat -> comp (sde_g sde t y) 0 = b * comp y 0) ->
  length x = 1%nat -> (forall h, In h (spacings (t0 :: t1 :: ts)) -> 0 < h) ->
  Forall2 (white 1) (spacings (t0 :: t1 :: ts)) D ->
  (forall p, In p (paths D) -> sized 1 sde (B p) /\ increments (B p) (t0 :: t1 :: ts) p /\
     @sdeint ROps sde x (t0 :: t1 :: ts) "euler" (B p) [] = Ok (t0 :: t1 :: ts, sol p)) ->
  let Q := fun i => average (fun p => comp (nth i (sol p) []) 0 ^ 2) (paths D) in
  (forall i, (i < length (t0 :: t1 :: ts))%nat -> Q i = grid_product (fun h => (1 + a * h) ^ 2 + b ^ 2 * h) (t0 :: t1 :: ts) i * comp x 0 ^ 2) /\
  ((forall h, In h (spacings (t0 :: t1 :: ts)) -> 2 * a + b ^ 2 + a ^ 2 * h <= 0) ->
   forall i, (S i < length (t0 :: t1 :: ts))%nat -> Q (S i) <= Q i) /\
  ((forall h, In h (spacings (t0 :: t1 :: ts)) -> 0 < 2 * a + b ^ 2 + a ^ 2 * h) -> comp x 0 <> 0 ->
   forall i, (S i < length (t0 :: t1 :: ts))%nat -> Q i < Q (S i)).
Proof.
  intros sde a b D B x t0 t1 ts sol Hf Hg Hx Hpos HD H Q.
  destruct (C129_second_moment_pf sde a 0 b 0 D B x t0 t1 ts sol) as (_ & Q0' & HQ'); auto.
  { intros t y Hy. rewrite Hf by exact Hy. ring. }
  { intros t y Hy. rewrite Hg by exact Hy. ring. }
  set (grid := t0 :: t1 :: ts) in *. assert (Q0 : Q 0%nat = comp x 0 ^ 2) by exact Q0'.
  assert (HQ : forall i s t, nth_error grid i = Some s -> nth_error grid (S i) = Some t -> exists M : R,
    Q (S i) = ((1 + a * (t - s)) ^ 2 + b ^ 2 * (t - s)) * Q i + 2 * (t - s) * ((1 + a * (t - s)) * 0 + b * 0) * M + (t - s) * (0 ^ 2 * (t - s) + 0 ^ 2)).
  { intros i s t Hs Ht. eexists. exact (proj2 (HQ' i s t Hs Ht)). }
  assert (St : forall i, (S i < length grid)%nat -> exists h, In h (spacings grid) /\ Q (S i) = ((1 + a * h) ^ 2 + b ^ 2 * h) * Q i /\
     grid_product (fun h => (1 + a * h) ^ 2 + b ^ 2 * h) grid (S i) = grid_product (fun h => (1 + a * h) ^ 2 + b ^ 2 * h) grid i * ((1 + a * h) ^ 2 + b ^ 2 * h)).
  { intros i Hi. destruct (nth_error grid (S i)) as [t|] eqn:Ht; [|apply nth_error_None in Ht; lia].
    destruct (nth_error grid i) as [s|] eqn:Hs; [|apply nth_error_None in Hs; lia].
    exists (t - s). split; [eapply nth_error_In, spacings_nth; eauto|]. destruct (HQ i s t Hs Ht) as [M E]. split.
    - rewrite E. ring.
    - now apply (product_step (fun h => (1 + a * h) ^ 2 + b ^ 2 * h)). }
  assert (Cl : forall i, (i < length grid)%nat -> Q i = grid_product (fun h => (1 + a * h) ^ 2 + b ^ 2 * h) grid i * comp x 0 ^ 2).
  { induction i as [|i IH]; intros Hi; [rewrite Q0; unfold grid; cbn [grid_product]; ring|].
    destruct (St i Hi) as (h & _ & E1 & E2). rewrite E1, E2, IH by lia. ring. }
  assert (Fac : forall h, (1 + a * h) ^ 2 + b ^ 2 * h = 1 + h * (2 * a + b ^ 2 + a ^ 2 * h)) by (intros; ring).
  assert (Pos : forall i, 0 <= Q i).
  { intros i. apply average_nonneg. intros p. apply pow2_ge_0. }
  split; [exact Cl|]. split.
  - intros Hs i Hi. destruct (St i Hi) as (h & Hin & E & _). rewrite E, Fac. specialize (Hs h Hin). specialize (Hpos h Hin). specialize (Pos i).
    assert (0 <= h * - (2 * a + b ^ 2 + a ^ 2 * h)) by (apply Rmult_le_pos; lra).
    assert (0 <= h * - (2 * a + b ^ 2 + a ^ 2 * h) * Q i) by (apply Rmult_le_pos; lra). lra.
  - intros Hs Hx0.
    assert (PQ : forall i, (i < length grid)%nat -> 0 < Q i).
    { induction i as [|i IH]; intros Hi.
      - rewrite Q0. assert (0 <= comp x 0 ^ 2) by apply pow2_ge_0. assert (comp x 0 ^ 2 <> 0) by now apply pow_nonzero. lra.
      - destruct (St i Hi) as (h & Hin & E & _). rewrite E, Fac. specialize (Hs h Hin). specialize (Hpos h Hin).
        apply Rmult_lt_0_compat; [|apply IH; lia]. assert (0 < h * (2 * a + b ^ 2 + a ^ 2 * h)) by now apply Rmult_lt_0_compat. lra. }
    intros i Hi. destruct (St i Hi) as (h & Hin & E & _). rewrite E, Fac. specialize (Hs h Hin). specialize (Hpos h Hin).
    assert (0 < h * (2 * a + b ^ 2 + a ^ 2 * h)) by now apply Rmult_lt_0_compat.
    assert (0 < h * (2 * a + b ^ 2 + a ^ 2 * h) * Q i) by (apply Rmult_lt_0_compat; [lra | apply PQ; lia]). lra.
Qed.

Lemma C129_mean_square_stability_ex_pf :
  (forall h, In h (spacings [0; 1; 2]) -> 0 < h) /\ Forall2 (white 1) (spacings [0; 1; 2]) [coin; coin] /\
  (forall h, In h (spacings [0; 1; 2]) -> 0 < 2 * 1 + 1 ^ 2 + 1 ^ 2 * h) /\
  average (fun p => comp (nth 2 (solutions (gbm "ito") [1] [0; 1; 2] "euler" p) []) 0 ^ 2) (paths [coin; coin]) = 25.
Proof.
  assert (P : forall h, In h (spacings [0; 1; 2]) -> 0 < h) by (intros h [<-|[<-|[]]]; lra).
  split; [exact P|]. split; [apply coin_grid|].
  split; [intros h Hh; specialize (P h Hh); lra|].
  destruct (C129_mean_square_stability_pf (gbm "ito") 1 1 [coin; coin] walk [1] 0 1 [2] (solutions (gbm "ito") [1] [0; 1; 2] "euler")) as [Cl _]; auto.
  - intros t y _. cbn [gbm sde_f]. ring.
  - intros t y _. cbn [gbm sde_g]. ring.
  - apply coin_grid.
  - intros p Hp. apply walk_ok; auto. exact ""%string.
  - refine (eq_trans (Cl 2%nat ltac:(cbn; lia)) _). unfold comp. cbn. field.
Qed.
