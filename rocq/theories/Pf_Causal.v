(** Proofs of the property that fixed-step solves do not look into the future. *)
From Coq Require Import ZArith QArith Qreals Reals Lra Lia List Bool.
From Verif Require Import Num Py Tensor M_SolversOde M_Odeint Spec_Ode Spec_RK Spec_Trees Spec_Inv.
From Verif Require Import L_Base L_Fixed L_Steps L_Steps2 L_Reach L_Inv Pf_Fixed.
Import ListNotations.
Local Notation length := List.length.
Local Open Scope R_scope.

Lemma erk_local rows b f f' t h x : (forall r y, In r rows -> f' (t + fst r * h) y = f (t + fst r * h) y) -> erk_step rows b f' t h x = erk_step rows b f t h x.
Proof.
  intros H. unfold erk_step. f_equal. unfold erk_stages.
  assert (G : forall rs acc, (forall r, In r rs -> In r rows) -> fold_left (fun ks r => ks ++ [f' (t + fst r * h) (comb x h (snd r) ks)]) rs acc =
     fold_left (fun ks r => ks ++ [f (t + fst r * h) (comb x h (snd r) ks)]) rs acc).
  { induction rs as [|r rs IH]; intros acc Hr; [reflexivity|]. cbn [fold_left]. rewrite H by (apply Hr; now left). apply IH. intros r' Hr'. apply Hr. now right. }
  apply G. auto.
Qed.
Lemma nodes_01 s rows b : builtin_fixed s rows b -> forall r, In r rows -> 0 <= fst r <= 1.
Proof.
  intros [(-> & -> & ->)|[(-> & -> & ->)|(-> & -> & ->)]] r Hr; cbn in Hr; repeat (destruct Hr as [<-|Hr]; [cbn [fst]; unfold Q2R; cbn; lra|]); destruct Hr.
Qed.
Lemma traj_same n rows b f (one : R -> R -> list R -> list R) : field_on n f -> (forall t h x, length x = n -> one t h x = erk_step rows b f t h x) ->
  forall ts x, length x = n -> one_step_traj one x ts = one_step_traj (erk_step rows b f) x ts.
Proof.
  intros Hf H. induction ts as [|a ts IH]; intros x Hx; [reflexivity|]. rewrite !traj_hd. f_equal. destruct ts as [|c ts]; [reflexivity|]. rewrite H by auto. apply IH. now apply erk_step_len.
Qed.
Lemma fixed_traj fuel s rows b n f x t0 t1 ts atol rtol interp all semi : builtin_fixed s rows b -> field_on n f -> length x = n -> separated (t0 :: t1 :: ts) -> t0 <= t1 ->
  snd (@odeint ROps fuel f x (@TTensor ROps (t0 :: t1 :: ts)) s atol rtol interp all [] semi) = Ok (t0 :: t1 :: ts, one_step_traj (erk_step rows b f) x (t0 :: t1 :: ts)).
Proof.
  intros HB Hf Hx Hs Hle. destruct (builtin_fixed_erk _ _ _ HB) as (Hfix & HE). destruct (HE n f Hf) as (one & lg & Hst & H1).
  rewrite (C01_fixed_trajectory_pf fuel s f one lg) by auto. do 2 f_equal. now apply (traj_same n).
Qed.
Lemma inc_tl a l : increasing (a :: l) -> increasing l.
Proof. intros H i j u v Hij Hu Hv. apply (H (S i) (S j)); auto. lia. Qed.
Lemma inc_last a l : increasing (a :: l) -> a <= last l a.
Proof.
  intros H. destruct l as [|c l]; [cbn; lra|]. left. destruct (exists_last (l := c :: l)) as (l' & z & E); [discriminate|]. rewrite E in *. rewrite last_last.
  apply (H 0%nat (S (length l'))); [lia|reflexivity|]. cbn. rewrite nth_error_app2 by lia. now rewrite Nat.sub_diag.
Qed.
Lemma inc_app l l' : increasing (l ++ l') -> increasing l.
Proof. intros H i j u v Hij Hu Hv. apply (H i j); auto; rewrite nth_error_app1; auto; apply nth_error_Some; congruence. Qed.
Lemma last_shift : forall (pre : list R) c a, last (c :: pre) a = last pre c.
Proof. induction pre as [|d pre IH]; intros c a; [reflexivity|]. change (last (d :: pre) a = last (d :: pre) c). now rewrite !IH. Qed.
Lemma traj_local s rows b f f' : builtin_fixed s rows b -> forall pre a x post post', increasing (a :: pre) ->
  (forall t y, a <= t <= last pre a -> f' t y = f t y) ->
  firstn (length (a :: pre)) (one_step_traj (erk_step rows b f') x ((a :: pre) ++ post')) = firstn (length (a :: pre)) (one_step_traj (erk_step rows b f) x ((a :: pre) ++ post)).
Proof.
  intros HB. induction pre as [|c pre IH]; intros a x post post' Hi H; [reflexivity|].
  change (x :: firstn (length (c :: pre)) (one_step_traj (erk_step rows b f') (erk_step rows b f' a (c - a) x) ((c :: pre) ++ post')) =
          x :: firstn (length (c :: pre)) (one_step_traj (erk_step rows b f) (erk_step rows b f a (c - a) x) ((c :: pre) ++ post))).
  assert (Hac : a < c) by (apply (Hi 0%nat 1%nat); auto).
  assert (El : last (c :: pre) a = last pre c) by apply last_shift.
  pose proof (inc_last c pre (inc_tl _ _ Hi)) as Hcl. rewrite El in H. f_equal. rewrite (erk_local rows b f f').
  - apply IH; [exact (inc_tl _ _ Hi)|]. intros t y Ht. apply H. lra.
  - intros r y Hr. apply H. pose proof (nodes_01 s rows b HB r Hr) as Hn.
    assert (0 <= fst r * (c - a)) by (apply Rmult_le_pos; lra). assert (fst r * (c - a) <= 1 * (c - a)) by (apply Rmult_le_compat_r; lra). lra.
Qed.

(** euler, midpoint and rk4: the states up to a time depend on the field and the grid only up to that time. Two fields that agree on the times between
    the first and the last entry of [a :: pre], on grids that begin with [a :: pre], have the same states there. *)
Lemma C205_causal_pf :
  forall fuel fuel' s rows b n f f' x a pre post post' atol rtol atol' rtol' interp interp' all all' semi semi', builtin_fixed s rows b -> field_on n f -> field_on n f' -> length x = n ->
  increasing ((a :: pre) ++ post) -> increasing ((a :: pre) ++ post') -> separated ((a :: pre) ++ post) -> separated ((a :: pre) ++ post') ->
  (1 <= length (pre ++ post))%nat -> (1 <= length (pre ++ post'))%nat -> (forall t y, a <= t <= last pre a -> f' t y = f t y) ->
  exists xs ys ys', length xs = length (a :: pre) /\
    snd (@odeint ROps fuel f x (@TTensor ROps ((a :: pre) ++ post)) s atol rtol interp all [] semi) = Ok ((a :: pre) ++ post, xs ++ ys) /\
    snd (@odeint ROps fuel' f' x (@TTensor ROps ((a :: pre) ++ post')) s atol' rtol' interp' all' [] semi') = Ok ((a :: pre) ++ post', xs ++ ys').
Proof.
  intros fuel fuel' s rows b n f f' x a pre post post' atol rtol atol' rtol' interp interp' all all' semi semi' HB Hf Hf' Hx Hi Hi' Hs Hs' Hl Hl' H.
  pose proof (traj_local s rows b f f' HB pre a x post post' (inc_app _ _ Hi) H) as E.
  assert (G : forall fuel f l atol rtol interp all semi, field_on n f -> increasing (a :: l) -> separated (a :: l) -> (1 <= length l)%nat ->
    snd (@odeint ROps fuel f x (@TTensor ROps (a :: l)) s atol rtol interp all [] semi) = Ok (a :: l, one_step_traj (erk_step rows b f) x (a :: l))).
  { intros fu g [|c l] at0 rt it al se Hg Hgi Hgs Hgl; [cbn in Hgl; lia|]. apply (fixed_traj fu s rows b n); auto. left. apply (Hgi 0%nat 1%nat); auto. }
  set (T := one_step_traj (erk_step rows b f) x ((a :: pre) ++ post)) in *. set (T' := one_step_traj (erk_step rows b f') x ((a :: pre) ++ post')) in *.
  exists (firstn (length (a :: pre)) T), (skipn (length (a :: pre)) T), (skipn (length (a :: pre)) T'). split; [|split].
  - rewrite firstn_length. unfold T. rewrite traj_length, app_length. lia.
  - rewrite firstn_skipn. exact (G fuel f (pre ++ post) atol rtol interp all semi Hf Hi Hs Hl).
  - rewrite <- E, firstn_skipn. exact (G fuel' f' (pre ++ post') atol' rtol' interp' all' semi' Hf' Hi' Hs' Hl').
Qed.

(** The hypotheses are met: y' = 0 and a field that is switched on after time 1, on grids that differ after time 1. *)
Lemma C205_ex_pf :
  let f := fun (_ : R) (y : list R) => map (fun _ => 0) y in let f' := fun (t : R) (y : list R) => map (fun _ => if Rleb t 1 then 0 else 1) y in
  builtin_fixed (RungeKutta4 ROps) (to_R_rows q_rk4_code) (to_R qb_rk4) /\ field_on 1 f /\ field_on 1 f' /\ separated ([0; 1] ++ [2]) /\ increasing ([0; 1] ++ [2]) /\
  (forall t y, 0 <= t <= last [1] 0 -> f' t y = f t y) /\ f' 2 [5] <> f 2 [5].
Proof.
  intros f f'. split; [right; right; auto|]. split; [|split; [|split; [exact C04_ex_pf|split; [|split]]]].
  - intros t y H. unfold f. now rewrite map_length.
  - intros t y H. unfold f'. now rewrite map_length.
  - intros [|[|[|i]]] [|[|[|j]]] a b Hij Ha Hb; cbn in *; try lia; try discriminate; try (destruct i; discriminate); try (destruct j; discriminate); injection Ha as <-; injection Hb as <-; lra.
  - intros t y Ht. cbn in Ht. unfold f', f. rewrite (proj2 (Rleb_true t 1)) by lra. reflexivity.
  - unfold f', f. rewrite (proj2 (Rleb_false 2 1)) by lra. cbn. intros E. injection E as E. lra.
Qed.
