(** Proofs of the properties of the jagged and shifted fixed-step solvers. *)
From Coq Require Import ZArith QArith Reals Lra Lia List Bool.
From Verif Require Import Num Py Tensor M_Odeint Spec_Ode L_Base L_Jagged.
Import ListNotations.
Local Open Scope R_scope.

Lemma gather {A B} (h : A -> res B) (k : A -> B) (ps : list A) :
  (forall p, In p ps -> h p = Ok (k p)) ->
  fold_right (fun l acc => rbind (h l) (fun a => rmap (cons a) acc)) (Ok []) ps = Ok (map k ps).
Proof.
  induction ps as [|p ps IH]; intros H; [reflexivity|]. cbn [fold_right map].
  rewrite IH by (intros q Hq; apply H; now right). rewrite (H p (or_introl eq_refl)). reflexivity.
Qed.

(** The second state of a trajectory repeated. *)
Definition dup_second {A} (l : list A) : list A :=
  match l with a :: b :: l' => a :: b :: b :: l' | _ => l end.

(** C33 (what the code does).  [ps] lists the sub-problems (grid, initial state).  For a solver whose
    THIRD return value is the new state and which treats the sub-problems independently and leaves
    the state alone for a zero step, the result for each sub-problem is the trajectory of its
    independent solve with the second state repeated and the last one dropped. *)
Lemma C33_jagged_actual_pf :
  forall (X : Type) (step : R -> R -> X -> X) (bstep : @batch_step ROps X) (ps : list (list R * X)) fuel L,
  (forall t x, step t 0 x = x) ->
  (forall l : list (R * R * X),
     snd (bstep (map (fun e => fst (fst e)) l) (map snd l) (map (fun e => snd (fst e)) l))
     = Some (map (fun e => step (fst (fst e)) (snd (fst e)) (snd e)) l)) ->
  (forall p, In p ps -> (2 <= List.length (fst p) <= L)%nat /\ apart (fst p)) -> (L <= fuel)%nat ->
  @jagged_fixed_odeint ROps X fuel (map snd ps) (map fst ps) bstep
  = Ok (map (fun p => firstn (List.length (fst p)) (dup_second (one_step_traj step (snd p) (fst p)))) ps).
Proof.
  intros X step bstep ps fuel L H0 Hb Hp HL. unfold jagged_fixed_odeint.
  assert (G : forall (h : list R -> res R) (k : list R -> R),
    (forall g, (2 <= List.length g)%nat -> h g = Ok (k g)) ->
    fold_right (fun l acc => rbind (h l) (fun a => rmap (cons a) acc)) (Ok []) (map fst ps) = Ok (map (fun p => k (fst p)) ps)).
  { intros h k Hh. rewrite (gather h k).
    - now rewrite map_map.
    - intros g Hg. apply in_map_iff in Hg. destruct Hg as (p & <- & Hin). apply Hh. apply (Hp p Hin). }
  etransitivity; [apply f_equal2; [exact (G (fun l => pyget l 0) (fun g => hd 0 g)
    ltac:(intros [|a g] Hg; [cbn in Hg; lia|reflexivity]))|reflexivity]|]. cbn [rbind].
  etransitivity; [apply f_equal2; [refine (G (fun l => pylast l) (fun g => last g 0) _)|reflexivity]|].
  { intros g Hg. unfold pylast. destruct (exists_last (l := g)) as (l & a & ->); [intros ->; cbn in Hg; lia|].
    rewrite rev_app_distr, last_last. reflexivity. }
  cbn [rbind].
  etransitivity; [apply f_equal2; [exact (G (fun l => pyget l 1) (fun g => nth 1 g 0)
    ltac:(intros [|a [|b g]] Hg; [cbn in Hg; lia|cbn in Hg; lia|reflexivity]))|reflexivity]|]. cbn [rbind].
  assert (Hc : forall p, In p ps -> conv step p L = true).
  { intros [[|g0 [|g1 rest]] x] Hin; destruct (Hp _ Hin) as ((H1 & H2) & H3); cbn [fst List.length] in *; try lia.
    replace L with (2 + (L - 2))%nat by lia. apply conv_late; auto. lia. }
  destruct (loop_seq step bstep Hb ps fuel 0 L ltac:(lia) ltac:(lia) Hc) as (m & Em & Hm).
  rewrite map2_maps, map_map.
  etransitivity; [apply f_equal2; [exact Em|reflexivity]|]. cbn [rbind]. rewrite map2_maps. f_equal.
  apply map_ext_in. intros [[|g0 [|g1 rest]] x] Hin; destruct (Hp _ Hin) as ((H1 & H2) & H3); cbn [fst snd List.length] in *; try lia.
  change (S (S (List.length rest))) with (List.length (g0 :: g1 :: rest)).
  rewrite (conv_result step H0 g0 g1 rest x m H3 (Hm _ Hin)). rewrite traj_cons.
  destruct rest; reflexivity.
Qed.

(** C33 (true variant).  With two-point grids the jagged solve equals the independent solves. *)
Lemma C33_two_points_partial_pf :
  forall (X : Type) (step : R -> R -> X -> X) (bstep : @batch_step ROps X) (ps : list (list R * X)) fuel,
  (forall t x, step t 0 x = x) ->
  (forall l : list (R * R * X),
     snd (bstep (map (fun e => fst (fst e)) l) (map snd l) (map (fun e => snd (fst e)) l))
     = Some (map (fun e => step (fst (fst e)) (snd (fst e)) (snd e)) l)) ->
  (forall p, In p ps -> List.length (fst p) = 2%nat /\ apart (fst p)) -> (2 <= fuel)%nat ->
  @jagged_fixed_odeint ROps X fuel (map snd ps) (map fst ps) bstep
  = Ok (map (fun p => one_step_traj step (snd p) (fst p)) ps).
Proof.
  intros X step bstep ps fuel H0 Hb Hp HL.
  rewrite (C33_jagged_actual_pf X step bstep ps fuel 2 H0 Hb) by (auto; intros p Hin; destruct (Hp p Hin); split; auto; lia).
  f_equal. apply map_ext_in. intros [g x] Hin. destruct (Hp _ Hin) as (Hl & _). cbn [fst snd] in *.
  destruct g as [|g0 [|g1 [|]]]; try discriminate. reflexivity.
Qed.

(** C33, refuted.  x' = 1 from 0 on the grid 0, 1, 2: the states returned are 0, 1, 1; an independent
    solve gives 0, 1, 2. *)
Lemma C33_jagged_refuted_pf :
  exists (step : R -> R -> R -> R) (bstep : @batch_step ROps R) (ps : list (list R * R)) fuel,
  (forall l : list (R * R * R),
     snd (bstep (map (fun e => fst (fst e)) l) (map snd l) (map (fun e => snd (fst e)) l))
     = Some (map (fun e => step (fst (fst e)) (snd (fst e)) (snd e)) l)) /\
  @jagged_fixed_odeint ROps R fuel (map snd ps) (map fst ps) bstep = Ok [[0; 1; 1]] /\
  map (fun p => one_step_traj step (snd p) (fst p)) ps = [[0; 1; 2]].
Proof.
  exists (fun t h x => x + h), (fun t x dt => (None, None, Some (map2 Rplus x dt))), [([0; 1; 2], 0)], 3%nat.
  assert (Hb : forall l : list (R * R * R),
     snd ((fun (t x dt : list R) => (@None (list R), @None (list R), Some (map2 Rplus x dt)))
            (map (fun e => fst (fst e)) l) (map snd l) (map (fun e => snd (fst e)) l))
     = Some (map (fun e => snd e + snd (fst e)) l)) by (intros l; cbn; rewrite map2_maps; reflexivity).
  split; [exact Hb|]. split.
  - rewrite (C33_jagged_actual_pf R (fun t h x => x + h) _ [([0; 1; 2], 0)] 3 3); auto.
    + cbn. do 2 f_equal. replace (0 + (1 - 0)) with 1 by lra. reflexivity.
    + intros; lra.
    + intros p [<-|[]]. cbn [fst List.length]. split; [lia|].
      intros i a Hi Ha. cbn in Hi. destruct i as [|[|i]]; [| |lia]; injection Ha as <-; cbn; 
        rewrite Rabs_left; lra.
  - cbn. repeat f_equal; lra.
Qed.

(** C33, refuted for the built-in solvers: their third return value is None, so any batch with at
    least one unfinished sub-problem raises TypeError. *)
Lemma C33_builtin_refuted_pf :
  forall (X : Type) (bstep : @batch_step ROps X) (ps : list (list R * X)) fuel,
  (forall t x dt, snd (bstep t x dt) = None) -> ps <> [] ->
  (forall p, In p ps -> (2 <= List.length (fst p))%nat /\ apart (fst p)) -> (1 <= fuel)%nat ->
  @jagged_fixed_odeint ROps X fuel (map snd ps) (map fst ps) bstep = Err TypeError.
Proof.
  intros X bstep ps fuel Hn Hne Hp Hf. unfold jagged_fixed_odeint.
  assert (G : forall (h : list R -> res R) (k : list R -> R),
    (forall g, (2 <= List.length g)%nat -> h g = Ok (k g)) ->
    fold_right (fun l acc => rbind (h l) (fun a => rmap (cons a) acc)) (Ok []) (map fst ps) = Ok (map (fun p => k (fst p)) ps)).
  { intros h k Hh. rewrite (gather h k).
    - now rewrite map_map.
    - intros g Hg. apply in_map_iff in Hg. destruct Hg as (p & <- & Hin). apply Hh. apply (Hp p Hin). }
  etransitivity; [apply f_equal2; [exact (G (fun l => pyget l 0) (fun g => hd 0 g)
    ltac:(intros [|a g] Hg; [cbn in Hg; lia|reflexivity]))|reflexivity]|]. cbn [rbind].
  etransitivity; [apply f_equal2; [refine (G (fun l => pylast l) (fun g => last g 0) _)|reflexivity]|].
  { intros g Hg. unfold pylast. destruct (exists_last (l := g)) as (l & a & ->); [intros ->; cbn in Hg; lia|].
    rewrite rev_app_distr, last_last. reflexivity. }
  cbn [rbind].
  etransitivity; [apply f_equal2; [exact (G (fun l => pyget l 1) (fun g => nth 1 g 0)
    ltac:(intros [|a [|b g]] Hg; [cbn in Hg; lia|cbn in Hg; lia|reflexivity]))|reflexivity]|]. cbn [rbind].
  destruct fuel as [|fuel]; [lia|]. destruct ps as [|[g x] ps]; [congruence|].
  cbn [jagged_loop]. cbn [map fst snd].
  destruct (Hp _ (or_introl eq_refl)) as [Hl Hap]. cbn [fst] in *.
  assert (Hc : negb (Rleb (Rabs (hd 0 g - last g 0)) (Q2R (1 # 1000000))) = true).
  { apply negb_true_iff. apply not_true_is_false. intros H. apply Rleb_true in H. rewrite tol6 in H.
    destruct g as [|g0 [|g1 g]]; cbn in Hl; try lia.
    assert (Hx := Hap 0%nat g0 ltac:(cbn; lia) eq_refl). cbn [hd] in H. lra. }
  unfold not_converged. cbn [map2 existsb].
  match goal with |- context [if ?c || ?d then _ else _] => assert (E : c = true) by exact Hc; rewrite E end.
  cbn [orb].
  match goal with |- context [bstep ?a ?b ?c] => specialize (Hn a b c); destruct (bstep a b c) as [[u v] w] end.
  cbn [snd] in Hn. subst w. reflexivity.
Qed.

(** C33 (the shifted variant).  _shifted_fixed_odeint never returns: it raises for every input. *)
Lemma C33_shifted_refuted_pf :
  forall (K : NumOps) (X : Type) (f : list K -> X -> X) x t_span r,
  snd (@shifted_fixed_odeint K X f x t_span) <> Ok r.
Proof.
  intros K X f x ts r. unfold shifted_fixed_odeint, mlift.
  destruct (fold_right _ _ ts) as [t| |]; [|discriminate|discriminate]. cbn [mbind snd].
  destruct (fold_right _ _ ts) as [T| |]; [|discriminate|discriminate]. cbn [mbind snd].
  destruct (fold_right _ _ ts) as [t1| |]; [|discriminate|discriminate]. cbn [mbind snd call fst].
  destruct (existsb _ _); discriminate.
Qed.
