(** States that are dictionaries of tensors. *)
From Coq Require Import ZArith QArith Floats String List Bool Lia.
From Verif Require Import Num Py Tensor M_SolversOde M_Odeint M_Dict.
Import ListNotations.
Local Open Scope list_scope.

(** ** Dictionaries *)
Lemma lookup_in {A} k (d : list (string * A)) : In k (keys d) <-> lookup k d <> None.
Proof.
  induction d as [|[k' a] d IH]; simpl; [now split|].
  destruct (String.eqb_spec k k') as [->|N]; [split; [discriminate | now left]|].
  rewrite <- IH. split; [intros [E|E]; [congruence | exact E] | now right].
Qed.

Lemma lookup_update {A} k k' (a : A) d : lookup k' (update k a d) =
  if String.eqb k' k then (match lookup k d with Some _ => Some a | None => None end) else lookup k' d.
Proof.
  induction d as [|[l b] d IH]; simpl; [now destruct (String.eqb k' k)|].
  destruct (String.eqb_spec k l) as [->|N]; simpl.
  - destruct (String.eqb_spec k' l) as [->|N']; [reflexivity|]. rewrite IH.
    destruct (String.eqb_spec k' l); [congruence | reflexivity].
  - destruct (String.eqb_spec k' l) as [->|N']; [|exact IH].
    destruct (String.eqb_spec l k); [congruence | reflexivity].
Qed.

Lemma keys_update {A} k (a : A) d : keys (update k a d) = keys d.
Proof.
  unfold keys, update. rewrite map_map. apply map_ext. intros [l b]. simpl.
  destruct (String.eqb_spec k l) as [->|]; reflexivity.
Qed.

Lemma lookup_single {A} k (d : list (string * A)) :
  lookup k (map (fun p => (fst p, [snd p])) d) = match lookup k d with Some a => Some [a] | None => None end.
Proof. induction d as [|[l b] d IH]; simpl; [reflexivity|]. now destruct (String.eqb k l). Qed.

Lemma keys_single {A} (d : list (string * A)) : keys (map (fun p => (fst p, [snd p])) d) = keys d.
Proof. unfold keys. rewrite map_map. reflexivity. Qed.

Section Dict.
Context {K : NumOps}.
Notation V := (vec K).
Notation dict := (@dict K).

(** d[k] *)
Definition entry (k : string) (d : dict) : V := match lookup k d with Some v => v | None => [] end.

(** the same keys, with tensors of the same sizes *)
Definition same_shape (d d' : dict) : Prop :=
  forall k, option_map (@List.length K) (lookup k d') = option_map (@List.length K) (lookup k d).

Lemma append_key (k : string) (rest : list dict) : forall (fo : list (string * list V)) l,
  lookup k fo = Some l -> Forall (fun x => lookup k x <> None) rest ->
  exists fo', rfold (fun fo x => rbind (getitem fo k) (fun l => rbind (getitem x k) (fun v => Ok (update k (l ++ [v]) fo)))) rest fo = Ok fo'
    /\ keys fo' = keys fo /\ lookup k fo' = Some (l ++ map (entry k) rest) /\ (forall k', k' <> k -> lookup k' fo' = lookup k' fo).
Proof.
  induction rest as [|x rest IH]; intros fo l Hl Hr; cbn [rfold].
  - exists fo. rewrite app_nil_r. auto.
  - inversion Hr as [|? ? H1 H2]; subst. unfold getitem at 1. rewrite Hl. cbn [rbind]. unfold getitem.
    destruct (lookup k x) as [v|] eqn:Ev; [|contradiction]. cbn [rbind].
    destruct (IH (update k (l ++ [v]) fo) (l ++ [v])) as (fo' & R1 & R2 & R3 & R4).
    + rewrite lookup_update, String.eqb_refl, Hl. reflexivity.
    + exact H2.
    + exists fo'. split; [exact R1|]. split; [now rewrite R2, keys_update|]. split.
      * rewrite R3. cbn [map]. unfold entry at 2. rewrite Ev. now rewrite <- app_assoc.
      * intros k' N. rewrite R4 by exact N. rewrite lookup_update.
        destruct (String.eqb_spec k' k); [contradiction | reflexivity].
Qed.

Lemma append_keys (rest : list dict) : forall ks (fo : list (string * list V)), NoDup ks ->
  (forall k, In k ks -> lookup k fo <> None) -> (forall k, In k ks -> Forall (fun x => lookup k x <> None) rest) ->
  exists fo', rfold (fun fo k =>
        rfold (fun fo x => rbind (getitem fo k) (fun l => rbind (getitem x k) (fun v => Ok (update k (l ++ [v]) fo)))) rest fo) ks fo = Ok fo'
    /\ keys fo' = keys fo
    /\ (forall k l, In k ks -> lookup k fo = Some l -> lookup k fo' = Some (l ++ map (entry k) rest))
    /\ (forall k, ~ In k ks -> lookup k fo' = lookup k fo).
Proof.
  induction ks as [|k ks IH]; intros fo Hn H1 H2; cbn [rfold].
  - exists fo. repeat split; auto. intros ? ? [].
  - inversion Hn as [|? ? N1 N2]; subst.
    destruct (lookup k fo) as [l|] eqn:El; [|exfalso; now apply (H1 k (or_introl eq_refl))].
    destruct (append_key k rest fo l El (H2 k (or_introl eq_refl))) as (fo1 & R1 & R2 & R3 & R4).
    rewrite R1. cbn [rbind].
    destruct (IH fo1) as (fo' & S1 & S2 & S3 & S4).
    + exact N2.
    + intros k' Hk'. rewrite R4 by (intros ->; contradiction). apply H1. now right.
    + intros k' Hk'. apply H2. now right.
    + exists fo'. split; [exact S1|]. split; [congruence|]. split.
      * intros k' l' [<-|Hk'] El'.
        -- rewrite S4 by exact N1. rewrite R3. congruence.
        -- apply S3; [exact Hk'|]. rewrite R4; [exact El' | intros ->; contradiction].
      * intros k' Hk'. rewrite S4 by (intros C; apply Hk'; now right). apply R4. intros ->. apply Hk'. now left.
Qed.

Lemma stack_all (fo : list (string * list V)) : NoDup (keys fo) ->
  (forall k l, lookup k fo = Some l -> stack l = Ok l) ->
  rmapm (fun p => rbind (stack (snd p)) (fun s => Ok (fst p, s))) fo = Ok fo.
Proof.
  induction fo as [|[k l] fo IH]; intros Hn H; cbn [rmapm]; [reflexivity|].
  cbn [keys map fst] in Hn. inversion Hn as [|? ? N1 N2]; subst. cbn [fst snd].
  rewrite (H k l) by (cbn [lookup]; now rewrite String.eqb_refl). cbn [rbind].
  rewrite IH; [reflexivity | exact N2|]. intros k' l' E. apply (H k' l'). cbn [lookup].
  destruct (String.eqb_spec k' k) as [->|]; [|exact E]. exfalso. apply N1. apply lookup_in. now rewrite E.
Qed.

Lemma stack_same_size (k : string) (s0 : dict) (sol : list dict) : Forall (same_shape s0) sol -> sol <> [] ->
  stack (map (entry k) sol) = Ok (map (entry k) sol).
Proof.
  intros H Hne. destruct sol as [|s sol]; [contradiction|]. unfold stack. cbn [map].
  assert (E : forall d, In d (s :: sol) -> List.length (entry k d) = List.length (entry k s0)).
  { intros d Hd. rewrite Forall_forall in H. specialize (H d Hd k). unfold entry.
    destruct (lookup k d), (lookup k s0); cbn in H; congruence. }
  replace (forallb _ _) with true; [reflexivity|]. symmetry. apply forallb_forall. intros w Hw.
  change (entry k s :: map (entry k) sol) with (map (entry k) (s :: sol)) in Hw.
  apply in_map_iff in Hw as (d & <- & Hd). apply Nat.eqb_eq. rewrite (E d Hd). symmetry. apply E. now left.
Qed.

Lemma stack_dicts_ok (x0 last : dict) (sol : list dict) : NoDup (keys last) -> sol <> [] ->
  (forall d, In d sol -> NoDup (keys d)) ->
  Forall (same_shape x0) sol -> same_shape x0 last ->
  exists out, stack_dicts last sol = Ok out /\ (forall k, In k (keys out) <-> In k (keys x0)) /\
    forall k, In k (keys x0) -> lookup k out = Some (map (entry k) sol).
Proof.
  intros Hn Hne Hnd Hs Hl. destruct sol as [|s0 rest]; [contradiction|]. unfold stack_dicts.
  assert (K0 : forall d k, In d (last :: s0 :: rest) -> In k (keys d) <-> In k (keys x0)).
  { intros d k Hd. rewrite !lookup_in. assert (S : same_shape x0 d).
    { destruct Hd as [<-|Hd]; [exact Hl|]. rewrite Forall_forall in Hs. now apply Hs. }
    specialize (S k). destruct (lookup k d), (lookup k x0); cbn in S; split; congruence. }
  destruct (append_keys rest (keys last) (map (fun p => (fst p, [snd p])) s0) Hn) as (fo & R1 & R2 & R3 & R4).
  - intros k Hk. apply lookup_in. rewrite keys_single. apply (K0 s0); [right; now left|]. apply (K0 last); [now left | exact Hk].
  - intros k Hk. apply Forall_forall. intros d Hd. apply lookup_in. apply (K0 d); [right; now right|]. apply (K0 last); [now left | exact Hk].
  - rewrite R1. cbn [rbind].
    assert (L : forall k, In k (keys x0) -> lookup k fo = Some (map (entry k) (s0 :: rest))).
    { intros k Hk. cbn [map]. change (entry k s0 :: map (entry k) rest) with ([entry k s0] ++ map (entry k) rest). apply R3.
      - apply (K0 last); [now left | exact Hk].
      - rewrite lookup_single. apply (K0 s0) in Hk; [|right; now left]. apply lookup_in in Hk. unfold entry.
        destruct (lookup k s0); [reflexivity | contradiction]. }
    assert (Kf : forall k, In k (keys fo) <-> In k (keys x0)).
    { intros k. rewrite R2, keys_single. apply K0. right. now left. }
    exists fo. split; [|split; [exact Kf | exact L]].
    apply stack_all.
    + rewrite R2, keys_single. apply Hnd. now left.
    + intros k l E. assert (Hk : In k (keys x0)) by (apply Kf; apply lookup_in; now rewrite E).
      specialize (L k Hk). rewrite L in E. injection E as <-. apply (stack_same_size k x0 (s0 :: rest)); [exact Hs | discriminate].
Qed.

(** ** The loop *)
Lemma dict_loop_states (f : K -> dict -> dict) (step : @step_fun K dict) (t_span save_at : list K) n : forall steps x t dt sol,
  (fst (dict_loop f step t_span save_at n steps x t dt sol), rmap snd (snd (dict_loop f step t_span save_at n steps x t dt sol)))
  = fixed_loop f step t_span save_at n steps x t dt sol.
Proof.
  induction n as [|n IH]; intros steps x t dt sol; [reflexivity|]. cbn [dict_loop fixed_loop].
  unfold mbind at 1 2 5. destruct (step f x t dt None) as [log [[fn x' er|? ? ? ?]|e|]]; cbn [fst snd rmap rbind]; try reflexivity.
  destruct (if steps <? List.length t_span - 1 then _ else _) as [log1 [dt'|e|]]; unfold mbind; cbn [fst snd rmap rbind]; try reflexivity.
  rewrite <- IH. reflexivity.
Qed.

Section Preserved.
Variable P : dict -> Prop.
Variables (f : K -> dict -> dict) (step : @step_fun K dict).
Hypothesis step_P : forall x t dt fn x' er, P x -> snd (step f x t dt None) = Ok (Ret3 fn x' er) -> P x'.

Lemma dict_loop_P (t_span save_at : list K) n : forall steps x t dt sol last sol', P x -> Forall P sol ->
  snd (dict_loop f step t_span save_at n steps x t dt sol) = Ok (last, sol') -> P last /\ Forall P sol'.
Proof.
  induction n as [|n IH]; intros steps x t dt sol last sol' Hx Hs H; cbn [dict_loop] in H.
  - injection H as <- <-. now split.
  - unfold mbind at 1 in H. pose proof (step_P x t dt) as SP.
    destruct (step f x t dt None) as [log [[fn x' er|? ? ? ?]|e|]]; cbn [fst snd] in H; try discriminate.
    specialize (SP fn x' er Hx eq_refl). revert H.
    destruct (if steps <? List.length t_span - 1 then _ else _) as [log1 [dt'|e|]]; unfold mbind; cbn [fst snd]; intros H; try discriminate.
    eapply IH; [exact SP | | exact H].
    destruct (isclose_count _ save_at =? 0); [exact Hs|]. apply Forall_app. split; [exact Hs|]. now constructor.
Qed.
End Preserved.
End Dict.

(** ** Theorems *)

(** A dictionary cannot be integrated with any solver of the package, given by name or as an object: the solver asks the
    state for its dtype or its device. *)
Lemma C123_dict_states_refuted_pf : forall (K : NumOps) (f : K -> dict -> dict) (x : dict) (t0 t1 : K) (ts save_at : list K)
  (name : string) (s : solver K dict),
  snd (dict_odeint f x (t0 :: t1 :: ts) (ByName name) save_at) = Err AttributeError /\
  snd (dict_odeint f x (t0 :: t1 :: ts) (Inherits s) save_at) = Err AttributeError.
Proof. intros. split; reflexivity. Qed.

(** With a fixed-step solver that overrides sync_device_dtype, and keeps keys and sizes, the result has the keys of the
    initial state, and under each key the entries of the states saved by the loop, in their order. *)
Lemma C123_custom_solver_pf : forall (K : NumOps) (f : K -> dict -> dict) (x : dict) (t_span : list K) (step : @step_fun K dict)
  (save_at sa : list K) (sol : list dict),
  (forall d t dt fn d' er, NoDup (keys d) -> snd (step f d t dt None) = Ok (Ret3 fn d' er) -> NoDup (keys d') /\ same_shape d d') ->
  NoDup (keys x) ->
  snd (fixed_odeint f x t_span step save_at) = Ok (sa, sol) ->
  exists out, snd (dict_fixed_odeint f x t_span step save_at) = Ok (sa, out) /\
    (forall k, In k (keys out) <-> In k (keys x)) /\
    forall k, In k (keys x) -> lookup k out = Some (map (entry k) sol).
Proof.
  intros K f x t_span step save_at sa sol Hstep Hx H.
  unfold dict_fixed_odeint, fixed_odeint in *. set (sv := match save_at with [] => t_span | _ => save_at end) in *.
  destruct (negb _); [discriminate|]. revert H.
  destruct (pyget t_span 0) as [t0|e|]; unfold mbind, mlift; cbn [fst snd]; try discriminate.
  destruct (pylast t_span) as [tl|e|]; cbn [fst snd]; try discriminate.
  destruct (pyget t_span 1) as [t1|e|]; cbn [fst snd]; try discriminate.
  set (s0 := if isclose_count t0 sv =? 0 then [] else [x]).
  rewrite <- dict_loop_states. intros H.
  pose (P := fun d : dict => NoDup (keys d) /\ same_shape x d).
  assert (HP : forall d t dt fn d' er, P d -> snd (step f d t dt None) = Ok (Ret3 fn d' er) -> P d').
  { intros d t dt fn d' er [P1 P2] E. destruct (Hstep d t dt fn d' er P1 E) as [Q1 Q2]. split; [exact Q1|].
    intros k. now rewrite Q2, P2. }
  assert (Px : P x) by (split; [exact Hx | intros k; reflexivity]).
  assert (Ps : Forall P s0) by (unfold s0; destruct (isclose_count t0 sv =? 0); constructor; [exact Px | constructor]).
  pose proof (dict_loop_P P f step HP t_span sv (List.length t_span - 1) 1 x t0 (t1 - t0)%N s0) as L.
  destruct (dict_loop f step t_span sv (List.length t_span - 1) 1 x t0 (t1 - t0)%N s0) as [log [[last sol']|e|]];
    cbn [fst snd rmap rbind] in *; try discriminate.
  destruct (L last sol' Px Ps eq_refl) as [[L1 L2] L3].
  destruct sol' as [|d0 sol']; [discriminate|]. cbn [snd mret] in H. injection H as <- <-.
  destruct (stack_dicts_ok x last (d0 :: sol') L1) as (out & O1 & O2 & O3).
  - discriminate.
  - intros d Hd. rewrite Forall_forall in L3. now apply L3.
  - apply Forall_forall. intros d Hd. rewrite Forall_forall in L3. now apply L3.
  - exact L2.
  - exists out. rewrite O1. cbn [fst snd mret]. split; [reflexivity|]. now split.
Qed.

(** The keys are taken from the last state: an entry that a step drops is returned with fewer points than save_at has,
    without an error. *)
Lemma C123_lost_key_refuted_pf : forall (K : NumOps) (a b : vec K), List.length a = List.length b ->
  stack_dicts [("x"%string, b)] [[("x"%string, a); ("y"%string, a)]; [("x"%string, b)]] =
    Ok [("x"%string, [a; b]); ("y"%string, [a])].
Proof.
  intros K a b E. cbn. rewrite E, !Nat.eqb_refl. cbn. now rewrite ?Nat.eqb_refl.
Qed.

(** a solver that adds dt to the entry "x" and keeps the entry "y", in binary64 *)
Definition ex_step (pw : float -> float -> float) : @step_fun (FloatOps pw) (@dict (FloatOps pw)) := fun f d t dt _ =>
  mret (Ret3 None (map (fun p => if String.eqb (fst p) "x" then (fst p, map (fun v => (v + dt)%N) (snd p)) else p) d) None).
Lemma C123_custom_solver_ex_pf : forall pw : float -> float -> float,
  (forall d t dt fn d' er, NoDup (keys d) -> snd (ex_step pw (fun _ d => d) d t dt None) = Ok (Ret3 fn d' er) -> NoDup (keys d') /\ same_shape d d') /\
  snd (dict_fixed_odeint (K := FloatOps pw) (fun _ d => d) [("x"%string, [0; 5]%float); ("y"%string, [7]%float)] [0; 1; 3]%float (ex_step pw) [0; 3]%float)
    = Ok ([0; 3]%float, [("x"%string, [[0; 5]; [3; 8]]%float); ("y"%string, [[7]; [7]]%float)]).
Proof.
  intros pw. split; [|vm_compute; reflexivity].
  intros d t dt fn d' er Hn H. unfold ex_step, mret in H. cbn [snd] in H. injection H as _ <- _. split.
  - unfold keys in *. rewrite map_map. erewrite map_ext; [exact Hn|]. intros [k v]. cbn. now destruct (String.eqb k "x").
  - intros k. induction d as [|[l v] d IH]; [reflexivity|]. cbn [map fst snd].
    assert (IHd := IH ltac:(inversion Hn; assumption)).
    destruct (String.eqb l "x"); cbn [lookup]; destruct (String.eqb k l); try exact IHd; cbn; try reflexivity.
    now rewrite map_length.
Qed.
