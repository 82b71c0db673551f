(** The log of root_find. *)
From Coq Require Import ZArith QArith String Reals Lra Lia List Bool.
From Verif Require Import Num Py Tensor M_Root M_RootLog.
From Verif Require Import L_Base Pf_Root.
Import ListNotations.
Local Open Scope string_scope.

Section Loop.
Context {K : NumOps}.

Definition entries (st : rstate (K := K)) : dict logval :=
  ([("geval", LBatch (r_ge st)); ("z", LBatch (r_z st)); ("dz", LBatch (r_dz st)); ("iteration", LNat (r_steps st));
   ("alpha", LNil); ("phi", LNil)] ++ if r_conv st then [("termination_condition", LStr "total condition")] else [])%list.

(** the shape of the log before the loop ends *)
Definition open_log (lg : dict (logval (K := K))) : Prop :=
  exists a b c d, lg = [("geval", a); ("z", b); ("dz", c); ("iteration", d); ("alpha", LNil); ("phi", LNil)].

Lemma loop_log verbose sf m s tl g : forall k st lg, open_log lg -> r_conv st = false ->
  match root_loop k sf m s tl g st with
  | Ok st' => (r_steps st <= r_steps st')%nat /\ exists lg', root_loop_log k verbose sf m s tl g st lg = Ok (st', lg') /\
      (verbose = false -> lg' = lg) /\
      (verbose = true -> lg' = if (k =? 0)%nat then lg else entries st') /\ (k = 0%nat -> st' = st) /\
      (k <> 0%nat -> (r_steps st < r_steps st')%nat)
  | Err e => root_loop_log k verbose sf m s tl g st lg = Err e
  | OutOfFuel => root_loop_log k verbose sf m s tl g st lg = OutOfFuel
  end.
Proof.
  induction k as [|k IH]; intros st lg (a & b & c & d & E) Hc; cbn [root_loop root_loop_log].
  - split; [lia|]. exists lg. repeat split; auto; lia.
  - destruct (solver_step m g (r_z st) (r_J st) (r_ge st) (r_alpha st)) as [[[[z dz] ge] J]| |]; cbn [rbind]; auto.
    destruct (new_alpha sf s g ge dz z (r_alpha st)) as [alpha| |]; cbn [rbind]; auto.
    destruct (tc_check tl (r_f0 st) ge z dz) as [stop f0]. destruct stop.
    + split; [cbn; lia|]. eexists. split; [reflexivity|].
      split; [intros ->; reflexivity|]. split; [intros ->; rewrite E; reflexivity|]. split; [discriminate|]. cbn. lia.
    + set (st1 := MkR z dz ge J alpha (Some f0) (S (r_steps st)) false).
      set (lg1 := if verbose then _ else lg).
      assert (O1 : open_log lg1).
      { unfold lg1. rewrite E. destruct verbose; repeat eexists. }
      specialize (IH st1 lg1 O1 eq_refl). destruct (root_loop k sf m s tl g st1) as [st'| |] eqn:R; auto.
      destruct IH as (Hle & lg' & H1 & H2 & H3 & H4 & H5). split; [cbn in Hle; lia|]. exists lg'. split; [exact H1|].
      split; [intros ->; now apply H2|]. split; [|split; [discriminate|intros _; cbn in Hle; lia]].
      intros Hv. cbn [Nat.eqb]. rewrite (H3 Hv). destruct k as [|k]; [|reflexivity]. rewrite (H4 eq_refl). cbn [Nat.eqb].
      unfold lg1, st1. rewrite Hv, E. reflexivity.
Qed.
End Loop.

(** C133.  The log root_find returns when verbose: the last residual, the returned z, the last step and the number of
    iterations; termination_condition is present exactly if the run was stopped by the tolerances.  (maxiters >= 0;
    otherwise nothing is logged.)  With verbose = False the log stays empty.  root_find itself is not affected. *)
Lemma C133_log_pf :
  forall (K : NumOps) verbose sf g z J0 alpha tl maxiters m s,
  match @root_find K sf g z J0 alpha tl maxiters m s with
  | Ok st => exists lg, @root_find_log K verbose sf g z J0 alpha tl maxiters m s = Ok (r_z st, lg) /\
      (verbose = false \/ (maxiters < 0)%Z -> lg = logger0) /\
      (verbose = true -> (0 <= maxiters)%Z ->
         lookup "z" lg = Some (LBatch (r_z st)) /\ lookup "geval" lg = Some (LBatch (r_ge st)) /\ lookup "dz" lg = Some (LBatch (r_dz st)) /\
         lookup "iteration" lg = Some (LNat (r_steps st)) /\ (1 <= r_steps st)%nat /\
         lookup "termination_condition" lg = if r_conv st then Some (LStr "total condition") else None)
  | Err e => @root_find_log K verbose sf g z J0 alpha tl maxiters m s = Err e
  | OutOfFuel => @root_find_log K verbose sf g z J0 alpha tl maxiters m s = OutOfFuel
  end.
Proof.
  intros K verbose sf g z J0 alpha tl maxiters m s. unfold root_find, root_find_log.
  destruct (method_of m) as [mm| |]; cbn [rbind]; auto. destruct (search_of s) as [ss| |]; cbn [rbind]; auto.
  assert (O : open_log (K := K) logger0) by (repeat eexists).
  assert (H := loop_log verbose sf mm ss tl g (Z.to_nat (maxiters + 1)) (MkR z [] (g z) J0 alpha None 0 false) logger0 O eq_refl).
  destruct (root_loop _ sf mm ss tl g _) as [st| |]; [|now rewrite H|now rewrite H].
  destruct H as (_ & lg & H1 & H2 & H3 & H4 & H5). exists lg. rewrite H1. split; [reflexivity|]. split.
  - intros [Hv|Hm]; [now apply H2|]. destruct verbose; [|now apply H2].
    rewrite (H3 eq_refl). replace (Z.to_nat (maxiters + 1)) with 0%nat by lia. reflexivity.
  - intros Hv Hm. rewrite (H3 Hv). destruct (Z.to_nat (maxiters + 1)) as [|k] eqn:E; [lia|]. cbn [Nat.eqb].
    assert (S1 := H5 ltac:(discriminate)). cbn [r_steps] in S1.
    unfold entries. destruct (r_conv st); repeat split; auto; lia.
Qed.

(** C133, refuted for the line search: alpha and phi are never logged, their entries are empty lists on every run. *)
Lemma C133_line_search_refuted_pf :
  forall (K : NumOps) verbose sf g z J0 alpha tl maxiters m s z' lg,
  @root_find_log K verbose sf g z J0 alpha tl maxiters m s = Ok (z', lg) ->
  lookup "alpha" lg = Some LNil /\ lookup "phi" lg = Some LNil.
Proof.
  intros K verbose sf g z J0 alpha tl maxiters m s z' lg. unfold root_find_log.
  destruct (method_of m) as [mm| |]; cbn [rbind]; try discriminate. destruct (search_of s) as [ss| |]; cbn [rbind]; try discriminate.
  assert (O : open_log (K := K) logger0) by (repeat eexists).
  assert (H := loop_log verbose sf mm ss tl g (Z.to_nat (maxiters + 1)) (MkR z [] (g z) J0 alpha None 0 false) logger0 O eq_refl).
  destruct (root_loop _ sf mm ss tl g _) as [st| |]; [|rewrite H; discriminate|rewrite H; discriminate].
  destruct H as (_ & lg' & H1 & H2 & H3 & _). rewrite H1. cbn [rbind]. intros E. injection E as _ <-. cbn [snd].
  destruct verbose; [rewrite (H3 eq_refl); destruct (_ =? 0)%nat; [split; reflexivity|unfold entries; destruct (r_conv st); split; reflexivity]|].
  rewrite (H2 eq_refl). split; reflexivity.
Qed.

Lemma log_ok (K : NumOps) sf g z J0 alpha tl maxiters m s st : (0 <= maxiters)%Z ->
  @root_find K sf g z J0 alpha tl maxiters m s = Ok st ->
  exists lg, @root_find_log K true sf g z J0 alpha tl maxiters m s = Ok (r_z st, lg) /\
  lookup "z" lg = Some (LBatch (r_z st)) /\ lookup "iteration" lg = Some (LNat (r_steps st)) /\ (1 <= r_steps st)%nat.
Proof.
  intros Hm E. assert (H := C133_log_pf K true sf g z J0 alpha tl maxiters m s). rewrite E in H.
  destruct H as (lg & H1 & _ & H2). exists lg. destruct (H2 eq_refl Hm) as (A & _ & _ & B & C & _). auto.
Qed.

(** A run that logs: at most one Broyden iteration. *)
Lemma C133_ex_pf :
  exists z lg, @root_find_log ROps true 8 (fun z => z) [[1%R]] [[[1%R]]] (1 / 10)%R default_tols 0 "broyden" "naive" = Ok (z, lg) /\
  lookup "z" lg = Some (LBatch z) /\ lookup "iteration" lg = Some (LNat 1).
Proof.
  destruct (C38_root_find_pf 8 (fun z => z) [[1%R]] [[[1%R]]] (1 / 10)%R default_tols 0 "broyden" "naive") as (st & E & L & _).
  - auto.
  - left. reflexivity.
  - left. reflexivity.
  - destruct (log_ok ROps 8 (fun z => z) [[1%R]] [[[1%R]]] (1 / 10)%R default_tols 0 "broyden" "naive" st ltac:(lia) E) as (lg & H1 & A & B & C).
    exists (r_z st), lg. split; [exact H1|]. split; [exact A|].
    assert (S1 : r_steps st = 1%nat) by (cbn in L; lia). rewrite S1 in B. exact B.
Qed.

(** ** permanent_log *)
Section Perm.
Context {A : Type}.
Lemma lookup_set k k' (v : list A) : forall d, lookup k (set k' v d) = if k =? k' then Some v else lookup k d.
Proof.
  induction d as [|[k0 v0] d IH]; cbn [set lookup]; [reflexivity|].
  destruct (String.eqb_spec k' k0) as [->|N]; cbn [lookup].
  - destruct (String.eqb_spec k k0); reflexivity.
  - rewrite IH. destruct (String.eqb_spec k k0) as [->|]; [|reflexivity].
    destruct (String.eqb_spec k0 k') as [E|]; [exfalso; apply N; now symmetry|reflexivity].
Qed.
Lemma keys_set k (v : list A) : forall d, In k (map fst d) -> map fst (set k v d) = map fst d.
Proof.
  induction d as [|[k0 v0] d IH]; cbn [set map fst]; [intros []|]. intros [<-|H].
  - now rewrite String.eqb_refl.
  - destruct (k =? k0); cbn [map fst]; [reflexivity|]. now rewrite IH.
Qed.
Lemma lookup_in k : forall d : dict (list A), In k (map fst d) <-> lookup k d <> None.
Proof.
  induction d as [|[k0 v0] d IH]; cbn [map fst lookup]; [split; [intros []|intros H; now apply H]|].
  destruct (String.eqb_spec k k0) as [->|N]; [split; [discriminate|now left]|].
  rewrite <- IH. split; [intros [E|H]; [exfalso; now apply N|exact H]|now right].
Qed.

Lemma perm_ok (logged : dict (list A)) : forall keys data, NoDup keys -> incl keys (map fst data) -> incl keys (map fst logged) ->
  exists data', perm_loop keys logged data = (data', Ok tt) /\ map fst data' = map fst data /\
  forall k, lookup k data' = if in_dec string_dec k keys
    then match lookup k data, lookup k logged with Some o, Some n => Some (o ++ n)%list | _, _ => None end else lookup k data.
Proof.
  induction keys as [|k keys IH]; intros data ND I1 I2; cbn [perm_loop].
  - exists data. repeat split.
  - inversion ND as [|? ? N1 N2]; subst.
    assert (P1 := I1 k (or_introl eq_refl)). assert (P2 := I2 k (or_introl eq_refl)).
    destruct (lookup k logged) as [new|] eqn:E1; [|exfalso; apply lookup_in in P2; contradiction].
    destruct (lookup k data) as [old|] eqn:E2; [|exfalso; apply lookup_in in P1; contradiction].
    destruct (IH (set k (old ++ new)%list data) N2) as (data' & H1 & H2 & H3).
    { intros x Hx. rewrite keys_set by exact P1. apply I1. now right. }
    { intros x Hx. apply I2. now right. }
    exists data'. split; [exact H1|]. split; [now rewrite H2, keys_set by exact P1|].
    intros x. rewrite H3, lookup_set. destruct (String.eqb_spec x k) as [->|N].
    + destruct (in_dec string_dec k keys); [contradiction|]. destruct (in_dec string_dec k (k :: keys)) as [|C]; [|exfalso; apply C; now left].
      now rewrite E1, E2.
    + destruct (in_dec string_dec x keys) as [I|C]; destruct (in_dec string_dec x (k :: keys)) as [I'|C']; auto.
      * exfalso. apply C'. now right.
      * exfalso. destruct I' as [->|I']; auto.
Qed.

Lemma perm_missing (logged : dict (list A)) : forall keys data, incl keys (map fst data) -> (exists k, In k keys /\ lookup k logged = None) ->
  snd (perm_loop keys logged data) = Err KeyError.
Proof.
  induction keys as [|k keys IH]; intros data I1 (x & Hx & E); [destruct Hx|]. cbn [perm_loop].
  destruct (lookup k logged) as [new|] eqn:E1; [|reflexivity].
  assert (P1 := I1 k (or_introl eq_refl)).
  destruct (lookup k data) as [old|] eqn:E2; [|reflexivity].
  apply IH.
  - intros y Hy. rewrite keys_set by exact P1. apply I1. now right.
  - exists x. split; [|exact E]. destruct Hx as [->|Hx]; [congruence|exact Hx].
Qed.
End Perm.

(** C134.  permanent_log with every key of the logger present: each history is extended by the new values, no key
    appears or disappears.  If a key is missing: KeyError. *)
Lemma C134_permanent_log_pf :
  forall (A : Type) (logged data : dict (list A)), NoDup (map fst data) ->
  ((forall k, lookup k data <> None -> lookup k logged <> None) ->
   exists data', permanent_log logged data = (data', Ok tt) /\ map fst data' = map fst data /\
   forall k old new, lookup k data = Some old -> lookup k logged = Some new -> lookup k data' = Some (old ++ new)%list) /\
  ((exists k, lookup k data <> None /\ lookup k logged = None) -> snd (permanent_log logged data) = Err KeyError).
Proof.
  intros A logged data ND. split.
  - intros H. destruct (perm_ok logged (map fst data) data ND (incl_refl _)) as (data' & H1 & H2 & H3).
    { intros k Hk. apply lookup_in. apply H. now apply lookup_in. }
    exists data'. split; [exact H1|]. split; [exact H2|]. intros k old new E1 E2. rewrite H3.
    destruct (in_dec string_dec k (map fst data)) as [_|C]; [now rewrite E1, E2|].
    exfalso. apply C. apply lookup_in. congruence.
  - intros (k & H1 & H2). apply perm_missing; [apply incl_refl|]. exists k. split; [now apply lookup_in|exact H2].
Qed.

(** C134, refuted: a call that fails has already extended the histories of the keys before the missing one, so the
    histories no longer have the same length. *)
Lemma C134_failure_refuted_pf :
  exists logged data data' : dict (list nat), permanent_log logged data = (data', Err KeyError) /\
  lookup "geval" data = Some [] /\ lookup "z" data = Some [] /\ lookup "geval" data' = Some [1%nat] /\ lookup "z" data' = Some [].
Proof.
  exists [("geval", [1%nat])], [("geval", []); ("z", []); ("dz", []); ("iteration", []); ("alpha", []); ("phi", [])].
  eexists. repeat split.
Qed.

(** Histories of two keys. *)
Lemma C134_ex_pf :
  permanent_log [("z", [3%nat; 4%nat]); ("dz", [5%nat])] [("dz", []); ("z", [1%nat])] = ([("dz", [5%nat]); ("z", [1%nat; 3%nat; 4%nat])], Ok tt) /\
  NoDup (map fst [("dz", @nil nat); ("z", [1%nat])]).
Proof. split; [reflexivity|]. repeat constructor; cbn; intuition discriminate. Qed.
