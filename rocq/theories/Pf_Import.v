(** Importing the package: which modules can be imported, and whether the order matters. *)
From Coq Require Import PArith List Bool Arith Lia.
From Verif Require Import Py M_Import.
Import ListNotations.
Local Open Scope list_scope.

(** ** Names *)
Lemma mod_ix_inj a b : mod_ix a = mod_ix b -> a = b.
Proof.
  intros H. assert (F : forall c, nth (Pos.to_nat (mod_ix c) - 1) all_modules M_torchdyn = c) by (intros []; reflexivity).
  now rewrite <- (F a), <- (F b), H.
Qed.

Lemma ident_ix_inj a b : ident_ix a = ident_ix b -> a = b.
Proof.
  intros H. assert (F : forall c, nth (Pos.to_nat (ident_ix c) - 1) all_idents N_Tuple = c) by (intros []; reflexivity).
  now rewrite <- (F a), <- (F b), H.
Qed.

Lemma all_modules_complete m : In m all_modules.
Proof. destruct m; cbv; tauto. Qed.

Definition mod_eqb (a b : modname) : bool := Pos.eqb (mod_ix a) (mod_ix b).
Definition ident_eqb (a b : ident) : bool := Pos.eqb (ident_ix a) (ident_ix b).
Lemma mod_eqb_eq a b : mod_eqb a b = true <-> a = b.
Proof. unfold mod_eqb. rewrite Pos.eqb_eq. split; [apply mod_ix_inj | congruence]. Qed.
Lemma ident_eqb_eq a b : ident_eqb a b = true <-> a = b.
Proof. unfold ident_eqb. rewrite Pos.eqb_eq. split; [apply ident_ix_inj | congruence]. Qed.

(** ** Equality of states *)
Definition val_eqb (a b : value) : bool :=
  match a, b with
  | VModule x, VModule y => mod_eqb x y
  | VObject x k, VObject y l => mod_eqb x y && ident_eqb k l
  | _, _ => false
  end.
Fixpoint list_eqb {A} (e : A -> A -> bool) (l m : list A) : bool :=
  match l, m with [], [] => true | a :: l, b :: m => e a b && list_eqb e l m | _, _ => false end.
Definition all_eqb (a b : option (list ident)) : bool :=
  match a, b with None, None => true | Some l, Some m => list_eqb ident_eqb l m | _, _ => false end.
Definition var_eqb (p q : ident * value) : bool := ident_eqb (fst p) (fst q) && val_eqb (snd p) (snd q).
Definition ns_eqb (a b : nspace) : bool := list_eqb var_eqb (ns_vars a) (ns_vars b) && all_eqb (ns_all a) (ns_all b).
Definition st_eqb : modules -> modules -> bool :=
  list_eqb (fun p q => mod_eqb (fst p) (fst q) && ns_eqb (snd p) (snd q)).

Lemma val_eqb_eq a b : val_eqb a b = true -> a = b.
Proof.
  destruct a, b; simpl; intros H; try discriminate.
  - apply mod_eqb_eq in H. now subst.
  - apply andb_prop in H as [H1 H2]. apply mod_eqb_eq in H1. apply ident_eqb_eq in H2. now subst.
Qed.
Lemma list_eqb_eq {A} (e : A -> A -> bool) : (forall a b, e a b = true -> a = b) -> forall l m, list_eqb e l m = true -> l = m.
Proof.
  intros He l. induction l as [|a l IH]; intros [|b m] H; simpl in H; try discriminate; [reflexivity|].
  apply andb_prop in H as [H1 H2]. now rewrite (He _ _ H1), (IH _ H2).
Qed.
Lemma all_eqb_eq a b : all_eqb a b = true -> a = b.
Proof.
  destruct a, b; simpl; intros H; try discriminate; [|reflexivity].
  f_equal. revert H. apply list_eqb_eq. intros x y. apply ident_eqb_eq.
Qed.
Lemma var_eqb_eq p q : var_eqb p q = true -> p = q.
Proof.
  destruct p, q. unfold var_eqb. simpl. intros H. apply andb_prop in H as [H1 H2].
  apply ident_eqb_eq in H1. apply val_eqb_eq in H2. now subst.
Qed.
Lemma ns_eqb_eq a b : ns_eqb a b = true -> a = b.
Proof.
  destruct a, b. unfold ns_eqb. simpl. intros H. apply andb_prop in H as [H1 H2].
  apply (list_eqb_eq _ var_eqb_eq) in H1. apply all_eqb_eq in H2. now subst.
Qed.
Lemma st_eqb_eq a b : st_eqb a b = true -> a = b.
Proof.
  apply list_eqb_eq. intros [m n] [m' n'] H. simpl in H. apply andb_prop in H as [H1 H2].
  apply mod_eqb_eq in H1. apply ns_eqb_eq in H2. now subst.
Qed.

(** ** What the statements are about *)

(** the name of a module lies in the package p *)
Definition below (p m : modname) : bool := existsb (mod_eqb p) (prefixes m).
(** importing these runs the code of torchdyn.core *)
Definition touches (m : modname) : bool :=
  below M_torchdyn_core m || below M_torchdyn_models m || below M_torchdyn_numerics m.

(** the first of the imports that concerns torchdyn.core is one of torchdyn.numerics *)
Definition numerics_first (ms : list modname) : option bool :=
  match find touches ms with Some m => Some (below M_torchdyn_numerics m) | None => None end.

(** the modules that hold the name sdeint imported from torchdyn.numerics while that may be incomplete *)
Definition sdeint_users : list modname := [M_torchdyn_core_problems; M_torchdyn_core_neuralde; M_torchdyn_models].

(** ** The reachable states *)
Definition loaded (st : modules) (m : modname) : bool := match get_mod m st with Some _ => true | None => false end.

Lemma import_one_loaded fuel st m : loaded st m = true -> import_one (S fuel) st m = (st, None).
Proof. unfold loaded. cbn [import_one]. destruct (get_mod m st); [reflexivity | discriminate]. Qed.

Lemma each_loaded fuel l st : forallb (loaded st) l = true -> each (import_one (S fuel)) l st = (st, None).
Proof.
  induction l as [|m l IH]; intros H; [reflexivity|].
  cbn [forallb] in H. apply andb_prop in H as [H1 H2].
  cbn [each]. rewrite import_one_loaded by exact H1. now apply IH.
Qed.

Definition ghost (st : modules) : option bool :=
  match get_var M_torchdyn_core_problems N_sdeint st with
  | None => None
  | Some (VModule _) => Some true
  | Some (VObject _ _) => Some false
  end.

(** a sequence of imports for each state *)
Definition sequences : list (list modname) :=
  [] ::
  flat_map (fun c => flat_map (fun u => flat_map (fun d => map (fun n => [M_torchdyn] ++ c ++ u ++ d ++ n)
    [[]; [M_torchdyn_nn]]) [[]; [M_torchdyn_datasets]]) [[]; [M_torchdyn_utils]])
    ([] :: flat_map (fun a => flat_map (fun r => map (fun m => [a] ++ r ++ m) [[]; [M_torchdyn_models]])
              [[]; [M_torchdyn_numerics_solvers_root]]) [M_torchdyn_core; M_torchdyn_numerics]).
Definition states : list modules := map import_all sequences.

Definition bit (b : bool) : nat := if b then 1 else 0.
(** the place of a state in the list *)
Definition place (st : modules) : nat :=
  let l m := bit (loaded st m) in
  match loaded st M_torchdyn with
  | false => 0
  | true =>
      1 + (match ghost st with
           | None => 0
           | Some g => 8 * (1 + 4 * bit g + 2 * l M_torchdyn_numerics_solvers_root + l M_torchdyn_models)
           end) + 4 * l M_torchdyn_utils + 2 * l M_torchdyn_datasets + l M_torchdyn_nn
  end.

Definition err_eqb (a b : option ierr) : bool :=
  match a, b with None, None => true | Some ImportError, Some ImportError => true | _, _ => false end.
Definition expected (m : modname) : option ierr := if mod_eqb m M_torchdyn_models_hybrid then Some ImportError else None.
Definition next_ghost (g : option bool) (m : modname) : option bool :=
  match g with Some _ => g | None => if touches m then Some (below M_torchdyn_numerics m) else None end.
Definition obool_eqb (a b : option bool) : bool :=
  match a, b with None, None => true | Some x, Some y => Bool.eqb x y | _, _ => false end.

Definition check (sts : list modules) : bool :=
  forallb (fun st => forallb (fun m =>
    if forallb (loaded st) (prefixes m)
    then negb (mod_eqb m M_torchdyn_models_hybrid) && obool_eqb (ghost st) (next_ghost (ghost st) m)
    else match import_module st m with
         | (st', e) => err_eqb e (expected m) && st_eqb st' (nth (place st') sts [])
                       && obool_eqb (ghost st') (next_ghost (ghost st) m)
         end) all_modules) sts.

Lemma checked : check states = true.
Proof. vm_compute. reflexivity. Qed.

Lemma err_eqb_eq a b : err_eqb a b = true -> a = b.
Proof. destruct a as [[]|], b as [[]|]; simpl; congruence. Qed.
Lemma obool_eqb_eq a b : obool_eqb a b = true -> a = b.
Proof. destruct a as [[]|], b as [[]|]; simpl; congruence. Qed.

Lemma nth_in_states n : In (nth n states []) states.
Proof.
  destruct (Nat.lt_ge_cases n (List.length states)) as [H|H]; [now apply nth_In|].
  rewrite nth_overflow by exact H. left. reflexivity.
Qed.

Lemma import_module_loaded st m : forallb (loaded st) (prefixes m) = true -> import_module st m = (st, None).
Proof. exact (each_loaded 99 (prefixes m) st). Qed.

Lemma step_gen sts st m : check sts = true -> In st sts ->
  snd (import_module st m) = expected m /\
  (fst (import_module st m) = st \/ exists i, fst (import_module st m) = nth i sts []) /\
  ghost (fst (import_module st m)) = next_ghost (ghost st) m.
Proof.
  intros C Hin. unfold check in C. rewrite forallb_forall in C.
  specialize (C st Hin). rewrite forallb_forall in C. specialize (C m (all_modules_complete m)). cbv beta in C.
  destruct (forallb (loaded st) (prefixes m)) eqn:E.
  - apply andb_prop in C as [C1 C2]. rewrite import_module_loaded by exact E. cbn [fst snd].
    split; [|split; [now left | now apply obool_eqb_eq]].
    unfold expected. now destruct (mod_eqb m M_torchdyn_models_hybrid).
  - revert C. destruct (import_module st m) as [st' e]. cbn [fst snd]. intros C.
    apply andb_prop in C as [C C3]. apply andb_prop in C as [C1 C2].
    split; [now apply err_eqb_eq|]. split; [|now apply obool_eqb_eq].
    apply st_eqb_eq in C2. right. now exists (place st').
Qed.

Lemma step st m : In st states ->
  snd (import_module st m) = expected m /\ In (fst (import_module st m)) states /\
  ghost (fst (import_module st m)) = next_ghost (ghost st) m.
Proof.
  intros Hin. destruct (step_gen states st m checked Hin) as (H1 & H2 & H3).
  split; [exact H1|]. split; [|exact H3].
  destruct H2 as [-> | [i ->]]; [exact Hin | apply nth_in_states].
Qed.

Lemma reach_from ms : forall st, In st states ->
  In (fold_left (fun st m => fst (import_module st m)) ms st) states /\
  ghost (fold_left (fun st m => fst (import_module st m)) ms st) =
    match ghost st with Some g => Some g | None => numerics_first ms end.
Proof.
  induction ms as [|m ms IH]; intros st Hin.
  - cbn [fold_left]. split; [exact Hin|]. unfold numerics_first. cbn [find]. now destruct (ghost st).
  - cbn [fold_left]. destruct (step st m Hin) as (_ & H2 & H3). destruct (IH _ H2) as [H4 H5].
    split; [exact H4|]. rewrite H5, H3. unfold next_ghost, numerics_first. cbn [find].
    destruct (ghost st); [reflexivity|]. destruct (touches m); reflexivity.
Qed.

Lemma reach ms : In (import_all ms) states /\ ghost (import_all ms) = numerics_first ms.
Proof.
  destruct (reach_from ms [] (or_introl eq_refl)) as [H1 H2]. split; [exact H1|].
  unfold import_all. rewrite H2. reflexivity.
Qed.

(** ** Bindings *)
Definition reference : modules :=
  import_all [M_torchdyn_core; M_torchdyn_numerics_solvers_root; M_torchdyn_models; M_torchdyn_utils; M_torchdyn_datasets; M_torchdyn_nn].

Definition exceptional (m : modname) (k : ident) : bool := ident_eqb k N_sdeint && existsb (mod_eqb m) sdeint_users.
Definition oval_eqb (a b : option value) : bool :=
  match a, b with Some x, Some y => val_eqb x y | _, _ => false end.

Definition check_ns (ref st : modules) (p : modname * nspace) : bool :=
  let '(m, n) := p in
  forallb (fun kv => let '(k, v) := kv in
    match v with
    | VModule s => (exceptional m k && mod_eqb s M_torchdyn_numerics_sdeint && obool_eqb (ghost st) (Some true)) ||
                   match submodule m k with Some s' => mod_eqb s s' | None => false end
    | VObject _ _ => if exceptional m k
                     then val_eqb v (VObject M_torchdyn_numerics_sdeint N_sdeint) && obool_eqb (ghost st) (Some false)
                     else oval_eqb (get_var m k ref) (Some v)
    end) (ns_vars n) &&
  match get_mod m ref with
  | Some r => forallb (fun kv => let '(k, v) := kv in
      match v with VObject _ _ => exceptional m k || oval_eqb (get_var m k st) (Some v) | VModule _ => true end) (ns_vars r)
  | None => false
  end.
Definition check_bindings (ref : modules) (sts : list modules) : bool :=
  forallb (fun st => forallb (check_ns ref st) st) sts.

Lemma bindings_checked : check_bindings reference states = true.
Proof. vm_compute. reflexivity. Qed.

(** every module that is present has sdeint, if it is one of the three *)
Definition check_sdeint (sts : list modules) : bool :=
  forallb (fun st => forallb (fun m => match get_mod m st with
    | None => true
    | Some _ => match get_var m N_sdeint st with Some _ => true | None => false end end) sdeint_users) sts.
Lemma sdeint_checked : check_sdeint states = true.
Proof. vm_compute. reflexivity. Qed.

Lemma assoc_in {K A} (ix : K -> positive) (inj : forall a b, ix a = ix b -> a = b) k (l : list (K * A)) a :
  assoc ix k l = Some a -> In (k, a) l.
Proof.
  unfold assoc. destruct (find _ l) as [[k' a']|] eqn:E; [|discriminate]. intros H. injection H as <-.
  apply find_some in E as [E1 E2]. apply Pos.eqb_eq in E2. simpl in E2. apply inj in E2. now subst.
Qed.

Lemma get_mod_in m st n : get_mod m st = Some n -> In (m, n) st.
Proof. apply assoc_in, mod_ix_inj. Qed.

Lemma get_var_in m k st v : get_var m k st = Some v -> exists n, In (m, n) st /\ get_mod m st = Some n /\ In (k, v) (ns_vars n).
Proof.
  unfold get_var. destruct (get_mod m st) as [n|] eqn:E; [|discriminate]. intros H. exists n.
  split; [now apply get_mod_in|]. split; [reflexivity|]. revert H. apply assoc_in, ident_ix_inj.
Qed.

Lemma oval_eqb_eq a v : oval_eqb a (Some v) = true -> a = Some v.
Proof. destruct a; simpl; [|discriminate]. intros H. f_equal. now apply val_eqb_eq. Qed.

Lemma exceptional_iff m k : exceptional m k = true <-> k = N_sdeint /\ In m sdeint_users.
Proof.
  unfold exceptional. rewrite andb_true_iff, ident_eqb_eq, existsb_exists. split.
  - intros [H [x [H1 H2]]]. apply mod_eqb_eq in H2. now subst.
  - intros [H1 H2]. split; [exact H1|]. exists m. split; [exact H2|]. now apply mod_eqb_eq.
Qed.

Lemma var_ok st m n : In st states -> In (m, n) st -> check_ns reference st (m, n) = true.
Proof.
  intros Hs Hin. pose proof bindings_checked as C. unfold check_bindings in C. rewrite forallb_forall in C.
  specialize (C st Hs). rewrite forallb_forall in C. now apply C.
Qed.

(** ** Theorems *)

(** The order of imports matters.  After importing torchdyn.numerics first, the name sdeint inside torchdyn.core.problems
    is the module torchdyn.numerics.sdeint, so that SDEProblem and NeuralSDE raise a TypeError when they integrate;
    after importing torchdyn.core first, it is the function. *)
Lemma C122_import_order_refuted_pf : forall (A : Type) (run : modname -> ident -> res A),
  let first := import_all [M_torchdyn_numerics; M_torchdyn_core] in
  let second := import_all [M_torchdyn_core; M_torchdyn_numerics] in
  call_global first M_torchdyn_core_problems N_sdeint run = Err TypeError /\
  call_global second M_torchdyn_core_problems N_sdeint run = run M_torchdyn_numerics_sdeint N_sdeint.
Proof. intros A run. vm_compute. split; reflexivity. Qed.

(** torchdyn.models.hybrid (HybridNeuralDE, LatentNeuralSDE) cannot be imported, whatever was imported before: it asks
    torchdyn.models for LSDEFunc, which nobody defines. *)
Lemma C122_hybrid_import_refuted_pf : forall ms, snd (import_module (import_all ms) M_torchdyn_models_hybrid) = Some ImportError.
Proof. intros ms. now destruct (step _ M_torchdyn_models_hybrid (proj1 (reach ms))) as [H _]. Qed.

(** Every other module can be imported after every sequence of imports, despite the cycle between torchdyn.core and
    torchdyn.numerics. *)
Lemma C122_imports_succeed_pf : forall ms m, m <> M_torchdyn_models_hybrid -> snd (import_module (import_all ms) m) = None.
Proof.
  intros ms m H. destruct (step _ m (proj1 (reach ms))) as [E _]. rewrite E. unfold expected.
  destruct (mod_eqb m M_torchdyn_models_hybrid) eqn:F; [|reflexivity]. apply mod_eqb_eq in F. contradiction.
Qed.

(** Every name other than sdeint in core.problems, core.neuralde and models means the same object after every sequence of imports... *)
Lemma C122_bindings_pf : forall ms1 ms2 m k home name,
  ~ (k = N_sdeint /\ In m sdeint_users) ->
  get_var m k (import_all ms1) = Some (VObject home name) ->
  get_mod m (import_all ms2) <> None ->
  get_var m k (import_all ms2) = Some (VObject home name).
Proof.
  intros ms1 ms2 m k home name Hex H1 H2.
  assert (Ex : exceptional m k = false).
  { destruct (exceptional m k) eqn:E; [|reflexivity]. apply exceptional_iff in E. contradiction. }
  destruct (get_var_in _ _ _ _ H1) as (n & I1 & _ & I3).
  pose proof (var_ok _ m n (proj1 (reach ms1)) I1) as C. unfold check_ns in C. apply andb_prop in C as [C _].
  rewrite forallb_forall in C. specialize (C _ I3). cbv beta iota in C. rewrite Ex in C. apply oval_eqb_eq in C.
  destruct (get_mod m (import_all ms2)) as [n2|] eqn:E2; [|contradiction]. apply get_mod_in in E2.
  pose proof (var_ok _ m n2 (proj1 (reach ms2)) E2) as D. unfold check_ns in D. apply andb_prop in D as [_ D].
  destruct (get_var_in _ _ _ _ C) as (r & _ & J2 & J3). rewrite J2 in D. rewrite forallb_forall in D.
  specialize (D _ J3). cbv beta iota in D. rewrite Ex in D. now apply oval_eqb_eq.
Qed.

(** attributes of packages *)
Definition check_attr (st : modules) (s : modname) : bool :=
  match get_mod s st, parent s with
  | Some _, Some p => oval_eqb (get_var p (basename s) st)
      (Some (if mod_eqb s M_torchdyn_numerics_odeint || mod_eqb s M_torchdyn_numerics_sdeint then VObject s (basename s) else VModule s))
  | _, _ => true
  end.
Lemma attr_checked : forallb (fun st => forallb (check_attr st) all_modules) states = true.
Proof. vm_compute. reflexivity. Qed.
(** After every sequence of imports, every loaded module is an attribute of its package, under its own name, except that
    torchdyn.numerics.odeint and torchdyn.numerics.sdeint are the functions of these modules. *)
Lemma C122_submodules_pf : forall ms s p,
  get_mod s (import_all ms) <> None -> parent s = Some p ->
  (s <> M_torchdyn_numerics_odeint -> s <> M_torchdyn_numerics_sdeint -> get_var p (basename s) (import_all ms) = Some (VModule s)) /\
  (s = M_torchdyn_numerics_odeint \/ s = M_torchdyn_numerics_sdeint -> get_var p (basename s) (import_all ms) = Some (VObject s (basename s))).
Proof.
  intros ms s p Hs Hp. pose proof attr_checked as C. rewrite forallb_forall in C. specialize (C _ (proj1 (reach ms))).
  rewrite forallb_forall in C. specialize (C s ltac:(destruct s; cbn; tauto)). unfold check_attr in C. rewrite Hp in C.
  destruct (get_mod s (import_all ms)); [|contradiction]. apply oval_eqb_eq in C. rewrite C.
  destruct (mod_eqb s M_torchdyn_numerics_odeint) eqn:E1; [apply mod_eqb_eq in E1; subst; split; [congruence|reflexivity]|].
  destruct (mod_eqb s M_torchdyn_numerics_sdeint) eqn:E2; [apply mod_eqb_eq in E2; subst; split; [congruence|reflexivity]|].
  split; [reflexivity|]. intros [->| ->]; discriminate.
Qed.

(** ... and in these three modules, sdeint is the function if the first import that concerns torchdyn.core is not one of
    torchdyn.numerics, and the module otherwise. *)
Lemma C122_first_import_decides_pf : forall ms m,
  In m sdeint_users -> get_mod m (import_all ms) <> None ->
  exists b, numerics_first ms = Some b /\
    get_var m N_sdeint (import_all ms) =
      Some (if b then VModule M_torchdyn_numerics_sdeint else VObject M_torchdyn_numerics_sdeint N_sdeint).
Proof.
  intros ms m Hm Hl. destruct (reach ms) as [R1 R2]. revert R1 R2 Hl. generalize (import_all ms). intros st R1 R2 Hl.
  pose proof sdeint_checked as C. unfold check_sdeint in C. rewrite forallb_forall in C. specialize (C _ R1).
  rewrite forallb_forall in C. specialize (C _ Hm). cbv beta in C.
  destruct (get_mod m st) as [n0|] eqn:E0; [|contradiction].
  destruct (get_var m N_sdeint st) as [v|] eqn:Ev; [|discriminate].
  destruct (get_var_in _ _ _ _ Ev) as (n & I1 & _ & I3).
  pose proof (var_ok _ m n R1 I1) as D. unfold check_ns in D. apply andb_prop in D as [D _].
  rewrite forallb_forall in D. specialize (D _ I3). cbv beta iota in D.
  assert (Ex : exceptional m N_sdeint = true) by (apply (proj2 (exceptional_iff _ _)); split; [reflexivity | exact Hm]).
  rewrite Ex in D. destruct v as [s|h nm].
  - apply orb_prop in D as [D|D].
    + cbn [andb] in D. apply andb_prop in D as [D1 D2]. apply mod_eqb_eq in D1. apply obool_eqb_eq in D2.
      exists true. rewrite <- R2. now subst.
    + exfalso. destruct Hm as [<-|[<-|[<-|[]]]]; vm_compute in D; discriminate.
  - apply andb_prop in D as [D1 D2]. apply val_eqb_eq in D1. apply obool_eqb_eq in D2.
    exists false. rewrite <- R2. now rewrite D1.
Qed.

(** importing torchdyn.models first: the function; importing a module of torchdyn.numerics first: the module *)
Lemma C122_first_import_decides_ex_pf :
  get_var M_torchdyn_models N_sdeint (import_all [M_torchdyn_nn; M_torchdyn_models]) = Some (VObject M_torchdyn_numerics_sdeint N_sdeint) /\
  get_var M_torchdyn_models N_sdeint (import_all [M_torchdyn_numerics_systems; M_torchdyn_models]) = Some (VModule M_torchdyn_numerics_sdeint).
Proof. vm_compute. split; reflexivity. Qed.
