(** Proofs for C140: module trees with event callbacks. *)
From Coq Require Import List Bool Arith Lia.
From Verif Require Import Py M_Module Spec_Module.
Import ListNotations.
Local Open Scope nat_scope.

Lemma mem_In : forall i l, mem i l = true <-> In i l.
Proof.
  intros i l. unfold mem. rewrite existsb_exists. split; [intros (x & Hx & E); apply Nat.eqb_eq in E; now subst|].
  intros H. exists i. split; auto. apply Nat.eqb_refl.
Qed.

Lemma callback_unhashable : forall c, callback_class c -> hashable c = false.
Proof. induction 1 as [| |n b d H IH|]; try reflexivity. cbn. rewrite IH. destruct d; reflexivity. Qed.

Lemma plain_hashable : forall c, plain_class c -> hashable c = true.
Proof. induction 1 as [|n b h H IH]; try reflexivity. cbn. rewrite IH. now rewrite orb_true_r. Qed.

(** induction over trees *)
Section Ind.
Variable P : module -> Prop.
Variable H : forall m, (forall k, In k (kids m) -> P k) -> P m.
Fixpoint module_ind2 (m : module) : P m :=
  H m (match m as m0 return forall k, In k (kids m0) -> P k with Mod i c p ks =>
       (fix go (ks : list module) : forall k, In k ks -> P k :=
          match ks return forall k, In k ks -> P k with
          | [] => fun k F => match F with end
          | k0 :: ks' => fun k Hk => match Hk with or_introl E => eq_ind k0 P (module_ind2 k0) k E | or_intror Hk' => go ks' k Hk' end
          end) ks end).
End Ind.

Fixpoint go_modules (memo : list nat) (ks : list module) : res (list nat * list module) :=
  match ks with
  | [] => Ok (memo, [])
  | k :: ks' => rbind (named_modules memo k) (fun '(memo', l) => rmap (fun '(memo'', l') => (memo'', l ++ l')) (go_modules memo' ks'))
  end.

Lemma named_modules_eq : forall memo m,
  named_modules memo m = rbind (seen m memo) (fun b => if b then Ok (memo, []) else
    rbind (go_modules (oid m :: memo) (kids m)) (fun '(memo', l) => Ok (memo', m :: l))).
Proof. intros memo [i c p ks]. reflexivity. Qed.

Fixpoint weight (m : module) : nat := let 'Mod _ _ _ ks := m in S (list_sum (map weight ks)).

Lemma weight_kid : forall m k, In k (kids m) -> weight k < weight m.
Proof.
  intros [i c p ks] k Hk. cbn [kids] in Hk. cbn [weight].
  induction ks as [|k0 ks IH]; [easy|]. cbn [map]. change (list_sum (weight k0 :: map weight ks)) with (weight k0 + list_sum (map weight ks)).
  destruct Hk as [->|Hk]; [lia|]. specialize (IH Hk). lia.
Qed.

Lemma weight_holds : forall m n, holds m n -> weight n <= weight m.
Proof. induction 1 as [|m k n Hk H IH]; [lia|]. pose proof (weight_kid m k Hk). lia. Qed.

Lemma holds_trans : forall a b, holds a b -> forall c, holds b c -> holds a c.
Proof. induction 1 as [|m k n Hk H IH]; intros c Hc; auto. eapply holds_kid; eauto. Qed.

Section Traverse.
Variable root : module.
Hypothesis Hc : consistent root.

(** the memo is complete below weight [w] *)
Definition complete (w : nat) (memo : list nat) : Prop :=
  forall n d, holds root n -> In (oid n) memo -> weight n < w -> holds n d -> In (oid d) memo.

Definition good (memo : list nat) (r : res (list nat * list module)) (ms : list module) (w : nat) : Prop :=
  match r with
  | Ok (memo', l) =>
      complete w memo' /\ incl memo memo' /\ (forall m d, In m ms -> holds m d -> In (oid d) memo') /\
      (forall n, In n memo' -> In n memo \/ exists d, In d l /\ oid d = n) /\
      (forall d, In d l -> (exists m, In m ms /\ holds m d) /\ hashable (cls d) = true /\ In (oid d) memo') /\
      (NoDup memo -> NoDup memo') 
  | Err e => e = TypeError /\ exists m d, In m ms /\ holds m d /\ hashable (cls d) = false
  | OutOfFuel => False
  end.

Lemma traverse_good : forall m, holds root m -> forall w memo, weight m < w -> complete w memo ->
  good memo (named_modules memo m) [m] w.
Proof.
  intros m0. induction m0 as [m IH] using module_ind2. intros Hm w memo Hw Hcomp.
  assert (G : forall ks memo, incl ks (kids m) -> complete (weight m) memo -> good memo (go_modules memo ks) ks (weight m)).
  { induction ks as [|k ks IHks]; intros mm Hk HC.
    - cbn. split; [exact HC|]. split; [apply incl_refl|]. split; [now intros ? ? []|]. split; [auto|]. split; [now intros ? []|auto].
    - cbn [go_modules]. assert (Hkm : In k (kids m)) by (apply Hk; now left).
      assert (Hrk : holds root k) by (eapply holds_trans; [exact Hm|]; eapply holds_kid; [exact Hkm|apply holds_self]).
      specialize (IH k Hkm Hrk (weight m) mm (weight_kid m k Hkm) HC).
      destruct (named_modules mm k) as [[m1 l1]|e|]; cbn [rbind good] in *; [|destruct IH as (-> & x & d & [->|[]] & H2 & H3); split; auto; exists x, d; split; [now left|auto]|contradiction].
      destruct IH as (C1 & I1 & D1 & O1 & L1 & N1).
      specialize (IHks m1 (fun x Hx => Hk x (or_intror Hx)) C1).
      destruct (go_modules m1 ks) as [[m2 l2]|e|]; cbn [rmap rbind good] in *; [|destruct IHks as (-> & x & d & H1 & H2 & H3); split; auto; exists x, d; split; [now right|auto]|contradiction].
      destruct IHks as (C2 & I2 & D2 & O2 & L2 & N2).
      split; [exact C2|]. split; [eapply incl_tran; eauto|]. split; [|split; [|split]].
      + intros x d [->|Hx] Hd; [apply I2; apply (D1 x); [now left|auto]|now apply (D2 x)].
      + intros n Hn. destruct (O2 n Hn) as [Hn'|(d & Hd & E)]; [|right; exists d; split; auto; apply in_or_app; auto].
        destruct (O1 n Hn') as [?|(d & Hd & E)]; [auto|]. right. exists d. split; auto. apply in_or_app; auto.
      + intros d Hd. apply in_app_or in Hd. destruct Hd as [Hd|Hd].
        * destruct (L1 d Hd) as ((x & [->|[]] & Hx) & Hh & Hi). split; [exists x; split; [now left|auto]|]. split; auto.
        * destruct (L2 d Hd) as ((x & Hx1 & Hx2) & Hh & Hi). split; [exists x; split; [now right|auto]|]. auto.
      + auto. }
  rewrite named_modules_eq. unfold seen. destruct (hashable (cls m)) eqn:Eh; cbn [rbind]; [|split; auto; exists m, m; split; [now left|split; [apply holds_self|auto]]].
  destruct (mem (oid m) memo) eqn:Em.
  - apply mem_In in Em. cbn. split; [exact Hcomp|]. split; [apply incl_refl|]. split; [|split; [auto|split; [now intros ? []|auto]]].
    intros x d [<-|[]] Hd. apply (Hcomp m d Hm Em Hw Hd).
  - assert (Hn : ~ In (oid m) memo) by (intros H; apply mem_In in H; congruence).
    assert (HC : complete (weight m) (oid m :: memo)).
    { intros n d Hrn [E|Hn'] Hwn Hd; [pose proof (Hc m n Hm Hrn E) as <-; lia|]. right. apply (Hcomp n d Hrn Hn'); [lia|auto]. }
    specialize (G (kids m) (oid m :: memo) (fun x Hx => Hx) HC).
    destruct (go_modules (oid m :: memo) (kids m)) as [[m2 l2]|e|]; cbn [rbind good] in *; [|destruct G as (-> & x & d & H1 & H2 & H3); split; auto; exists m, d; split; [now left|split; [eapply holds_kid; eauto|auto]]|contradiction].
    destruct G as (C2 & I2 & D2 & O2 & L2 & N2).
    assert (D : forall d, holds m d -> In (oid d) m2).
    { intros d Hd. inversion Hd as [|? k ? Hk Hd']; subst; [apply I2; now left|now apply (D2 k)]. }
    split; [|split; [|split; [|split; [|split]]]].
    + intros n d Hrn Hin Hwn Hd. destruct (O2 _ Hin) as [[E|Hin']|(y & Hy & E)].
      * pose proof (Hc m n Hm Hrn E) as <-. auto.
      * apply I2. right. apply (Hcomp n d); auto.
      * destruct (L2 y Hy) as ((x & Hx1 & Hx2) & _). assert (Hmy : holds m y) by (eapply holds_kid; eauto).
        assert (n = y) by (apply Hc; [exact Hrn|exact (holds_trans root m Hm y Hmy)|now symmetry]). subst n. apply D. eapply holds_trans; eauto.
    + intros x Hx. apply I2. now right.
    + intros x d [<-|[]] Hd. auto.
    + intros n Hin. destruct (O2 n Hin) as [[E|Hin']|(y & Hy & E)]; [right; exists m; split; [now left|auto]|auto|right; exists y; split; [now right|auto]].
    + intros d [<-|Hd]; [split; [exists m; split; [now left|apply holds_self]|split; [auto|apply I2; now left]]|].
      destruct (L2 d Hd) as ((x & Hx1 & Hx2) & Hh & Hi). split; [exists m; split; [now left|eapply holds_kid; eauto]|auto].
    + intros ND. apply N2. constructor; auto.
Qed.
End Traverse.

Lemma modules_good : forall m, consistent m ->
  match modules m with
  | Ok l => (forall d, In d l <-> holds m d) /\ (forall d, holds m d -> hashable (cls d) = true)
  | Err e => e = TypeError /\ exists d, holds m d /\ hashable (cls d) = false
  | OutOfFuel => False
  end.
Proof.
  intros m Hc. unfold modules.
  pose proof (traverse_good m Hc m (holds_self m) (S (weight m)) [] ltac:(lia) ltac:(intros n d _ [])) as G.
  destruct (named_modules [] m) as [[memo l]|e|]; cbn [rmap rbind snd good] in *; auto.
  - destruct G as (_ & _ & D & O & L & _).
    assert (E : forall d, In d l <-> holds m d).
    { intros d. split; [intros Hd; destruct (L d Hd) as ((x & [<-|[]] & Hx) & _); auto|].
      intros Hd. destruct (O (oid d) (D m d (or_introl eq_refl) Hd)) as [[]|(y & Hy & E)].
      destruct (L y Hy) as ((x & [<-|[]] & Hx) & _). now rewrite <- (Hc y d Hx Hd E). }
    split; auto. intros d Hd. apply E in Hd. apply (L d Hd).
  - destruct G as (-> & x & d & [<-|[]] & H1 & H2). split; auto. exists d. auto.
Qed.

Lemma dedup_spec : forall l memo, (forall p, In p (dedup memo l) <-> In p l /\ ~ In p memo) /\ NoDup (dedup memo l).
Proof.
  induction l as [|q l IH]; intros memo; cbn; [split; [intros p; tauto|constructor]|].
  destruct (mem q memo) eqn:E.
  - apply mem_In in E. destruct (IH memo) as (H & N). split; auto. intros p. rewrite H. split; [tauto|]. intros ([<-|?] & ?); tauto.
  - assert (~ In q memo) by (intros F; apply mem_In in F; congruence). destruct (IH (q :: memo)) as (H1 & N). split.
    + intros p. cbn. rewrite H1. cbn. split; [intros [<-|(? & ?)]; tauto|]. intros ([<-|?] & ?); [auto|]. destruct (Nat.eq_dec q p); [auto|]. right. tauto.
    + constructor; auto. rewrite H1. cbn. tauto.
Qed.

(** C140, refuted.  Whatever a module holds besides: if one of the modules of the tree is an event callback, modules()
    and parameters() raise TypeError. *)
Lemma C140_parameters_refuted_pf :
  forall m cb, consistent m -> holds m cb -> callback_class (cls cb) ->
  modules m = Err TypeError /\ parameters m = Err TypeError.
Proof.
  intros m cb Hc Hh Hcb. pose proof (modules_good m Hc) as G. unfold parameters.
  destruct (modules m) as [l|e|]; [|destruct G as (-> & _); auto|contradiction].
  destruct G as (_ & G). specialize (G cb Hh). rewrite (callback_unhashable _ Hcb) in G. discriminate.
Qed.

(** C140 for modules that hold no callbacks: parameters() lists the parameters of all modules of the tree, each once,
    also if modules or parameters are shared. *)
Lemma C140_plain_pf :
  forall m, consistent m -> (forall d, holds m d -> plain_class (cls d)) ->
  exists ps, parameters m = Ok ps /\ NoDup ps /\ (forall p, In p ps <-> exists d, holds m d /\ In p (own d)).
Proof.
  intros m Hc Hp. pose proof (modules_good m Hc) as G. unfold parameters.
  destruct (modules m) as [l|e|]; [|destruct G as (_ & d & Hd & E); rewrite (plain_hashable _ (Hp d Hd)) in E; discriminate|contradiction].
  destruct G as (G & _). cbn [rmap rbind]. exists (dedup [] (concat (map own l))). split; [reflexivity|].
  destruct (dedup_spec (concat (map own l)) []) as (D & N). split; [exact N|]. intros p. rewrite D. rewrite in_concat. split.
  - intros ((x & Hx & Hpx) & _). apply in_map_iff in Hx. destruct Hx as (d & <- & Hd). exists d. split; auto. now apply G.
  - intros (d & Hd & Hpd). split; [|now intros []]. exists (own d). split; auto. apply in_map. now apply G.
Qed.

(** train(), eval() and to() of a tree *)
Lemma children_spec : forall ks memo,
  match children_from memo ks with
  | Ok l => (forall d, In d l -> In d ks /\ ~ In (oid d) memo) /\ NoDup (map oid l) /\
            (forall d, In d ks -> hashable (cls d) = true /\ (In (oid d) memo \/ In (oid d) (map oid l)))
  | Err e => e = TypeError /\ exists d, In d ks /\ hashable (cls d) = false
  | OutOfFuel => False
  end.
Proof.
  induction ks as [|k ks IH]; intros memo; cbn [children_from].
  - split; [now intros ? []|]. split; [constructor|now intros ? []].
  - unfold seen. destruct (hashable (cls k)) eqn:Eh; cbn [rbind]; [|split; auto; exists k; split; [now left|auto]].
    destruct (mem (oid k) memo) eqn:E.
    + apply mem_In in E. specialize (IH memo). destruct (children_from memo ks) as [l|e|]; [|destruct IH as (-> & d & ? & ?); split; auto; exists d; split; [now right|auto]|auto].
      destruct IH as (H1 & N & H2). split; [intros d Hd; destruct (H1 d Hd); split; [now right|auto]|]. split; auto.
      intros d [<-|Hd]; auto.
    + assert (~ In (oid k) memo) by (intros F; apply mem_In in F; congruence).
      specialize (IH (oid k :: memo)). destruct (children_from (oid k :: memo) ks) as [l|e|]; cbn [rmap rbind]; [|destruct IH as (-> & d & ? & ?); split; auto; exists d; split; [now right|auto]|auto].
      destruct IH as (H1 & N & H2). split; [|split].
      * intros d [<-|Hd]; [split; [now left|auto]|]. destruct (H1 d Hd) as (H3 & H4). split; [now right|]. intros F. apply H4. now right.
      * cbn [map]. constructor; auto. intros F. apply in_map_iff in F. destruct F as (d & Ed & Hd). destruct (H1 d Hd) as (_ & F). apply F. left. auto.
      * intros d [<-|Hd]; [split; auto; right; now left|]. destruct (H2 d Hd) as (H3 & [[E'|H4]|H4]); split; auto; [right; now left|right; now right].
Qed.

Fixpoint go_train (fuel : nat) (i : nat) (ks : list module) : res (list nat) :=
  match ks with
  | [] => Ok [i]
  | k :: ks' => rbind (train fuel k) (fun l => rmap (app l) (go_train fuel i ks'))
  end.

Lemma train_eq : forall fuel m, train (S fuel) m = rbind (children_from [] (kids m)) (fun ks => go_train fuel (oid m) ks).
Proof.
  intros fuel m. cbn [train]. destruct (children_from [] (kids m)) as [l|e|]; cbn [rbind]; auto.
  induction l as [|k l IH]; auto. cbn [go_train]. now rewrite <- IH.
Qed.

Lemma train_good : forall root, consistent root -> forall m, holds root m -> forall fuel, weight m <= fuel ->
  match train fuel m with
  | Ok l => (forall i, In i l <-> exists d, holds m d /\ oid d = i) /\ (forall d, holds m d -> d = m \/ hashable (cls d) = true)
  | Err e => e = TypeError /\ exists k d, In k (kids m) /\ holds k d /\ hashable (cls d) = false
  | OutOfFuel => False
  end.
Proof.
  intros root Hc m0. induction m0 as [m IH] using module_ind2. intros Hm fuel Hf.
  destruct fuel as [|fuel]; [destruct m; cbn in Hf; lia|]. rewrite train_eq.
  pose proof (children_spec (kids m) []) as C. destruct (children_from [] (kids m)) as [l|e|]; cbn [rbind]; [|destruct C as (-> & d & H1 & H2); split; auto; exists d, d; split; [auto|split; [apply holds_self|auto]]|contradiction].
  destruct C as (H1 & _ & H2).
  assert (Hl : forall d, In d l <-> In d (kids m)).
  { intros d. split; [intros Hd; apply (H1 d Hd)|]. intros Hd. destruct (H2 d Hd) as (_ & [[]|F]). apply in_map_iff in F. destruct F as (y & Ey & Hy).
    assert (y = d) as <-; auto. apply Hc; auto; eapply holds_trans; try exact Hm; (eapply holds_kid; [|apply holds_self]); auto. apply (H1 y Hy). }
  assert (G : forall ks, incl ks (kids m) ->
    match go_train fuel (oid m) ks with
    | Ok l => (forall i, In i l <-> i = oid m \/ exists k d, In k ks /\ holds k d /\ oid d = i) /\ (forall k d, In k ks -> holds k d -> d = k \/ hashable (cls d) = true)
    | Err e => e = TypeError /\ exists k d, In k ks /\ holds k d /\ hashable (cls d) = false
    | OutOfFuel => False
    end).
  { induction ks as [|k ks IHks]; intros Hi; cbn [go_train].
    - split; [|now intros ? ? []]. intros i. cbn. split; [intros [<-|[]]; auto|]. intros [->|(k & d & [] & _)]. auto.
    - assert (Hk : In k (kids m)) by (apply Hi; now left). pose proof (weight_kid m k Hk).
      assert (Hrk : holds root k) by (eapply holds_trans; [exact Hm|]; eapply holds_kid; [exact Hk|apply holds_self]).
      specialize (IH k Hk Hrk fuel ltac:(lia)).
      destruct (train fuel k) as [l1|e|]; cbn [rbind]; [|destruct IH as (-> & k' & d & F1 & F2 & F3); split; auto; exists k, d; split; [now left|split; [eapply holds_kid; eauto|auto]]|contradiction].
      specialize (IHks (fun x Hx => Hi x (or_intror Hx))).
      destruct (go_train fuel (oid m) ks) as [l2|e|]; cbn [rmap rbind]; [|destruct IHks as (-> & k' & d & F1 & F2 & F3); split; auto; exists k', d; split; [now right|auto]|contradiction].
      destruct IH as (A1 & A2). destruct IHks as (B1 & B2). split.
      + intros i. rewrite in_app_iff, A1, B1. split.
        * intros [(d & ? & ?)|[->|(k' & d & ? & ? & ?)]]; [right; exists k, d; split; [now left|auto]|now left|right; exists k', d; split; [now right|auto]].
        * intros [->|(k' & d & [<-|Hk'] & ? & ?)]; [auto|left; eauto|]. right. right. exists k', d. auto.
      + intros k' d [<-|Hk'] Hd; auto. }
  specialize (G l (fun x Hx => proj1 (Hl x) Hx)).
  destruct (go_train fuel (oid m) l) as [l2|e|]; [|destruct G as (-> & k & d & F1 & F2 & F3); split; auto; exists k, d; split; [now apply Hl|auto]|contradiction].
  destruct G as (G1 & G2). split.
  - intros i. rewrite G1. split.
    + intros [->|(k & d & Hk & Hd & E)]; [exists m; split; [apply holds_self|auto]|]. exists d. split; auto. eapply holds_kid; [apply Hl; exact Hk|auto].
    + intros (d & Hd & E). inversion Hd as [|? k ? Hk Hd']; subst; [auto|]. right. exists k, d. split; [now apply Hl|auto].
  - intros d Hd. inversion Hd as [|? k ? Hk Hd']; subst; [auto|]. right. destruct (G2 k d (proj2 (Hl k) Hk) Hd') as [->|?]; [apply (H2 k Hk)|auto].
Qed.

(** C140, refuted for train(), eval() and to(): they raise TypeError if a callback is held by the module. *)
Lemma C140_train_refuted_pf :
  forall m k cb, consistent m -> In k (kids m) -> holds k cb -> callback_class (cls cb) ->
  forall fuel, weight m <= fuel -> train fuel m = Err TypeError.
Proof.
  intros m k cb Hc Hk Hh Hcb fuel Hf. pose proof (train_good m Hc m (holds_self m) fuel Hf) as G.
  destruct (train fuel m) as [l|e|]; [|destruct G as (-> & _); auto|contradiction].
  destruct G as (_ & G). assert (Hm : holds m cb) by (eapply holds_kid; eauto). destruct (G cb Hm) as [->|E].
  - pose proof (weight_kid m k Hk). pose proof (weight_holds k m Hh). lia.
  - rewrite (callback_unhashable _ Hcb) in E. discriminate.
Qed.

(** C140, what holds: train(), eval() and to() of a callback itself, or of any other module, reach exactly the modules of
    the tree if no callback is held below. *)
Lemma C140_train_pf :
  forall m, consistent m -> (forall k d, In k (kids m) -> holds k d -> plain_class (cls d)) ->
  forall fuel, weight m <= fuel -> exists l, train fuel m = Ok l /\ forall i, In i l <-> exists d, holds m d /\ oid d = i.
Proof.
  intros m Hc Hp fuel Hf. pose proof (train_good m Hc m (holds_self m) fuel Hf) as G.
  destruct (train fuel m) as [l|e|]; [|destruct G as (_ & k & d & Hk & Hd & E); rewrite (plain_hashable _ (Hp k d Hk Hd)) in E; discriminate|contradiction].
  exists l. split; [reflexivity|apply G].
Qed.

Lemma callback_eq : forall c, callback_class c -> attrs_eq c = true.
Proof. induction 1 as [| |n b d H IH|]; try reflexivity. cbn. now rewrite IH, orb_true_r. Qed.

Lemma klass_eq_refl : forall c, klass_eq c c = true.
Proof. induction c as [| | |n b IH d h]; try reflexivity. cbn. now rewrite Nat.eqb_refl, IH, !eqb_reflx. Qed.

(** C140, refuted: two callbacks of one class are equal whatever parameters and submodules they have; the index of a
    callback in a list is that of the first callback of its class. *)
Lemma C140_equal_refuted_pf :
  forall c i j p q ks ls l, callback_class c ->
  module_eq (Mod i c p ks) (Mod j c q ls) = true /\ index (Mod i c p ks :: Mod j c q ls :: l) (Mod j c q ls) = Ok 0.
Proof.
  intros c i j p q ks ls l H. assert (E : module_eq (Mod i c p ks) (Mod j c q ls) = true).
  { unfold module_eq. cbn [oid cls]. rewrite (callback_eq c H), klass_eq_refl. apply orb_true_r. }
  split; auto. cbn [index]. now rewrite E.
Qed.

(** a network that holds a callback with one parameter; a network with a shared layer *)
Definition with_callback := Mod 0 NnModule [1] [Mod 1 (Derived 7 EventCallback true false) [2] []].
Definition with_shared := Mod 0 NnModule [1] [Mod 1 NnModule [2; 3] []; Mod 2 NnModule [1] [Mod 1 NnModule [2; 3] []]].

Lemma C140_ex_pf : consistent with_callback /\ holds with_callback (Mod 1 (Derived 7 EventCallback true false) [2] []) /\
  callback_class (Derived 7 EventCallback true false) /\
  consistent with_shared /\ (forall d, holds with_shared d -> plain_class (cls d)) /\ parameters with_shared = Ok [1; 2; 3].
Proof.
  assert (A : forall d, holds with_callback d -> d = with_callback \/ d = Mod 1 (Derived 7 EventCallback true false) [2] []).
  { intros d Hd. inversion Hd as [|? k ? Hk Hd']; subst; auto. destruct Hk as [<-|[]]. inversion Hd' as [|? k ? Hk ?]; subst; auto. destruct Hk. }
  assert (B : forall d, holds with_shared d -> d = with_shared \/ d = Mod 1 NnModule [2; 3] [] \/ d = Mod 2 NnModule [1] [Mod 1 NnModule [2; 3] []]).
  { intros d Hd. inversion Hd as [|? k ? Hk Hd']; subst; auto. destruct Hk as [<-|[<-|[]]].
    - inversion Hd' as [|? k ? Hk ?]; subst; auto. destruct Hk.
    - inversion Hd' as [|? k ? Hk Hd2]; subst; auto. destruct Hk as [<-|[]]. inversion Hd2 as [|? k ? Hk ?]; subst; auto. destruct Hk. }
  repeat split.
  - intros a b Ha Hb. destruct (A a Ha) as [->| ->]; destruct (A b Hb) as [->| ->]; cbn; congruence.
  - eapply holds_kid; [left; reflexivity|apply holds_self].
  - repeat constructor.
  - intros a b Ha Hb. destruct (B a Ha) as [->|[->| ->]]; destruct (B b Hb) as [->|[->| ->]]; cbn; congruence.
  - intros d Hd. destruct (B d Hd) as [->|[->| ->]]; constructor.
Qed.
