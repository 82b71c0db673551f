(** Basic lemmas: real instance of the number interface, lists, the log/exception monad. *)
From Coq Require Import ZArith QArith Qreals Reals Lra Lia List Bool.
From Verif Require Import Num Py Tensor.
Import ListNotations.
Local Open Scope R_scope.

(** ** Booleans of the real instance *)

Lemma Rltb_true x y : Rltb x y = true <-> x < y.
Proof. unfold Rltb; destruct (Rlt_dec x y); split; intros; auto; try discriminate; contradiction. Qed.
Lemma Rltb_false x y : Rltb x y = false <-> y <= x.
Proof. unfold Rltb; destruct (Rlt_dec x y); split; intros; auto; try discriminate; lra. Qed.
Lemma Rleb_true x y : Rleb x y = true <-> x <= y.
Proof. unfold Rleb; destruct (Rle_dec x y); split; intros; auto; try discriminate; contradiction. Qed.
Lemma Rleb_false x y : Rleb x y = false <-> y < x.
Proof. unfold Rleb; destruct (Rle_dec x y); split; intros; auto; try discriminate; lra. Qed.
Lemma Reqb_true x y : Reqb x y = true <-> x = y.
Proof. unfold Reqb; destruct (Req_EM_T x y); split; intros; auto; try discriminate; contradiction. Qed.
Lemma Reqb_false x y : Reqb x y = false <-> x <> y.
Proof. unfold Reqb; destruct (Req_EM_T x y); split; intros; auto; try discriminate; contradiction. Qed.

Lemma Rltb_spec x y : BoolSpec (x < y) (y <= x) (Rltb x y).
Proof. unfold Rltb; destruct (Rlt_dec x y); constructor; lra. Qed.
Lemma Rleb_spec x y : BoolSpec (x <= y) (y < x) (Rleb x y).
Proof. unfold Rleb; destruct (Rle_dec x y); constructor; lra. Qed.
Lemma Reqb_spec x y : BoolSpec (x = y) (x <> y) (Reqb x y).
Proof. unfold Reqb; destruct (Req_EM_T x y); constructor; auto. Qed.

(** Reduce the projections of [ROps] to the real operations. *)
Ltac rops :=
  cbn [num nQ nadd nsub nmul ndiv nopp nabs nsqrt npowr nmax nmin nltb nleb neqb ROps] in *.

(** Evaluate literals. *)
Lemma Q2R_lit (n : Z) (d : positive) : Q2R (n # d) = IZR n / IZR (Zpos d).
Proof. reflexivity. Qed.
Lemma Q2R_int (n : Z) : Q2R (inject_Z n) = IZR n.
Proof. unfold Q2R, inject_Z; simpl; field. Qed.
Ltac qlit :=
  repeat match goal with
  | |- context [Q2R (?n # ?d)] => rewrite (Q2R_lit n d)
  | H : context [Q2R (?n # ?d)] |- _ => rewrite (Q2R_lit n d) in H
  | |- context [Q2R (inject_Z ?n)] => rewrite (Q2R_int n)
  | H : context [Q2R (inject_Z ?n)] |- _ => rewrite (Q2R_int n) in H
  end.

Lemma nQ0 : @nQ ROps 0%Q = 0. Proof. cbn. unfold Q2R; simpl; lra. Qed.
Lemma nQ1 : @nQ ROps 1%Q = 1. Proof. cbn. unfold Q2R; simpl; lra. Qed.
Lemma nQhalf : @nQ ROps (1#2)%Q = / 2. Proof. cbn. unfold Q2R; simpl; lra. Qed.
Lemma Q2R_0' : Q2R 0 = 0. Proof. unfold Q2R; simpl; lra. Qed.
Lemma Q2R_1' : Q2R 1 = 1. Proof. unfold Q2R; simpl; lra. Qed.

Lemma nnat_INR (n : nat) : @nnat ROps n = INR n.
Proof. unfold nnat; cbn. rewrite Q2R_int. symmetry; apply INR_IZR_INZ. Qed.

Lemma npow_pow (x : R) (n : nat) : @npow ROps x n = x ^ n.
Proof. induction n as [|n IH]; simpl; [apply nQ1|]. now rewrite IH. Qed.

(** ** map2 *)

Lemma map2_length {A B C} (f : A -> B -> C) l m :
  length (map2 f l m) = Nat.min (length l) (length m).
Proof. revert m; induction l as [|a l IH]; destruct m; simpl; auto. Qed.

Lemma map2_length_eq {A B C} (f : A -> B -> C) l m n :
  length l = n -> length m = n -> length (map2 f l m) = n.
Proof. intros H1 H2. rewrite map2_length, H1, H2. apply Nat.min_id. Qed.

Lemma map2_map_l {A A' B C} (f : A -> B -> C) (g : A' -> A) l m :
  map2 f (map g l) m = map2 (fun a b => f (g a) b) l m.
Proof. revert m; induction l; destruct m; simpl; f_equal; auto. Qed.
Lemma map2_map_r {A B B' C} (f : A -> B -> C) (g : B' -> B) l m :
  map2 f l (map g m) = map2 (fun a b => f a (g b)) l m.
Proof. revert m; induction l; destruct m; simpl; f_equal; auto. Qed.
Lemma map_map2 {A B C D} (h : C -> D) (f : A -> B -> C) l m :
  map h (map2 f l m) = map2 (fun a b => h (f a b)) l m.
Proof. revert m; induction l; destruct m; simpl; f_equal; auto. Qed.
Lemma map2_ext {A B C} (f g : A -> B -> C) l m :
  (forall a b, f a b = g a b) -> map2 f l m = map2 g l m.
Proof. intro H; revert m; induction l; destruct m; simpl; f_equal; auto. Qed.
Lemma map2_comm {A C} (f g : A -> A -> C) l m :
  (forall a b, f a b = g b a) -> map2 f l m = map2 g m l.
Proof. intro H; revert m; induction l; destruct m; simpl; f_equal; auto. Qed.
Lemma map2_same {A C} (f : A -> A -> C) l :
  map2 f l l = map (fun a => f a a) l.
Proof. induction l; simpl; f_equal; auto. Qed.
Lemma map2_app {A B C} (f : A -> B -> C) l1 l2 m1 m2 :
  length l1 = length m1 -> map2 f (l1 ++ l2) (m1 ++ m2) = map2 f l1 m1 ++ map2 f l2 m2.
Proof. revert m1; induction l1; destruct m1; simpl; intros; try discriminate; f_equal; auto. Qed.
Lemma map2_firstn {A B C} (f : A -> B -> C) n l m :
  firstn n (map2 f l m) = map2 f (firstn n l) (firstn n m).
Proof. revert l m; induction n; destruct l, m; simpl; auto; try (now rewrite ?firstn_nil).
  now f_equal. Qed.
Lemma map2_nth {A B C} (f : A -> B -> C) l m i da db dc :
  (i < length l)%nat -> (i < length m)%nat ->
  nth i (map2 f l m) dc = f (nth i l da) (nth i m db).
Proof. revert l m; induction i; destruct l, m; simpl; intros; try lia; auto. apply IHi; lia. Qed.
Lemma map2_combine {A B C} (f : A -> B -> C) l m :
  map2 f l m = map (fun ab => f (fst ab) (snd ab)) (combine l m).
Proof. revert m; induction l; destruct m; simpl; f_equal; auto. Qed.

(** Pointwise reasoning on lists of equal length: [list_ext n] proves list equalities by
    induction on the common length. *)
Lemma list_len_S {A} (l : list A) n : length l = S n -> exists a l', l = a :: l' /\ length l' = n.
Proof. destruct l; simpl; intros; [discriminate|]. exists a, l; auto. Qed.

(** ** Monad *)

Lemma mbind_Ok {L A B} (l : list L) (a : A) (k : A -> M L B) :
  mbind (l, Ok a) k = (l ++ fst (k a), snd (k a)).
Proof. reflexivity. Qed.
Lemma mbind_ret {L A B} (a : A) (k : A -> M L B) : mbind (mret a) k = k a.
Proof. unfold mbind; simpl. destruct (k a); reflexivity. Qed.
Lemma mbind_raise {L A B} (e : exn) (k : A -> M L B) : mbind (mraise e) k = mraise e.
Proof. reflexivity. Qed.
Lemma snd_mbind {L A B} (m : M L A) (k : A -> M L B) :
  snd (mbind m k) = rbind (snd m) (fun a => snd (k a)).
Proof. unfold mbind, rbind. destruct (snd m); reflexivity. Qed.
Lemma snd_mret {L A} (a : A) : snd (@mret L A a) = Ok a. Proof. reflexivity. Qed.
Lemma snd_mlift {L A} (r : res A) : snd (@mlift L A r) = r. Proof. reflexivity. Qed.
Lemma snd_mraise {L A} e : snd (@mraise L A e) = Err e. Proof. reflexivity. Qed.
Lemma snd_call {T X Y} (f : T -> X -> Y) t x : snd (call f t x) = Ok (f t x). Proof. reflexivity. Qed.

(** Inversion of binds that succeed. *)
Lemma mbind_inv_ok {L A B} (m : M L A) (k : A -> M L B) b :
  snd (mbind m k) = Ok b -> exists a, snd m = Ok a /\ snd (k a) = Ok b.
Proof. rewrite snd_mbind. unfold rbind. destruct (snd m); intros; try discriminate. eauto. Qed.

Lemma rbind_inv_ok {A B} (m : res A) (k : A -> res B) b :
  rbind m k = Ok b -> exists a, m = Ok a /\ k a = Ok b.
Proof. unfold rbind; destruct m; intros; try discriminate; eauto. Qed.

(** ** Lists *)
Lemma nth_error_pyget {A} (l : list A) i a : nth_error l i = Some a <-> pyget l i = Ok a.
Proof. unfold pyget. destruct (nth_error l i); split; intros H; inversion H; auto. Qed.

Lemma pylast_app {A} (l : list A) a : pylast (l ++ [a]) = Ok a.
Proof. unfold pylast. rewrite rev_app_distr. reflexivity. Qed.

Lemma pylast_last {A} (l : list A) d : l <> [] -> pylast l = Ok (last l d).
Proof.
  intros H. destruct (exists_last H) as [l' [a ->]].
  rewrite pylast_app. now rewrite last_last.
Qed.

Lemma count_true_app l m : count_true (l ++ m) = (count_true l + count_true m)%nat.
Proof. unfold count_true. now rewrite filter_app, app_length. Qed.
Lemma count_true_cons b l : count_true (b :: l) = ((if b then 1 else 0) + count_true l)%nat.
Proof. unfold count_true; destruct b; reflexivity. Qed.
Lemma count_true_0 l : count_true l = 0%nat <-> (forall b, In b l -> b = false).
Proof.
  induction l as [|b l IH]; simpl.
  - split; auto. intros _ b [].
  - rewrite count_true_cons. destruct b; simpl.
    + split; [discriminate|]. intros H. specialize (H true (or_introl eq_refl)). discriminate.
    + rewrite IH. split; intros H.
      * intros b [<-|Hb]; auto.
      * intros b Hb; apply H; auto.
Qed.

Lemma first_true_from_spec i l j :
  first_true_from i l = Some j <->
  (i <= j)%nat /\ nth_error l (j - i) = Some true /\
  (forall m, (i <= m < j)%nat -> nth_error l (m - i) = Some false).
Proof.
  revert i j; induction l as [|b l IH]; intros i j; simpl.
  - split; [discriminate|]. intros [_ [H _]]. destruct (j - i)%nat; discriminate.
  - destruct b.
    + split.
      * intros [= <-]. rewrite Nat.sub_diag. repeat split; auto. intros m Hm; lia.
      * intros (Hij & Hj & Hm). destruct (Nat.eq_dec i j) as [<-|Hne]; auto.
        assert (Hi : (i <= i < j)%nat) by lia. specialize (Hm i Hi).
        rewrite Nat.sub_diag in Hm. discriminate.
    + rewrite IH. split.
      * intros (Hij & Hj & Hm). repeat split; try lia.
        -- replace (j - i)%nat with (S (j - S i)) by lia. exact Hj.
        -- intros m Hm'. destruct (Nat.eq_dec i m) as [<-|Hne].
           ++ rewrite Nat.sub_diag; reflexivity.
           ++ replace (m - i)%nat with (S (m - S i)) by lia. apply Hm; lia.
      * intros (Hij & Hj & Hm).
        destruct (Nat.eq_dec i j) as [<-|Hne].
        { rewrite Nat.sub_diag in Hj; discriminate. }
        repeat split; try lia.
        -- replace (j - i)%nat with (S (j - S i)) in Hj by lia. exact Hj.
        -- intros m Hm'. specialize (Hm m). replace (m - i)%nat with (S (m - S i)) in Hm by lia.
           apply Hm; lia.
Qed.

Lemma first_true_spec l j :
  first_true l = Ok j <->
  nth_error l j = Some true /\ (forall m, (m < j)%nat -> nth_error l m = Some false).
Proof.
  unfold first_true. pose proof (first_true_from_spec 0 l j) as H.
  rewrite Nat.sub_0_r in H.
  split.
  - destruct (first_true_from 0 l) as [i|] eqn:E; [|discriminate]. intros [= ->].
    destruct (proj1 H eq_refl) as (_ & H1 & H2). split; auto.
    intros m Hm. specialize (H2 m). rewrite Nat.sub_0_r in H2. apply H2; lia.
  - intros [H1 H2]. assert (Hs : first_true_from 0 l = Some j).
    { apply H. repeat split; auto; try lia. intros m Hm. rewrite Nat.sub_0_r. apply H2; lia. }
    now rewrite Hs.
Qed.

Lemma first_true_err l : (forall b, In b l -> b = false) -> first_true l = Err ValueError.
Proof.
  intros H. unfold first_true.
  assert (forall i, first_true_from i l = None) as ->; [|reflexivity].
  induction l as [|b l IH]; intros i; simpl; auto.
  rewrite (H b (or_introl eq_refl)). apply IH. intros b' Hb'; apply H; now right.
Qed.
