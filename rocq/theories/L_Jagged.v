(** Lemmas on the jagged fixed-step solver. *)
From Coq Require Import ZArith QArith Reals Lra Lia List Bool.
From Verif Require Import Num Py Tensor M_Odeint Spec_Ode L_Base.
Import ListNotations.
Local Open Scope R_scope.

Lemma map2_maps {A B C D} (h : B -> C -> D) (u : A -> B) (v : A -> C) l :
  map2 h (map u l) (map v l) = map (fun a => h (u a) (v a)) l.
Proof. induction l; cbn; congruence. Qed.

Lemma firstn_S_nth {A} (l : list A) : forall k a, nth_error l k = Some a -> firstn (S k) l = firstn k l ++ [a].
Proof.
  induction l as [|b l IH]; intros [|k] a H; try discriminate.
  - injection H as ->. reflexivity.
  - cbn [firstn app]. f_equal. now apply IH.
Qed.
Lemma nth_error_last {A} (l : list A) d a : nth_error l (length l - 1) = Some a -> last l d = a.
Proof.
  induction l as [|b [|c l] IH]; intros H; try discriminate.
  - injection H as ->. reflexivity.
  - change (last (b :: c :: l) d) with (last (c :: l) d). apply IH. cbn [length Nat.sub] in *.
    rewrite Nat.sub_0_r. exact H.
Qed.

Section Jag.
Context {X : Type}.
Variable step : R -> R -> X -> X.
Hypothesis step0 : forall t x, step t 0 x = x.

Definition sub : Type := (list R * X)%type.
(** time, state, next step size, states so far *)
Definition jst : Type := (R * X * R * list X)%type.
Definition jt (s : jst) : R := fst (fst (fst s)).
Definition jx (s : jst) : X := snd (fst (fst s)).
Definition jdt (s : jst) : R := snd (fst s).
Definition jsol (s : jst) : list X := snd s.

Definition dtg (g : list R) (k : nat) (t : R) : R :=
  match nth_error g k with Some v => v - t | None => 0 end.
Definition nextj (g : list R) (k : nat) (s : jst) : jst :=
  let x' := step (jt s) (jdt s) (jx s) in
  let t' := jt s + jdt s in
  (t', x', dtg g (k + 1) t', jsol s ++ [x']).
Fixpoint seqj (p : sub) (k : nat) : jst :=
  match k with
  | O => let g := fst p in (hd 0 g, snd p, nth 1 g 0 - hd 0 g, [snd p])
  | S k' => nextj (fst p) k' (seqj p k')
  end.
Definition conv (p : sub) (k : nat) : bool := Rleb (Rabs (jt (seqj p k) - last (fst p) 0)) (Q2R (1 # 1000000)).

Variable bstep : @batch_step ROps X.
Hypothesis Hb : forall l : list (R * R * X),
  snd (bstep (map (fun e => fst (fst e)) l) (map snd l) (map (fun e => snd (fst e)) l))
  = Some (map (fun e => step (fst (fst e)) (snd (fst e)) (snd e)) l).

Lemma loop_seq ps : forall fuel k K, (k <= K)%nat -> (K - k <= fuel)%nat ->
  (forall p, In p ps -> conv p K = true) ->
  exists m, @jagged_loop ROps X fuel bstep (map fst ps) (map (fun p => last (fst p) 0) ps) k
      (map (fun p => jt (seqj p k)) ps) (map (fun p => jx (seqj p k)) ps)
      (map (fun p => jdt (seqj p k)) ps) (map (fun p => jsol (seqj p k)) ps)
    = Ok (map (fun p => jsol (seqj p m)) ps) /\ forall p, In p ps -> conv p m = true.
Proof.
  intros fuel. induction fuel as [|fuel IH]; intros k K HkK Hf HK.
  - assert (k = K) by lia. subst K. exists k. split; [|exact HK]. cbn [jagged_loop].
    replace (existsb _ _) with false; [reflexivity|]. symmetry.
    unfold not_converged. rewrite map2_maps. apply not_true_is_false. intros H.
    apply existsb_exists in H. destruct H as (b & Hb1 & Hb2). subst b. apply in_map_iff in Hb1.
    destruct Hb1 as (p & Hp & Hin). apply HK in Hin. unfold conv in Hin.
    apply negb_true_iff in Hp. assert (E := eq_trans (eq_sym Hp) Hin). discriminate.
  - destruct (existsb (fun b => b) (@not_converged ROps (map (fun p => jt (seqj p k)) ps) (map (fun p => last (fst p) 0) ps))) eqn:Ex.
    + cbn [jagged_loop]. rewrite Ex.
      pose proof (Hb (map (fun p => (jt (seqj p k), jdt (seqj p k), jx (seqj p k))) ps)) as E.
      rewrite !map_map in E. cbn [fst snd] in E.
      destruct (bstep _ _ _) as [[a b] c]. cbn [snd] in E. subst c.
      assert (HkK2 : (S k <= K)%nat).
      { destruct (Nat.eq_dec k K) as [->|]; [|lia]. exfalso.
        unfold not_converged in Ex. rewrite map2_maps in Ex.
        apply existsb_exists in Ex. destruct Ex as (b0 & Hb1 & Hb2). subst b0. apply in_map_iff in Hb1.
        destruct Hb1 as (p & Hp & Hin). apply HK in Hin. unfold conv in Hin.
        apply negb_true_iff in Hp. assert (E := eq_trans (eq_sym Hp) Hin). discriminate. }
      destruct (IH (S k) K HkK2 ltac:(lia) HK) as (m & Em & Hm). exists m. split; [|exact Hm].
      rewrite <- Em. unfold jagged_dt. rewrite !map2_maps. replace (k + 1)%nat with (S k) by lia.
      cbn [seqj]. unfold nextj at 1 2 3 4. unfold jt at 1, jx at 1, jdt at 1, jsol at 1.
      cbn [fst snd]. f_equal.
      apply map_ext. intros p. unfold jdt, nextj. cbn [fst snd]. unfold dtg. 
      replace (k + 1)%nat with (S k) by lia. destruct (nth_error _ _); [reflexivity|]. exact RMicromega.Q2R_0.
    + exists k. split.
      * cbn [jagged_loop]. rewrite Ex. reflexivity.
      * intros p Hp. unfold conv. apply not_false_is_true. intros Hc.
        assert (Ht : true = false); [|discriminate]. rewrite <- Ex. symmetry.
        unfold not_converged. rewrite map2_maps. apply existsb_exists. exists true. split; [|reflexivity].
        apply in_map_iff. exists p. split; [|exact Hp]. apply negb_true_iff. exact Hc.
Qed.

(** The sequence for one sub-problem with grid g0 :: g1 :: rest. *)
Lemma traj_cons x g0 g1 rest : one_step_traj step x (g0 :: g1 :: rest)
  = x :: one_step_traj step (step g0 (g1 - g0) x) (g1 :: rest).
Proof. reflexivity. Qed.
Lemma traj_nth gs : forall x i a b xi, nth_error gs i = Some a -> nth_error gs (S i) = Some b ->
  nth_error (one_step_traj step x gs) i = Some xi ->
  nth_error (one_step_traj step x gs) (S i) = Some (step a (b - a) xi).
Proof.
  induction gs as [|t0 [|t1 gs] IH]; intros x i a b xi Ha Hb0 Hx.
  - destruct i; discriminate.
  - destruct i as [|[|]]; discriminate.
  - rewrite traj_cons in *. destruct i as [|i].
    + injection Ha as <-. injection Hb0 as <-. injection Hx as <-. reflexivity.
    + cbn [nth_error] in Ha, Hx |- *. apply (IH _ i a b xi Ha); [exact Hb0|exact Hx].
Qed.
Lemma traj_len gs : forall x, length (one_step_traj step x gs) = length gs.
Proof.
  induction gs as [|t0 [|t1 gs] IH]; intros x; try reflexivity. rewrite traj_cons. cbn [length]. rewrite IH. reflexivity.
Qed.

Section One.
Variables (g0 g1 : R) (rest : list R) (x : X).
Let g := g0 :: g1 :: rest.
Let x1 := step g0 (g1 - g0) x.
Let tr := one_step_traj step x1 (g1 :: rest).
Notation sq := (seqj (g, x)).

Lemma seq1 : sq 1 = (g1, x1, 0, [x; x1]).
Proof.
  cbn. unfold nextj, jt, jdt, jx, jsol, dtg. cbn.
  replace (g0 + (g1 - g0)) with g1 by lra. replace (g1 - g1) with 0 by lra. reflexivity.
Qed.

Lemma seq2 k : exists a c junk, sq (2 + k) = (a, c, dtg g (2 + k) a, x :: x1 :: firstn (k + 1) tr ++ junk) /\
  nth_error (g1 :: rest) (Nat.min k (length rest)) = Some a /\
  nth_error tr (Nat.min k (length rest)) = Some c /\ ((k <= length rest)%nat -> junk = []).
Proof.
  induction k as [|k (a & c & junk & E & Ha & Hc & Hj)].
  - exists g1, x1, []. change (2 + 0)%nat with 2%nat.
    change (sq 2) with (nextj g 1 (sq 1)). rewrite seq1. unfold nextj, jt, jdt, jx, jsol. cbn [fst snd].
    rewrite step0, Rplus_0_r. split; [|split; [reflexivity|split; [unfold tr; destruct rest; reflexivity|auto]]].
    rewrite app_nil_r. unfold tr. destruct rest; reflexivity.
  - change (sq (2 + S k)) with (nextj g (2 + k) (sq (2 + k))). rewrite E.
    unfold nextj, jt, jdt, jx, jsol. cbn [fst snd].
    assert (Hl : length tr = S (length rest)) by (unfold tr; apply traj_len).
    replace (2 + k + 1)%nat with (2 + S k)%nat by lia.
    destruct (Nat.lt_ge_cases k (length rest)) as [Hlt|Hge].
    + rewrite Nat.min_l in Ha, Hc by lia. rewrite Hj in * by lia. rewrite app_nil_r in *. clear Hj.
      destruct (nth_error (g1 :: rest) (S k)) as [b|] eqn:Eb.
      2:{ apply nth_error_None in Eb. cbn in Eb. lia. }
      assert (Ed : dtg g (2 + k) a = b - a).
      { unfold dtg. change (nth_error g (2 + k)) with (nth_error (g1 :: rest) (S k)). rewrite Eb. reflexivity. }
      rewrite Ed. replace (a + (b - a)) with b by lra.
      exists b, (step a (b - a) c), []. rewrite Nat.min_l by lia.
      pose proof (traj_nth (g1 :: rest) x1 k a b c Ha Eb Hc) as Hn. fold tr in Hn.
      split; [|auto]. f_equal. rewrite app_nil_r. cbn [app]. do 2 f_equal.
      replace (S k + 1)%nat with (S (k + 1)) by lia. symmetry. apply firstn_S_nth.
      replace (k + 1)%nat with (S k) by lia. exact Hn.
    + rewrite Nat.min_r in Ha, Hc by lia.
      assert (Ed : dtg g (2 + k) a = 0).
      { unfold dtg. replace (nth_error g (2 + k)) with (@None R); [reflexivity|]. symmetry.
        apply nth_error_None. unfold g. cbn [length]. lia. }
      rewrite Ed, step0, Rplus_0_r. exists a, c, (junk ++ [c]). rewrite Nat.min_r by lia.
      split; [|split; [auto|split; [auto|lia]]]. f_equal. cbn [app]. do 2 f_equal.
      rewrite <- app_assoc. f_equal. rewrite !firstn_all2 by lia. reflexivity.
Qed.

(** The grid must not come within 1e-6 of its end before its end. *)
Definition apart (g : list R) : Prop :=
  forall i a, (S i < length g)%nat -> nth_error g i = Some a -> Rabs (a - last g 0) > 1 / 1000000.

Lemma tol6 : Q2R (1 # 1000000) = 1 / 1000000.
Proof. unfold Q2R; cbn. lra. Qed.

Lemma conv_late k : (length rest <= k)%nat -> conv (g, x) (2 + k) = true.
Proof.
  intros Hk. destruct (seq2 k) as (a & c & junk & E & Ha & _). rewrite Nat.min_r in Ha by lia.
  unfold conv. rewrite E. unfold jt. cbn [fst]. apply Rleb_true.
  assert (Hla : last g 0 = a).
  { unfold g. change (last (g0 :: g1 :: rest) 0) with (last (g1 :: rest) 0).
    apply nth_error_last. cbn [length Nat.sub]. rewrite Nat.sub_0_r. exact Ha. }
  rewrite Hla, Rminus_diag_eq, Rabs_R0, tol6 by reflexivity. lra.
Qed.

Lemma conv_result m : apart g -> conv (g, x) m = true ->
  firstn (length g) (jsol (sq m)) = firstn (length g) (x :: x1 :: tr).
Proof.
  intros Hap Hc. unfold conv in Hc. cbn [fst] in Hc. apply Rleb_true in Hc. rewrite tol6 in Hc.
  destruct m as [|[|k]].
  - cbn [seqj] in Hc. unfold jt in Hc. cbn in Hc. exfalso.
    assert (H := Hap 0%nat g0 ltac:(unfold g; cbn; lia) eq_refl). cbn in H. lra.
  - rewrite seq1 in *. unfold jt in Hc. unfold jsol. cbn [fst snd] in *.
    destruct rest as [|r0 rs]; [reflexivity|]. exfalso.
    assert (H := Hap 1%nat g1 ltac:(unfold g; cbn; lia) eq_refl). lra.
  - destruct (seq2 k) as (a & c & junk & E & Ha & _ & _). change (S (S k)) with (2 + k)%nat in *. rewrite E in *.
    unfold jt in Hc. unfold jsol. cbn [fst snd] in *.
    assert (Hk : (length rest <= k)%nat).
    { apply Nat.nlt_ge. intros Hlt. rewrite Nat.min_l in Ha by lia.
      assert (H := Hap (S k) a ltac:(unfold g; cbn [length]; lia) Ha). lra. }
    assert (Hl : length tr = S (length rest)) by (unfold tr; apply traj_len).
    rewrite (firstn_all2 tr) by lia.
    unfold g. cbn [length firstn]. do 2 f_equal. rewrite firstn_app, Hl.
    replace (length rest - S (length rest))%nat with 0%nat by lia. cbn [firstn]. now rewrite app_nil_r.
Qed.
End One.
End Jag.
