(* Proofs for C36 and C40. *)
From Coq Require Import List Bool Arith QArith Qminmax Lqa Lia.
Import ListNotations.
From Verif Require Import Base DynModel DynSpec.
Local Open Scope Q_scope.

Lemma ltb_t x y : ltb x y = true <-> x < y.
Proof. unfold ltb. rewrite negb_true_iff. split; intros H. - apply Qnot_le_lt. intros K. apply Qle_bool_iff in K. congruence. - destruct (Qle_bool y x) eqn:E; [|reflexivity]. apply Qle_bool_iff in E. lra. Qed.
Lemma ltb_f x y : ltb x y = false <-> y <= x.
Proof. unfold ltb. rewrite negb_false_iff. apply Qle_bool_iff. Qed.
Lemma leb_f x y : Qle_bool x y = false <-> y < x.
Proof. split; intros H. - apply Qnot_le_lt. intros K. apply Qle_bool_iff in K. congruence. - destruct (Qle_bool x y) eqn:E; [|reflexivity]. apply Qle_bool_iff in E. lra. Qed.
Ltac cmp := match goal with
  | |- context [ltb ?x ?y] => let E := fresh "E" in destruct (ltb x y) eqn:E; [apply ltb_t in E|apply ltb_f in E]
  | |- context [Qle_bool ?x ?y] => let E := fresh "E" in destruct (Qle_bool x y) eqn:E; [apply Qle_bool_iff in E|apply leb_f in E] end.

Lemma exists_pos l : existsb (ltb 0) l = false <-> forall i, at_ i l <= 0.
Proof.
  induction l as [|x l IH]; simpl.
  - split; [|reflexivity]. intros _ [|i]; unfold at_; simpl; lra.
  - rewrite orb_false_iff, IH, ltb_f. split.
    + intros [H1 H2] [|i]; unfold at_; simpl; [exact H1|apply H2].
    + intros H. split; [exact (H O)|intros i; exact (H (S i))].
Qed.
Lemma exists_neg l : existsb (fun x => ltb x 0) l = false <-> forall i, 0 <= at_ i l.
Proof.
  induction l as [|x l IH]; simpl.
  - split; [|reflexivity]. intros _ [|i]; unfold at_; simpl; lra.
  - rewrite orb_false_iff, IH, ltb_f. split.
    + intros [H1 H2] [|i]; unfold at_; simpl; [exact H1|apply H2].
    + intros H. split; [exact (H O)|intros i; exact (H (S i))].
Qed.
Lemma stdmin_spec s x : (stdmin s x <= s /\ stdmin s x <= x) /\ forall z, z <= s -> z <= x -> z <= stdmin s x.
Proof. unfold stdmin. cmp; repeat split; intros; lra. Qed.

Lemma div_pos_ub b x s : 0 < x -> (s <= b / x <-> s * x <= b).
Proof. intros H. split; intros K. - apply (Qmult_le_compat_r _ _ x) in K; [|lra]. rewrite <- (Qmult_div_r b x) by lra. lra. - apply Qle_shift_div_l; assumption. Qed.
Lemma div_neg_ub a x s : x < 0 -> (s <= a / x <-> a <= s * x).
Proof.
  intros H. assert (E : a / x == (- a) / (- x)) by (field; lra). rewrite E. rewrite div_pos_ub by lra. split; lra.
Qed.
Lemma scale_ok v : forall mn mx s0, length mn = length v -> length mx = length v ->
  (forall i, at_ i mn <= 0) -> (forall i, 0 <= at_ i mx) -> 0 <= s0 <= 1 ->
  exists s, scale v mn mx s0 = Ok s /\ 0 <= s /\ s <= s0 /\ fits mn mx v s /\
    (forall s', 0 <= s' -> s' <= s0 -> fits mn mx v s' -> s' <= s).
Proof.
  induction v as [|x v IH]; intros [|a mn] [|b mx] s0 L1 L2 Hn Hx Hs; simpl in L1, L2; try discriminate.
  - exists s0. simpl. split; [reflexivity|]. split; [apply Hs|]. split; [lra|]. split; [intros i Hi; simpl in Hi; lia|auto].
  - cbn [scale].
    pose proof (Hn O) as Ha. pose proof (Hx O) as Hb. unfold at_ in Ha, Hb. simpl in Ha, Hb.
    set (s1 := if ltb b x then stdmin s0 (b / x) else if ltb x a then stdmin s0 (a / x) else s0).
    assert (S1 : 0 <= s1 /\ s1 <= s0 /\ (forall s, 0 <= s -> s <= s1 -> a <= s * x /\ s * x <= b) /\
      (forall s', 0 <= s' -> s' <= s0 -> a <= s' * x /\ s' * x <= b -> s' <= s1)).
    { unfold s1. cmp; [|cmp].
      - assert (P : 0 < x) by lra. destruct (stdmin_spec s0 (b / x)) as [[M1 M2] M3]. split; [apply M3; [lra|apply div_pos_ub; [exact P|lra]]|]. split; [exact M1|]. split.
        + intros s H1 H2. split; [assert (0 <= s * x) by (apply Qmult_le_0_compat; lra); lra|]. apply div_pos_ub; [exact P|lra].
        + intros s' H1 H2 [_ H3]. apply M3; [exact H2|]. now apply div_pos_ub.
      - assert (P : x < 0) by lra. destruct (stdmin_spec s0 (a / x)) as [[M1 M2] M3]. split; [apply M3; [lra|apply div_neg_ub; [exact P|lra]]|]. split; [exact M1|]. split.
        + intros s H1 H2. split; [apply div_neg_ub; [exact P|lra]|]. assert (0 <= s * (- x)) by (apply Qmult_le_0_compat; lra). lra.
        + intros s' H1 H2 [H3 _]. apply M3; [exact H2|]. now apply div_neg_ub.
      - split; [lra|]. split; [lra|]. split; [|auto]. intros s H1 H2. assert (s <= 1) by lra. split; nra. }
    destruct S1 as (S11 & S12 & S13 & S14).
    destruct (IH mn mx s1) as (s & E & B1 & B2 & B3 & B4); [lia|lia|intros i; exact (Hn (S i))|intros i; exact (Hx (S i))|lra|].
    exists s. split; [exact E|]. split; [exact B1|]. split; [lra|]. split.
    + intros [|i] Hi; [apply (S13 s); auto|]. simpl in Hi. apply (B3 i). lia.
    + intros s' H1 H2 H3. apply B4; [exact H1| |intros i Hi; apply (H3 (S i)); simpl; lia]. apply S14; [exact H1|exact H2|]. apply (H3 O). simpl. lia.
Qed.
Lemma impl_ok n c m : clampedImpl n c = Ok m -> m = (expand n (c_min c), expand n (c_max c)) /\ length (fst m) = n /\ length (snd m) = n /\
  (forall i, at_ i (fst m) <= 0) /\ (forall i, 0 <= at_ i (snd m)).
Proof.
  unfold clampedImpl. intros H. destruct (Nat.eqb_spec (length (expand n (c_min c))) n); [|discriminate]. destruct (Nat.eqb_spec (length (expand n (c_max c))) n); [|discriminate].
  simpl in H. destruct (existsb (ltb 0) (expand n (c_min c))) eqn:E1; [discriminate|]. destruct (existsb (fun x => ltb x 0) (expand n (c_max c))) eqn:E2; [discriminate|].
  injection H as <-. simpl. split; [reflexivity|]. split; [assumption|]. split; [assumption|]. split; [now apply exists_pos|now apply exists_neg].
Qed.
Lemma map_mul_nth s v i : at_ i (map (fun x => x * s) v) == s * at_ i v.
Proof. revert i. induction v as [|x v IH]; intros [|i]; unfold at_ in *; simpl; try ring. apply IH. Qed.
Lemma clamped_ok n c m v : clampedImpl n c = Ok m -> length v = n -> exists s out, clampedValue m v = Ok out /\ length out = n /\
  0 <= s /\ s <= 1 /\ (forall i, at_ i out == s * at_ i v) /\ fits (expand n (c_min c)) (expand n (c_max c)) v s /\
  (forall s', 0 <= s' -> s' <= 1 -> fits (expand n (c_min c)) (expand n (c_max c)) v s' -> s' <= s).
Proof.
  intros H Lv. destruct (impl_ok n c m H) as (-> & L1 & L2 & H1 & H2). simpl in *.
  destruct (scale_ok v (expand n (c_min c)) (expand n (c_max c)) 1) as (s & E & B1 & B2 & B3 & B4); auto; try congruence; [lra|].
  exists s, (map (fun x => x * s) v). unfold clampedValue. cbn [fst snd]. rewrite E. cbn [bind]. split; [reflexivity|]. split; [now rewrite map_length|].
  split; [exact B1|]. split; [exact B2|]. split; [intros i; apply map_mul_nth|]. split; [exact B3|exact B4].
Qed.
Lemma clamped_identity n c m v : clampedImpl n c = Ok m -> length v = n -> fits (expand n (c_min c)) (expand n (c_max c)) v 1 ->
  exists out, clampedValue m v = Ok out /\ length out = n /\ forall i, at_ i out == at_ i v.
Proof.
  intros H Lv F. destruct (clamped_ok n c m v H Lv) as (s & out & E & L & S0 & S1 & P & _ & M). exists out. split; [exact E|]. split; [exact L|].
  intros i. rewrite P. assert (1 <= s) by (apply M; auto; lra). assert (s == 1) by lra. rewrite H1. ring.
Qed.
Lemma at_repeat x n i : (i < n)%nat -> at_ i (repeat x n) = x.
Proof. revert i. induction n as [|n IH]; intros [|i] H; try lia; simpl; [reflexivity|]. apply IH. lia. Qed.
Lemma at_repeat_le x n i : x <= 0 -> at_ i (repeat x n) <= 0.
Proof. revert i. induction n as [|n IH]; intros [|i] H; unfold at_ in *; simpl; try lra. now apply IH. Qed.
Lemma at_repeat_ge x n i : 0 <= x -> 0 <= at_ i (repeat x n).
Proof. revert i. induction n as [|n IH]; intros [|i] H; unfold at_ in *; simpl; try lra. now apply IH. Qed.
(* which bounds are accepted *)
Lemma scalars_accepted mn mx n : (mn <= 0 /\ 0 <= mx /\ exists c, clampedScalars mn mx = Ok c /\ clampedImpl n c = Ok (repeat mn n, repeat mx n)) \/
  ((0 < mn \/ mx < 0) /\ clampedScalars mn mx = Throw).
Proof.
  unfold clampedScalars. cmp; [right; auto|]. cmp; [right; auto|]. left. split; [exact E|]. split; [exact E0|]. eexists. split; [reflexivity|].
  unfold clampedImpl. simpl. rewrite !repeat_length, Nat.eqb_refl. simpl.
  rewrite (proj2 (exists_pos _)) by (intros; now apply at_repeat_le). rewrite (proj2 (exists_neg _)) by (intros; now apply at_repeat_ge). reflexivity.
Qed.
Lemma vectors_accepted mn mx n : match (do c <- clampedVectors mn mx; clampedImpl n c) with
  | Ok m => m = (mn, mx) /\ length mn = n /\ length mx = n /\ (forall i, at_ i mn <= 0) /\ (forall i, 0 <= at_ i mx)
  | Throw => length mn <> n \/ length mx <> n \/ (exists i, 0 < at_ i mn) \/ (exists i, at_ i mx < 0)
  | UB => False end.
Proof.
  assert (P : forall l, existsb (ltb 0) l = true -> exists i, 0 < at_ i l).
  { intros l H. apply existsb_exists in H. destruct H as (x & I & H). apply ltb_t in H. destruct (In_nth l x 0 I) as (i & _ & E). exists i. unfold at_. now rewrite E. }
  assert (P' : forall l, existsb (fun x => ltb x 0) l = true -> exists i, at_ i l < 0).
  { intros l H. apply existsb_exists in H. destruct H as (x & I & H). apply ltb_t in H. destruct (In_nth l x 0 I) as (i & _ & E). exists i. unfold at_. now rewrite E. }
  unfold clampedVectors. destruct (Nat.eqb_spec (length mn) (length mx)) as [E|E]; simpl; [|destruct (Nat.eq_dec (length mn) n); [right; left; congruence|auto]].
  destruct (existsb (ltb 0) mn) eqn:E1; [right; right; left; now apply P|]. destruct (existsb (fun x => ltb x 0) mx) eqn:E2; [right; right; right; now apply P'|].
  cbn [bind]. unfold clampedImpl. simpl. destruct (Nat.eqb_spec (length mn) n) as [E3|E3]; simpl; [|auto]. destruct (Nat.eqb_spec (length mx) n) as [E4|E4]; simpl; [|auto].
  rewrite E1, E2. split; [reflexivity|]. split; [exact E3|]. split; [exact E4|]. split; [now apply exists_pos|now apply exists_neg].
Qed.
Lemma scalar_accepted mx n : (0 <= mx /\ exists c, clampedScalar mx = Ok c /\ clampedImpl n c = Ok (repeat (- mx) n, repeat mx n)) \/
  (mx < 0 /\ clampedScalar mx = Throw).
Proof.
  unfold clampedScalar. destruct (scalars_accepted (- mx) mx n) as [(A & B & C)|([A|A] & C)]; [left|right|right]; split; auto; lra.
Qed.
Lemma at_opp i l : at_ i (map Qopp l) == - at_ i l.
Proof. unfold at_. revert i. induction l as [|x l IH]; intros [|i]; simpl; try reflexivity. apply IH. Qed.
Lemma vector_accepted mx n : match (do c <- clampedVector mx; clampedImpl n c) with
  | Ok m => m = (map Qopp mx, mx) /\ length mx = n /\ (forall i, 0 <= at_ i mx)
  | Throw => length mx <> n \/ (exists i, at_ i mx < 0)
  | UB => False end.
Proof.
  unfold clampedVector. pose proof (vectors_accepted (map Qopp mx) mx n) as H.
  destruct (do c <- clampedVectors (map Qopp mx) mx; clampedImpl n c) as [m| |].
  - destruct H as (A & _ & B & _ & C). auto.
  - rewrite map_length in H. destruct H as [H|[H|[[i H]|[i H]]]]; auto; right; exists i; auto. rewrite at_opp in H. lra.
  - exact H.
Qed.

(* ---- OneStepToZero ---- *)
Lemma zip2_at g l m i : (i < length l)%nat -> (i < length m)%nat -> at_ i (zip2 g l m) = g (at_ i l) (at_ i m).
Proof. revert m i. induction l as [|x l IH]; intros [|y m] [|i] H1 H2; simpl in *; try lia; [reflexivity|]. unfold at_ in *; simpl. apply IH; lia. Qed.
Lemma zip2_length g l m : length l = length m -> length (zip2 g l m) = length l.
Proof. revert m. induction l as [|x l IH]; intros [|y m] H; simpl in *; try discriminate; auto. Qed.
Lemma map_at g l i : (i < length l)%nat -> at_ i (map g l) = g (at_ i l).
Proof. revert i. induction l as [|x l IH]; intros [|i] H; simpl in *; try lia; [reflexivity|]. unfold at_ in *; simpl. apply IH; lia. Qed.
Lemma oneStep_dt o dt p : oneStepCheck o dt = Ok p -> p = (o, dt) /\ 0 < dt /\ (o = One \/ o = Two).
Proof. unfold oneStepCheck. destruct o; try discriminate; cmp; try discriminate; intros H; injection H as <-; auto. Qed.
Lemma oneStep_one dt p rhs f v i : oneStepCheck One dt = Ok p -> length f = length rhs -> (i < length rhs)%nat ->
  at_ i f + dt * at_ i (oneStepValue p rhs f v) == at_ i rhs.
Proof.
  intros H L Hi. destruct (oneStep_dt _ _ _ H) as (-> & D & _). unfold oneStepValue. simpl. rewrite map_at by (rewrite zip2_length; congruence). rewrite zip2_at by congruence. field. lra.
Qed.
Lemma oneStep_two dt p rhs f v i : oneStepCheck Two dt = Ok p -> length f = length rhs -> length v = length rhs -> (i < length rhs)%nat ->
  at_ i f + dt * at_ i v + dt * dt / 2 * at_ i (oneStepValue p rhs f v) == at_ i rhs.
Proof.
  intros H L L' Hi. destruct (oneStep_dt _ _ _ H) as (-> & D & _). unfold oneStepValue. simpl.
  assert (L1 : length (map (fun x => x / dt) (zip2 Qminus rhs f)) = length rhs) by (rewrite map_length, zip2_length; congruence).
  rewrite map_at by (rewrite zip2_length; congruence). rewrite zip2_at by congruence. rewrite map_at by (rewrite zip2_length; congruence). rewrite zip2_at by congruence. field. lra.
Qed.
Lemma oneStep_velocity dt p rhs f v i : oneStepCheck Two dt = Ok p -> length f = length rhs -> length v = length rhs -> (i < length rhs)%nat ->
  at_ i v + dt * at_ i (oneStepValue p rhs f v) == 2 * (at_ i rhs - at_ i f) / dt - at_ i v.
Proof.
  intros H L L' Hi. destruct (oneStep_dt _ _ _ H) as (-> & D & _). unfold oneStepValue. simpl.
  assert (L1 : length (map (fun x => x / dt) (zip2 Qminus rhs f)) = length rhs) by (rewrite map_length, zip2_length; congruence).
  rewrite map_at by (rewrite zip2_length; congruence). rewrite zip2_at by congruence. rewrite map_at by (rewrite zip2_length; congruence). rewrite zip2_at by congruence. field. lra.
Qed.
(* trajectories *)
Lemma oneStep_trajectory2 dt p rhs (f v : nat -> list Q) i : oneStepCheck Two dt = Ok p -> (i < length rhs)%nat ->
  (forall k, length (f k) = length rhs /\ length (v k) = length rhs) ->
  (forall k, at_ i (f (S k)) == at_ i (f k) + dt * at_ i (v k) + dt * dt / 2 * at_ i (oneStepValue p rhs (f k) (v k))) ->
  (forall k, at_ i (v (S k)) == at_ i (v k) + dt * at_ i (oneStepValue p rhs (f k) (v k))) ->
  (forall k, at_ i (f (S k)) == at_ i rhs) /\ (forall k, at_ i (v (S (S k))) == - at_ i (v (S k))).
Proof.
  intros H Hi L F V. assert (D : 0 < dt) by apply (oneStep_dt _ _ _ H).
  assert (A : forall k, at_ i (f (S k)) == at_ i rhs). { intros k. rewrite F. destruct (L k). now apply oneStep_two. }
  split; [exact A|]. intros k. rewrite V. destruct (L (S k)). rewrite oneStep_velocity by auto. rewrite A. field. lra.
Qed.
Lemma oneStep_rejects o dt : (exists p, oneStepCheck o dt = Ok p) <-> (o = One \/ o = Two) /\ 0 < dt.
Proof.
  split.
  - intros [p H]. destruct (oneStep_dt _ _ _ H) as (_ & D & O). auto.
  - intros [[->| ->] D]; unfold oneStepCheck; cmp; try lra; eauto.
Qed.
