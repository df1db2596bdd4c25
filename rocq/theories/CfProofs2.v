Require Import Reals List Bool Arith Lia Lra FunctionalExtensionality.
Require Import Verif.Base Verif.CfModel Verif.CfSpec Verif.CfProofs.
Import ListNotations.
Local Open Scope R_scope.

Section Function.
Variables (f : cfun) (o : copts) (rnd : nat -> nat -> vect) (junk : nat -> nat -> R).
Hypothesis Ne : w_vars f <> [].

Definition jokb (v : vect) (b : bool) := b = true <-> column_ok f o v 0.
Lemma At_jacobian v : exists b, checkJacobianAt f o junk v = Ok b /\ jokb v b.
Proof.
  destruct (jacobianAt f o junk v Ne) as (b & E & H). exists b. split; [exact E|]. unfold jokb. rewrite H. pose proof (scaleTo_scale f v junk (fd f (o_step o) v)) as Sc.
  split.
  - intros [W|C] s k j Hs Hc; [exfalso; pose proof (column_width f k j 0 Hc); lia|].
    rewrite (scale_unique f v _ _ _ Hs Sc). unfold close in *. rewrite (norm2_ext _ _ (minus (fd f (o_step o) v 0) (fun r => Jt f v junk r 0%nat))); [exact C|].
    intros r _. unfold minus. f_equal. symmetry. apply gather_column, Hc.
  - intros X. destruct (width f) as [|m] eqn:W; [left; reflexivity|right]. destruct (column_exists f 0 ltac:(lia)) as (k & j & C). specialize (X _ k j Sc C).
    unfold close in *. rewrite (norm2_ext _ _ (minus (fd f (o_step o) v 0) (fun r => w_jac f k v r j))); [exact X|].
    intros r _. unfold minus. f_equal. apply gather_column, C.
Qed.
Lemma size_width : size_ f = width f.
Proof. apply total_sum. Qed.
Lemma dsize_width : dsize_ f = dwidth f.
Proof. apply total_sum. Qed.

Lemma count_zero b n : count b n = 0%nat <-> (b = true /\ n = 0%nat).
Proof. destruct b; simpl; split; intros H; try lia; destruct H; try discriminate; auto. Qed.

Lemma random_jacobian : forall m k d, exists d', randomJacobian f o rnd junk m k d = Ok (d', (k + m)%nat) /\
  (d' = 0%nat <-> d = 0%nat /\ forall i, (i < m)%nat -> column_ok f o (rnd (k + i)%nat (width f)) 0).
Proof.
  induction m as [|m IH]; intros k d; simpl.
  - exists d. rewrite Nat.add_0_r. split; [reflexivity|]. split; [intros E; split; [exact E|intros; lia]|tauto].
  - rewrite size_width. destruct (At_jacobian (rnd k (width f))) as (b & -> & B). cbn [bind]. destruct (IH (S k) (count b d)) as (d' & E & H). exists d'. replace (k + S m)%nat with (S k + m)%nat by lia. split; [exact E|].
    rewrite H, count_zero. unfold jokb in B. rewrite B. split.
    + intros ((X & Y) & T). split; [exact Y|]. intros [|i] Hi; [rewrite Nat.add_0_r; exact X|]. replace (k + S i)%nat with (S k + i)%nat by lia. apply T. lia.
    + intros (X & T). split; [split; [|exact X]|]; [specialize (T 0%nat ltac:(lia)); rewrite Nat.add_0_r in T; exact T|]. intros i Hi. replace (S k + i)%nat with (k + S i)%nat by lia. apply T. lia.
Qed.
Lemma configs_jacobian : forall cs d, exists d', configsJacobian f o junk cs d = Ok d' /\
  (d' = 0%nat <-> d = 0%nat /\ forall c v, In c cs -> c_value c = Some v -> length v = width f -> column_ok f o (vec v) 0).
Proof.
  induction cs as [|c cs IH]; intros d; simpl; [exists d; split; [reflexivity|]; split; [intros E; split; [exact E|intros ? ? []]|tauto]|].
  destruct (c_value c) as [v|] eqn:Ec.
  - rewrite size_width. destruct (Nat.eqb_spec (length v) (width f)) as [El|El]; simpl.
    + destruct (At_jacobian (vec v)) as (b & -> & B). cbn [bind]. destruct (IH (count b d)) as (d' & E & H). exists d'. split; [exact E|]. rewrite H, count_zero. unfold jokb in B. rewrite B. split.
      * intros ((X & Y) & T). split; [exact Y|]. intros c' v' [<-|Hc]; [|apply T, Hc]. rewrite Ec. intros [= <-] _. exact X.
      * intros (X & T). split; [split; [|exact X]|]; [apply (T c v); auto|]. intros c' v' Hc. apply T. right. exact Hc.
    + destruct (IH d) as (d' & E & H). exists d'. split; [exact E|]. rewrite H. split; intros (X & T); split; try exact X.
      * intros c' v' [<-|Hc]; [|apply T, Hc]. rewrite Ec. intros [= <-] L. contradiction.
      * intros c' v' Hc. apply T. right. exact Hc.
  - destruct (IH d) as (d' & E & H). exists d'. split; [exact E|]. rewrite H. split; intros (X & T); split; try exact X.
    * intros c' v' [<-|Hc]; [|apply T, Hc]. rewrite Ec. discriminate.
    * intros c' v' Hc. apply T. right. exact Hc.
Qed.
Hypothesis Eu : euclidean f.
Lemma eucl_forallb : forallb v_eucl (w_vars f) = true.
Proof. apply forallb_forall. intros x Hx. unfold euclidean in Eu. rewrite Forall_forall in Eu. apply (Eu x Hx). Qed.
Lemma jacobian_ k : exists b, checkJacobian_ f o rnd junk k = Ok (b, (k + o_samples o)%nat) /\
  (b = true <-> (forall i, (i < o_samples o)%nat -> column_ok f o (rnd (k + i)%nat (width f)) 0) /\
     forall c v, In c (o_configs o) -> c_value c = Some v -> length v = width f -> column_ok f o (vec v) 0).
Proof.
  unfold checkJacobian_. rewrite eucl_forallb. cbn [negb]. destruct (random_jacobian (o_samples o) k 0) as (d & -> & D). cbn [bind]. destruct (configs_jacobian (o_configs o) 0) as (e & -> & E). cbn [bind fst snd].
  eexists. split; [reflexivity|]. rewrite Nat.eqb_eq. split.
  - intros H. split; [apply D; lia|apply E; lia].
  - intros (A & B). assert (d = 0%nat) by (apply D; auto). assert (e = 0%nat) by (apply E; auto). lia.
Qed.
End Function.

Lemma column_ok_default f o v c : column_ok f (defaultOptions o) v c <-> column_ok f o v c.
Proof. unfold column_ok, defaultOptions. destruct (o_configs o); [destruct (o_samples o)|]; reflexivity. Qed.
Lemma default_samples o : o_samples (defaultOptions o) = samples o.
Proof. unfold defaultOptions, samples. destruct (o_configs o); [destruct (o_samples o) eqn:E|]; simpl; rewrite ?E; reflexivity. Qed.
Lemma default_configs o : o_configs (defaultOptions o) = o_configs o.
Proof. unfold defaultOptions. destruct (o_configs o) eqn:E; [destruct (o_samples o)|]; simpl; rewrite ?E; reflexivity. Qed.
Lemma default_step o : o_step (defaultOptions o) = o_step o.
Proof. unfold defaultOptions. destruct (o_configs o); [destruct (o_samples o)|]; reflexivity. Qed.
Lemma default_prec o : o_prec (defaultOptions o) = o_prec o.
Proof. unfold defaultOptions. destruct (o_configs o); [destruct (o_samples o)|]; reflexivity. Qed.

Lemma api_jacobian f o rnd junk : w_vars f <> [] -> euclidean f -> w_hasValue f = true -> w_hasJacobian f = true ->
  exists b, checkJacobian f o rnd junk = Ok b /\
  (b = true <-> (forall i, (i < samples o)%nat -> column_ok f o (rnd i (width f)) 0) /\
     forall c v, In c (o_configs o) -> c_value c = Some v -> length v = width f -> column_ok f o (vec v) 0).
Proof.
  intros Ne Eu V J. unfold checkJacobian. rewrite V, J. cbn [andb negb]. destruct (jacobian_ f (defaultOptions o) rnd junk Ne Eu 0) as (b & -> & H). cbn [bind fst]. exists b. split; [reflexivity|].
  rewrite H, default_samples, default_configs. split; intros (A & B); (split; [intros i Hi|intros c v X Y Z]).
  - apply column_ok_default. exact (A i Hi).
  - apply column_ok_default. exact (B c v X Y Z).
  - apply column_ok_default. exact (A i Hi).
  - apply column_ok_default. exact (B c v X Y Z).
Qed.

(* ---- velocity and normal acceleration ---- *)
Section Function2.
Variables (f : cfun) (o : copts) (rnd : nat -> nat -> vect).
Hypothesis Ne : w_vars f <> [].

Lemma At_velocity val vel : exists b, checkVelocityAt f o val vel = Ok b /\ (b = true <-> velocity_ok f o val vel).
Proof. exact (velocityAt f o val vel Ne). Qed.
Lemma At_normal val vel acc : exists b, checkNormalAccelerationAt f o val vel acc = Ok b /\ (b = true <-> normal_ok f o val vel acc).
Proof. exact (normalAt f o val vel acc Ne). Qed.

Lemma from_config m n k : exists a k', fromConfig rnd m n k = (a, k') /\
  (usable_as m n -> exists x, a = Some x /\ taken m n rnd x) /\ (~ usable_as m n -> a = None).
Proof.
  unfold fromConfig. destruct m as [v|].
  - eexists. eexists. split; [reflexivity|]. unfold usable_as. destruct (Nat.eqb_spec (length v) n) as [E|E]; split; intros H.
    + exists (vec v). split; [reflexivity|]. reflexivity.
    + exfalso. apply H. intros v' [= <-]. exact E.
    + exfalso. apply E. apply H. reflexivity.
    + reflexivity.
  - eexists. eexists. split; [reflexivity|]. split; [intros _; exists (rnd k n); split; [reflexivity|exists k; reflexivity]|]. intros H. exfalso. apply H. intros v'. discriminate.
Qed.
Lemma usable_dec m n : {usable_as m n} + {~ usable_as m n}.
Proof.
  destruct m as [v|]; [|left; intros v; discriminate]. destruct (Nat.eq_dec (length v) n) as [E|E]; [left; intros v' [= <-]; exact E|right]. intros H. apply E, H. reflexivity.
Qed.

(* a run which tests the points ps *)
Definition tests {P} (good : P -> Prop) (r : res (nat * nat)) (d : nat) (ps : list P) : Prop :=
  exists d' k', r = Ok (d', k') /\ (d' = 0%nat <-> d = 0%nat /\ Forall good ps).
Lemma tests_nil {P} (good : P -> Prop) d k : tests good (Ok (d, k)) d (@nil P).
Proof. exists d, k. split; [reflexivity|]. split; [intros E; split; [exact E|constructor]|tauto]. Qed.
Lemma tests_bind {P} (good : P -> Prop) (r : res (nat * nat)) d ps (g : nat * nat -> res (nat * nat)) :
  tests good r d ps -> forall d' k', r = Ok (d', k') -> forall qs, tests good (g (d', k')) d' qs -> tests good (bind r g) d (ps ++ qs).
Proof.
  intros (d1 & k1 & E & H) d' k' E' qs (d2 & k2 & E2 & H2). rewrite E in E'. injection E' as <- <-. rewrite E. cbn [bind]. exists d2, k2. split; [exact E2|]. rewrite H2, H, Forall_app. tauto.
Qed.
Lemma tests_repeat {P} (good : P -> Prop) (all : P -> Prop) g : (forall k d, exists ps, tests good (g k d) d ps /\ Forall all ps) ->
  forall m k d, exists ps, tests good (repeatRes m g k d) d ps /\ Forall all ps.
Proof.
  intros T. induction m as [|m IH]; intros k d; simpl; [exists []; split; [apply tests_nil|constructor]|].
  destruct (T k d) as (ps & Tp & A). pose proof Tp as (d1 & k1 & E & _). destruct (IH k1 d1) as (qs & Tq & A'). exists (ps ++ qs). split; [|apply Forall_app; auto].
  apply (tests_bind good (g k d) d ps (fun p => repeatRes m g (snd p) (fst p)) Tp d1 k1 E qs Tq).
Qed.
Lemma tests_repeat_first {P} (good : P -> Prop) (all : P -> Prop) g : (forall k d, exists p, tests good (g k d) d [p] /\ all p) ->
  forall m k d, exists ps, tests good (repeatRes m g k d) d ps /\ Forall all ps /\ ((0 < m)%nat -> ps <> []).
Proof.
  intros T. induction m as [|m IH]; intros k d; simpl; [exists []; split; [apply tests_nil|split; [constructor|lia]]|].
  destruct (T k d) as (p & Tp & A). pose proof Tp as (d1 & k1 & E & _). destruct (IH k1 d1) as (qs & Tq & A' & _). exists ([p] ++ qs). split; [|split; [constructor; auto|discriminate]].
  apply (tests_bind good (g k d) d [p] (fun p => repeatRes m g (snd p) (fst p)) Tp d1 k1 E qs Tq).
Qed.

(* -- velocity -- *)
Definition vgood (p : vect * vect) := velocity_ok f o (fst p) (snd p).
Lemma one_velocity val vel d k : tests vgood (do b <- checkVelocityAt f o val vel; Ok (count b d, k)) d [(val, vel)].
Proof.
  destruct (At_velocity val vel) as (b & -> & B). cbn [bind]. exists (count b d), k. split; [reflexivity|]. rewrite count_zero, B. split; [intros (X & Y); split; [exact Y|constructor; [exact X|constructor]]|].
  intros (Y & X). split; [exact (Forall_inv X)|exact Y].
Qed.
Lemma random_velocity : forall m k d, exists ps, tests vgood (randomVelocity f o rnd m k d) d ps /\
  ps = map (fun i => (rnd (k + 2 * i)%nat (width f), rnd (k + 2 * i + 1)%nat (dwidth f))) (seq 0 m).
Proof.
  induction m as [|m IH]; intros k d; cbn [randomVelocity]; [exists []; split; [apply tests_nil|reflexivity]|].
  rewrite size_width, dsize_width. destruct (At_velocity (rnd k (width f)) (rnd (S k) (dwidth f))) as (b & E & B). rewrite E. cbn [bind].
  destruct (IH (S (S k)) (count b d)) as (qs & (d2 & k2 & E2 & H2) & Eq). exists ((rnd k (width f), rnd (S k) (dwidth f)) :: qs). split.
  - exists d2, k2. split; [exact E2|]. rewrite H2, count_zero, B. split.
    + intros ((X & Y) & Z). split; [exact Y|constructor; [exact X|exact Z]].
    + intros (Y & X). split; [split; [exact (Forall_inv X)|exact Y]|exact (Forall_inv_tail X)].
  - rewrite Eq. cbn [seq map]. replace (k + 2 * 0 + 1)%nat with (S k) by lia. replace (k + 2 * 0)%nat with k by lia. f_equal. rewrite <- (seq_shift m 0), map_map. apply map_ext. intros i. replace (k + 2 * S i)%nat with (S (S k) + 2 * i)%nat by lia. reflexivity.
Qed.
Definition fromV (c : config) (p : vect * vect) : Prop :=
  usable_as (c_value c) (width f) /\ usable_as (c_velocity c) (dwidth f) /\ taken (c_value c) (width f) rnd (fst p) /\ taken (c_velocity c) (dwidth f) rnd (snd p).
Lemma config_velocity c k d : (usable_as (c_value c) (width f) /\ usable_as (c_velocity c) (dwidth f) /\ exists p, tests vgood (configVelocity f o rnd c k d) d [p] /\ fromV c p) \/
  ((~ usable_as (c_value c) (width f) \/ ~ usable_as (c_velocity c) (dwidth f)) /\ tests vgood (configVelocity f o rnd c k d) d []).
Proof.
  unfold configVelocity. rewrite size_width, dsize_width. destruct (from_config (c_value c) (width f) k) as (a & k1 & -> & A1 & A2). destruct (usable_dec (c_value c) (width f)) as [U|U].
  - destruct (A1 U) as (x & -> & Tx). destruct (from_config (c_velocity c) (dwidth f) k1) as (a' & k2 & -> & B1 & B2). destruct (usable_dec (c_velocity c) (dwidth f)) as [V|V].
    + destruct (B1 V) as (y & -> & Ty). left. split; [exact U|]. split; [exact V|]. exists (x, y). split; [apply one_velocity|]. repeat split; assumption.
    + rewrite (B2 V). right. split; [right; exact V|]. apply tests_nil.
  - rewrite (A2 U). right. split; [left; exact U|]. apply tests_nil.
Qed.
Lemma configs_velocity : forall cs k d, exists ps, tests vgood (configsVelocity f o rnd cs k d) d ps /\
  (forall p, In p ps -> exists c, In c cs /\ fromV c p) /\
  (forall c, In c cs -> usable_as (c_value c) (width f) -> usable_as (c_velocity c) (dwidth f) -> (0 < timesVelocity c)%nat -> exists p, In p ps /\ fromV c p).
Proof.
  induction cs as [|c cs IH]; intros k d; cbn [configsVelocity]; [exists []; split; [apply tests_nil|split; intros ? []]|].
  assert (K : exists ps, tests vgood (repeatRes (timesVelocity c) (configVelocity f o rnd c) k d) d ps /\ Forall (fromV c) ps /\
     (usable_as (c_value c) (width f) -> usable_as (c_velocity c) (dwidth f) -> (0 < timesVelocity c)%nat -> ps <> [])).
  { destruct (usable_dec (c_value c) (width f)) as [U|U], (usable_dec (c_velocity c) (dwidth f)) as [V|V].
    2-4: destruct (tests_repeat vgood (fromV c) (configVelocity f o rnd c)) with (m := timesVelocity c) (k := k) (d := d) as (ps & T & A);
      [intros k' d'; destruct (config_velocity c k' d') as [(X & Y & _)|(_ & T)]; [exfalso; tauto|exists []; split; [exact T|constructor]]|exists ps; split; [exact T|split; [exact A|tauto]]].
    destruct (tests_repeat_first vgood (fromV c) (configVelocity f o rnd c)) with (m := timesVelocity c) (k := k) (d := d) as (ps & T & A & N).
    - intros k' d'. destruct (config_velocity c k' d') as [(X & Y & Z)|([X|X] & _)]; [exact Z| |]; exfalso; tauto.
    - exists ps. split; [exact T|]. split; [exact A|]. intros _ _. exact N. }
  destruct K as (ps & T & A & N). pose proof T as (d1 & k1 & E & _). destruct (IH k1 d1) as (qs & Tq & Q1 & Q2). exists (ps ++ qs).
  split; [apply (tests_bind vgood _ d ps (fun p => configsVelocity f o rnd cs (snd p) (fst p)) T d1 k1 E qs Tq)|]. split.
  - intros p Hp. apply in_app_or in Hp. destruct Hp as [Hp|Hp].
    + exists c. split; [left; reflexivity|]. rewrite Forall_forall in A. apply A, Hp.
    + destruct (Q1 p Hp) as (c' & H1 & H2). exists c'. split; [right; exact H1|exact H2].
  - intros c' [<-|Hc] U V L.
    + specialize (N U V L). destruct ps as [|p ps]; [contradiction|]. exists p. split; [left; reflexivity|]. inversion A; assumption.
    + destruct (Q2 c' Hc U V L) as (p & H1 & H2). exists p. split; [apply in_or_app; right; exact H1|exact H2].
Qed.
Lemma velocity_ k : exists b k' ps, checkVelocity_ f o rnd k = Ok (b, k') /\ (b = true <-> Forall vgood ps) /\
  (forall p, In p ps -> (exists i, p = (rnd i (width f), rnd (i + 1)%nat (dwidth f))) \/ exists c, In c (o_configs o) /\ fromV c p) /\
  (forall i, (i < o_samples o)%nat -> In (rnd (k + 2 * i)%nat (width f), rnd (k + 2 * i + 1)%nat (dwidth f)) ps) /\
  (forall c, In c (o_configs o) -> usable_as (c_value c) (width f) -> usable_as (c_velocity c) (dwidth f) -> (0 < timesVelocity c)%nat -> exists p, In p ps /\ fromV c p).
Proof.
  unfold checkVelocity_. destruct (random_velocity (o_samples o) k 0) as (ps & (d & k1 & -> & D) & Ep). cbn [bind fst snd].
  destruct (configs_velocity (o_configs o) k1 0) as (qs & (e & k2 & -> & E) & Q1 & Q2). cbn [bind fst snd]. eexists. exists k2, (ps ++ qs). split; [reflexivity|]. split; [|split; [|split]].
  - rewrite Nat.eqb_eq, Forall_app. split; [intros H; split; [apply D; lia|apply E; lia]|]. intros (A & B). assert (d = 0%nat) by (apply D; auto). assert (e = 0%nat) by (apply E; auto). lia.
  - intros p Hp. apply in_app_or in Hp. destruct Hp as [Hp|Hp]; [left|right; apply Q1, Hp]. rewrite Ep in Hp. apply in_map_iff in Hp. destruct Hp as (i & <- & _). eexists. reflexivity.
  - intros i Hi. apply in_or_app. left. rewrite Ep. apply in_map_iff. exists i. split; [reflexivity|]. apply in_seq. lia.
  - intros c Hc U V L. destruct (Q2 c Hc U V L) as (p & H1 & H2). exists p. split; [apply in_or_app; right; exact H1|exact H2].
Qed.

(* -- normal acceleration -- *)
Definition ngood (p : vect * vect * vect) := normal_ok f o (fst (fst p)) (snd (fst p)) (snd p).
Lemma one_normal val vel acc d k : tests ngood (do b <- checkNormalAccelerationAt f o val vel acc; Ok (count b d, k)) d [(val, vel, acc)].
Proof.
  destruct (At_normal val vel acc) as (b & -> & B). cbn [bind]. exists (count b d), k. split; [reflexivity|]. rewrite count_zero, B. split; [intros (X & Y); split; [exact Y|constructor; [exact X|constructor]]|].
  intros (Y & X). split; [exact (Forall_inv X)|exact Y].
Qed.
Lemma random_normal : forall m k d, exists ps, tests ngood (randomNormalAcc f o rnd m k d) d ps /\
  ps = map (fun i => (rnd (k + 3 * i)%nat (width f), rnd (k + 3 * i + 1)%nat (dwidth f), rnd (k + 3 * i + 2)%nat (dwidth f))) (seq 0 m).
Proof.
  induction m as [|m IH]; intros k d; cbn [randomNormalAcc]; [exists []; split; [apply tests_nil|reflexivity]|].
  rewrite size_width, dsize_width. destruct (At_normal (rnd k (width f)) (rnd (S k) (dwidth f)) (rnd (S (S k)) (dwidth f))) as (b & E & B). rewrite E. cbn [bind].
  destruct (IH (S (S (S k))) (count b d)) as (qs & (d2 & k2 & E2 & H2) & Eq). exists ((rnd k (width f), rnd (S k) (dwidth f), rnd (S (S k)) (dwidth f)) :: qs). split.
  - exists d2, k2. split; [exact E2|]. rewrite H2, count_zero, B. split.
    + intros ((X & Y) & Z). split; [exact Y|constructor; [exact X|exact Z]].
    + intros (Y & X). split; [split; [exact (Forall_inv X)|exact Y]|exact (Forall_inv_tail X)].
  - rewrite Eq. cbn [seq map]. replace (k + 3 * 0 + 2)%nat with (S (S k)) by lia. replace (k + 3 * 0 + 1)%nat with (S k) by lia. replace (k + 3 * 0)%nat with k by lia. f_equal. rewrite <- (seq_shift m 0), map_map. apply map_ext. intros i. replace (k + 3 * S i)%nat with (S (S (S k)) + 3 * i)%nat by lia. reflexivity.
Qed.
Definition fromN (c : config) (p : vect * vect * vect) : Prop :=
  (usable_as (c_value c) (width f) /\ usable_as (c_velocity c) (dwidth f) /\ usable_as (c_acceleration c) (dwidth f)) /\
  taken (c_value c) (width f) rnd (fst (fst p)) /\ taken (c_velocity c) (dwidth f) rnd (snd (fst p)) /\ taken (c_acceleration c) (dwidth f) rnd (snd p).
Definition usableN (c : config) := usable_as (c_value c) (width f) /\ usable_as (c_velocity c) (dwidth f) /\ usable_as (c_acceleration c) (dwidth f).
Lemma usableN_dec c : {usableN c} + {~ usableN c}.
Proof.
  unfold usableN. destruct (usable_dec (c_value c) (width f)), (usable_dec (c_velocity c) (dwidth f)), (usable_dec (c_acceleration c) (dwidth f)); (left; tauto) || (right; tauto).
Qed.
Lemma config_normal c k d : (usableN c /\ exists p, tests ngood (configNormalAcc f o rnd c k d) d [p] /\ fromN c p) \/
  (~ usableN c /\ tests ngood (configNormalAcc f o rnd c k d) d []).
Proof.
  unfold configNormalAcc, usableN. rewrite size_width, dsize_width. destruct (from_config (c_value c) (width f) k) as (a & k1 & -> & A1 & A2). destruct (usable_dec (c_value c) (width f)) as [U|U].
  2:{ rewrite (A2 U). right. split; [tauto|]. apply tests_nil. }
  destruct (A1 U) as (x & -> & Tx). destruct (from_config (c_velocity c) (dwidth f) k1) as (a' & k2 & -> & B1 & B2). destruct (usable_dec (c_velocity c) (dwidth f)) as [V|V].
  2:{ rewrite (B2 V). right. split; [tauto|]. apply tests_nil. }
  destruct (B1 V) as (y & -> & Ty). destruct (from_config (c_acceleration c) (dwidth f) k2) as (a'' & k3 & -> & C1 & C2). destruct (usable_dec (c_acceleration c) (dwidth f)) as [W|W].
  2:{ rewrite (C2 W). right. split; [tauto|]. apply tests_nil. }
  destruct (C1 W) as (z & -> & Tz). left. split; [tauto|]. exists (x, y, z). split; [apply one_normal|]. unfold fromN. cbn [fst snd]. tauto.
Qed.
Lemma configs_normal : forall cs k d, exists ps, tests ngood (configsNormalAcc f o rnd cs k d) d ps /\
  (forall p, In p ps -> exists c, In c cs /\ fromN c p) /\
  (forall c, In c cs -> usableN c -> (0 < timesNormalAcc c)%nat -> exists p, In p ps /\ fromN c p).
Proof.
  induction cs as [|c cs IH]; intros k d; cbn [configsNormalAcc]; [exists []; split; [apply tests_nil|split; intros ? []]|].
  assert (K : exists ps, tests ngood (repeatRes (timesNormalAcc c) (configNormalAcc f o rnd c) k d) d ps /\ Forall (fromN c) ps /\ (usableN c -> (0 < timesNormalAcc c)%nat -> ps <> [])).
  { destruct (usableN_dec c) as [U|U].
    2: destruct (tests_repeat ngood (fromN c) (configNormalAcc f o rnd c)) with (m := timesNormalAcc c) (k := k) (d := d) as (ps & T & A);
      [intros k' d'; destruct (config_normal c k' d') as [(X & _)|(_ & T)]; [exfalso; tauto|exists []; split; [exact T|constructor]]|exists ps; split; [exact T|split; [exact A|tauto]]].
    destruct (tests_repeat_first ngood (fromN c) (configNormalAcc f o rnd c)) with (m := timesNormalAcc c) (k := k) (d := d) as (ps & T & A & N).
    - intros k' d'. destruct (config_normal c k' d') as [(X & Z)|(X & _)]; [exact Z|]; exfalso; tauto.
    - exists ps. split; [exact T|]. split; [exact A|]. intros _. exact N. }
  destruct K as (ps & T & A & N). pose proof T as (d1 & k1 & E & _). destruct (IH k1 d1) as (qs & Tq & Q1 & Q2). exists (ps ++ qs).
  split; [apply (tests_bind ngood _ d ps (fun p => configsNormalAcc f o rnd cs (snd p) (fst p)) T d1 k1 E qs Tq)|]. split.
  - intros p Hp. apply in_app_or in Hp. destruct Hp as [Hp|Hp].
    + exists c. split; [left; reflexivity|]. rewrite Forall_forall in A. apply A, Hp.
    + destruct (Q1 p Hp) as (c' & H1 & H2). exists c'. split; [right; exact H1|exact H2].
  - intros c' [<-|Hc] U L.
    + specialize (N U L). destruct ps as [|p ps]; [contradiction|]. exists p. split; [left; reflexivity|]. inversion A; assumption.
    + destruct (Q2 c' Hc U L) as (p & H1 & H2). exists p. split; [apply in_or_app; right; exact H1|exact H2].
Qed.
Hypothesis Eu : euclidean f.
Lemma normal_ k : exists b k' ps, checkNormalAcceleration_ f o rnd k = Ok (b, k') /\ (b = true <-> Forall ngood ps) /\
  (forall p, In p ps -> (exists i, p = (rnd i (width f), rnd (i + 1)%nat (dwidth f), rnd (i + 2)%nat (dwidth f))) \/ exists c, In c (o_configs o) /\ fromN c p) /\
  (forall i, (i < o_samples o)%nat -> In (rnd (k + 3 * i)%nat (width f), rnd (k + 3 * i + 1)%nat (dwidth f), rnd (k + 3 * i + 2)%nat (dwidth f)) ps) /\
  (forall c, In c (o_configs o) -> usableN c -> (0 < timesNormalAcc c)%nat -> exists p, In p ps /\ fromN c p).
Proof.
  unfold checkNormalAcceleration_. rewrite (eucl_forallb f Eu). cbn [negb]. destruct (random_normal (o_samples o) k 0) as (ps & (d & k1 & -> & D) & Ep). cbn [bind fst snd].
  destruct (configs_normal (o_configs o) k1 0) as (qs & (e & k2 & -> & E) & Q1 & Q2). cbn [bind fst snd]. eexists. exists k2, (ps ++ qs). split; [reflexivity|]. split; [|split; [|split]].
  - rewrite Nat.eqb_eq, Forall_app. split; [intros H; split; [apply D; lia|apply E; lia]|]. intros (A & B). assert (d = 0%nat) by (apply D; auto). assert (e = 0%nat) by (apply E; auto). lia.
  - intros p Hp. apply in_app_or in Hp. destruct Hp as [Hp|Hp]; [left|right; apply Q1, Hp]. rewrite Ep in Hp. apply in_map_iff in Hp. destruct Hp as (i & <- & _). eexists. reflexivity.
  - intros i Hi. apply in_or_app. left. rewrite Ep. apply in_map_iff. exists i. split; [reflexivity|]. apply in_seq. lia.
  - intros c Hc U L. destruct (Q2 c Hc U L) as (p & H1 & H2). exists p. split; [apply in_or_app; right; exact H1|exact H2].
Qed.
End Function2.
