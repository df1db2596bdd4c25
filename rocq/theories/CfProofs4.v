Require Import Reals List Bool Arith Lia Lra FunctionalExtensionality.
Require Import Verif.Base Verif.CfModel Verif.CfSpec Verif.CfProofs Verif.CfProofs2 Verif.CfProofs3.
Import ListNotations.
Local Open Scope R_scope.

Lemma timesV c : timesVelocity c = times_velocity c.
Proof. unfold timesVelocity, times_velocity. destruct (c_value c), (c_velocity c); reflexivity. Qed.
Lemma timesN c : timesNormalAcc c = times_normal c.
Proof. unfold timesNormalAcc, times_normal. destruct (c_value c), (c_velocity c), (c_acceleration c); reflexivity. Qed.
Lemma velocity_ok_default f o a b : velocity_ok f (defaultOptions o) a b <-> velocity_ok f o a b.
Proof. unfold velocity_ok. rewrite default_prec. reflexivity. Qed.
Lemma normal_ok_default f o a b c : normal_ok f (defaultOptions o) a b c <-> normal_ok f o a b c.
Proof. unfold normal_ok. rewrite default_prec, default_step. reflexivity. Qed.

Lemma api_velocity f o rnd : w_vars f <> [] -> w_hasVelocity f = true -> w_hasJacobian f = true ->
  exists b ps, checkVelocity f o rnd = Ok b /\ (b = true <-> forall p, In p ps -> velocity_ok f o (fst p) (snd p)) /\
    (forall i, (i < samples o)%nat -> In (rnd (2 * i)%nat (width f), rnd (2 * i + 1)%nat (dwidth f)) ps) /\
    (forall c, In c (o_configs o) -> usable_as (c_value c) (width f) -> usable_as (c_velocity c) (dwidth f) -> (0 < times_velocity c)%nat -> exists p, In p ps /\ point_velocity f rnd c p) /\
    (forall p, In p ps -> (exists i, p = (rnd i (width f), rnd (i + 1)%nat (dwidth f))) \/ exists c, In c (o_configs o) /\ point_velocity f rnd c p).
Proof.
  intros Ne V J. unfold checkVelocity. rewrite V, J. cbn [andb negb]. destruct (velocity_ f (defaultOptions o) rnd Ne 0) as (b & k & ps & -> & B & P1 & P2 & P3). cbn [bind fst]. exists b, ps. split; [reflexivity|].
  rewrite default_samples in P2. rewrite default_configs in P1, P3. split; [|split; [exact P2|split]].
  - rewrite B, Forall_forall. unfold vgood. split; intros H p Hp; apply velocity_ok_default; apply H, Hp.
  - intros c Hc U W L. rewrite <- timesV in L. destruct (P3 c Hc U W L) as (p & Hp & F). exists p. split; [exact Hp|]. unfold fromV, point_velocity in *. tauto.
  - intros p Hp. destruct (P1 p Hp) as [E|(c & Hc & F)]; [left; exact E|right]. exists c. split; [exact Hc|]. unfold fromV, point_velocity in *. tauto.
Qed.
Lemma api_normal f o rnd : w_vars f <> [] -> euclidean f -> w_hasNormalAcc f = true -> w_hasVelocity f = true -> w_hasJacobian f = true ->
  exists b ps, checkNormalAcceleration f o rnd = Ok b /\ (b = true <-> forall p, In p ps -> normal_ok f o (fst (fst p)) (snd (fst p)) (snd p)) /\
    (forall i, (i < samples o)%nat -> In (rnd (3 * i)%nat (width f), rnd (3 * i + 1)%nat (dwidth f), rnd (3 * i + 2)%nat (dwidth f)) ps) /\
    (forall c, In c (o_configs o) -> usable_normal f c -> (0 < times_normal c)%nat -> exists p, In p ps /\ point_normal f rnd c p) /\
    (forall p, In p ps -> (exists i, p = (rnd i (width f), rnd (i + 1)%nat (dwidth f), rnd (i + 2)%nat (dwidth f))) \/ exists c, In c (o_configs o) /\ point_normal f rnd c p).
Proof.
  intros Ne Eu N V J. unfold checkNormalAcceleration. rewrite N, V, J. cbn [andb negb]. destruct (normal_ f (defaultOptions o) rnd Ne Eu 0) as (b & k & ps & -> & B & P1 & P2 & P3). cbn [bind fst]. exists b, ps. split; [reflexivity|].
  rewrite default_samples in P2. rewrite default_configs in P1, P3. split; [|split; [exact P2|split]].
  - rewrite B, Forall_forall. unfold ngood. split; intros H p Hp; apply normal_ok_default; apply H, Hp.
  - intros c Hc U L. rewrite <- timesN in L. exact (P3 c Hc U L).
  - exact P1.
Qed.
(* checkFunction passes through the three checks *)
Lemma api_function f o rnd junk : w_vars f <> [] -> euclidean f -> w_hasNormalAcc f = true -> w_hasVelocity f = true -> w_hasJacobian f = true -> w_hasValue f = true ->
  (exists b, checkFunction f o rnd junk = Ok b) /\
  (checkFunction f o rnd junk = Ok true -> forall c val vel acc, In c (o_configs o) -> c_value c = Some val -> c_velocity c = Some vel -> c_acceleration c = Some acc ->
     length val = width f -> length vel = dwidth f -> length acc = dwidth f ->
     column_ok f o (vec val) 0 /\ velocity_ok f o (vec val) (vec vel) /\ normal_ok f o (vec val) (vec vel) (vec acc)).
Proof.
  intros Ne Eu N V J W. unfold checkFunction. rewrite N, V, J, W. cbn [andb negb].
  destruct (jacobian_ f (defaultOptions o) rnd junk Ne Eu 0) as (b1 & -> & B1). cbn [bind fst snd]. destruct b1; cbn [negb]; [|split; [eexists; reflexivity|discriminate]].
  destruct (velocity_ f (defaultOptions o) rnd Ne (0 + o_samples (defaultOptions o))) as (b2 & k2 & ps & -> & B2 & _ & _ & P3). cbn [bind fst snd]. destruct b2; cbn [negb]; [|split; [eexists; reflexivity|discriminate]].
  destruct (normal_ f (defaultOptions o) rnd Ne Eu k2) as (b3 & k3 & qs & -> & B3 & _ & _ & Q3). cbn [bind fst]. split; [eexists; reflexivity|]. intros [= ->] c val vel acc Hc E1 E2 E3 L1 L2 L3.
  rewrite default_configs in B1, P3, Q3. split; [|split].
  - apply column_ok_default. destruct (proj1 B1 eq_refl) as [_ X]. apply (X c val Hc E1 L1).
  - apply velocity_ok_default. assert (U1 : usable_as (c_value c) (width f)) by (rewrite E1; intros v [= <-]; exact L1). assert (U2 : usable_as (c_velocity c) (dwidth f)) by (rewrite E2; intros v [= <-]; exact L2).
    destruct (P3 c Hc U1 U2 ltac:(rewrite timesV; unfold times_velocity; rewrite E1, E2; lia)) as (p & Hp & _ & _ & T1 & T2). rewrite E1 in T1. rewrite E2 in T2. simpl in T1, T2.
    pose proof (proj1 B2 eq_refl) as X. rewrite Forall_forall in X. specialize (X p Hp). unfold vgood in X. rewrite T1, T2 in X. exact X.
  - apply normal_ok_default. assert (U : usableN f c) by (split; [rewrite E1; intros v [= <-]; exact L1|split; [rewrite E2; intros v [= <-]; exact L2|rewrite E3; intros v [= <-]; exact L3]]).
    destruct (Q3 c Hc U ltac:(rewrite timesN; unfold times_normal; rewrite E1, E2, E3; lia)) as (p & Hp & _ & T1 & T2 & T3). rewrite E1 in T1. rewrite E2 in T2. rewrite E3 in T3. simpl in T1, T2, T3.
    pose proof (proj1 B3 eq_refl) as X. rewrite Forall_forall in X. specialize (X p Hp). unfold ngood in X. rewrite T1, T2, T3 in X. exact X.
Qed.
Lemma throws f o rnd junk :
  (w_hasValue f && w_hasJacobian f = false -> checkJacobian f o rnd junk = Throw) /\
  (w_hasVelocity f && w_hasJacobian f = false -> checkVelocity f o rnd = Throw) /\
  (w_hasNormalAcc f && w_hasVelocity f && w_hasJacobian f = false -> checkNormalAcceleration f o rnd = Throw) /\
  (w_hasNormalAcc f && w_hasVelocity f && w_hasJacobian f && w_hasValue f = false -> checkFunction f o rnd junk = Throw) /\
  ((exists x, In x (w_vars f) /\ v_eucl x = false) -> checkJacobian f o rnd junk = Throw /\ checkNormalAcceleration f o rnd = Throw /\ checkFunction f o rnd junk = Throw).
Proof.
  split; [|split; [|split; [|split]]].
  - intros H. unfold checkJacobian. rewrite H. reflexivity.
  - intros H. unfold checkVelocity. rewrite H. reflexivity.
  - intros H. unfold checkNormalAcceleration. rewrite H. reflexivity.
  - intros H. unfold checkFunction. rewrite H. reflexivity.
  - intros (x & Hx & E). assert (K : forallb v_eucl (w_vars f) = false).
    { destruct (forallb v_eucl (w_vars f)) eqn:B; [|reflexivity]. rewrite forallb_forall in B. rewrite (B x Hx) in E. discriminate. }
    unfold checkJacobian, checkNormalAcceleration, checkFunction, checkJacobian_, checkNormalAcceleration_. rewrite K. cbn [negb bind]. split; [|split]; destruct (negb _); reflexivity.
Qed.
Lemma untested f o rnd junk : w_vars f <> [] -> euclidean f -> w_hasValue f = true -> w_hasJacobian f = true ->
  o_samples o = 0%nat -> o_configs o <> [] -> (forall c v, In c (o_configs o) -> c_value c = Some v -> length v <> width f) -> checkJacobian f o rnd junk = Ok true.
Proof.
  intros Ne Eu V J S0 Nc H. destruct (api_jacobian f o rnd junk Ne Eu V J) as (b & -> & B). f_equal. apply B. split.
  - intros i. unfold samples. rewrite S0. destruct (o_configs o); [contradiction|lia].
  - intros c v Hc E L. exfalso. exact (H c v Hc E L).
Qed.
Lemma columns f o rnd junk : w_vars f <> [] -> euclidean f -> w_hasValue f = true -> w_hasJacobian f = true ->
  ((forall v, jacobian_ok f o v) -> checkJacobian f o rnd junk = Ok true) /\
  (width f = 1%nat -> forall v, column_ok f o v 0 <-> jacobian_ok f o v).
Proof.
  intros Ne Eu V J. split.
  - intros H. destruct (api_jacobian f o rnd junk Ne Eu V J) as (b & -> & B). f_equal. apply B. split; intros; apply H.
  - intros W v. split; [|intros H; apply H]. intros H c s k j Sc C. pose proof (column_width f k j c C) as L. assert (c = 0%nat) as -> by lia. exact (H s k j Sc C).
Qed.

(* ---- a wrong second column ---- *)
Definition wrong2 : cfun := mkCf [mkCv 1 1 true; mkCv 1 1 true] 1 true true true true
  (fun v _ => v 0%nat + v 1%nat) (fun k _ _ _ => match k with O => 1 | _ => 1000 end) (fun _ d _ => d 0%nat + d 1%nat) (fun _ _ _ => 0).
Lemma wrong2_fd h v c r : h <> 0 -> (c < 2)%nat -> fd wrong2 h v c r = 1.
Proof. intros Hh Hc. unfold fd. cbn [wrong2 w_value]. unfold move. destruct c as [|[|c]]; [| |lia]; cbn [Nat.eqb]; field; exact Hh. Qed.
Lemma wrong2_partials v : partials wrong2 v (fun _ _ => 1).
Proof.
  intros c r Hc _ e He. exists (mkposreal 1 Rlt_0_1). intros h Hh _. cbn [wrong2 w_value]. unfold move. change (width wrong2) with 2%nat in Hc.
  destruct c as [|[|c]]; [| |lia]; cbn [Nat.eqb]; match goal with |- Rabs ?x < _ => replace x with 0 by (field; exact Hh) end; rewrite Rabs_R0; exact He.
Qed.
Lemma wrong2_column k j c : column wrong2 k j c -> (k = 0 /\ j = 0 /\ c = 0)%nat \/ (k = 1 /\ j = 0 /\ c = 1)%nat.
Proof. intros (x & E & Hj & ->). destruct k as [|[|k]]; cbn in E; [| |destruct k; discriminate]; injection E as <-; cbn in *; [left|right]; lia. Qed.
Lemma wrong2_c0 : column wrong2 0 0 0.
Proof. exists (mkCv 1 1 true). cbn. repeat split; lia. Qed.
Lemma wrong2_c1 : column wrong2 1 0 1.
Proof. exists (mkCv 1 1 true). cbn. repeat split; lia. Qed.
Lemma wrong2_scale h v s : h <> 0 -> scale wrong2 v (fd wrong2 h v) s -> s = 1.
Proof.
  intros Hh Sc. apply (scale_unique wrong2 v (fd wrong2 h v) s 1 Sc).
  assert (K : forall k j c, column wrong2 k j c -> Rmin (norm2 1 (fd wrong2 h v c)) (norm2 1 (fun r => w_jac wrong2 k v r j)) = 1).
  { intros k j c C. destruct (wrong2_column k j c C) as [(-> & -> & ->)|(-> & -> & ->)]; unfold norm2; cbn [rsum wrong2 w_jac]; rewrite wrong2_fd by (assumption || lia); unfold Rmin; destruct (Rle_dec _ _); lra. }
  split; [intros k j c C; cbn zeta; change (w_size wrong2) with 1%nat; rewrite K by exact C; lra|]. right. exists 0%nat, 0%nat, 0%nat. split; [exact wrong2_c0|]. cbn zeta. change (w_size wrong2) with 1%nat. rewrite K by exact wrong2_c0. reflexivity.
Qed.
Lemma wrong2_eucl : euclidean wrong2.
Proof. repeat constructor. Qed.
Lemma wrong2_accepted o rnd junk : o_step o <> 0 -> checkJacobian wrong2 o rnd junk = Ok true.
Proof.
  intros Hh. assert (C : forall v, column_ok wrong2 o v 0).
  { intros v s k j Sc Cl. rewrite (wrong2_scale _ v s Hh Sc). unfold close. rewrite norm2_zero; [pose proof (Rle_0_sqr (o_prec o)) as P; unfold Rsqr in P; lra|]. intros r _. unfold minus. rewrite wrong2_fd by (assumption || lia).
    destruct (wrong2_column k j 0 Cl) as [(-> & -> & _)|(_ & _ & X)]; [cbn; lra|discriminate]. }
  destruct (api_jacobian wrong2 o rnd junk ltac:(discriminate) wrong2_eucl eq_refl eq_refl) as (b & -> & B). f_equal. apply B. split; intros; apply C.
Qed.
Lemma wrong2_wrong o v : o_step o <> 0 -> 0 <= o_prec o < 1 -> ~ jacobian_ok wrong2 o v.
Proof.
  intros Hh P H. pose proof (scaleTo_scale wrong2 v (fun _ _ => 0) (fd wrong2 (o_step o) v)) as Sc. specialize (H 1%nat _ 1%nat 0%nat Sc wrong2_c1). rewrite (wrong2_scale _ v _ Hh Sc) in H. unfold close, norm2, minus in H. cbn [rsum wrong2 w_size w_jac] in H.
  rewrite wrong2_fd in H by (assumption || lia). assert (o_prec o * o_prec o <= 1 * 1) by (apply Rmult_le_compat; lra). lra.
Qed.
Lemma jacobian_refuted : exists f, w_vars f <> [] /\ euclidean f /\ column f 1 0 1 /\
  (forall v, partials f v (fun _ _ => 1) /\ w_jac f 1 v 0 0 = 1000) /\
  forall o rnd junk, o_step o <> 0 -> 0 <= o_prec o < 1 -> checkJacobian f o rnd junk = Ok true /\ forall v, ~ jacobian_ok f o v.
Proof.
  exists wrong2. split; [discriminate|]. split; [exact wrong2_eucl|]. split; [exact wrong2_c1|]. split; [intros v; split; [apply wrong2_partials|reflexivity]|].
  intros o rnd junk Hh P. split; [apply wrong2_accepted, Hh|]. intros v. apply wrong2_wrong; assumption.
Qed.

(* ---- a square ---- *)
Definition square : cfun := mkCf [mkCv 1 1 true] 1 true true true true
  (fun v _ => v 0%nat * v 0%nat) (fun _ v _ _ => 2 * v 0%nat) (fun v d _ => 2 * v 0%nat * d 0%nat) (fun _ d _ => 2 * d 0%nat * d 0%nat).
Lemma square_eucl : euclidean square.
Proof. repeat constructor. Qed.
Lemma square_column k j c : column square k j c <-> (k = 0 /\ j = 0 /\ c = 0)%nat.
Proof.
  split; [|intros (-> & -> & ->); exists (mkCv 1 1 true); cbn; repeat split; lia]. intros (x & E & Hj & ->). destruct k as [|k]; cbn in E; [|destruct k; discriminate]. injection E as <-. cbn in *. lia.
Qed.
Lemma square_fd h v r : h <> 0 -> fd square h v 0 r = 2 * v 0%nat + h.
Proof. intros Hh. unfold fd. cbn [square w_value]. unfold move. cbn [Nat.eqb]. field. exact Hh. Qed.
Lemma square_partials v : partials square v (fun _ _ => 2 * v 0%nat).
Proof.
  intros c r Hc _ e He. exists (mkposreal e He). intros h Hh L. cbn [pos] in L. change (width square) with 1%nat in Hc. assert (c = 0%nat) as -> by lia. cbn [square w_value]. unfold move. cbn [Nat.eqb].
  match goal with |- Rabs ?x < _ => replace x with h by (field; exact Hh) end. exact L.
Qed.
Lemma square_apply v a r : applyJ v_size square v a r = 2 * v 0%nat * a 0%nat.
Proof. unfold applyJ. cbn [square w_vars length rsum nth_error w_jac v_size]. change (before v_size _ 0) with 0%nat. cbn [Nat.add]. lra. Qed.
Lemma square_acc val vel acc : acceleration_along square val vel acc (fun r => w_normalAcc square val vel r + applyJ v_size square val acc r).
Proof.
  intros p q P0 Q0 Dp Dq r _. rewrite square_apply. cbn [square w_velocity w_normalAcc].
  pose proof (derivable_pt_lim_mult _ _ 0 _ _ (derivable_pt_lim_scal _ 2 0 _ (Dp 0%nat)) (Dq 0%nat)) as H. unfold mult_real_fct, mult_fct in H. rewrite P0, Q0 in H.
  replace (2 * vel 0%nat * vel 0%nat + 2 * val 0%nat * acc 0%nat) with (2 * vel 0%nat * vel 0%nat + 2 * val 0%nat * acc 0%nat) by ring. exact H.
Qed.
Lemma critical_refuted : exists f, w_vars f <> [] /\ euclidean f /\ width f = 1%nat /\
  (forall v, partials f v (fun _ r => w_jac f 0 v r 0)) /\ (forall val vel acc, acceleration_along f val vel acc (fun r => w_normalAcc f val vel r + applyJ v_size f val acc r)) /\
  forall h prec rnd junk, h <> 0 ->
    checkJacobian f (mkCo h prec 0 [mkCc (Some [0]) None None 1]) rnd junk = Ok false /\
    checkNormalAcceleration f (mkCo h prec 0 [mkCc (Some [1]) (Some [0]) (Some [1]) 1]) rnd = Ok false.
Proof.
  exists square. split; [discriminate|]. split; [exact square_eucl|]. split; [reflexivity|]. split; [exact square_partials|]. split; [exact square_acc|]. intros h prec rnd junk Hh. split.
  - set (o := mkCo h prec 0 _). destruct (api_jacobian square o rnd junk ltac:(discriminate) square_eucl eq_refl eq_refl) as (b & -> & B). f_equal. destruct b; [|reflexivity]. exfalso.
    destruct (proj1 B eq_refl) as [_ X]. specialize (X _ [0] (or_introl eq_refl) eq_refl eq_refl). pose proof (scaleTo_scale square (vec [0]) junk (fd square h (vec [0]))) as Sc.
    assert (Z : scale square (vec [0]) (fd square h (vec [0])) 0).
    { split; [|left; reflexivity]. intros k j c C. cbn zeta. apply square_column in C. destruct C as (-> & -> & ->). unfold norm2. cbn [square w_size rsum w_jac vec nth]. rewrite square_fd by exact Hh. cbn [vec nth]. eapply Rle_trans; [apply Rmin_r|]. lra. }
    specialize (X 0 0%nat 0%nat Z (proj2 (square_column 0 0 0) (conj eq_refl (conj eq_refl eq_refl)))). unfold close, norm2, minus in X. cbn [square w_size rsum w_jac o o_step] in X. rewrite square_fd in X by exact Hh. cbn [vec nth] in X.
    assert (0 < h * h) by (destruct (Rtotal_order h 0) as [L|[L|L]]; [replace (h * h) with (- h * - h) by ring; apply Rmult_lt_0_compat; lra|contradiction|apply Rmult_lt_0_compat; lra]). lra.
  - set (o := mkCo h prec 0 _). destruct (api_normal square o rnd ltac:(discriminate) square_eucl eq_refl eq_refl eq_refl) as (b & ps & -> & B & _ & P & _). f_equal. destruct b; [|reflexivity]. exfalso.
    pose proof (proj1 B eq_refl) as X. destruct (P _ (or_introl eq_refl)) as (p & Hp & _ & T1 & T2 & T3).
    + split; [intros v [= <-]; reflexivity|split; intros v [= <-]; reflexivity].
    + cbn. lia.
    + cbn [c_value c_velocity c_acceleration taken] in T1, T2, T3. specialize (X p Hp). rewrite T1, T2, T3 in X. destruct X as [X _]. unfold close, norm2, minus in X. cbn [square w_size rsum w_normalAcc w_velocity o o_step o_prec] in X. rewrite square_apply in X. unfold reached in X. cbn [vec nth] in X.
      assert (E : (2 * (1 + 0 * h + 1 / 2 * (1 * 1) * h * h) * (0 + 1 * h) - 2 * 1 * 0) / h - 2 * 1 * 1 = h * h) by (field; exact Hh). rewrite E in X.
      assert (0 < h * h) by (destruct (Rtotal_order h 0) as [L|[L|L]]; [replace (h * h) with (- h * - h) by ring; apply Rmult_lt_0_compat; lra|contradiction|apply Rmult_lt_0_compat; lra]).
      assert (0 < (h * h) * (h * h)) by (apply Rmult_lt_0_compat; assumption). nra.
Qed.
