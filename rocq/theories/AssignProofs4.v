(* The feasible set and the weights of an assignment. *)
Require Import QArith Qminmax List Arith Bool Lia Lqa.
Require Import Verif.Base Verif.QSum Verif.AssignModel Verif.AssignSpec Verif.AssignProofs Verif.AssignProofs2 Verif.AssignProofs3.
Import ListNotations.
Local Open Scope Q_scope.

Lemma cmp_le e a b Fi Xi Bi flip : 0 < e -> a == sg flip * e * (Fi - Bi) -> b == sg flip * e * (Xi - Bi) ->
  (a <= b <-> if flip then Xi <= Fi else Fi <= Xi).
Proof.
  intros P -> ->. destruct flip; unfold sg.
  - rewrite <- (le_scale e Xi Fi P). split; intros H; lra.
  - rewrite <- (le_scale e Fi Xi P). split; intros H; lra.
Qed.
Lemma cmp_eq e a b Fi Xi Bi flip : 0 < e -> a == sg flip * e * (Fi - Bi) -> b == sg flip * e * (Xi - Bi) -> (a == b <-> Fi == Xi).
Proof.
  intros P Ha Hb. rewrite Ha, Hb. rewrite <- (eq_scale e Fi Xi P). destruct flip; unfold sg; split; intros H; lra.
Qed.

(* what the constructor establishes *)
Definition sound (big : Q) v_size mapping src tgt sub (g : assignment) : Prop :=
  checkTarget src tgt sub = Ok tt /\
  buildLists big v_size mapping src tgt sub (g_defS g) (g_defA g) = Ok (g_M g, g_MS g, g_V g, g_VS g) /\
  w_ms (g_data g) == - w_s (g_data g) /\ (g_defA g = false -> forall i, w_ma (g_data g) i == - w_a (g_data g) i).
(* the weight of row i *)
Definition wt (g : assignment) (i : nat) : Q := eff (g_defS g) (g_defA g) (g_data g) i.
Lemma construct_sound sqrtf big v_size mapping src tgt sub r scal g :
  construct sqrtf big v_size mapping src tgt sub r scal = Ok g -> sound big v_size mapping src tgt sub g.
Proof.
  unfold construct. intros H. destruct (checkTarget src tgt sub) as [[]| |] eqn:C; simpl in H; try discriminate.
  destruct (processReq sqrtf r scal) as [[dS dA] w] eqn:P.
  destruct (buildLists big v_size mapping src tgt sub dS dA) as [[[[m ms] v] vs]| |] eqn:B; simpl in H; try discriminate.
  inversion H; subst; clear H. split; [exact C|]. split; [exact B|]. cbn [g_data g_defA].
  destruct r as [q|]; simpl in P.
  - destruct (q_adef q) eqn:A; inversion P; subst; simpl.
    + split; [reflexivity|discriminate].
    + split; [reflexivity|intros; reflexivity].
  - inversion P; subst. simpl. split; [reflexivity|discriminate].
Qed.
Lemma processReq_wt sqrtf r scal dS dA w i : default_one sqrtf r -> processReq sqrtf r scal = (dS, dA, w) ->
  eff dS dA w i == row_weight sqrtf r scal i.
Proof.
  intros D P. destruct r as [q|]; simpl in P; [|inversion P; subst; reflexivity].
  unfold row_weight. simpl in D. destruct (q_wdef q) eqn:WD; simpl in P.
  - specialize (D eq_refl). destruct (Qeq_bool scal 1) eqn:S.
    + apply Qeq_bool_eq in S. destruct (q_adef q) eqn:A; inversion P; subst; unfold eff; simpl; rewrite D, S; unfold sqrtv; ring.
    + destruct (q_adef q) eqn:A; inversion P; subst; unfold eff; simpl; unfold sqrtv; ring.
  - destruct (q_adef q) eqn:A; inversion P; subst; unfold eff; simpl; unfold sqrtv; ring.
Qed.
Lemma construct_wt sqrtf big v_size mapping src tgt sub r scal g i : default_one sqrtf r ->
  construct sqrtf big v_size mapping src tgt sub r scal = Ok g -> wt g i == row_weight sqrtf r scal i.
Proof.
  intros D H. unfold construct in H. destruct (checkTarget src tgt sub) as [[]| |]; simpl in H; try discriminate.
  destruct (processReq sqrtf r scal) as [[dS dA] w] eqn:P.
  destruct (buildLists big v_size mapping src tgt sub dS dA) as [[[[m ms] v] vs]| |] eqn:B; simpl in H; try discriminate.
  inversion H; subst; clear H. apply (processReq_wt sqrtf r scal); auto.
Qed.

Section Feasible.
Variables (big : Q) (v_size : nat -> nat) (vars : list nat) (mapping : nat -> option nat).
Variables (src : source) (tgt : target) (sub : substs) (V : values) (g : assignment).
Hypothesis L : layout v_size vars mapping.
Hypothesis R : resolved src sub.
Hypothesis G : agrees v_size src sub V.
Hypothesis S : sound big v_size mapping src tgt sub g.
Notation RUN := (run v_size V tgt g).

Lemma facts i m x : clean v_size mapping vars src sub tgt (mA m) -> (i < c_size src)%nat -> rowfacts big v_size vars mapping src tgt sub V g i m x.
Proof. destruct S as [CT [BL [WS WA]]]. intros C I. apply rowfacts_ok; auto. Qed.

Notation single_to_double := (single_to_double src tgt).
Lemma feasible m x : clean v_size mapping vars src sub tgt (mA m) -> (forall i, (i < c_size src)%nat -> 0 < wt g i) ->
  (single_to_double -> t_rhs tgt = AS_GIVEN /\ forall i, (i < c_size src)%nat ->
     - big <= lhs v_size V (c_vars src) (completed v_size sub V x) i - lhs v_size V (c_vars src) (completed v_size sub V origin) i <= big) ->
  (rows_hold v_size mapping vars tgt (RUN m) x <-> satisfied v_size src V (completed v_size sub V x)).
Proof.
  intros C P D. pose proof (fun i => facts i m x C) as FT. pose proof (sizes src tgt sub (proj1 S)) as SZ.
  unfold rows_hold, satisfied.
  assert (DB : single_to_double -> t_rhs tgt = AS_GIVEN /\ forall i, (i < c_size src)%nat -> - big <= X v_size src sub V x i - B v_size src sub V i <= big).
  { intros SD. destruct (D SD) as [A Bd]. split; [exact A|]. intros i I. rewrite (B_origin v_size src sub V i). apply Bd, I. }
  clear D. unfold rowfacts in FT. unfold slotfact in FT. unfold AssignSpec.single_to_double in DB.
  assert (FA : forall Pi Qi : nat -> Prop, (forall i, (i < c_size src)%nat -> (Pi i <-> Qi i)) ->
    ((forall i, (i < c_size src)%nat -> Pi i) <-> (forall i, (i < c_size src)%nat -> Qi i))).
  { intros Pi Qi H. split; intros K i I; apply H; auto. }
  assert (HV : forall Pi Qi : nat -> Prop, (forall i, (i < c_size src)%nat -> ((Pi i /\ Pi (c_size src + i)%nat) <-> Qi i)) ->
    ((forall i, (i < 2 * c_size src)%nat -> Pi i) <-> (forall i, (i < c_size src)%nat -> Qi i))).
  { intros Pi Qi H. split; intros K i I.
    - apply H; [exact I|]. split; apply K; lia.
    - destruct (lt_dec i (c_size src)) as [J|J].
      + apply (proj2 (H i J) (K i J)).
      + replace i with (c_size src + (i - c_size src))%nat by lia.
        assert (J2 : (i - c_size src < c_size src)%nat) by lia. apply (proj2 (H _ J2) (K _ J2)). }
  assert (LE : forall a b Fi Xi Bi flip i, (i < c_size src)%nat -> b == sg flip * wt g i * (Xi - Bi) -> a == sg flip * wt g i * (Fi - Bi) ->
    (a <= b <-> if flip then Xi <= Fi else Fi <= Xi) /\ (b <= a <-> if flip then Fi <= Xi else Xi <= Fi) /\ (b == a <-> Xi == Fi)).
  { intros a b Fi Xi Bi flip i I Hb Ha. split; [|split]; [eapply cmp_le|eapply cmp_le|eapply cmp_eq]; eauto. }
  destruct (c_type src) eqn:CTY, (t_type tgt) eqn:TTY; cbn [ct_eqb andb negb] in SZ; rewrite ?SZ; unfold holds; try (
    exfalso; destruct S as [CT _]; unfold checkTarget in CT; rewrite CTY, TTY in CT; discriminate CT).
  - apply FA. intros i I. destruct (FT i I) as [A Bb]. destruct (LE _ _ _ _ _ _ i I A Bb) as [_ [_ E]]. exact E.
  - apply FA. intros i I. destruct (FT i I) as [[A Bb] [_ Dd]].
    destruct (LE _ _ _ _ _ _ i I A Bb) as [E1 _]. destruct (LE _ _ _ _ _ _ i I A Dd) as [_ [E2 _]].
    cbn [vget] in E1, E2. rewrite E1, E2. unfold X, F. simpl. split; intros H; lra.
  - apply FA. intros i I. destruct (FT i I) as [A Bb]. destruct (LE _ _ _ _ _ _ i I A Bb) as [E _]. exact E.
  - apply FA. intros i I. destruct (FT i I) as [A Bb]. destruct (LE _ _ _ _ _ _ i I A Bb) as [_ [E _]]. exact E.
  - destruct DB as [AG BD]; [auto|]. rewrite AG in *.
    apply FA. intros i I. destruct (FT i I) as [[A Bb] Cc]. destruct (LE _ _ _ _ _ _ i I A Bb) as [E _]. cbn [vget] in E.
    rewrite E. cbn [rsign]. assert (U : 1 * mu (RUN m) (t_start tgt + i)%nat == wt g i * big) by (rewrite Cc; unfold wt; ring).
    assert (RV2 : rowval v_size mapping vars (mA (RUN m)) x (t_start tgt + i) <= 1 * mu (RUN m) (t_start tgt + i)%nat).
    { rewrite U, A. unfold sg. fold (wt g i). rewrite Qmult_1_l. apply le_scale; [apply P; exact I|]. apply (BD i I). }
    unfold X, F. simpl. split; [tauto|intros; split; [assumption|exact RV2]].
  - apply FA. intros i I. destruct (FT i I) as [A Bb]. destruct (LE _ _ _ _ _ _ i I A Bb) as [E _]. exact E.
  - apply FA. intros i I. destruct (FT i I) as [A Bb]. destruct (LE _ _ _ _ _ _ i I A Bb) as [_ [E _]]. exact E.
  - destruct DB as [AG BD]; [auto|]. rewrite AG in *.
    apply FA. intros i I. destruct (FT i I) as [[A Bb] Cc]. destruct (LE _ _ _ _ _ _ i I A Bb) as [_ [E _]]. cbn [vget] in E.
    rewrite E. cbn [rsign]. assert (U : 1 * ml (RUN m) (t_start tgt + i)%nat == wt g i * - big) by (rewrite Cc; unfold wt; ring).
    assert (RV2 : 1 * ml (RUN m) (t_start tgt + i)%nat <= rowval v_size mapping vars (mA (RUN m)) x (t_start tgt + i)).
    { rewrite U, A. unfold sg. fold (wt g i). rewrite Qmult_1_l. apply le_scale; [apply P; exact I|]. apply (BD i I). }
    unfold X, F. simpl. split; [tauto|intros; split; [exact RV2|assumption]].
  - apply HV. intros i I. destruct (FT i I) as [[A Bb] [A' Bb']].
    destruct (LE _ _ _ _ _ _ i I A Bb) as [E1 _]. destruct (LE _ _ _ _ _ _ i I A' Bb') as [E2 _].
    cbn [vget] in E1, E2. rewrite !Nat.add_assoc. rewrite E1, E2. reflexivity.
  - apply HV. intros i I. destruct (FT i I) as [[A Bb] [A' Bb']].
    destruct (LE _ _ _ _ _ _ i I A Bb) as [_ [E1 _]]. destruct (LE _ _ _ _ _ _ i I A' Bb') as [_ [E2 _]].
    cbn [vget] in E1, E2. rewrite !Nat.add_assoc. rewrite E1, E2. unfold X, F. simpl. tauto.
  - apply FA. intros i I. destruct (FT i I) as [[A Bb] [_ Dd]].
    destruct (LE _ _ _ _ _ _ i I A Bb) as [E1 _]. destruct (LE _ _ _ _ _ _ i I A Dd) as [_ [E2 _]].
    cbn [vget] in E1, E2. rewrite E1, E2. reflexivity.
Qed.
End Feasible.
