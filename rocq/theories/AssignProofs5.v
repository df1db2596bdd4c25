(* Frame, repeated runs, histories of weight updates. *)
Require Import QArith Qminmax List Arith Bool Lia Lqa.
Require Import Verif.Base Verif.QSum Verif.AssignModel Verif.AssignSpec Verif.AssignProofs Verif.AssignProofs2 Verif.AssignProofs3 Verif.AssignProofs4.
Import ListNotations.
Local Open Scope Q_scope.

Definition outside (t : target) (r : nat) : Prop := (r < t_start t \/ t_start t + t_dim t <= r)%nat.
Definition same_row (m m' : mem) (r : nat) : Prop :=
  (forall c, mA m' r c = mA m r c) /\ mb m' r = mb m r /\ ml m' r = ml m r /\ mu m' r = mu m r.
Lemma same_row_trans m m' m'' r : same_row m m' r -> same_row m' m'' r -> same_row m m'' r.
Proof. unfold same_row. intuition congruence. Qed.
Lemma half_le n : (Nat.div n 2 + Nat.div n 2 <= n)%nat.
Proof. pose proof (Nat.div_mod n 2). lia. Qed.
Lemma inRange_out i s n : (i < s \/ s + n <= i)%nat -> inRange i s n = false.
Proof.
  intros H. unfold inRange. apply andb_false_iff. destruct H; [left; apply Nat.leb_gt; lia|right; apply Nat.ltb_ge; lia].
Qed.
Lemma runM_out v_size V d t m a r : outside t r -> same_row m (runM v_size V d t m a) r.
Proof.
  intros O. unfold runM. destruct (mrows t (ma_slot a)) as [r0 rd] eqn:E. unfold same_row; cbn [mA mb ml mu].
  assert (Z : inRange r r0 rd = false).
  { apply inRange_out. unfold mrows in E. pose proof (half_le (t_dim t)). unfold outside in O. set (h := Nat.div (t_dim t) 2) in *. clearbody h.
    destruct (ma_slot a); injection E as <- <-; lia. }
  rewrite Z. simpl. auto.
Qed.
Lemma runV_out v_size V d t m a r : outside t r -> same_row m (runV v_size V d t m a) r.
Proof.
  intros O. unfold runV. destruct (vrows t (va_slot a)) as [r0 rd] eqn:E.
  assert (Z : inRange r r0 rd = false).
  { apply inRange_out. unfold vrows in E. pose proof (half_le (t_dim t)). unfold outside in O. set (h := Nat.div (t_dim t) 2) in *. clearbody h.
    destruct (va_slot a); injection E as <- <-; lia. }
  unfold same_row, setV. destruct (va_slot a); cbn [mA mb ml mu]; rewrite Z; auto.
Qed.
Lemma fold_row {A} (f : mem -> A -> mem) r : (forall m a, same_row m (f m a) r) -> forall l m, same_row m (fold_left f l m) r.
Proof.
  intros H. induction l as [|a l IH]; intros m; simpl.
  - unfold same_row. auto.
  - eapply same_row_trans; [apply H|apply IH].
Qed.
Lemma run_frame v_size V t g m r : outside t r -> same_row m (run v_size V t g m) r.
Proof.
  intros O. unfold run.
  repeat (eapply same_row_trans; [|apply fold_row; intros; (apply runM_out || apply runV_out); exact O]).
  unfold same_row. auto.
Qed.

Lemma fold_into w : forall l y, In y (fold_left (fun l y => if existsb (Nat.eqb y) l then l else l ++ [y]) w l) -> In y l \/ In y w.
Proof.
  induction w as [|a w IH]; simpl; intros l y H; auto. apply IH in H. destruct (existsb (Nat.eqb a) l); [tauto|].
  destruct H as [H|H]; auto. apply in_app_or in H as [H|[->|[]]]; auto.
Qed.
(* the columns that are written *)
Section Touch.
Variables (v_size : nat -> nat) (mapping : nat -> option nat) (src : source) (tgt : target) (sub : substs).
Variables defS defA : bool.
Definition touched (y : nat) : Prop :=
  (In y (c_vars src) /\ findSub y sub = None) \/ exists z u, In z (c_vars src) /\ findSub z sub = Some u /\ In y (s_vars u).
Definition okM (a : masg) : Prop := exists y, mapping y = Some (ma_col a) /\ ma_dim a = v_size y /\ touched y.
Definition okAcc (x : acc) : Prop := let '(m, ms, _, _) := x in Forall okM m /\ Forall okM ms.
Lemma okAcc_addMA a x : okAcc x -> okM a -> okAcc (addMA a x).
Proof. destruct x as [[[m ms] v] vs]. simpl. intros [A B] O. split; auto. apply Forall_app; auto. Qed.
Lemma okAcc_addMS a x : okAcc x -> okM a -> okAcc (addMS a x).
Proof. destruct x as [[[m ms] v] vs]. simpl. intros [A B] O. split; auto. apply Forall_app; auto. Qed.
Lemma okAcc_addVA a x : okAcc x -> okAcc (addVA a x).
Proof. destruct x as [[[m ms] v] vs]. simpl. auto. Qed.
Lemma okAcc_addVS a x : okAcc x -> okAcc (addVS a x).
Proof. destruct x as [[[m ms] v] vs]. simpl. auto. Qed.
Lemma ok_addVector f v flip x : okAcc x -> okAcc (addVector src tgt defS defA f v flip x).
Proof. unfold addVector. intros. repeat destruct (negb _); auto using okAcc_addVA. Qed.
Lemma substInto_touched : forall xs l, (forall x, In x xs -> In x (c_vars src)) ->
  (forall y, In y l -> exists z u, In z (c_vars src) /\ findSub z sub = Some u /\ In y (s_vars u)) ->
  forall y, In y (substInto sub xs l) -> exists z u, In z (c_vars src) /\ findSub z sub = Some u /\ In y (s_vars u).
Proof.
  induction xs as [|x xs IH]; simpl; intros l X H y Y; [auto|].
  revert Y. apply IH; [auto|]. intros y' Y'. destruct (findSub x sub) as [u|] eqn:F; [|auto].
  apply fold_into in Y' as [Y'|Y']; [auto|]. exists x, u. auto.
Qed.
Lemma ok_zeros M : forall l x x', (forall y, In y l -> ~ In y (c_vars src) -> touched y) -> okAcc x ->
  zeros v_size mapping src M l x = Ok x' -> okAcc x'.
Proof.
  induction l as [|y l IH]; simpl; intros x x' T O H; [injection H as <-; auto|].
  destruct (existsb (Nat.eqb y) (c_vars src)) eqn:E; [eapply IH; eauto|].
  unfold addZero, cols in H. destruct (mapping y) eqn:F; simpl in H; [|discriminate].
  eapply IH; [| |exact H]; [auto|]. apply okAcc_addMA; auto. exists y. simpl. split; [auto|]. split; [auto|].
  apply T; auto. intros I. assert (K : existsb (Nat.eqb y) (c_vars src) = true) by (apply existsb_exists; exists y; split; [auto|apply Nat.eqb_refl]). congruence.
Qed.
Lemma ok_addMatrixSubs y M flip : forall ys x x', (forall z, In z ys -> touched z) -> okAcc x ->
  addMatrixSubs v_size mapping src defS defA y M ys flip x = Ok x' -> okAcc x'.
Proof.
  induction ys as [|z ys IH]; simpl; intros x x' T O H; [injection H as <-; auto|].
  unfold cols in H. destruct (mapping z) eqn:F; simpl in H; [|discriminate].
  eapply IH; [| |exact H]; [auto|]. apply okAcc_addMS; auto. exists z. destruct (c_prop src y); simpl; auto.
Qed.
Lemma ok_addVectorSub y s v flip x : okAcc x -> okAcc (addVectorSub src tgt defS defA y s v flip x).
Proof. unfold addVectorSub. destruct (s_bnz s); auto using okAcc_addVS. Qed.
Lemma ok_perVar M v1 v2 flip : forall xs x x', (forall y, In y xs -> In y (c_vars src)) -> okAcc x ->
  perVar v_size mapping src tgt sub defS defA M v1 v2 flip xs x = Ok x' -> okAcc x'.
Proof.
  induction xs as [|y xs IH]; simpl; intros x x' T O H; [injection H as <-; auto|].
  destruct (Nat.eqb (v_size y) 0); [eapply IH; eauto|].
  destruct (findSub y sub) as [u|] eqn:F.
  - destruct (addMatrixSubs v_size mapping src defS defA y M (s_vars u) flip x) as [x1| |] eqn:E; simpl in H; try discriminate.
    eapply IH; [| |exact H]; [auto|].
    assert (O1 : okAcc x1). { eapply ok_addMatrixSubs; [|exact O|exact E]. intros z Z. right. exists y, u. auto. }
    destruct v2; repeat apply ok_addVectorSub; exact O1.
  - unfold addMatrix, cols in H. destruct (mapping y) eqn:E; simpl in H; [|discriminate].
    eapply IH; [| |exact H]; [auto|]. apply okAcc_addMA; auto. exists y. simpl. split; [auto|]. split; [auto|]. left. auto.
Qed.
Lemma ok_addAssignments M f1 v1 fv2 flip x x' : okAcc x ->
  addAssignments v_size mapping src tgt sub defS defA M f1 v1 fv2 flip x = Ok x' -> okAcc x'.
Proof.
  unfold addAssignments. intros O H.
  set (x2 := match fv2 with Some (f2, v2) => _ | None => _ end) in H.
  assert (O2 : okAcc x2) by (unfold x2; destruct fv2 as [[f2 v2]|]; repeat apply ok_addVector; exact O).
  destruct (zeros v_size mapping src M (substInto sub (c_vars src) []) x2) as [x3| |] eqn:Z; simpl in H; try discriminate.
  assert (O3 : okAcc x3).
  { eapply ok_zeros; [|exact O2|exact Z]. intros y Y _. right. revert Y. apply substInto_touched; auto. intros ? []. }
  eapply ok_perVar; [|exact O3|exact H]. auto.
Qed.
Lemma ok_build big x' : buildLists big v_size mapping src tgt sub defS defA = Ok x' -> okAcc x'.
Proof.
  unfold buildLists. assert (O : okAcc ([], [], [], [])) by (split; constructor).
  assert (A1 : forall M f v w flip y, addAssignments v_size mapping src tgt sub defS defA M f v w flip ([], [], [], []) = Ok y -> okAcc y)
    by (intros; eapply ok_addAssignments; eauto).
  destruct (c_type src), (t_type tgt); simpl; intros H; try discriminate; try (eapply A1; exact H);
  match type of H with (bind ?z _) = _ => destruct z as [y| |] eqn:E; simpl in H; try discriminate; apply A1 in E end.
  all: first [injection H as <-; unfold addConst; apply okAcc_addVA, E | eapply ok_addAssignments; [exact E|exact H]].
Qed.
End Touch.

Lemma fold_col {A} (f : mem -> A -> mem) (P : A -> Prop) r c :
  (forall m a, P a -> mA (f m a) r c = mA m r c) -> forall l m, Forall P l -> mA (fold_left f l m) r c = mA m r c.
Proof.
  intros H. induction l as [|a l IH]; intros m F; simpl; auto. inversion F; subst. rewrite IH by auto. auto.
Qed.
Lemma fold_V_mA v_size V d t l : forall m, mA (fold_left (runV v_size V d t) l m) = mA m.
Proof.
  induction l as [|a l IH]; intros m; simpl; auto. rewrite IH. unfold runV. destruct (vrows t (va_slot a)).
  unfold setV. destruct (va_slot a); reflexivity.
Qed.
Lemma clean_run big v_size vars mapping src tgt sub V g m :
  layout v_size vars mapping -> sound big v_size mapping src tgt sub g ->
  clean v_size mapping vars src sub tgt (mA m) -> clean v_size mapping vars src sub tgt (mA (run v_size V tgt g m)).
Proof.
  intros (ND & MV & DJ) (_ & BL & _) C r y k Hr Y K N1 N2. specialize (C r y k Hr Y K N1 N2).
  apply ok_build in BL. destruct BL as [OM OMS].
  assert (Q : forall m a, okM v_size mapping src sub a ->
    mA (runM v_size V (g_data g) tgt m a) r (col mapping y + k)%nat = mA m r (col mapping y + k)%nat).
  { intros m0 a (z & Mz & Dz & Tz). unfold runM. destruct (mrows tgt (ma_slot a)) as [r0 rd]. cbn [mA].
    destruct (inRange r r0 rd); [|reflexivity].
    assert (NE : y <> z).
    { intros ->. destruct Tz as [T|(w & u & W & U & I)]; [exact (N1 T)|exact (N2 w u W U I)]. }
    destruct (mapping y) as [cy|] eqn:My; [|exfalso; apply (proj1 (MV y) Y My)].
    assert (CY : col mapping y = cy) by (unfold col; rewrite My; reflexivity).
    rewrite CY. destruct (inRange (cy + k) (ma_col a) (ma_dim a)) eqn:IR; [|reflexivity].
    exfalso. unfold inRange in IR. apply andb_prop in IR as [A B]. apply Nat.leb_le in A. apply Nat.ltb_lt in B.
    apply (DJ y z cy (ma_col a) NE My Mz k (cy + k - ma_col a)%nat K); lia. }
  unfold run. rewrite !fold_V_mA. rewrite (fold_col _ _ r (col mapping y + k)%nat Q) by exact OMS.
  rewrite (fold_col _ _ r (col mapping y + k)%nat Q) by exact OM. exact C.
Qed.

(* any number of runs with changing values *)
Lemma clean_runs big v_size vars mapping src tgt sub g : forall Vs m,
  layout v_size vars mapping -> sound big v_size mapping src tgt sub g ->
  clean v_size mapping vars src sub tgt (mA m) ->
  clean v_size mapping vars src sub tgt (mA (fold_left (fun m V => run v_size V tgt g m) Vs m)).
Proof. induction Vs as [|V Vs IH]; simpl; intros; auto. apply IH; auto. eapply clean_run; eauto. Qed.

(* histories of weight updates *)
Section Hist.
Variables (sqrtf : Q -> Q) (big : Q) (v_size : nat -> nat) (mapping : nat -> option nat).
Variables (src : source) (tgt : target) (sub : substs) (scal : Q).
Definition winv (q : reqs) (g : assignment) : Prop :=
  sound big v_size mapping src tgt sub g /\ g_defA g = q_adef q /\ w_s (g_data g) == sqrtf (q_weight q) * scal /\
  (g_defS g = true -> w_s (g_data g) == 1) /\
  (g_defA g = false -> forall i, w_a (g_data g) i == sqrtf (q_aniso q i) * w_s (g_data g)).
Lemma winv_construct q g : default_one sqrtf (Some q) ->
  construct sqrtf big v_size mapping src tgt sub (Some q) scal = Ok g -> winv q g.
Proof.
  intros D H. split; [eapply construct_sound; eauto|]. unfold construct in H.
  destruct (checkTarget src tgt sub) as [[]| |]; simpl in H; try discriminate.
  destruct (buildLists big v_size mapping src tgt sub (q_wdef q && Qeq_bool scal 1) (q_adef q)) as [[[[m ms] v] vs]| |] eqn:B; simpl in H; try discriminate.
  inversion H; subst; clear H. cbn [g_defA g_defS g_data w_s w_a]. simpl in D.
  destruct (q_wdef q) eqn:WD; simpl.
  - specialize (D eq_refl). destruct (Qeq_bool scal 1) eqn:S; [apply Qeq_bool_eq in S|].
    + split; [auto|]. split; [rewrite D, S; ring|]. split; [reflexivity|]. intros A i. rewrite A. unfold sqrtv. reflexivity.
    + split; [auto|]. split; [reflexivity|]. split; [discriminate|]. intros A i. rewrite A. unfold sqrtv. reflexivity.
  - split; [auto|]. split; [reflexivity|]. split; [discriminate|]. intros A i. rewrite A. unfold sqrtv. reflexivity.
Qed.
Lemma winv_wt q g i : winv q g -> wt g i == row_weight sqrtf (Some q) scal i.
Proof.
  intros (_ & A & S & DS & WA). unfold wt, eff, row_weight. rewrite <- A. destruct (g_defA g).
  - destruct (g_defS g).
    + specialize (DS eq_refl). rewrite <- S, DS. reflexivity.
    + rewrite S. ring.
  - rewrite (WA eq_refl i), S. ring.
Qed.
Lemma winv_step q g q' sc ve g' : winv q g -> default_one sqrtf (Some q') -> proper_step q (q', sc, ve) ->
  updateWeights sqrtf big v_size mapping src tgt sub q' scal sc ve g = Ok g' -> winv q' g'.
Proof.
  intros W D (P1 & P2 & P3 & P4 & P5) U. unfold updateWeights in U.
  destruct ((sc && g_defS g) || (ve && g_defA g)) eqn:E; [eapply winv_construct; eauto|].
  destruct W as (SD & A & S & DS & WA).
  apply orb_false_iff in E as [E1 E2].
  unfold onUpdateWeights in U. destruct sc; simpl in E1, U.
  - rewrite E1 in U. simpl in U. destruct ve; simpl in E2, U.
    + specialize (P4 eq_refl). rewrite E2, P4 in U. simpl in U. destruct (negb _); [discriminate|]. injection U as <-.
      destruct SD as (CT & BL & WM & WMA).
      split; [|split; [|split; [|split]]]; cbn [g_defA g_defS g_data w_s w_a]; try congruence; try reflexivity.
      split; [auto|]. split; [first [exact BL | rewrite E1 in BL; exact BL | rewrite E2 in BL; exact BL | rewrite E1, E2 in BL; exact BL]|]. cbn. split; [reflexivity|]. intros; reflexivity.
    + injection U as <-. assert (QA : q_adef q' = true) by (apply P5; reflexivity).
      destruct (P2 eq_refl) as [P2a P2b]. destruct SD as (CT & BL & WM & WMA).
      split; [|split; [|split; [|split]]]; cbn [g_defA g_defS g_data w_s w_a]; try congruence; try reflexivity.
      split; [auto|]. split; [first [exact BL | rewrite E1 in BL; exact BL | rewrite E2 in BL; exact BL | rewrite E1, E2 in BL; exact BL]|]. cbn. split; [reflexivity|]. auto.
  - destruct (P1 eq_refl) as [P1a P1b]. destruct ve; simpl in E2, U.
    + specialize (P4 eq_refl). rewrite E2, P4 in U. simpl in U. destruct (negb _); [discriminate|]. injection U as <-.
      destruct SD as (CT & BL & WM & WMA).
      split; [|split; [|split; [|split]]]; cbn [g_defA g_defS g_data w_s w_a]; try congruence; auto.
      all: try (rewrite P1a; auto; fail). all: try (intros; reflexivity).
      split; [auto|]. split; [first [exact BL | rewrite E1 in BL; exact BL | rewrite E2 in BL; exact BL | rewrite E1, E2 in BL; exact BL]|]. cbn. split; [auto|]. intros; reflexivity.
    + injection U as <-. destruct (P2 eq_refl) as [P2a P2b]. destruct g as [a b c d e f h]. simpl in *.
      split; [exact SD|]. split; [simpl; congruence|]. split; [simpl; rewrite P1a; auto|]. split; [auto|].
      intros Z i. simpl. rewrite (WA Z i). rewrite P2b. reflexivity.
Qed.
Lemma winv_hist : forall us q g g', winv q g -> proper_hist sqrtf q us -> updates sqrtf big v_size mapping src tgt sub scal us g = Ok g' ->
  winv (last_req q us) g'.
Proof.
  induction us as [|[[q' sc] ve] us IH]; simpl; intros q g g' W P U; [injection U as <-; auto|].
  destruct P as (P1 & P2 & P3).
  destruct (updateWeights sqrtf big v_size mapping src tgt sub q' scal sc ve g) as [g1| |] eqn:E; simpl in U; try discriminate.
  eapply IH; [|exact P3|exact U]. eapply winv_step; eauto.
Qed.
End Hist.
