(* What running an assignment does to the rows of its target. *)
Require Import QArith Qminmax List Arith Bool Lia Lqa.
Require Import Verif.Base Verif.QSum Verif.AssignModel Verif.AssignSpec Verif.AssignProofs.
Import ListNotations.
Local Open Scope Q_scope.

Section Core.
Variable v_size : nat -> nat.
Variables (vars : list nat) (mapping : nat -> option nat).
Variables (src : source) (tgt : target) (sub : substs) (defS defA : bool) (V : values) (d : wdata).
Hypothesis L : layout v_size vars mapping.
Hypothesis R : resolved src sub.
Hypothesis G : agrees v_size src sub V.
Hypothesis MP : mapped v_size mapping src sub.
Hypothesis WS : w_ms d == - w_s d.
Hypothesis WA : defA = false -> forall i, w_ma d i == - w_a d i.
Definition eff (i : nat) : Q := if defA then (if defS then 1 else w_s d) else w_a d i.
Notation W := (weightOf defS defA).
Notation st := (col mapping).
Notation rM := (runM v_size V d tgt).
Notation ZS := (zs src sub).
Notation US := (us v_size src sub).
Notation SS := (ss v_size src sub).
Notation RV := (rowval v_size mapping vars).

Lemma applyW_eff flip i x : applyW d (W flip) i x == sg flip * eff i * x.
Proof.
  unfold weightOf, eff, sg. destruct defA eqn:A, defS, flip; simpl; try rewrite WS; try rewrite (WA eq_refl); ring.
Qed.

Definition cleanrow (A : mat) (r : nat) : Prop := forall y k, In y vars -> (k < v_size y)%nat ->
  ~ (In y (c_vars src) /\ findSub y sub = None) ->
  (forall z u, In z (c_vars src) -> findSub z sub = Some u -> ~ In y (s_vars u)) -> A r (st y + k)%nat == 0.
(* one column block, one row *)
Definition entry (a : masg) (i k : nat) : Q := applyW d (ma_w a) i (msrcVal v_size V (ma_src a) i k).
Lemma runM_in a m r c r0 n : mrows tgt (ma_slot a) = (r0, n) -> (r0 <= r < r0 + n)%nat ->
  mA (rM m a) r c = if inRange c (ma_col a) (ma_dim a) then applyA (ma_kind a) (mA m r c) (entry a (r - r0) (c - ma_col a)) else mA m r c.
Proof.
  intros E H. unfold runM. rewrite E. simpl. replace (inRange r r0 n) with true by (symmetry; apply inRange_spec; lia). reflexivity.
Qed.

Lemma ident_row i y (s : Q) (f : nat -> Q) : (i < c_size src)%nat -> v_size y = c_size src ->
  (forall i k, v_jac V y i k == if Nat.eqb i k then s else 0) ->
  qsumn (fun j => v_jac V y i j * f j) (v_size y) == s * f i.
Proof.
  intros IS S J. rewrite <- (qsumn_delta (fun j => s * f j) (v_size y) i) by lia.
  apply qsumn_ext. intros k K. rewrite J, (Nat.eqb_sym k i). destruct (Nat.eqb i k); ring.
Qed.

Section Slot.
Variables (M : mslot) (flip : bool) (r0 n i : nat).
Hypothesis E : mrows tgt M = (r0, n).
Hypothesis I : (i < n)%nat.
Hypothesis IS : (i < c_size src)%nat.
Notation r := (r0 + i)%nat.

Lemma copy_fold (f : nat -> masg) l :
  (forall y, ma_kind (f y) = COPY /\ ma_slot (f y) = M /\ ma_col (f y) = st y /\ ma_dim (f y) = v_size y) ->
  NoDup l -> (forall y, In y l -> In y vars) -> forall m y k, In y vars -> (k < v_size y)%nat ->
  mA (fold_left rM (map f l) m) r (st y + k)%nat ==
  if in_dec Nat.eq_dec y l then entry (f y) i k else mA m r (st y + k)%nat.
Proof.
  intros F N. induction N as [|z l Nz N IH]; intros H m y k Y K; cbn [map fold_left].
  - simpl. reflexivity.
  - rewrite IH by (auto; intros; apply H; simpl; auto).
    destruct (F z) as [F1 [F2 [F3 F4]]].
    destruct (in_dec Nat.eq_dec y l) as [J|J]; destruct (in_dec Nat.eq_dec y (z :: l)) as [J'|J']; simpl in J'; try tauto.
    + reflexivity.
    + destruct J' as [->|J']; [|tauto].
      rewrite (runM_in (f y) m r _ r0 n) by (rewrite ?F2; auto; lia). rewrite F1, F3, F4.
      replace (inRange (st y + k) (st y) (v_size y)) with true by (symmetry; apply inRange_spec; lia).
      simpl. replace (r0 + i - r0)%nat with i by lia. replace (st y + k - st y)%nat with k by lia. reflexivity.
    + rewrite (runM_in (f z) m r _ r0 n) by (rewrite ?F2; auto; lia). rewrite F3, F4.
      destruct (inRange (st y + k) (st z) (v_size z)) eqn:C; [|reflexivity].
      apply (col_disjoint v_size vars mapping L y z k Y) in C; auto; [subst; tauto|apply H; simpl; auto].
Qed.
Lemma in_vars y : mapping y <> None -> In y vars.
Proof. intros H. apply L. exact H. Qed.
Lemma us_nodup : NoDup US. Proof. apply NoDup_filter, R. Qed.
Lemma ss_nodup : NoDup SS. Proof. apply NoDup_filter, R. Qed.
(* the first phase *)
Lemma phase1 m x : cleanrow (mA m) r ->
  RV (mA (fold_left rM (mlist v_size mapping src sub defS defA M flip) m)) x r ==
  sg flip * eff i * qsum (fun y => qsumn (fun k => v_jac V y i k * x y k) (v_size y)) US.
Proof.
  intros C. unfold mlist. rewrite fold_left_app. set (m1 := fold_left rM (map (zeroA v_size mapping M) ZS) m).
  rewrite <- qsum_scale.
  rewrite <- (qsum_incl Nat.eq_dec (fun y => sg flip * eff i * qsumn (fun k => v_jac V y i k * x y k) (v_size y)) vars US (proj1 L) us_nodup)
    by (intros y Y; apply in_vars, MP; exact Y).
  unfold rowval. apply qsum_ext. intros y Y.
  assert (P : forall k, (k < v_size y)%nat ->
    mA (fold_left rM (map (jacA v_size mapping defS defA M flip) US) m1) r (st y + k)%nat ==
    if in_dec Nat.eq_dec y US then sg flip * eff i * v_jac V y i k else 0).
  { intros k K. rewrite (copy_fold (jacA v_size mapping defS defA M flip) US (fun z => conj eq_refl (conj eq_refl (conj eq_refl eq_refl))) us_nodup (fun z Z => in_vars z (proj1 (proj2 MP) z Z)) m1 y k Y K).
    destruct (in_dec Nat.eq_dec y US) as [J|J]; [apply applyW_eff|].
    unfold m1. rewrite (copy_fold (zeroA v_size mapping M) ZS (fun z => conj eq_refl (conj eq_refl (conj eq_refl eq_refl))) (zs_nodup src sub) (fun z Z => in_vars z (proj1 MP z Z)) m y k Y K).
    destruct (in_dec Nat.eq_dec y ZS) as [J'|J']; [reflexivity|]. apply C; auto.
    - intros [A B]. apply J. rewrite us_in. split; [exact A|split; [lia|exact B]].
    - intros z u A B Cc. destruct (in_dec Nat.eq_dec y (c_vars src)) as [D|D].
      + apply J. rewrite us_in. split; [exact D|split; [lia|]]. apply (proj2 R z u B). exact Cc.
      + apply J'. rewrite zs_in. split; [exact D|]. exists z. split; [exact A|]. unfold svars. rewrite B. exact Cc. }
  destruct (in_dec Nat.eq_dec y US) as [J|J].
  - rewrite <- qsumn_scale. apply qsumn_ext. intros k K. rewrite (P k K). ring.
  - apply qsumn_zero. intros k K. rewrite (P k K). ring.
Qed.
(* J(y) A(y,z), row i *)
Definition prod (y z : nat) (k : nat) : Q := qsumn (fun j => v_jac V y i j * v_sjac V y z j k) (v_size y).
Lemma step_sub y z m x : In y SS -> In z (svars sub y) ->
  RV (mA (rM m (subA v_size mapping src defS defA M flip y z))) x r ==
  RV (mA m) x r + sg flip * eff i * qsumn (fun k => prod y z k * x z k) (v_size z).
Proof.
  intros Y Z. assert (Zv : In z vars) by (apply in_vars; apply (proj2 (proj2 MP) y z Y Z)).
  rewrite <- qsumn_scale.
  rewrite (rowval_add v_size vars mapping L (mA m) _ x r z (fun k => sg flip * eff i * prod y z k) Zv).
  - apply Qplus_comp; [reflexivity|]. apply qsumn_ext. intros k _. ring.
  - intros c. assert (Yv : In y (c_vars src)) by (apply ss_in in Y; tauto).
    unfold subA. destruct (c_prop src y) eqn:P.
    + destruct (proj1 G y Yv P) as [S J].
      rewrite (runM_in _ m r c r0 n) by (auto; lia). cbn [ma_col ma_dim ma_kind].
      destruct (inRange c (st z) (v_size z)); [|reflexivity]. unfold entry. cbn [ma_w ma_src msrcVal].
      replace (r0 + i - r0)%nat with i by lia. unfold prod. rewrite (ident_row i y 1) by auto.
      destruct flip; simpl applyA; rewrite applyW_eff; unfold sg; ring.
    + destruct (proj1 (proj2 G) y Yv P) as [S J].
      rewrite (runM_in _ m r c r0 n) by (auto; lia). cbn [ma_col ma_dim ma_kind].
      destruct (inRange c (st z) (v_size z)); [|reflexivity]. unfold entry. cbn [ma_w ma_src msrcVal].
      replace (r0 + i - r0)%nat with i by lia. unfold prod. rewrite (ident_row i y (-(1))) by auto.
      destruct flip; simpl applyA; rewrite applyW_eff; unfold sg; ring.
    + rewrite (runM_in _ m r c r0 n) by (auto; lia). cbn [ma_col ma_dim ma_kind].
      destruct (inRange c (st z) (v_size z)); [|reflexivity]. unfold entry. cbn [ma_w ma_src msrcVal].
      replace (r0 + i - r0)%nat with i by lia. unfold prod.
      destruct flip; simpl applyA; rewrite applyW_eff, sumTo_qsumn; unfold sg; ring.
Qed.
Lemma phase2 m x :
  RV (mA (fold_left rM (mslist v_size mapping src sub defS defA M flip) m)) x r ==
  RV (mA m) x r + sg flip * eff i * qsum (fun y => qsum (fun z => qsumn (fun k => prod y z k * x z k) (v_size z)) (svars sub y)) SS.
Proof.
  unfold mslist. assert (H : forall y, In y SS -> In y SS) by auto. revert H.
  generalize SS at 1 3 4. intros l. revert m. induction l as [|y l IH]; intros m H; cbn [flat_map qsum].
  - simpl. ring.
  - rewrite fold_left_app, IH by (intros; apply H; simpl; auto).
    assert (Q : forall zz m, (forall z, In z zz -> In z (svars sub y)) ->
      RV (mA (fold_left rM (map (subA v_size mapping src defS defA M flip y) zz) m)) x r ==
      RV (mA m) x r + sg flip * eff i * qsum (fun z => qsumn (fun k => prod y z k * x z k) (v_size z)) zz).
    { induction zz as [|z zz IHz]; intros m' Hz; cbn [map fold_left qsum]; [ring|].
      rewrite IHz by (intros; apply Hz; simpl; auto).
      rewrite step_sub by (try apply H; try apply Hz; simpl; auto). ring. }
    rewrite Q by auto. ring.
Qed.
End Slot.

(* the left-hand side of the completed point *)
Definition bterm (i y : nat) : Q := qsumn (fun j => v_jac V y i j * v_sb V y j) (v_size y).
Lemma size0_filter (f : nat -> Q) (p : nat -> bool) l : (forall y, v_size y = 0%nat -> f y == 0) ->
  qsum f l == qsum f (filter (fun y => negb (Nat.eqb (v_size y) 0) && negb (p y)) l) + qsum f (filter (fun y => negb (Nat.eqb (v_size y) 0) && p y) l).
Proof.
  intros Z. induction l as [|y l IH]; simpl; [ring|]. rewrite IH.
  destruct (Nat.eqb (v_size y) 0) eqn:E; simpl; [rewrite (Z y) by (apply Nat.eqb_eq; exact E); ring|].
  destruct (p y); simpl; ring.
Qed.
Lemma lhs_completed x i :
  lhs v_size V (c_vars src) (completed v_size sub V x) i ==
  qsum (fun y => qsumn (fun k => v_jac V y i k * x y k) (v_size y)) US +
  qsum (fun y => qsum (fun z => qsumn (fun k => prod i y z k * x z k) (v_size z)) (svars sub y)) SS +
  qsum (bterm i) SS.
Proof.
  unfold lhs. rewrite (size0_filter _ (isSub sub)) by (intros y ->; reflexivity).
  fold US. fold SS. rewrite <- Qplus_assoc. apply Qplus_comp.
  - apply qsum_ext. intros y Y. apply us_in in Y. destruct Y as [_ [_ F]]. apply qsumn_ext. intros k _. unfold completed. rewrite F. reflexivity.
  - rewrite <- qsum_add. apply qsum_ext. intros y Y. apply ss_in in Y. destruct Y as [_ [_ F]].
    unfold completed, svars, bterm. destruct (findSub y sub) as [s|]; [|congruence].
    rewrite (qsumn_ext _ (fun k => v_jac V y i k * qsum (fun z => qsumn (fun k0 => v_sjac V y z k k0 * x z k0) (v_size z)) (s_vars s) + v_jac V y i k * v_sb V y k)) by (intros; ring).
    rewrite qsumn_add. apply Qplus_comp; [|reflexivity].
    rewrite (qsumn_ext _ (fun k => qsum (fun z => v_jac V y i k * qsumn (fun k0 => v_sjac V y z k k0 * x z k0) (v_size z)) (s_vars s))) by (intros; rewrite qsum_scale; reflexivity).
    unfold qsumn at 1. rewrite qsum_swap. apply qsum_ext. intros z _. fold (qsumn (fun j => v_jac V y i j * qsumn (fun k0 => v_sjac V y z j k0 * x z k0) (v_size z)) (v_size y)).
    rewrite (qsumn_ext _ (fun j => qsumn (fun k => v_jac V y i j * v_sjac V y z j k * x z k) (v_size z))).
    2: { intros j _. rewrite <- qsumn_scale. apply qsumn_ext. intros; ring. }
    rewrite qsumn_swap. apply qsumn_ext. intros k _. unfold prod. unfold qsumn. rewrite <- qsum_scale_r. reflexivity.
Qed.

(* vectors *)
Definition fval (f : rhsf) (i : nat) : Q := rhsVal V f i.
Section VSlot.
Variables (v : vslot) (r0 n i : nat).
Hypothesis E : vrows tgt v = (r0, n).
Hypothesis I : (i < n)%nat.
Hypothesis IS : (i < c_size src)%nat.
Notation r := (r0 + i)%nat.
Notation QF := (qf v_size V d tgt v r).
Lemma sameobj_refl : sameobj v v = true. Proof. destruct v; reflexivity. Qed.
Lemma stepV_in q k w s : stepV v_size V d tgt v r q (mkVA k w s v) = applyA k q (applyW d w i (vsrcVal v_size V s i)).
Proof.
  unfold stepV, touchV. cbn [va_slot va_kind va_w va_src]. rewrite E, sameobj_refl. cbn [fst snd].
  replace (inRange r r0 n) with true by (symmetry; apply inRange_spec; lia). cbn [andb].
  replace (r0 + i - r0)%nat with i by lia. reflexivity.
Qed.
Lemma vecA_val f flip q : (rhs_eqb (c_rhs src) RZERO = false -> rhs_eqb (t_rhs tgt) RZERO = false) ->
  rsign (t_rhs tgt) * QF (vecA src tgt defS defA f v flip) q == sg flip * eff i * (rsign (c_rhs src) * fval f i).
Proof.
  intros C. unfold vecA. destruct (c_rhs src), (t_rhs tgt), flip; simpl in *; try (specialize (C eq_refl); discriminate);
    unfold qf; cbn [fold_left]; rewrite ?stepV_in; simpl applyA; rewrite ?applyW_eff; cbn [applyW vsrcVal]; unfold fval, sg; simpl rsign; ring.
Qed.
Lemma vsubA_val y flip q : t_rhs tgt <> RZERO -> In y SS ->
  QF (vsubA src tgt sub defS defA v flip y) q == q + - (rsign (t_rhs tgt) * sg flip * eff i * bterm i y).
Proof.
  intros T Y. apply ss_in in Y. destruct Y as [Yv [_ F]].
  unfold vsubA, sbnz. destruct (findSub y sub) as [s|] eqn:FS; [|congruence].
  destruct (s_bnz s) eqn:B.
  - unfold qf; cbn [fold_left]. unfold bterm. destruct (c_prop src y) eqn:P.
    + destruct (proj1 G y Yv P) as [S J]. rewrite (ident_row i y 1 (v_sb V y) IS S J).
      destruct (t_rhs tgt), flip; try congruence; simpl; rewrite stepV_in; cbn [applyA vsrcVal]; rewrite applyW_eff; unfold sg; ring.
    + destruct (proj1 (proj2 G) y Yv P) as [S J]. rewrite (ident_row i y (-(1)) (v_sb V y) IS S J).
      destruct (t_rhs tgt), flip; try congruence; simpl; rewrite stepV_in; cbn [applyA vsrcVal]; rewrite applyW_eff; unfold sg; ring.
    + destruct (t_rhs tgt), flip; try congruence; simpl; rewrite stepV_in; cbn [applyA vsrcVal]; rewrite applyW_eff, sumTo_qsumn; unfold sg; ring.
  - unfold qf; cbn [fold_left]. assert (Z : bterm i y == 0).
    { apply qsumn_zero. intros k _. rewrite (proj2 (proj2 G) y s FS B k). ring. }
    rewrite Z. ring.
Qed.
End VSlot.
End Core.
