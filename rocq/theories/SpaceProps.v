(* C08: Space. *)
Require Import ZArith Bool Lia List.
Require Import Verif.Base Verif.SpaceModel.
Import ListNotations.
Local Open Scope Z_scope.

(* The spaces a program can build: constructor calls that return, with a
   non-negative size for the typed Euclidean constructor, and products. *)
Inductive api : space -> Prop :=
| api3 : forall a b c s, space3 a b c = Ok s -> api s
| api2 : forall a b s, space2 a b = Ok s -> api s
| api1 : forall a s, space1 a = Ok s -> api s
| apiT : forall ty n s, spaceT ty n = Ok s -> (ty = Euclidean -> 0 <= n) -> api s
| apiM : forall a b s, api a -> api b -> space_mul a b = Ok s -> api s.

Lemma space3_ok a b c s : space3 a b c = Ok s ->
  0 <= a <= b /\ a <= c /\ s = mkSpace a b c (if (a =? b) && (a =? c) then Euclidean else Unspecified).
Proof.
  unfold space3. destruct (Z.leb_spec 0 a), (Z.leb_spec a b), (Z.leb_spec a c); simpl; intros E; inversion E; auto.
Qed.

Lemma eqb_ty a b : stype_eqb a b = true <-> a = b.
Proof. destruct a, b; simpl; split; congruence. Qed.

Lemma mul_ok a b s : space_mul a b = Ok s ->
  mSize s = mSize a + mSize b /\ rSize s = rSize a + rSize b /\ tSize s = tSize a + tSize b /\
  (type_ s = Euclidean <-> type_ a = Euclidean /\ type_ b = Euclidean) /\
  (type_ s <> Euclidean -> type_ s = Unspecified).
Proof.
  unfold space_mul. destruct (space3 _ _ _) as [p| |] eqn:E; simpl; try discriminate.
  apply space3_ok in E as (_ & _ & ->). intros H; inversion H; subst; simpl. repeat split.
  all: destruct (type_ a), (type_ b); simpl in *; intuition congruence.
Qed.

Lemma api_inv s : api s ->
  0 <= mSize s /\ mSize s <= rSize s /\ mSize s <= tSize s /\
  (isEuclideanS s = true <-> mSize s = rSize s /\ mSize s = tSize s).
Proof.
  assert (K : forall a b c s, space3 a b c = Ok s -> 0 <= mSize s /\ mSize s <= rSize s /\ mSize s <= tSize s /\
    (isEuclideanS s = true <-> mSize s = rSize s /\ mSize s = tSize s)).
  { intros a b c s0 E. apply space3_ok in E as (H1 & H2 & ->). simpl. repeat split; try lia.
    all: unfold isEuclideanS in *; simpl in *; destruct (Z.eqb_spec a b), (Z.eqb_spec a c); simpl in *; try easy; try lia. }
  induction 1 as [a b c s E|a b s E|a s E|ty n s E Hn|a b s Ha IHa Hb IHb E]; eauto.
  - destruct ty; simpl in E.
    + inversion E; subst; simpl. specialize (Hn eq_refl). repeat split; lia.
    + destruct (n <? 0); inversion E; subst; simpl. repeat split; try lia; try easy.
    + destruct (n <? 0); inversion E; subst; simpl. repeat split; try lia; try easy.
    + discriminate.
  - destruct (mul_ok _ _ _ E) as (H1 & H2 & H3 & H4 & _).
    split; [lia|]. split; [lia|]. split; [lia|].
    unfold isEuclideanS in *. rewrite eqb_ty in *. rewrite H4.
    destruct IHa as (? & ? & ? & ->). destruct IHb as (? & ? & ? & ->). lia.
Qed.

Lemma mul_total a b : api a -> api b -> exists s, space_mul a b = Ok s /\ api s.
Proof.
  intros Ha Hb. destruct (api_inv _ Ha) as (? & ? & ? & _). destruct (api_inv _ Hb) as (? & ? & ? & _).
  destruct (space_mul a b) as [s| |] eqn:E.
  - exists s. split; auto. apply (apiM a b s); auto.
  - unfold space_mul, space3 in E. destruct (_ && _) in E; simpl in E; discriminate.
  - unfold space_mul, space3 in E.
    destruct (Z.leb_spec 0 (mSize a + mSize b)), (Z.leb_spec (mSize a + mSize b) (rSize a + rSize b)),
      (Z.leb_spec (mSize a + mSize b) (tSize a + tSize b)); simpl in E; try discriminate; lia.
Qed.

Lemma mul_assoc a b c : api a -> api b -> api c ->
  exists ab bc s, space_mul a b = Ok ab /\ space_mul b c = Ok bc /\ space_mul ab c = Ok s /\ space_mul a bc = Ok s.
Proof.
  intros Ha Hb Hc.
  destruct (mul_total a b Ha Hb) as (ab & E1 & A1). destruct (mul_total b c Hb Hc) as (bc & E2 & A2).
  destruct (mul_total ab c A1 Hc) as (s & E3 & A3). destruct (mul_total a bc Ha A2) as (s' & E4 & A4).
  exists ab, bc, s. repeat split; auto. rewrite E4. f_equal.
  pose proof (mul_ok _ _ _ E1) as (a1 & a2 & a3 & a4 & a5). pose proof (mul_ok _ _ _ E2) as (b1 & b2 & b3 & b4 & b5).
  pose proof (mul_ok _ _ _ E3) as (c1 & c2 & c3 & c4 & c5). pose proof (mul_ok _ _ _ E4) as (d1 & d2 & d3 & d4 & d5).
  destruct s as [m r t ty], s' as [m' r' t' ty']. simpl in *.
  assert (Ety : ty' = ty).
  { assert (K : ty' = Euclidean <-> ty = Euclidean) by tauto.
    destruct ty, ty'; auto; try (specialize (c5 ltac:(discriminate)); discriminate);
      try (specialize (d5 ltac:(discriminate)); discriminate); intuition discriminate. }
  f_equal; try lia; auto.
Qed.

Lemma mul_unit a : api a -> exists z s, space1 0 = Ok z /\ space_mul a z = Ok s /\ space_mul z a = Ok s /\
  mSize s = mSize a /\ rSize s = rSize a /\ tSize s = tSize a /\ isEuclideanS s = isEuclideanS a.
Proof.
  intros Ha. exists (mkSpace 0 0 0 Euclidean).
  assert (Az : api (mkSpace 0 0 0 Euclidean)) by (apply (api1 0); reflexivity).
  destruct (mul_total a _ Ha Az) as (s & E & A). exists s. split; [reflexivity|]. split; [auto|].
  pose proof (mul_ok _ _ _ E) as (a1 & a2 & a3 & a4 & a5). simpl in *.
  assert (Ee : isEuclideanS s = isEuclideanS a).
  { unfold isEuclideanS. destruct (stype_eqb (type_ a) Euclidean) eqn:K.
    - apply eqb_ty. apply eqb_ty in K. tauto.
    - apply not_true_iff_false. rewrite eqb_ty. apply not_true_iff_false in K. rewrite eqb_ty in K. tauto. }
  split; [|repeat split; try lia; auto].
  rewrite <- E. unfold space_mul; simpl. rewrite (Z.add_comm (mSize a)), (Z.add_comm (rSize a)), (Z.add_comm (tSize a)).
  destruct (space3 _ _ _); simpl; auto. rewrite andb_true_r. auto.
Qed.

Lemma le_spec a b : space_le a b = true <-> mSize a <= mSize b /\ rSize a <= rSize b /\ tSize a <= tSize b.
Proof. unfold space_le. rewrite !andb_true_iff, !Z.leb_le. tauto. Qed.

Lemma eq_spec a b : space_eq a b = true <-> a = b.
Proof.
  unfold space_eq. rewrite !andb_true_iff, !Z.eqb_eq, eqb_ty. destruct a, b; simpl.
  split; [intros [[[-> ->] ->] ->]; auto|intros H; inversion H; auto].
Qed.

Lemma sp_api_group s : api s ->
  (type_ s = SO3 -> mSize s = 3 /\ rSize s = 4 /\ tSize s = 3) /\
  (type_ s = SE3 -> mSize s = 6 /\ rSize s = 7 /\ tSize s = 6).
Proof.
  assert (K : forall a b c s, space3 a b c = Ok s -> type_ s = Euclidean \/ type_ s = Unspecified).
  { intros a b c s0 E. apply space3_ok in E as (_ & _ & ->). simpl. destruct (_ && _); auto. }
  destruct 1 as [a b c s E|a b s E|a s E|ty n s E Hn|a b s Ha Hb E].
  1-3: apply K in E as [->| ->]; split; discriminate.
  - destruct ty; simpl in E; try (destruct (n <? 0)); inversion E; subst; simpl; split; intros; try discriminate; auto.
  - destruct (mul_ok _ _ _ E) as (_ & _ & _ & _ & H). split; intros H1; rewrite H1 in H; specialize (H ltac:(discriminate)); discriminate.
Qed.

Lemma sp_accepted a b c : (exists s, space3 a b c = Ok s) <-> 0 <= a /\ a <= b /\ a <= c.
Proof.
  split.
  - intros (s & E). apply space3_ok in E. lia.
  - intros (H1 & H2 & H3). unfold space3. destruct (Z.leb_spec 0 a), (Z.leb_spec a b), (Z.leb_spec a c); simpl; try lia. eauto.
Qed.

(* The type of a space of rotations or of rigid motions fixes its three sizes. *)
Theorem C08_group_sizes : forall s, api s ->
  (type_ s = SO3 -> mSize s = 3 /\ rSize s = 4 /\ tSize s = 3) /\
  (type_ s = SE3 -> mSize s = 6 /\ rSize s = 7 /\ tSize s = 6).
Proof. exact sp_api_group. Qed.
(* Three sizes make a space exactly when they are ordered. *)
Theorem C08_accepted : forall a b c, (exists s, space3 a b c = Ok s) <-> 0 <= a /\ a <= b /\ a <= c.
Proof. exact sp_accepted. Qed.
Example C08_group_example : exists s, spaceT SE3 (-1) = Ok s /\ api s /\ type_ s = SE3 /\ spaceT SE3 6 = UB /\ space3 3 2 3 = UB.
Proof. eexists. split; [reflexivity|]. split; [eapply (apiT SE3 (-1)); [reflexivity|discriminate]|]. repeat split. Qed.

(* Every space of the API is ordered, and Euclidean exactly when its sizes agree. *)
Theorem C08_sizes : forall s, api s ->
  0 <= mSize s /\ mSize s <= rSize s /\ mSize s <= tSize s /\
  (isEuclideanS s = true <-> mSize s = rSize s /\ mSize s = tSize s).
Proof. exact api_inv. Qed.

(* Products never violate an assertion, add the sizes and are Euclidean exactly when both
   factors are. *)
Theorem C08_product_total : forall a b, api a -> api b -> exists s, space_mul a b = Ok s /\ api s.
Proof. exact mul_total. Qed.
Theorem C08_product : forall a b s, space_mul a b = Ok s ->
  mSize s = mSize a + mSize b /\ rSize s = rSize a + rSize b /\ tSize s = tSize a + tSize b /\
  (type_ s = Euclidean <-> type_ a = Euclidean /\ type_ b = Euclidean) /\
  (type_ s <> Euclidean -> type_ s = Unspecified).
Proof. exact mul_ok. Qed.
Theorem C08_product_assoc : forall a b c, api a -> api b -> api c ->
  exists ab bc s, space_mul a b = Ok ab /\ space_mul b c = Ok bc /\ space_mul ab c = Ok s /\ space_mul a bc = Ok s.
Proof. exact mul_assoc. Qed.
Theorem C08_product_unit : forall a, api a ->
  exists z s, space1 0 = Ok z /\ space_mul a z = Ok s /\ space_mul z a = Ok s /\
    mSize s = mSize a /\ rSize s = rSize a /\ tSize s = tSize a /\ isEuclideanS s = isEuclideanS a.
Proof. exact mul_unit. Qed.
Theorem C08_order : forall a b,
  space_le a b = true <-> mSize a <= mSize b /\ rSize a <= rSize b /\ tSize a <= tSize b.
Proof. exact le_spec. Qed.
Theorem C08_equality : forall a b, space_eq a b = true <-> a = b.
Proof. exact eq_spec. Qed.

(* The zero space is not a unit for the type: SO3 * 0 is Unspecified. *)
Theorem C08_unit_type_refuted : exists a z s,
  spaceT SO3 (-1) = Ok a /\ space1 0 = Ok z /\ space_mul a z = Ok s /\ space_eq s a = false.
Proof. eexists _, _, _. repeat split. Qed.

(* Space(Space::Type::Euclidean) with the default size is accepted and has size -1. *)
Theorem C08_default_size_refuted : exists s, spaceT Euclidean (-1) = Ok s /\ mSize s < 0.
Proof. eexists. split; [reflexivity|simpl; lia]. Qed.

Example C08_example : exists so3 r3 s, spaceT SO3 (-1) = Ok so3 /\ space1 3 = Ok r3 /\ space_mul so3 r3 = Ok s /\
  api s /\ s = mkSpace 6 7 6 Unspecified.
Proof.
  eexists _, _, _. split; [reflexivity|]. split; [reflexivity|]. split; [reflexivity|]. split; [|reflexivity].
  eapply apiM; [eapply (apiT SO3 (-1)); [reflexivity|discriminate]|apply (api1 3); reflexivity|reflexivity].
Qed.

Print Assumptions C08_sizes.
Print Assumptions C08_product_total.
Print Assumptions C08_product.
Print Assumptions C08_product_assoc.
Print Assumptions C08_product_unit.
Print Assumptions C08_order.
Print Assumptions C08_equality.
Print Assumptions C08_unit_type_refuted.
Print Assumptions C08_default_size_refuted.
Print Assumptions C08_group_sizes.
Print Assumptions C08_accepted.
