Require Import ZArith List Bool Lia.
Require Import Verif.Base Verif.RangeModel Verif.SpaceModel Verif.SpaceProps Verif.VariableModel Verif.VariableSpec Verif.VariableProofs Verif.VariableProofs2.
Import ListNotations.
Local Open Scope Z_scope.

(* [content] is what [value] returns, read at the absolute position of the cell. *)
Lemma value_content h v o : reachable h -> nth_error (objs h) v = Some o ->
  exists l, value h v = Ok l /\ length l = Z.to_nat (v_size o) /\
   forall k, (k < length l)%nat -> nth_error l k = content h (v_block o, v_off o + Z.of_nat k).
Proof.
  intros R E. pose proof (reach_hinv _ R) as I. destruct (slice_in h v o I E) as (S1 & S2 & S3).
  unfold value. rewrite (proj2 (get_ok _ _ _) E). simpl bind. cbv beta. eexists. split; [reflexivity|].
  assert (L : length (firstn (Z.to_nat (v_size o)) (skipn (Z.to_nat (v_off o)) (blockOf h (v_block o)))) = Z.to_nat (v_size o)).
  { rewrite firstn_length, skipn_length. lia. }
  split; [exact L|]. intros k Hk. rewrite L in Hk.
  destruct (value_nth h v o k E S1 Hk) as (l & E1 & E2). unfold value in E1. rewrite (proj2 (get_ok _ _ _) E) in E1.
  simpl in E1. inversion E1; subst l. rewrite E2. unfold content; simpl. f_equal. lia.
Qed.

Lemma c07_setS h v i n x : reachable h -> (v < length (objs h))%nat -> exists l, value h v = Ok l /\
  (~ (0 <= i /\ i + n <= Z.of_nat (length l) /\ Z.of_nat (length x) = n) -> vsetS h v i n x = Throw) /\
  (0 <= i /\ i + n <= Z.of_nat (length l) /\ Z.of_nat (length x) = n ->
   exists h' l', vsetS h v i n x = Ok h' /\ objs h' = objs h /\ value h' v = Ok l' /\ length l' = length l /\
    (forall k, nth_error l' k = if (Nat.leb (Z.to_nat i) k && Nat.ltb k (Z.to_nat i + length x))%bool
                                then nth_error x (k - Z.to_nat i) else nth_error l k) /\
    (forall c, 0 <= snd c -> ~ cell h v c -> content h' c = content h c)).
Proof.
  intros R Hv. destruct (vrange h v R Hv) as (o & E & I). destruct (slice_in h v o I E) as (S1 & S2 & S3).
  destruct (value_content h v o R E) as (l & El & Ll & Cl). exists l. split; [auto|].
  pose proof (ok_blk _ _ _ (hi_obj _ I v o E)) as Hb.
  unfold vsetS. rewrite (proj2 (get_ok _ _ _) E). simpl bind. cbv beta. split.
  - intros H. destruct (Z.leb_spec 0 i), (Z.leb_spec (i + n) (v_size o)), (Z.eqb_spec (Z.of_nat (length x)) n); auto.
    exfalso. apply H. lia.
  - intros (H1 & H2 & H3).
    assert (C : (0 <=? i) && (i + n <=? v_size o) && (Z.of_nat (length x) =? n) = true).
    { rewrite !andb_true_iff, !Z.leb_le, Z.eqb_eq. lia. }
    rewrite C.
    set (h' := write h (v_block o) (v_off o + i) x).
    assert (R' : reachable h').
    { eapply (r_step h (VSetS v i n x)); eauto. simpl. unfold vsetS. rewrite (proj2 (get_ok _ _ _) E). simpl bind. cbv beta. rewrite C. auto. }
    destruct (value_content h' v o R' E) as (l' & El' & Ll' & Cl'). exists h', l'. split; [auto|]. split; [auto|]. split; [auto|].
    split; [congruence|]. split.
    + intros k. destruct (Nat.lt_ge_cases k (length l')) as [Hk|Hk].
      * rewrite Cl' by auto. unfold h'. rewrite write_content by (simpl; lia). cbn [fst snd]. rewrite Nat.eqb_refl.
        rewrite (Cl k) by lia.
        destruct (Z.leb_spec (v_off o + i) (v_off o + Z.of_nat k)), (Nat.leb_spec (Z.to_nat i) k); try lia; simpl; auto.
        destruct (Z.ltb_spec (v_off o + Z.of_nat k) (v_off o + i + Z.of_nat (length x))), (Nat.ltb_spec k (Z.to_nat i + length x)); try lia; auto.
        f_equal. lia.
      * rewrite (proj2 (nth_error_None l' k)) by lia. rewrite (proj2 (nth_error_None l k)) by lia.
        destruct (Nat.leb_spec (Z.to_nat i) k), (Nat.ltb_spec k (Z.to_nat i + length x)); simpl; auto. lia.
    + intros [b k] Hk Hn. unfold h'. rewrite write_content by (simpl in *; lia). cbn [fst snd].
      destruct (Nat.eqb_spec (v_block o) b); simpl; auto.
      destruct (Z.leb_spec (v_off o + i) k), (Z.ltb_spec k (v_off o + i + Z.of_nat (length x))); simpl; auto.
      exfalso. apply Hn. exists o. simpl. repeat split; auto; lia.
Qed.

Lemma c07_setI h v i x : vsetI h v i x = vsetS h v i 1 [x].
Proof.
  unfold vsetI, vsetS. destruct (get h v) as [o| |]; simpl; auto.
  replace (i + 1 <=? v_size o) with (i <? v_size o).
  - now rewrite andb_true_r.
  - destruct (Z.ltb_spec i (v_size o)), (Z.leb_spec (i + 1) (v_size o)); auto; lia.
Qed.

Lemma c07_set_size h v x l : reachable h -> (v < length (objs h))%nat -> value h v = Ok l ->
  (vset h v x = Throw <-> length x <> length l) /\ vset h v x <> UB.
Proof.
  intros R Hv El. destruct (vrange h v R Hv) as (o & E & I).
  destruct (value_content h v o R E) as (l0 & El0 & Ll & _). rewrite El in El0; inversion El0; subst l0.
  destruct (slice_in h v o I E) as (S1 & S2 & S3).
  unfold vset. rewrite (proj2 (get_ok _ _ _) E). simpl.
  destruct (Z.eqb_spec (Z.of_nat (length x)) (v_size o)); split; try split; try discriminate; auto; lia.
Qed.

(* a subvariable of an underived variable only adds an object *)
Lemma c07_sub_mem h v s sh a h' u o : nth_error (objs h) v = Some o -> v_dn o = O ->
  subvariable h v s sh a = Ok (h', u) -> mem h' = mem h.
Proof.
  intros E D. unfold subvariable. rewrite (proj2 (get_ok _ _ _) E). simpl bind. cbv beta.
  destruct (space_mul s sh) as [p| |]; simpl; try discriminate.
  destruct (negb _); try discriminate.
  destruct (superOf h v); simpl; try discriminate. destruct (basePrimitive h a0); simpl; try discriminate.
  destruct (get h a1) as [bo| |]; simpl; try discriminate. destruct (space_mul (v_shift o) sh); simpl; try discriminate.
  destruct (v_mem bo); try discriminate. rewrite D. intros H; inversion H; subst; auto.
Qed.

Lemma c07_set_zero h v : reachable h -> (v < length (objs h))%nat -> exists l h',
  value h v = Ok l /\ vsetZero h v = Ok h' /\ value h' v = Ok (repeat 0 (length l)) /\
  (forall c, 0 <= snd c -> ~ cell h v c -> content h' c = content h c) /\ objs h' = objs h.
Proof.
  intros R Hv. destruct (vrange h v R Hv) as (o & E & I). destruct (slice_in h v o I E) as (S1 & S2 & S3).
  pose proof (proj2 (get_ok _ _ _) E) as G.
  assert (Ez : vset h v (zeros (v_size o)) = vsetZero h v).
  { unfold vset, vsetZero. rewrite G. simpl. unfold zeros. rewrite repeat_length.
    destruct (Z.eqb_spec (Z.of_nat (Z.to_nat (v_size o))) (v_size o)); [reflexivity|lia]. }
  assert (El : exists l, value h v = Ok l /\ length l = Z.to_nat (v_size o)).
  { unfold value. rewrite G. simpl. eexists. split; [reflexivity|].
    rewrite firstn_length, skipn_length. lia. }
  destruct El as (l & El & Hl).
  assert (Eo : exists h', vsetZero h v = Ok h') by (unfold vsetZero; rewrite G; simpl; eauto).
  destruct Eo as (h' & Eo). exists l, h'. rewrite Eo in Ez.
  destruct (c07_set h v _ h' R Hv Ez) as (A & B & C). split; [auto|]. split; [auto|]. split; [|auto].
  rewrite A, Hl. reflexivity.
Qed.
