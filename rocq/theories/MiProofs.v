Require Import ZArith QArith Qabs List Bool Lia Lqa.
Require Import Verif.Base Verif.MiModel Verif.MiSpec.
Import ListNotations.
Local Open Scope Z_scope.

Lemma mi_defined p M : 0 <= e_rows M -> 0 <= e_cols M -> exists b, isInMatrix p M = Ok b /\
  (b = true <-> (0 < e_rowStride M /\ exists i j, 0 <= i < e_rows M /\ 0 <= j < e_cols M /\ i * e_rowStride M < e_colStride M /\
                p = e_data M + i * e_rowStride M + j * e_colStride M)).
Proof.
  destruct M as [dt n m rs cs]; unfold isInMatrix, modulo; cbn [e_data e_rows e_cols e_rowStride e_colStride].
  intros Hn Hm.
  destruct (Z.ltb_spec (p - dt) 0) as [H0|H0].
  { eexists; split; [reflexivity|]. split; [discriminate|]. intros [Hr (i & j & Hi & Hj & Hlt & Hp)]. nia. }
  destruct (Z.leb_spec (m * cs) (p - dt)) as [H1|H1].
  { eexists; split; [reflexivity|]. split; [discriminate|]. intros [Hr (i & j & Hi & Hj & Hlt & Hp)]. nia. }
  assert (Hcs : 0 < cs) by nia.
  destruct (Z.eqb_spec cs 0) as [->|_]; [lia|]. cbn [bind].
  rewrite (Z.rem_mod_nonneg (p - dt) cs) by lia.
  pose proof (Z.mod_pos_bound (p - dt) cs Hcs) as Hb.
  pose proof (Z.div_mod (p - dt) cs ltac:(lia)) as Hdm.
  assert (Hq : 0 <= (p - dt) / cs < m) by (split; [apply Z.div_pos; lia|apply Z.div_lt_upper_bound; nia]).
  assert (U : forall i j, 0 <= i -> 0 < rs -> i * rs < cs -> p = dt + i * rs + j * cs -> (p - dt) mod cs = i * rs /\ (p - dt) / cs = j).
  { intros i j Hi Hr Hlt Hp. assert (E : p - dt = cs * j + i * rs) by lia. split; symmetry.
    - apply (Z.mod_unique_pos _ _ j); nia.
    - apply (Z.div_unique_pos _ _ _ (i * rs)); nia. }
  destruct (Z.leb_spec (n * rs) ((p - dt) mod cs)) as [H2|H2].
  { eexists; split; [reflexivity|]. split; [discriminate|]. intros [Hr (i & j & Hi & Hj & Hlt & Hp)].
    destruct (U i j) as [E _]; try lia. nia. }
  assert (Hrs : 0 < rs) by nia.
  destruct (Z.eqb_spec rs 0) as [->|_]; [lia|]. cbn [bind].
  rewrite (Z.rem_mod_nonneg ((p - dt) mod cs) rs) by lia.
  eexists; split; [reflexivity|]. rewrite Z.eqb_eq. split.
  - intros E. split; [lia|].
    pose proof (Z.div_mod ((p - dt) mod cs) rs ltac:(lia)) as Hd2. rewrite E in Hd2.
    exists (((p - dt) mod cs) / rs), ((p - dt) / cs).
    assert (0 <= ((p - dt) mod cs) / rs) by (apply Z.div_pos; lia).
    assert (((p - dt) mod cs) / rs < n) by (apply Z.div_lt_upper_bound; nia).
    repeat split; try lia.
  - intros [Hr (i & j & Hi & Hj & Hlt & Hp)]. destruct (U i j) as [E _]; try lia. rewrite E. apply Z.mod_mul. lia.
Qed.

Lemma mi_sound p M : 0 <= e_rows M -> 0 <= e_cols M -> isInMatrix p M = Ok true -> element p M.
Proof.
  intros Hn Hm H. destruct (mi_defined p M Hn Hm) as (b & Hb & HS). rewrite H in Hb. injection Hb as <-.
  destruct (proj1 HS eq_refl) as [Hr (i & j & Hi & Hj & _ & Hp)]. exists i, j. auto.
Qed.

Lemma mi_exact M : 0 <= e_rows M -> 0 <= e_cols M -> columns M -> forall p, isInMatrix p M = Ok true <-> element p M.
Proof.
  intros Hn Hm [Hr Hc] p. split; [now apply mi_sound|]. intros (i & j & Hi & Hj & Hp).
  destruct (mi_defined p M Hn Hm) as (b & Hb & HS). rewrite Hb. f_equal. apply HS. split; [lia|]. exists i, j.
  repeat split; try lia. nia.
Qed.

Lemma mi_only M : 0 < e_rows M -> 0 < e_cols M -> (forall p, isInMatrix p M = Ok true <-> element p M) -> columns M.
Proof.
  intros Hn Hm H.
  assert (F : forall p, element p M -> 0 < e_rowStride M /\ exists i j, 0 <= i < e_rows M /\ 0 <= j < e_cols M /\ i * e_rowStride M < e_colStride M /\
                p = e_data M + i * e_rowStride M + j * e_colStride M).
  { intros p Hp. apply H in Hp. destruct (mi_defined p M ltac:(lia) ltac:(lia)) as (b & Hb & HS). apply HS. congruence. }
  destruct (F (e_data M + (e_rows M - 1) * e_rowStride M + (e_cols M - 1) * e_colStride M)) as [Hr (i & j & Hi & Hj & Hlt & Hp)].
  { exists (e_rows M - 1), (e_cols M - 1). lia. }
  split; [exact Hr|]. assert (0 <= i * e_rowStride M) by nia.
  destruct (Z.eq_dec j (e_cols M - 1)) as [->|Hne]; [nia|].
  assert (j <= e_cols M - 2) by lia. nia.
Qed.

Lemma mi_false p M : 0 <= e_rows M -> 0 <= e_cols M -> ~ element p M -> isInMatrix p M = Ok false.
Proof.
  intros Hn Hm H. destruct (mi_defined p M Hn Hm) as (b & Hb & HS). destruct b; [|exact Hb]. exfalso. apply H. now apply mi_sound.
Qed.

Lemma unique_place rs cs n i j i' j' : 0 < rs -> (n - 1) * rs < cs -> 0 <= i < n -> 0 <= i' < n ->
  i * rs + j * cs = i' * rs + j' * cs -> i = i' /\ j = j'.
Proof.
  intros Hr Hc Hi Hi' E. assert (j = j').
  { destruct (Z.lt_trichotomy j j') as [L|[L|L]]; [|exact L|]; exfalso.
    - assert (0 <= i' * rs) by nia. assert (i * rs <= (n-1) * rs) by nia. nia.
    - assert (0 <= i * rs) by nia. assert (i' * rs <= (n-1) * rs) by nia. nia. }
  subst j'. split; [nia|reflexivity].
Qed.

(* the coefficients of A taken every r rows and c columns *)
Lemma mi_map A i j h w r c k l : columns A -> 0 <= h -> 0 <= w -> 0 < r -> 0 < c -> 0 <= i -> 0 <= j ->
  (0 < h -> i + (h - 1) * r < e_rows A) -> 0 <= k < e_rows A -> 0 <= l < e_cols A ->
  coeffInMatrix A k l (mapOf A i j h w r c) = Ok true <->
  (exists a b, 0 <= a < h /\ 0 <= b < w /\ k = i + a * r /\ l = j + b * c).
Proof.
  intros [Hr Hc] Hh Hw H0 H0' Hi Hj HI Hk Hl. unfold coeffInMatrix.
  destruct (Z.eq_dec h 0) as [->|Hne].
  { split.
    - intros H. apply mi_sound in H; [|cbn; lia|cbn; lia]. destruct H as (a & b & Ha & _). cbn in Ha. lia.
    - intros (a & b & Ha & _). lia. }
  rewrite mi_exact; [|cbn; lia|cbn; lia|].
  - unfold element, mapOf, coeffAddr; cbn [e_data e_rows e_cols e_rowStride e_colStride]. split.
    + intros (a & b & Ha & Hb & E). exists a, b.
      assert (0 <= a * r) by nia. assert (a * r <= (h - 1) * r) by nia. specialize (HI ltac:(lia)).
      destruct (unique_place (e_rowStride A) (e_colStride A) (e_rows A) k l (i + a * r) (j + b * c)) as [-> ->]; try lia; repeat split; lia.
    + intros (a & b & Ha & Hb & -> & ->). exists a, b. repeat split; try lia.
  - unfold columns, mapOf; cbn [e_data e_rows e_cols e_rowStride e_colStride]. split; [nia|].
    assert ((h - 1) * r <= e_rows A - 1) by nia.
    assert ((h - 1) * r * e_rowStride A <= (e_rows A - 1) * e_rowStride A) by (apply Z.mul_le_mono_nonneg_r; lia).
    assert (0 <= (e_rows A - 1) * e_rowStride A) by (apply Z.mul_nonneg_nonneg; lia).
    assert (e_colStride A <= c * e_colStride A) by nia. lia.
Qed.

Lemma map_block A i j h w : mapOf A i j h w 1 1 = block A i j h w.
Proof. unfold mapOf, block. f_equal; lia. Qed.

Lemma mi_block A i j h w k l : columns A -> 0 <= h -> 0 <= w -> 0 <= i -> 0 <= j -> i + h <= e_rows A ->
  0 <= k < e_rows A -> 0 <= l < e_cols A ->
  coeffInMatrix A k l (block A i j h w) = Ok (((i <=? k) && (k <? i + h)) && ((j <=? l) && (l <? j + w))).
Proof.
  intros HA Hh Hw Hi Hj HI Hk Hl.
  assert (E : coeffInMatrix A k l (block A i j h w) = Ok true <-> i <= k < i + h /\ j <= l < j + w).
  { rewrite <- map_block. rewrite mi_map; try lia; try assumption.
    split; [intros (a & b & ?); lia|intros H; exists (k - i), (l - j); lia]. }
  destruct (mi_defined (coeffAddr A k l) (block A i j h w) Hh Hw) as (b & Hb & _).
  unfold coeffInMatrix in *. rewrite Hb in *. f_equal. apply eq_true_iff_eq.
  rewrite !andb_true_iff, !Z.leb_le, !Z.ltb_lt. split; intros H.
  - subst b. destruct (proj1 E eq_refl). lia.
  - assert (Ok b = Ok true) as X by (apply E; lia). now injection X.
Qed.

Lemma block_columns A i j h w : columns A -> h <= e_rows A -> columns (block A i j h w).
Proof. unfold columns, block; cbn. intros [? ?] ?. split; nia. Qed.

(* ---- values ---- *)
Lemma flLe_below x y : flLe x y = true <-> below x y.
Proof.
  destruct x as [|[]|p], y as [|[]|q]; cbn; try (split; [intros; now auto|intros; now auto]); try (split; [discriminate|easy]).
  - split; [discriminate|]. intros H. now specialize (H eq_refl).
  - apply Qle_bool_iff.
Qed.

Lemma elem_between a x b : flLe a (flAbs x) && flLe (flAbs x) b = true <-> between a x b.
Proof.
  rewrite andb_true_iff, !flLe_below. destruct x as [|n|q]; cbn [flAbs between].
  - split; [intros [H _]; destruct a as [|[]|]; exact H|easy].
  - reflexivity.
  - split.
    + intros [H1 H2]. exists (Qabs q). repeat split; auto. { apply Qabs_nonneg. }
      destruct (Qlt_le_dec q 0); [right; apply Qabs_neg; lra|left; apply Qabs_pos; lra].
    + intros (y & Hy & He & H1 & H2).
      assert (E : (Qabs q == y)%Q).
      { destruct He as [He|He]; [rewrite Qabs_pos; lra|rewrite Qabs_neg; lra]. }
      split; [destruct a as [|[]|]; cbn in *; auto; now rewrite E|destruct b as [|[]|]; cbn in *; auto; now rewrite E].
Qed.

Lemma has_spec A a b : hasElemAbsInRange A a b = true <-> exists x, In x A /\ between a x b.
Proof. unfold hasElemAbsInRange. rewrite existsb_exists. now setoid_rewrite elem_between. Qed.
