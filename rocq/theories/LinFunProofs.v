Require Import QArith ZArith List Bool Sorting Lia Lqa Arith.
Require Import Verif.Base Verif.QSum Verif.RangeModel Verif.RangeCountingModel Verif.RangeCountingSpec.
Require Import Verif.SpaceModel Verif.VarCountingModel Verif.VarCountingSpec Verif.VarCountingProofs2 Verif.VarCountingProofs4 Verif.VarCountingProofs6.
Require Import Verif.LinFunModel Verif.LinFunSpec.
Import ListNotations.
Local Open Scope Z_scope.
Local Arguments Z.add : simpl never.
Local Arguments Z.sub : simpl never.
Local Arguments Z.of_nat : simpl never.
Local Arguments Z.to_nat : simpl never.

(* ---- sums ---- *)
Lemma qsum_map {A B} (g : A -> B) (f : B -> Q) l : (qsum f (map g l) == qsum (fun a => f (g a)) l)%Q.
Proof. induction l; simpl; [reflexivity|]. rewrite IHl. reflexivity. Qed.
Lemma qsumn_split f a b : (qsumn f (a + b) == qsumn f a + qsumn (fun k => f (a + k)%nat) b)%Q.
Proof.
  unfold qsumn. rewrite seq_app, qsum_app. simpl.
  assert (E : seq a b = map (fun k => (a + k)%nat) (seq 0 b)).
  { clear. assert (H : forall c, seq (a + c) b = map (fun k => (a + k)%nat) (seq c b)).
    { induction b as [|b IH]; intros c; simpl; [reflexivity|]. f_equal. replace (S (a + c)) with (a + S c)%nat by lia. apply IH. }
    specialize (H O). rewrite Nat.add_0_r in H. exact H. }
  rewrite E, qsum_map. reflexivity.
Qed.
(* adding a block of columns to a matrix *)
Lemma block_sum (J A g : nat -> Q) s m N : (s + m <= N)%nat ->
  (qsumn (fun c => (if (Z.of_nat s <=? Z.of_nat c) && (Z.of_nat c <? Z.of_nat s + Z.of_nat m) then J c + A (c - s)%nat else J c) * g c) N ==
   qsumn (fun c => J c * g c) N + qsumn (fun j => A j * g (s + j)%nat) m)%Q.
Proof.
  intros H. set (F := fun c => (if (Z.of_nat s <=? Z.of_nat c) && (Z.of_nat c <? Z.of_nat s + Z.of_nat m) then J c + A (c - s)%nat else J c)%Q).
  change (qsumn (fun c => F c * g c) N == qsumn (fun c => J c * g c) N + qsumn (fun j => A j * g (s + j)%nat) m)%Q.
  replace N with (s + (m + (N - s - m)))%nat by lia. rewrite !qsumn_split.
  assert (E1 : (qsumn (fun c => F c * g c) s == qsumn (fun c => J c * g c) s)%Q).
  { apply qsumn_ext. intros k Hk. unfold F. replace ((Z.of_nat s <=? Z.of_nat k)) with false by (symmetry; apply Z.leb_gt; lia). reflexivity. }
  assert (E2 : (qsumn (fun k => F (s + k)%nat * g (s + k)%nat) m == qsumn (fun k => J (s + k)%nat * g (s + k)%nat) m + qsumn (fun j => A j * g (s + j)%nat) m)%Q).
  { rewrite <- qsumn_add. apply qsumn_ext. intros k Hk. unfold F.
    replace ((Z.of_nat s <=? Z.of_nat (s + k))) with true by (symmetry; apply Z.leb_le; lia).
    replace ((Z.of_nat (s + k) <? Z.of_nat s + Z.of_nat m)) with true by (symmetry; apply Z.ltb_lt; lia). simpl.
    replace (s + k - s)%nat with k by lia. ring. }
  assert (E3 : (qsumn (fun k => F (s + (m + k))%nat * g (s + (m + k))%nat) (N - s - m) == qsumn (fun k => J (s + (m + k))%nat * g (s + (m + k))%nat) (N - s - m))%Q).
  { apply qsumn_ext. intros k Hk. unfold F.
    replace ((Z.of_nat (s + (m + k)) <? Z.of_nat s + Z.of_nat m)) with false by (symmetry; apply Z.ltb_ge; lia). rewrite andb_false_r. reflexivity. }
  rewrite E1, E2, E3. ring.
Qed.

Section Layout.
Variables (L : layout) (spOf : nat -> space) (base : nat -> bool).
Hypothesis G : good L spOf.

(* the atoms of a part have the same size in the three spaces *)
Definition flat (k : nat) (q : Range) : Prop :=
  forall a, In_range q a -> or_ L k (a + 1) - or_ L k a = om L k (a + 1) - om L k a /\ ot L k (a + 1) - ot L k a = om L k (a + 1) - om L k a.
Lemma flat_sums k q : flat k q -> forall n, Z.of_nat n <= dim q ->
  or_ L k (start q + Z.of_nat n) - or_ L k (start q) = om L k (start q + Z.of_nat n) - om L k (start q) /\
  ot L k (start q + Z.of_nat n) - ot L k (start q) = om L k (start q + Z.of_nat n) - om L k (start q).
Proof.
  intros F. induction n as [|n IH]; intros H.
  - rewrite Nat2Z.inj_0, Z.add_0_r. lia.
  - rewrite Nat2Z.inj_succ in *. destruct IH as [I1 I2]; [lia|]. destruct (F (start q + Z.of_nat n)) as [F1 F2]; [unfold In_range; lia|].
    replace (start q + Z.succ (Z.of_nat n)) with (start q + Z.of_nat n + 1) by lia. lia.
Qed.
Lemma flat_sub k q a : flat k q -> start q <= a <= rend q -> or_ L k a - or_ L k (start q) = ot L k a - ot L k (start q).
Proof.
  intros F H. destruct (flat_sums k q F (Z.to_nat (a - start q))) as [A B]; unfold rend in H; [lia|].
  replace (start q + Z.of_nat (Z.to_nat (a - start q))) with a in * by lia. lia.
Qed.
Lemma flat_of k q : 0 <= dim q -> or_ L k (rend q) - or_ L k (start q) = om L k (rend q) - om L k (start q) ->
  ot L k (rend q) - ot L k (start q) = om L k (rend q) - om L k (start q) -> flat k q.
Proof.
  intros D H1 H2 a Ha. unfold In_range, rend in *.
  pose proof (om_or L spOf G k (start q) a ltac:(lia)). pose proof (om_or L spOf G k a (a + 1) ltac:(lia)). pose proof (om_or L spOf G k (a + 1) (start q + dim q) ltac:(lia)).
  pose proof (om_ot L spOf G k (start q) a ltac:(lia)). pose proof (om_ot L spOf G k a (a + 1) ltac:(lia)). pose proof (om_ot L spOf G k (a + 1) (start q + dim q) ltac:(lia)).
  lia.
Qed.

(* the coordinate at which an atom begins *)
Definition co (k : nat) (a : Z) : Z := if base k then or_ L k a else ot L k a.
Lemma co_lt k a b : a < b -> co k a < co k b.
Proof. intros H. unfold co. destruct (base k); [apply (or_mono L spOf G)|apply (ot_mono L spOf G)]; exact H. Qed.
Lemma co_le_iff k a b : co k a <= co k b <-> a <= b.
Proof. destruct (Z.lt_trichotomy a b) as [H|[->|H]]; [pose proof (co_lt k a b H)| |pose proof (co_lt k b a H)]; lia. Qed.
Lemma co_lt_iff k a b : co k a < co k b <-> a < b.
Proof. pose proof (co_le_iff k b a). lia. Qed.

Definition part (x : cvar) (p : nat * Range) : Prop := c_sup x = fst p /\ made_of L x (snd p) /\ 0 < dim (snd p).
Lemma sub_range x p : part x p -> start (subRange base x) = co (fst p) (start (snd p)) /\ rend (subRange base x) = co (fst p) (rend (snd p)).
Proof.
  intros (E & (_ & _ & _ & _ & _ & R1 & R2 & T1 & T2) & _). rewrite E in *. unfold subRange, rend at 1, vsize, co. simpl. rewrite E. destruct (base (fst p)); lia.
Qed.
Lemma tsub_range x p : part x p -> start (tSubRange x) = ot L (fst p) (start (snd p)) /\ rend (tSubRange x) = ot L (fst p) (rend (snd p)) /\
  dim (tSubRange x) = tSize (c_space x).
Proof.
  intros (E & (_ & _ & _ & _ & _ & R1 & R2 & T1 & T2) & _). rewrite E in *. unfold tSubRange, tRng, rend at 1. simpl. lia.
Qed.
Lemma vcont_iff x y p q : part x p -> part y q ->
  (vcont base x y = true <-> fst p = fst q /\ start (snd p) <= start (snd q) /\ rend (snd q) <= rend (snd p)).
Proof.
  intros P Q. pose proof (sub_range x p P) as [A B]. pose proof (sub_range y q Q) as [C D]. destruct P as (Ex & _ & Dx), Q as (Ey & _ & Dy).
  unfold vcont, containsR, containsI. rewrite A, B, C, D, Ex, Ey. rewrite !andb_true_iff, Nat.eqb_eq, !Z.leb_le, Z.ltb_lt. split.
  - intros [E [[H1 H2] H3]]. rewrite E in *. rewrite co_le_iff in H1, H3. auto.
  - intros [E [H1 H2]]. rewrite E in *. rewrite !co_le_iff, co_lt_iff. unfold rend in *. split; auto. lia.
Qed.
Lemma vint_iff x y p q : part x p -> part y q -> (vint base x y = true <-> fst p = fst q /\ exists a, In_range (snd p) a /\ In_range (snd q) a).
Proof.
  intros P Q. pose proof (sub_range x p P) as [A B]. pose proof (sub_range y q Q) as [C D]. destruct P as (Ex & _ & Dx), Q as (Ey & _ & Dy).
  unfold vint, intersects, containsI. rewrite A, B, C, D, Ex, Ey. rewrite andb_true_iff, orb_true_iff, !andb_true_iff, Nat.eqb_eq, !Z.leb_le, !Z.ltb_lt. split.
  - intros [E H]. rewrite E in *. split; auto. rewrite !co_le_iff, !co_lt_iff in H. unfold rend, In_range in *.
    destruct H as [H|H]; [exists (start (snd q))|exists (start (snd p))]; lia.
  - intros [E (a & H1 & H2)]. rewrite E in *. split; auto. rewrite !co_le_iff, !co_lt_iff. unfold rend, In_range in *. lia.
Qed.

(* ---- entries ---- *)
Definition fitp (n : nat) (x : cvar) (A : mat) : Prop := mr A = n /\ Z.of_nat (mc A) = tSize (c_space x).
Definition flatp (p : nat * Range) : Prop := base (fst p) = true -> flat (fst p) (snd p).
Definition einv (n : nat) (j : jent) (p : nat * Range) : Prop := part (j_var j) p /\ fitp n (j_var j) (j_mat j) /\ shape_true (j_mat j) (j_shape j).

Lemma flat_size x p : part x p -> flatp p -> vsize base x = tSize (c_space x).
Proof.
  intros P F. destruct (P) as (E & (_ & _ & _ & _ & _ & R1 & R2 & T1 & T2) & D). unfold vsize. rewrite E in *.
  destruct (base (fst p)) eqn:B; [|reflexivity]. pose proof (flat_sub (fst p) (snd p) (rend (snd p)) (F B)). unfold rend in *. lia.
Qed.

(* what an entry contributes, with the values of the variables read from coordinate [org x] *)
Section Sum.
Variables (org : cvar -> Z) (env : nat -> Z -> Q).
Definition contrib (A : mat) (x : cvar) (i : nat) : Q := qsumn (fun c => me A i c * env (c_sup x) (org x + Z.of_nat c))%Q (mc A).
Definition jsum (jac : list jent) (i : nat) : Q := qsum (fun j => contrib (j_mat j) (j_var j) i) jac.
(* [org] follows the tangent coordinates in what is inside a part *)
Definition follows (p : nat * Range) : Prop :=
  forall x y q, part x p -> part y q -> fst p = fst q -> start (snd p) <= start (snd q) -> rend (snd q) <= rend (snd p) ->
    org y - org x = start (tSubRange y) - start (tSubRange x).
Lemma jsum_app a b i : (jsum (a ++ b) i == jsum a i + jsum b i)%Q.
Proof. apply qsum_app. Qed.

Lemma plusAt_sum n x q A : part x q -> mr A = n -> Z.of_nat (mc A) = tSize (c_space x) ->
  forall jac es, Forall2 (einv n) jac es -> existsb (fun j => vcont base (j_var j) x) jac = true ->
  exists jac', plusAt base jac x A = Ok jac' /\ Forall2 (einv n) jac' es /\
    ((forall p, In p es -> follows p) -> forall i, (jsum jac' i == jsum jac i + contrib A x i)%Q).
Proof.
  intros Px Hr Hc. induction 1 as [|j p jac es E F IH]; intros H; simpl in H; [discriminate|]. cbn [plusAt].
  destruct (vcont base (j_var j) x) eqn:C.
  - clear IH H. destruct E as (Pj & [Fr Fc] & Sh). apply (vcont_iff _ _ p q Pj Px) in C. destruct C as (C1 & C2 & C3).
    pose proof (tsub_range _ _ Pj) as (A1 & A2 & A3). pose proof (tsub_range _ _ Px) as (B1 & B2 & B3).
    assert (M : forall a b, a <= b -> ot L (fst p) a <= ot L (fst p) b).
    { intros a b Hab. destruct (Z.eq_dec a b) as [->|Nq]; [lia|]. pose proof (ot_mono L spOf G (fst p) a b). lia. }
    assert (Er : rend (tSubRange x) = start (tSubRange x) + tSize (c_space x)) by (unfold rend; lia).
    assert (Ej : rend (tSubRange (j_var j)) = start (tSubRange (j_var j)) + tSize (c_space (j_var j))) by (unfold rend; lia).
    set (rel := if req _ _ then _ else _).
    assert (R : start rel = start (tSubRange x) - start (tSubRange (j_var j)) /\ dim rel = tSize (c_space x)).
    { unfold rel. destruct (req (subRange base (j_var j)) (subRange base x)) eqn:Q.
      - unfold req in Q. apply andb_true_iff in Q. destruct Q as [Q1 Q2]. apply Z.eqb_eq in Q1, Q2.
        pose proof (sub_range _ _ Pj) as [S1 S2]. pose proof (sub_range _ _ Px) as [S3 S4].
        assert (X1 : start (snd p) = start (snd q)). { rewrite S1, S3, C1 in Q2. pose proof (co_le_iff (fst q) (start (snd p)) (start (snd q))). pose proof (co_le_iff (fst q) (start (snd q)) (start (snd p))). lia. }
        assert (X2 : rend (snd p) = rend (snd q)). { assert (rend (subRange base (j_var j)) = rend (subRange base x)) as Y by (unfold rend; lia). rewrite S2, S4, C1 in Y. pose proof (co_le_iff (fst q) (rend (snd p)) (rend (snd q))). pose proof (co_le_iff (fst q) (rend (snd q)) (rend (snd p))). lia. }
        cbn [start dim]. rewrite A1, B1, X1, C1. split; [lia|]. rewrite Fc. rewrite C1, X2 in A2. rewrite C1, X1 in A1. lia.
      - cbn [start dim relativeRange shiftR]. split; [lia|]. exact B3. }
    destruct R as [R1 R2]. rewrite <- C1 in B1, B2.
    assert (T1 : ot L (fst p) (start (snd p)) <= ot L (fst p) (start (snd q))) by (apply M; exact C2).
    assert (T2 : ot L (fst p) (rend (snd q)) <= ot L (fst p) (rend (snd p))) by (apply M; exact C3).
    replace (0 <=? start rel) with true by (symmetry; apply Z.leb_le; lia).
    replace (rend rel <=? Z.of_nat (mc (j_mat j))) with true by (symmetry; apply Z.leb_le; unfold rend; lia).
    replace (dim rel =? Z.of_nat (mc A)) with true by (symmetry; apply Z.eqb_eq; lia).
    replace (Nat.eqb (mr A) (mr (j_mat j))) with true by (symmetry; apply Nat.eqb_eq; congruence). simpl andb. cbn iota.
    eexists. split; [reflexivity|]. split.
    + constructor; [|exact F]. split; [exact Pj|]. split; [split; [exact Fr|exact Fc]|exact Logic.I].
    + intros Fo i. unfold jsum. cbn [qsum j_var j_mat].
      assert (K : (contrib (mkMat (mr (j_mat j)) (mc (j_mat j)) (fun i c => if (start rel <=? Z.of_nat c) && (Z.of_nat c <? rend rel) then me (j_mat j) i c + me A i (c - Z.to_nat (start rel))%nat else me (j_mat j) i c)%Q) (j_var j) i
                 == contrib (j_mat j) (j_var j) i + contrib A x i)%Q).
      { unfold contrib. simpl mc. simpl me.
        pose proof (block_sum (me (j_mat j) i) (me A i) (fun c => env (c_sup (j_var j)) (org (j_var j) + Z.of_nat c)) (Z.to_nat (start rel)) (mc A) (mc (j_mat j))) as BS.
        replace (Z.of_nat (Z.to_nat (start rel))) with (start rel) in BS by lia. replace (Z.of_nat (mc A)) with (dim rel) in BS by lia.
        fold (rend rel) in BS. rewrite BS by lia. apply Qplus_comp; [reflexivity|]. apply qsumn_ext. intros c _.
        destruct (Pj) as (Ej1 & _), (Px) as (Ex1 & _). rewrite Ej1, Ex1, C1.
        pose proof (Fo p (or_introl eq_refl) (j_var j) x q Pj Px C1 C2 C3) as O.
        replace (org x + Z.of_nat c) with (org (j_var j) + Z.of_nat (Z.to_nat (start rel) + c)) by lia. reflexivity. }
      rewrite K. ring.
  - simpl in H. destruct (IH H) as (jac' & E1 & E2 & E3). rewrite E1. simpl bind. eexists. split; [reflexivity|]. split; [constructor; auto|].
    intros Fo i. unfold jsum. cbn [qsum]. fold (jsum jac' i) (jsum jac i). rewrite E3 by (intros; apply Fo; right; auto). ring.
Qed.
End Sum.
End Layout.
