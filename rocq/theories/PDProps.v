(* C39: the proportional and proportional-derivative dynamics *)
From Coq Require Import List Bool Arith Reals Lra Lia.
Import ListNotations.
From Verif Require Import Base PDModel PDSpec PDProofs.
Local Open Scope R_scope.

Definition v2 (a b : R) : vec := mkVec 2 (fun i => match i with O => a | _ => b end).
Definition m2 (a b c d : R) : mat := mkMat 2 2 (fun i j => match i, j with O, O => a | O, _ => b | _, O => c | _, _ => d end).

Example p_ex : exists p q, pNew 2 true (v2 1 1) (Scalar 3) = Ok p /\ pRun p [Diagonal (v2 1 2); Matrix (m2 1 2 0 1)] = Ok q /\
  exists y, pValue q (v2 2 4) = Ok y /\ len y = 2%nat /\ vc y 0 = -7 /\ vc y 1 = -3.
Proof.
  exists (mkP 2 (v2 1 1) (Scalar 3)), (mkP 2 (v2 1 1) (Matrix (m2 1 2 0 1))). repeat split.
  eexists; split; [reflexivity|]. simpl. repeat split; lra.
Qed.

(* Whatever the changes of gain since its construction, Proportional returns -kp (f - rhs), kp being
   the last gain set, provided the first one has the right size. *)
Theorem C39_proportional : forall n eu rhs kp p gs q f, pNew n eu rhs kp = Ok p -> sized n kp -> pRun p gs = Ok q -> len f = n ->
  p_kp q = last gs kp /\
  exists y, pValue q f = Ok y /\ len y = n /\ forall i, (i < n)%nat -> vc y i = - product n (p_kp q) (fun j => vc f j - vc rhs j) i.
Proof.
  intros n eu rhs kp p gs q f H Z R F. unfold pNew in H. destruct (baseImpl n eu rhs) as [r| |] eqn:E; try discriminate. apply base_ok in E as (-> & L & _). simpl in H.
  destruct (match kp with Scalar _ => false | Diagonal k => negb (len k =? n) | Matrix k => negb (cols k =? n) && negb (rows k =? n) end); [discriminate|]. injection H as <-.
  destruct (pRun_ok gs (mkP n rhs kp) q n eq_refl L Z R) as (A & B & C & D). split; [exact D|].
  destruct (p_law n q f) as (y & Y); rewrite ?B; auto. rewrite B in Y. exists y. exact Y.
Qed.
Print Assumptions C39_proportional.

Definition schur1 (m : mat) : mat * mat := (mkMat (rows m) (rows m) (fun i j => if i =? j then 1 else 0), m).
Example pd_ex : exists p q, pdNew 2 true (v2 1 1) (Scalar 3, Scalar 1) = Ok p /\
  pdRun schur1 p [SetBoth (Scalar 4) (Diagonal (v2 1 2)); SetKp (Matrix (m2 1 0 0 4))] = Ok (Some q) /\
  exists y, pdValue q (v2 2 4) (v2 1 (-1)) = Ok y /\ len y = 2%nat /\ vc y 0 = -6 /\ vc y 1 = -4.
Proof.
  eexists. eexists. split; [reflexivity|]. split; [reflexivity|]. eexists; split; [reflexivity|]. simpl. repeat split; lra.
Qed.

(* ProportionalDerivative returns -kp (f - rhs) - kv f' with its current gains, whatever the changes
   of gains, provided the first ones have the right size. *)
Theorem C39_proportional_derivative : forall schur n eu rhs kp kv p os q f v,
  (forall k, rows (fst (schur k)) = rows k /\ cols (fst (schur k)) = rows k) ->
  pdNew n eu rhs (kp, kv) = Ok p -> sized n kp -> sized n kv -> pdRun schur p os = Ok (Some q) -> len f = n -> len v = n ->
  exists y, pdValue q f v = Ok y /\ len y = n /\
    forall i, (i < n)%nat -> vc y i = - product n (d_kp q) (fun j => vc f j - vc rhs j) i - product n (d_kv q) (vc v) i.
Proof.
  intros schur n eu rhs kp kv p os q f v Hs H A B R F V. unfold pdNew in H. destruct (baseImpl n eu rhs) as [r| |] eqn:E; try discriminate. apply base_ok in E as (-> & L & _).
  simpl in H. injection H as <-. apply (pd_law n rhs); auto. apply (pdRun_inv schur Hs n rhs os (mkPD n rhs kp kv)); [|exact R]. repeat split; assumption.
Qed.
Print Assumptions C39_proportional_derivative.

(* The forms of gain agree: gains standing for the same matrix give the same values. *)
Theorem C39_forms_agree : forall n k1 k2 c1 c2 (rhs f v : vec), sized n k1 -> sized n k2 -> sized n c1 -> sized n c2 -> len rhs = n -> len f = n -> len v = n ->
  (forall i j, (i < n)%nat -> (j < n)%nat -> dense k1 i j = dense k2 i j /\ dense c1 i j = dense c2 i j) ->
  exists y1 y2 z1 z2, pValue (mkP n rhs k1) f = Ok y1 /\ pValue (mkP n rhs k2) f = Ok y2 /\
    pdValue (mkPD n rhs k1 c1) f v = Ok z1 /\ pdValue (mkPD n rhs k2 c2) f v = Ok z2 /\
    len y1 = n /\ len y2 = n /\ len z1 = n /\ len z2 = n /\ forall i, (i < n)%nat -> vc y1 i = vc y2 i /\ vc z1 i = vc z2 i.
Proof.
  intros n k1 k2 c1 c2 rhs f v A1 A2 B1 B2 L F V E.
  destruct (p_law n (mkP n rhs k1) f L A1 F) as (y1 & Y1 & Ly1 & P1). destruct (p_law n (mkP n rhs k2) f L A2 F) as (y2 & Y2 & Ly2 & P2).
  destruct (pd_law n rhs (mkPD n rhs k1 c1) f v) as (z1 & Z1 & Lz1 & Q1); [repeat split; assumption|assumption..|].
  destruct (pd_law n rhs (mkPD n rhs k2 c2) f v) as (z2 & Z2 & Lz2 & Q2); [repeat split; assumption|assumption..|].
  exists y1, y2, z1, z2. repeat (split; [assumption|]).
  assert (K : forall i x, (i < n)%nat -> product n k1 x i = product n k2 x i).
  { intros i x Hi. apply sum_ext. intros j Hj. destruct (E i j Hi Hj) as [-> _]. reflexivity. }
  assert (C : forall i x, (i < n)%nat -> product n c1 x i = product n c2 x i).
  { intros i x Hi. apply sum_ext. intros j Hj. destruct (E i j Hi Hj) as [_ ->]. reflexivity. }
  intros i Hi. rewrite P1, P2, Q1, Q2 by assumption. simpl. rewrite (K i), (C i) by assumption. split; reflexivity.
Qed.
Print Assumptions C39_forms_agree.
Example forms_ex : forall i j, (i < 2)%nat -> (j < 2)%nat -> dense (Scalar 3) i j = dense (Diagonal (v2 3 3)) i j /\ dense (Diagonal (v2 3 3)) i j = dense (Matrix (m2 3 0 0 3)) i j.
Proof. intros [|[|i]] [|[|j]] Hi Hj; try lia; simpl; auto. Qed.

(* Critical damping, for scalar and diagonal gains, by the constructors and by the setters; a
   negative stiffness is the only way to get no damping. *)
Theorem C39_critical_damping_partial : forall schur n g p, sized n g -> d_n p = n -> match g with Matrix _ => False | _ => True end ->
  (forall kp kv, pdCritical schur g = Ok (Some (kp, kv)) -> kp = g /\ sized n kv /\ critical n kp kv /\ forall i, (i < n)%nat -> 0 <= dense kv i i) /\
  (forall q, pdGain schur p g = Ok (Some q) -> d_kp q = g /\ sized n (d_kv q) /\ critical n (d_kp q) (d_kv q) /\ forall i, (i < n)%nat -> 0 <= dense (d_kv q) i i) /\
  ((forall i, (i < n)%nat -> 0 <= dense g i i) -> (0 < n)%nat ->
     exists kv q, pdCritical schur g = Ok (Some (g, kv)) /\ pdGain schur p g = Ok (Some q)).
Proof.
  intros schur n g p Z N M. pose proof (critical_scalar schur n g M Z) as H.
  assert (C : checkGainSize n g = Ok tt) by (apply check_ok; exact Z).
  unfold pdCritical, pdGain. rewrite N, C. simpl. destruct (criticalDamping schur g) as [[kv|]| |]; [| |contradiction..].
  - destruct H as (A & B & D). split; [|split].
    + intros kp' kv' [= <- <-]. auto.
    + intros q [= <-]. simpl. destruct g; [auto|auto|contradiction].
    + intros _ _. simpl. eexists. eexists. split; reflexivity.
  - split; [discriminate|split; [discriminate|]]. intros P Hn. destruct H as (i & [[Hi K]|K]); [|lia]. specialize (P i Hi). lra.
Qed.
Print Assumptions C39_critical_damping_partial.
Example critical_ex : exists kv, pdCritical schur1 (Diagonal (v2 4 9)) = Ok (Some (Diagonal (v2 4 9), Diagonal kv)) /\ len kv = 2%nat /\ vc kv 0 = 4 /\ vc kv 1 = 6.
Proof.
  unfold pdCritical. simpl. destruct (Rlt_dec 4 0); [lra|]. simpl. destruct (Rlt_dec 9 0); [lra|]. simpl. eexists. split; [reflexivity|]. simpl. repeat split.
  - replace 4 with (2 * 2) by lra. rewrite sqrt_square; lra.
  - replace 9 with (3 * 3) by lra. rewrite sqrt_square; lra.
Qed.

(* For a matrix the damping is twice the stiffness, whatever the Schur decomposition with a diagonal
   T; it is critical only for a projection. *)
Theorem C39_matrix_damping : forall schur n k, rows k = n -> cols k = n -> isSchur n k (fst (schur k)) (snd (schur k)) -> isDiagonal n (snd (schur k)) ->
  exists kv, pdCritical schur (Matrix k) = Ok (Some (Matrix k, kv)) /\ sized n kv /\ (forall i j, (i < n)%nat -> (j < n)%nat -> dense kv i j = 2 * mc k i j) /\
    (critical n (Matrix k) kv <-> forall i j, (i < n)%nat -> (j < n)%nat -> sum n (fun l => mc k i l * mc k l j) = mc k i j).
Proof.
  intros schur n k R C S D. destruct (schur_damping schur n k R C S D) as (kv & E & Z & K). exists kv. unfold pdCritical. rewrite E. simpl.
  split; [reflexivity|]. split; [exact Z|]. split; [exact K|]. apply matrix_critical_iff. exact K.
Qed.
Print Assumptions C39_matrix_damping.
Lemma schur1_ok a d : isSchur 2 (m2 a 0 0 d) (fst (schur1 (m2 a 0 0 d))) (snd (schur1 (m2 a 0 0 d))) /\ isDiagonal 2 (snd (schur1 (m2 a 0 0 d))).
Proof.
  split.
  - unfold isSchur. simpl. repeat split; intros [|[|i]] [|[|j]] Hi Hj; try lia; simpl; lra.
  - intros [|[|i]] [|[|j]] Hi Hj N; try lia; simpl; reflexivity.
Qed.
Theorem C39_matrix_critical_refuted : exists schur k kv, isSchur 2 k (fst (schur k)) (snd (schur k)) /\ isDiagonal 2 (snd (schur k)) /\
  (forall i, (i < 2)%nat -> 0 < mc k i i) /\ pdCritical schur (Matrix k) = Ok (Some (Matrix k, kv)) /\ ~ critical 2 (Matrix k) kv.
Proof.
  exists schur1, (m2 4 0 0 4). destruct (C39_matrix_damping schur1 2 (m2 4 0 0 4) eq_refl eq_refl (proj1 (schur1_ok 4 4)) (proj2 (schur1_ok 4 4))) as (kv & E & _ & _ & K).
  exists kv. split; [apply schur1_ok|]. split; [apply schur1_ok|]. split; [intros [|[|i]] Hi; try lia; simpl; lra|]. split; [exact E|].
  intros H. destruct (K) as [K1 _]. specialize (K1 H 0%nat 0%nat ltac:(lia) ltac:(lia)). simpl in K1. lra.
Qed.
Print Assumptions C39_matrix_critical_refuted.

(* Setting a matrix stiffness alone changes the damping but not the stiffness. *)
Theorem C39_matrix_setter_keeps_stiffness : forall schur p k q, pdGain schur p (Matrix k) = Ok (Some q) -> d_kp q = d_kp p.
Proof.
  intros schur p k q H. unfold pdGain in H. destruct (checkGainSize (d_n p) (Matrix k)) as [[]| |]; try discriminate. simpl in H.
  destruct (rows k =? cols k); [|discriminate]. simpl in H. injection H as <-. reflexivity.
Qed.
Print Assumptions C39_matrix_setter_keeps_stiffness.
Theorem C39_matrix_setter_refuted : exists schur p q k, isSchur 2 k (fst (schur k)) (snd (schur k)) /\ pdGain schur p (Matrix k) = Ok (Some q) /\
  d_n p = 2%nat /\ dense (d_kp q) 0 0 <> mc k 0 0.
Proof.
  exists schur1, (mkPD 2 (v2 0 0) (Scalar 1) (Scalar 2)). eexists. exists (m2 9 0 0 9). split; [apply schur1_ok|]. split; [reflexivity|]. simpl. split; [reflexivity|lra].
Qed.
Print Assumptions C39_matrix_setter_refuted.

(* Sizes: the setters reject exactly the gains of another size. *)
Theorem C39_setters_check : forall schur n kp kv p q, p_n p = n -> d_n q = n ->
  (sized n kp -> pGain p kp = Ok (mkP n (p_rhs p) kp)) /\ (~ sized n kp -> pGain p kp = Throw) /\
  (sized n kp /\ sized n kv -> pdGains q kp kv = Ok (mkPD n (d_rhs q) kp kv)) /\ (~ (sized n kp /\ sized n kv) -> pdGains q kp kv = Throw) /\
  (~ sized n kp -> pdGain schur q kp = Throw).
Proof.
  intros schur n kp kv p q N M. destruct (check_ok n kp) as [A B], (check_ok n kv) as [C D]. unfold pGain, pdGains, pdGain. rewrite N, M.
  split; [|split; [|split; [|split]]].
  - intros H. apply A in H. rewrite H. reflexivity.
  - intros H. apply B in H. rewrite H. reflexivity.
  - intros [H K]. apply A in H. apply C in K. rewrite H, K. reflexivity.
  - intros H. destruct (checkGainSize n kp) as [[]| |] eqn:E; simpl; [|reflexivity|].
    + destruct (checkGainSize n kv) as [[]| |] eqn:E'; simpl; [exfalso; apply H; split; [apply A|apply C]; reflexivity|reflexivity|destruct kv; simpl in E'; repeat match type of E' with context[if ?b then _ else _] => destruct b end; discriminate].
    + destruct kp; simpl in E; repeat match type of E with context[if ?b then _ else _] => destruct b end; discriminate.
  - intros H. apply B in H. rewrite H. reflexivity.
Qed.
Print Assumptions C39_setters_check.
(* The constructors: Proportional rejects a diagonal of another size but only the matrices with both
   dimensions wrong. *)
Theorem C39_constructor : forall n eu rhs kp, eu = true -> len rhs = n ->
  (sized n kp -> pNew n eu rhs kp = Ok (mkP n rhs kp)) /\
  (match kp with Matrix _ => False | _ => True end -> ~ sized n kp -> pNew n eu rhs kp = Throw) /\
  (forall k, kp = Matrix k -> (pNew n eu rhs kp = Throw <-> rows k <> n /\ cols k <> n)).
Proof.
  intros n eu rhs kp -> L. unfold pNew, baseImpl. rewrite L, Nat.eqb_refl. simpl. split; [|split].
  - destruct kp as [k|k|k]; simpl; [reflexivity|intros ->|intros [-> ->]]; rewrite Nat.eqb_refl; reflexivity.
  - destruct kp as [k|k|k]; simpl; [tauto| |tauto]. intros _ H. apply Nat.eqb_neq in H. rewrite H. reflexivity.
  - intros k ->. destruct (Nat.eqb_spec (cols k) n), (Nat.eqb_spec (rows k) n); simpl; split; auto; try discriminate; tauto.
Qed.
Print Assumptions C39_constructor.
(* A 2x3 matrix is accepted for a function of size 2, the value is then undefined; a 3x2 matrix
   gives a value of size 3. *)
Theorem C39_constructor_refuted : exists k1 k2 rhs p1 p2, pNew 2 true rhs (Matrix k1) = Ok p1 /\ pNew 2 true rhs (Matrix k2) = Ok p2 /\
  (forall f, len f = 2%nat -> pValue p1 f = UB) /\ (forall f, len f = 2%nat -> exists y, pValue p2 f = Ok y /\ len y = 3%nat).
Proof.
  exists (mkMat 2 3 (fun _ _ => 1)), (mkMat 3 2 (fun _ _ => 1)), (v2 0 0). eexists. eexists. split; [reflexivity|]. split; [reflexivity|].
  split; intros f L; unfold pValue, vsub; simpl; rewrite L; simpl; [reflexivity|]. rewrite ?L; simpl. eexists; split; [reflexivity|]; reflexivity.
Qed.
Print Assumptions C39_constructor_refuted.
(* The implementation of ProportionalDerivative accepts gains of any size (release build). *)
Theorem C39_pd_constructor_refuted : exists n rhs kp kv p, ~ sized n kp /\ ~ sized n kv /\ pdNew n true rhs (kp, kv) = Ok p /\
  (forall f v, len f = n -> len v = n -> pdValue p f v = UB).
Proof.
  exists 2%nat, (v2 0 0), (Diagonal (mkVec 3 (fun _ => 1))), (Diagonal (mkVec 3 (fun _ => 1))). eexists.
  split; [discriminate|]. split; [discriminate|]. split; [reflexivity|]. intros f v L M. unfold pdValue. simpl. rewrite M. reflexivity.
Qed.
Print Assumptions C39_pd_constructor_refuted.

(* FeedForward: the term is added to the value - the documentation says subtracted. *)
Theorem C39_feed_forward : forall n (p : pimpl) ff x, ffNew n ff p = Ok p -> len x = n ->
  len ff = n /\ exists y, ffValue (Ok x) ff = Ok y /\ len y = n /\ forall i, vc y i = vc x i + vc ff i.
Proof.
  intros n p ff x H L. unfold ffNew in H. destruct (Nat.eqb_spec (len ff) n) as [E|]; [|discriminate]. split; [exact E|].
  unfold ffValue, vadd. simpl. rewrite L, E, Nat.eqb_refl. eexists; split; [reflexivity|]. split; [reflexivity|]. reflexivity.
Qed.
Print Assumptions C39_feed_forward.
