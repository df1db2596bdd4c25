From Coq Require Import List Bool Arith Reals Lra Lia.
Import ListNotations.
From Verif Require Import Base PDModel PDSpec.
Local Open Scope R_scope.

Lemma sum_ext n f g : (forall i, (i < n)%nat -> f i = g i) -> sum n f = sum n g.
Proof. induction n; intros H; simpl; [reflexivity|]. rewrite IHn by (intros; apply H; lia). rewrite H by lia. reflexivity. Qed.
Lemma sum_0 n : sum n (fun _ => 0) = 0.
Proof. induction n; simpl; lra. Qed.
Lemma sum_scale n c f : sum n (fun i => c * f i) = c * sum n f.
Proof. induction n; simpl; [lra|rewrite IHn; lra]. Qed.
Lemma sum_plus n f g : sum n (fun i => f i + g i) = sum n f + sum n g.
Proof. induction n; simpl; [lra|rewrite IHn; lra]. Qed.
Lemma sum_single n i f : (i < n)%nat -> (forall j, (j < n)%nat -> j <> i -> f j = 0) -> sum n f = f i.
Proof.
  induction n; intros Hi H; [lia|]. simpl. destruct (Nat.eq_dec i n) as [->|N].
  - rewrite (sum_ext n f (fun _ => 0)) by (intros; apply H; lia). rewrite sum_0. lra.
  - rewrite IHn by (intros; try apply H; lia). rewrite (H n) by lia. lra.
Qed.

Lemma times_ok n g x : sized n g -> len x = n -> exists y, times g x = Ok y /\ len y = n /\ forall i, (i < n)%nat -> vc y i = product n g (vc x) i.
Proof.
  intros Z L. unfold times, product. destruct g as [k|k|k]; simpl in *.
  - eexists; split; [reflexivity|]. split; [exact L|]. intros i Hi. simpl. symmetry.
    rewrite (sum_single n i) by first [exact Hi | intros j _ N; destruct (i =? j) eqn:E; [apply Nat.eqb_eq in E; congruence|lra]]. rewrite Nat.eqb_refl. reflexivity.
  - rewrite Z, L, Nat.eqb_refl. eexists; split; [reflexivity|]. split; [simpl; congruence|]. intros i Hi. simpl. symmetry.
    rewrite (sum_single n i) by first [exact Hi | intros j _ N; destruct (i =? j) eqn:E; [apply Nat.eqb_eq in E; congruence|lra]]. rewrite Nat.eqb_refl. reflexivity.
  - destruct Z as [Z1 Z2]. rewrite Z2, L, Nat.eqb_refl. eexists; split; [reflexivity|]. split; [exact Z1|]. reflexivity.
Qed.
Lemma vsub_ok n a b : len a = n -> len b = n -> vsub a b = Ok (mkVec n (fun i => vc a i - vc b i)).
Proof. intros A B. unfold vsub. rewrite A, B, Nat.eqb_refl. reflexivity. Qed.
Lemma base_ok n eu rhs r : baseImpl n eu rhs = Ok r -> r = rhs /\ len rhs = n /\ eu = true.
Proof. unfold baseImpl. destruct (n =? len rhs) eqn:E; [|discriminate]. apply Nat.eqb_eq in E. destruct eu; simpl; [|discriminate]. intros [= <-]. auto. Qed.
Lemma check_ok n g : (checkGainSize n g = Ok tt <-> sized n g) /\ (checkGainSize n g = Throw <-> ~ sized n g).
Proof.
  destruct g as [k|k|k]; simpl; [split; split; intros; auto; try discriminate; exfalso; auto| |].
  - destruct (len k =? n) eqn:E; simpl; [apply Nat.eqb_eq in E|apply Nat.eqb_neq in E]; split; split; intros; auto; try discriminate; congruence.
  - destruct (Nat.eqb_spec (rows k) n), (Nat.eqb_spec (cols k) n); simpl; split; split; intros H; auto; try discriminate; try tauto; destruct H; congruence.
Qed.

Lemma p_law n p f : len (p_rhs p) = n -> sized n (p_kp p) -> len f = n ->
  exists y, pValue p f = Ok y /\ len y = n /\ forall i, (i < n)%nat -> vc y i = - product n (p_kp p) (fun j => vc f j - vc (p_rhs p) j) i.
Proof.
  intros L Z F. unfold pValue. rewrite (vsub_ok n) by assumption. simpl.
  destruct (times_ok n (p_kp p) (mkVec n (fun i => vc f i - vc (p_rhs p) i)) Z eq_refl) as (y & E & Ly & Y). rewrite E. simpl.
  eexists; split; [reflexivity|]. split; [exact Ly|]. intros i Hi. simpl. rewrite Y by assumption. reflexivity.
Qed.

Lemma pRun_ok gs : forall p q n, p_n p = n -> len (p_rhs p) = n -> sized n (p_kp p) -> pRun p gs = Ok q ->
  p_n q = n /\ p_rhs q = p_rhs p /\ sized n (p_kp q) /\ p_kp q = last gs (p_kp p).
Proof.
  induction gs as [|g gs IH]; intros p q n N L Z H; simpl in H; [injection H as <-; auto|].
  unfold pGain in H. rewrite N in H. destruct (checkGainSize n g) as [[]| |] eqn:E; try discriminate. apply check_ok in E. simpl in H.
  destruct (IH (mkP n (p_rhs p) g) q n eq_refl L E H) as (A & B & C & D). repeat split; auto. simpl in D. rewrite D. destruct gs; [reflexivity|]. simpl. clear. revert g0.
  induction gs as [|a gs IH]; intros b; simpl; auto.
Qed.

Section Schur.
Variable schur : mat -> mat * mat.
Hypothesis Hsize : forall k, rows (fst (schur k)) = rows k /\ cols (fst (schur k)) = rows k.

Lemma critical_sized n g kv : sized n g -> criticalDamping schur g = Ok (Some kv) -> sized n kv.
Proof.
  destruct g as [k|k|k]; simpl.
  - destruct (Rlt_dec k 0); [discriminate|]. intros _ [= <-]. exact I.
  - intros Z. destruct existsb; [discriminate|]. intros [= <-]. exact Z.
  - intros [Z1 Z2]. destruct (rows k =? cols k); [|discriminate]. intros [= <-]. unfold schurDamping. destruct (Hsize k) as [A B]. destruct (schur k) as [u t]. simpl in *. split; congruence.
Qed.
Definition inv n rhs (p : pdimpl) := d_n p = n /\ d_rhs p = rhs /\ sized n (d_kp p) /\ sized n (d_kv p).
Lemma pdStep_inv n rhs p o q : inv n rhs p -> pdStep schur p o = Ok (Some q) -> inv n rhs q.
Proof.
  intros (N & L & A & B) H. destruct o as [kp kv|kp]; simpl in H.
  - unfold pdGains in H. rewrite N in H. destruct (checkGainSize n kp) as [[]| |] eqn:E; try discriminate. apply check_ok in E. simpl in H.
    destruct (checkGainSize n kv) as [[]| |] eqn:E'; try discriminate. apply check_ok in E'. simpl in H. injection H as <-. repeat split; auto.
  - unfold pdGain in H. rewrite N in H. destruct (checkGainSize n kp) as [[]| |] eqn:E; try discriminate. apply check_ok in E. simpl in H.
    destruct (criticalDamping schur kp) as [[kv|]| |] eqn:E'; try discriminate. simpl in H. injection H as <-.
    pose proof (critical_sized _ _ _ E E'). repeat split; auto. destruct kp; simpl; auto.
Qed.
Lemma pdRun_inv n rhs os : forall p q, inv n rhs p -> pdRun schur p os = Ok (Some q) -> inv n rhs q.
Proof.
  induction os as [|o os IH]; intros p q I H; simpl in H; [injection H as <-; exact I|].
  destruct (pdStep schur p o) as [[p'|]| |] eqn:E; try discriminate. simpl in H. eapply IH; [|exact H]. eapply pdStep_inv; eassumption.
Qed.
End Schur.
Lemma pd_law n rhs p f v : inv n rhs p -> len rhs = n -> len f = n -> len v = n ->
  exists y, pdValue p f v = Ok y /\ len y = n /\ forall i, (i < n)%nat -> vc y i = - product n (d_kp p) (fun j => vc f j - vc rhs j) i - product n (d_kv p) (vc v) i.
Proof.
  intros (N & E & A & B) L F V. unfold pdValue.
  destruct (times_ok n (d_kv p) v B V) as (x & Ex & Lx & X). rewrite Ex. simpl. rewrite E, (vsub_ok n) by assumption. simpl.
  destruct (times_ok n (d_kp p) (mkVec n (fun i => vc f i - vc rhs i)) A eq_refl) as (y & Ey & Ly & Y). rewrite Ey. simpl.
  rewrite (vsub_ok n) by assumption. eexists; split; [reflexivity|]. split; [reflexivity|]. intros i Hi. simpl. rewrite X, Y by assumption. simpl. lra.
Qed.

Lemma diag_square n a (i j : nat) : (i < n)%nat -> (j < n)%nat -> sum n (fun l => (if i =? l then a i else 0) * (if l =? j then a l else 0)) = if i =? j then a i * a i else 0.
Proof.
  intros Hi Hj. rewrite (sum_single n i) by first [exact Hi | intros l _ N; destruct (i =? l) eqn:E; [apply Nat.eqb_eq in E; congruence|lra]].
  rewrite Nat.eqb_refl. destruct (i =? j); lra.
Qed.
Lemma critical_scalar schur n g : match g with Matrix _ => False | _ => True end -> sized n g ->
  match criticalDamping schur g with
  | Ok (Some kv) => sized n kv /\ critical n g kv /\ (forall i, (i < n)%nat -> 0 <= dense kv i i)
  | Ok None => exists i, (i < n)%nat /\ dense g i i < 0 \/ (n = 0)%nat
  | _ => False end.
Proof.
  intros Hm Z. destruct g as [k|k|k]; simpl in *; [| |contradiction].
  - destruct (Rlt_dec k 0) as [K|K].
    + destruct n; [exists 0%nat; auto|]. exists 0%nat. left. simpl. split; [lia|exact K].
    + split; [exact I|]. split.
      * intros i j Hi Hj. simpl. rewrite (diag_square n (fun _ => 2 * sqrt k)) by assumption. destruct (i =? j); [|lra].
        assert (sqrt k * sqrt k = k) by (apply sqrt_sqrt; lra). nra.
      * intros i Hi. simpl. rewrite Nat.eqb_refl. pose proof (sqrt_pos k). lra.
  - destruct existsb eqn:E.
    + apply existsb_exists in E as (i & Hi & E). apply in_seq in Hi. destruct (Rlt_dec (vc k i) 0); [|discriminate]. exists i. left. simpl. rewrite Nat.eqb_refl. split; [lia|assumption].
    + assert (P : forall i, (i < n)%nat -> 0 <= vc k i).
      { intros i Hi. destruct (Rlt_dec (vc k i) 0) as [K|K]; [|lra]. exfalso.
        assert (X : existsb (fun i => if Rlt_dec (vc k i) 0 then true else false) (seq 0 (len k)) = true).
        { apply existsb_exists. exists i. split; [apply in_seq; lia|]. destruct (Rlt_dec (vc k i) 0); [reflexivity|contradiction]. } congruence. }
      split; [exact Z|]. split.
      * intros i j Hi Hj. simpl. rewrite (diag_square n (fun i => 2 * sqrt (vc k i))) by assumption. destruct (i =? j); [|lra].
        assert (sqrt (vc k i) * sqrt (vc k i) = vc k i) by (apply sqrt_sqrt; auto). nra.
      * intros i Hi. simpl. rewrite Nat.eqb_refl. pose proof (sqrt_pos (vc k i)). lra.
Qed.

(* For a matrix, whatever its Schur decomposition: twice the stiffness *)
Lemma schur_damping schur n k : rows k = n -> cols k = n -> isSchur n k (fst (schur k)) (snd (schur k)) -> isDiagonal n (snd (schur k)) ->
  exists kv, criticalDamping schur (Matrix k) = Ok (Some kv) /\ sized n kv /\ forall i j, (i < n)%nat -> (j < n)%nat -> dense kv i j = 2 * mc k i j.
Proof.
  intros R C (A & B & _ & _ & E) D. simpl. rewrite R, C, Nat.eqb_refl. eexists; split; [reflexivity|]. unfold schurDamping.
  destruct (schur k) as [u t]. simpl in *. split; [auto|]. intros i j Hi Hj. rewrite E, B by assumption. rewrite <- sum_scale. apply sum_ext. intros l Hl.
  rewrite (sum_single n l) by first [exact Hl | intros m Hm N; rewrite (D l m) by (auto; congruence); lra]. lra.
Qed.
Lemma matrix_critical_iff n k kv : (forall i j, (i < n)%nat -> (j < n)%nat -> dense kv i j = 2 * mc k i j) ->
  (critical n (Matrix k) kv <-> forall i j, (i < n)%nat -> (j < n)%nat -> sum n (fun l => mc k i l * mc k l j) = mc k i j).
Proof.
  intros H. assert (Q : forall i j, (i < n)%nat -> (j < n)%nat -> sum n (fun l => dense kv i l * dense kv l j) = 4 * sum n (fun l => mc k i l * mc k l j)).
  { intros i j Hi Hj. rewrite <- sum_scale. apply sum_ext. intros l Hl. rewrite !H by assumption. lra. }
  unfold critical. simpl. split; intros K i j Hi Hj; specialize (K i j Hi Hj); rewrite Q in * by assumption; lra.
Qed.
