Require Import QArith ZArith List Bool Lia.
Require Import Verif.Base Verif.QSum Verif.RangeModel Verif.SpaceModel Verif.VarCountingModel Verif.VarCountingSpec.
Require Import Verif.LinFunModel Verif.LinFunSpec Verif.LinFunProofs5.
Import ListNotations.
Local Open Scope Z_scope.

Lemma c42_expression L spOf base e n : good L spOf -> fits base e n -> (forall x, In x (vars e) -> usable L base x) -> vars e <> [] -> (forall x, e <> EVar x) ->
  exists p f, build base e = Some p /\ ofOperand spOf base p = Some (Ok f) /\ f_size f = n /\
    Forall (fun j => shape_true (j_mat j) (j_shape j)) (f_jac f) /\
    (forall env, exists w, value base env f = Some w /\ vn w = n /\ forall i, (i < n)%nat -> (ve w i == meaning (coord base env) constant e i)%Q) /\
    (forall denv, exists w, velocity denv f = Some w /\ vn w = n /\ forall i, (i < n)%nat -> (ve w i == meaning (dcoord denv) nothing e i)%Q).
Proof. intros G. exact (expression L spOf base G e n). Qed.
Lemma c42_matrices L spOf base n As xs b : good L spOf -> As <> [] -> Forall2 (matrix_for base n) As xs -> Forall (usable L base) xs ->
  (compatible base xs -> vn b = n -> exists f, ofMatrices base As xs b = Ok f /\ f_size f = n /\
     (forall env, exists w, value base env f = Some w /\ vn w = n /\ forall i, (ve w i == ve b i + sumAx (coord base env) As xs i)%Q) /\
     (forall denv, exists w, velocity denv f = Some w /\ vn w = n /\ forall i, (ve w i == sumAx (dcoord denv) As xs i)%Q)) /\
  (~ compatible base xs \/ vn b <> n -> ofMatrices base As xs b = Throw).
Proof. intros G. exact (matrices L spOf base G n As xs b). Qed.
Lemma c42_matrices_throw L spOf base As xs b A0 : good L spOf -> hd_error As = Some A0 -> (forall x, In x xs -> usable L base x \/ curved base x) ->
  length As <> length xs \/ (exists i A x, nth_error As i = Some A /\ nth_error xs i = Some x /\ (curved base x \/ ~ matrix_for base (mr A0) A x)) ->
  ofMatrices base As xs b = Throw.
Proof.
  intros G Hd Hu H. apply (matrices_bad L spOf base G As xs b A0 Hd); [|exact Hu]. destruct H as [H|(i & A & x & H1 & H2 & H)]; [left; exact H|right]. exists i, A, x. split; [exact H1|]. split; [exact H2|].
  destruct H as [H|H]; [left; exact H|right]. destruct (Nat.eq_dec (mr A) (mr A0)) as [E|E]; [|left; exact E]. right. intros E'. apply H. split; [exact E|exact E'].
Qed.
Lemma c42_curved L spOf base e n : good L spOf -> fits base e n -> (forall x, In x (vars e) -> usable L base x \/ (curved base x /\ exists q, 0 < dim q /\ made_of L x q)) ->
  (exists x, In x (vars e) /\ curved base x) -> (forall x, e <> EVar x) ->
  exists p, build base e = Some p /\ ofOperand spOf base p = Some Throw.
Proof.
  intros G F U X. apply (nonEuclidean L spOf base G e n F); [|exact X]. intros x Hx. destruct (U x Hx) as [[U1 U2]|[[C1 C2] C3]].
  - split; [exact U1|]. intros B _. destruct (U2 B) as (_ & A). exact A.
  - split; [exact C3|]. intros _ E. contradiction.
Qed.
Lemma c42_setA base f i j A sh env w : nth_error (f_jac f) i = Some j -> value base env f = Some w -> vn (f_b f) = f_size f ->
  (matrix_for base (f_size f) A (j_var j) -> exists f' w', setA base f i A sh = Ok f' /\ value base env f' = Some w' /\ vn w' = vn w /\
    forall r, (ve w' r == ve w r - qsumn (fun c => me (j_mat j) r c * coord base env (j_var j) c) (mc (j_mat j)) + qsumn (fun c => me A r c * coord base env (j_var j) c) (mc A))%Q) /\
  (~ matrix_for base (f_size f) A (j_var j) -> setA base f i A sh = Throw).
Proof.
  intros Hi Hv Hb. split.
  - intros [H1 H2]. apply (setA_ok base f i j A sh env w); auto. unfold vsize. rewrite <- H2. apply Nat2Z.is_nonneg.
  - intros H. apply (setA_bad base f i j A sh Hi). destruct (Nat.eq_dec (mr A) (f_size f)) as [E|E]; [|left; exact E]. right. intros E'. apply H. split; [exact E|exact E'].
Qed.
Lemma c42_setB base f b env w : value base env f = Some w -> vn (f_b f) = f_size f ->
  (vn b = f_size f -> exists f' w', setB f b = Ok f' /\ value base env f' = Some w' /\ vn w' = vn w /\ forall r, (ve w' r == ve w r - ve (f_b f) r + ve b r)%Q) /\
  (vn b <> f_size f -> setB f b = Throw).
Proof.
  intros Hv Hb. split; [exact (setB_ok base f b env w Hv Hb)|]. intros H. unfold setB. destruct (Nat.eqb_spec (vn b) (f_size f)); [contradiction|reflexivity].
Qed.
