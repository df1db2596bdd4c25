(* C67: the checks of a function accept the correct functions and reject the wrong ones, at the points tested. *)
Require Import Reals List Bool Arith Lia Lra.
Require Import Verif.Base Verif.CfModel Verif.CfSpec Verif.CfProofs Verif.CfProofs2 Verif.CfProofs3 Verif.CfProofs4.
Import ListNotations.
Local Open Scope R_scope.

(* Full statement: checkJacobian returns true exactly when jacobian_ok holds at all the points tested.  It is false, as only the first column is
   compared.  What is proved: the result is true exactly when the first column is close to the finite differences at all the random
   points and at all the values of the right size of the configurations. *)
Theorem C67_jacobian_partial : forall (f : cfun) (o : copts) (rnd : nat -> nat -> vect) (junk : nat -> nat -> R),
  w_vars f <> [] -> euclidean f -> w_hasValue f = true -> w_hasJacobian f = true ->
  exists b, checkJacobian f o rnd junk = Ok b /\
  (b = true <-> (forall i, (i < samples o)%nat -> column_ok f o (rnd i (width f)) 0) /\
     forall c v, In c (o_configs o) -> c_value c = Some v -> length v = width f -> column_ok f o (vec v) 0).
Proof. exact api_jacobian. Qed.
Print Assumptions C67_jacobian_partial.

(* So a function is accepted if all its columns are close, and for a function of one coordinate the check is the right one. *)
Theorem C67_columns : forall (f : cfun) (o : copts) (rnd : nat -> nat -> vect) (junk : nat -> nat -> R),
  w_vars f <> [] -> euclidean f -> w_hasValue f = true -> w_hasJacobian f = true ->
  ((forall v, jacobian_ok f o v) -> checkJacobian f o rnd junk = Ok true) /\
  (width f = 1%nat -> forall v, column_ok f o v 0 <-> jacobian_ok f o v).
Proof. exact columns. Qed.
Print Assumptions C67_columns.

(* A function with a jacobian wrong everywhere, in its second column, is accepted whatever the points, the step and the precision. *)
Theorem C67_jacobian_refuted : exists f, w_vars f <> [] /\ euclidean f /\ column f 1 0 1 /\
  (forall v, partials f v (fun _ _ => 1) /\ w_jac f 1 v 0 0 = 1000) /\
  forall o rnd junk, o_step o <> 0 -> 0 <= o_prec o < 1 -> checkJacobian f o rnd junk = Ok true /\ forall v, ~ jacobian_ok f o v.
Proof. exact jacobian_refuted. Qed.
Print Assumptions C67_jacobian_refuted.

(* What the comparison of a column says of the derivative: for all steps ... *)
Theorem C67_derivative : forall (f : cfun) (o : copts) (v : vect) (s : R) (k j c r : nat) (g : R -> R) (K : R),
  scale f v (fd f (o_step o) v) s -> column f k j c -> (r < w_size f)%nat -> column_ok f o v c -> 0 < o_step o ->
  (forall t, 0 <= t <= o_step o -> derivable_pt_lim (fun t => w_value f (move v c t) r) t (g t)) -> (forall t, 0 <= t <= o_step o -> Rabs (g t - g 0) <= K) ->
  Rabs (w_jac f k v r j - g 0) <= Rabs (o_prec o) * sqrt s + K.
Proof. exact sound_column. Qed.
Print Assumptions C67_derivative.
(* ... and for the small ones: it decides whether the column is that of the derivatives up to the precision. *)
Theorem C67_small_steps : forall (f : cfun) (v : vect) (D : nat -> vect) (s : R) (k j c : nat) (prec : R), partials f v D -> scale f v D s -> column f k j c ->
  (norm2 (w_size f) (minus (D c) (fun r => w_jac f k v r j)) < prec * prec * s ->
     exists d, 0 < d /\ forall o, o_prec o = prec -> o_step o <> 0 -> Rabs (o_step o) < d -> column_ok f o v c) /\
  (prec * prec * s < norm2 (w_size f) (minus (D c) (fun r => w_jac f k v r j)) ->
     exists d, 0 < d /\ forall o, o_prec o = prec -> o_step o <> 0 -> Rabs (o_step o) < d -> ~ column_ok f o v c).
Proof. exact limit_column. Qed.
Print Assumptions C67_small_steps.

(* checkVelocity tests points ps which cover the samples and the usable configurations, and accepts when the velocity is J dx at all of them. *)
Theorem C67_velocity : forall (f : cfun) (o : copts) (rnd : nat -> nat -> vect), w_vars f <> [] -> w_hasVelocity f = true -> w_hasJacobian f = true ->
  exists b ps, checkVelocity f o rnd = Ok b /\ (b = true <-> forall p, In p ps -> velocity_ok f o (fst p) (snd p)) /\
    (forall i, (i < samples o)%nat -> In (rnd (2 * i)%nat (width f), rnd (2 * i + 1)%nat (dwidth f)) ps) /\
    (forall c, In c (o_configs o) -> usable_as (c_value c) (width f) -> usable_as (c_velocity c) (dwidth f) -> (0 < times_velocity c)%nat -> exists p, In p ps /\ point_velocity f rnd c p) /\
    (forall p, In p ps -> (exists i, p = (rnd i (width f), rnd (i + 1)%nat (dwidth f))) \/ exists c, In c (o_configs o) /\ point_velocity f rnd c p).
Proof. exact api_velocity. Qed.
Print Assumptions C67_velocity.

(* checkNormalAcceleration: the same, with the differences of the velocity *)
Theorem C67_normal_acceleration : forall (f : cfun) (o : copts) (rnd : nat -> nat -> vect),
  w_vars f <> [] -> euclidean f -> w_hasNormalAcc f = true -> w_hasVelocity f = true -> w_hasJacobian f = true ->
  exists b ps, checkNormalAcceleration f o rnd = Ok b /\ (b = true <-> forall p, In p ps -> normal_ok f o (fst (fst p)) (snd (fst p)) (snd p)) /\
    (forall i, (i < samples o)%nat -> In (rnd (3 * i)%nat (width f), rnd (3 * i + 1)%nat (dwidth f), rnd (3 * i + 2)%nat (dwidth f)) ps) /\
    (forall c, In c (o_configs o) -> usable_normal f c -> (0 < times_normal c)%nat -> exists p, In p ps /\ point_normal f rnd c p) /\
    (forall p, In p ps -> (exists i, p = (rnd i (width f), rnd (i + 1)%nat (dwidth f), rnd (i + 2)%nat (dwidth f))) \/ exists c, In c (o_configs o) /\ point_normal f rnd c p).
Proof. exact api_normal. Qed.
Print Assumptions C67_normal_acceleration.
(* For small steps, it decides whether the normal acceleration is the acceleration less J ddx, up to the precision. *)
Theorem C67_normal_small_steps : forall (f : cfun) (val vel acc A : vect) (prec : R), acceleration_along f val vel acc A ->
  let N := minus A (applyJ v_size f val acc) in let na := w_normalAcc f val vel in let n := w_size f in
  (norm2 n (minus na N) < prec * prec * norm2 n na -> norm2 n (minus na N) < prec * prec * norm2 n N ->
     exists d, 0 < d /\ forall o, o_prec o = prec -> o_step o <> 0 -> Rabs (o_step o) < d -> normal_ok f o val vel acc) /\
  (prec * prec * norm2 n na < norm2 n (minus na N) \/ prec * prec * norm2 n N < norm2 n (minus na N) ->
     exists d, 0 < d /\ forall o, o_prec o = prec -> o_step o <> 0 -> Rabs (o_step o) < d -> ~ normal_ok f o val vel acc).
Proof. exact limit_normal. Qed.
Print Assumptions C67_normal_small_steps.

(* checkFunction passes the configurations given in full through the three checks. *)
Theorem C67_function_partial : forall (f : cfun) (o : copts) (rnd : nat -> nat -> vect) (junk : nat -> nat -> R),
  w_vars f <> [] -> euclidean f -> w_hasNormalAcc f = true -> w_hasVelocity f = true -> w_hasJacobian f = true -> w_hasValue f = true ->
  (exists b, checkFunction f o rnd junk = Ok b) /\
  (checkFunction f o rnd junk = Ok true -> forall c val vel acc, In c (o_configs o) -> c_value c = Some val -> c_velocity c = Some vel -> c_acceleration c = Some acc ->
     length val = width f -> length vel = dwidth f -> length acc = dwidth f ->
     column_ok f o (vec val) 0 /\ velocity_ok f o (vec val) (vec vel) /\ normal_ok f o (vec val) (vec vel) (vec acc)).
Proof. exact api_function. Qed.
Print Assumptions C67_function_partial.

(* The affine functions with correct outputs are accepted at all points and with all steps. *)
Theorem C67_affine : forall (f : cfun) (A : nat -> nat -> R) (b : vect), affine f A b -> w_vars f <> [] -> euclidean f ->
  forall (o : copts) (rnd : nat -> nat -> vect) (junk : nat -> nat -> R), o_step o <> 0 ->
  w_hasValue f = true -> w_hasJacobian f = true -> w_hasVelocity f = true -> w_hasNormalAcc f = true -> checkFunction f o rnd junk = Ok true.
Proof. exact affine_accepted. Qed.
Print Assumptions C67_affine.
(* A correct function is not always accepted: at the points where the derivative, or the normal acceleration, is zero, the square is rejected
   with all steps and all precisions. *)
Theorem C67_correct_refuted : exists f, w_vars f <> [] /\ euclidean f /\ width f = 1%nat /\
  (forall v, partials f v (fun _ r => w_jac f 0 v r 0)) /\ (forall val vel acc, acceleration_along f val vel acc (fun r => w_normalAcc f val vel r + applyJ v_size f val acc r)) /\
  forall h prec rnd junk, h <> 0 ->
    checkJacobian f (mkCo h prec 0 [mkCc (Some [0]) None None 1]) rnd junk = Ok false /\
    checkNormalAcceleration f (mkCo h prec 0 [mkCc (Some [1]) (Some [0]) (Some [1]) 1]) rnd = Ok false.
Proof. exact critical_refuted. Qed.
Print Assumptions C67_correct_refuted.

(* A check whose configurations cannot be used (no value, or a value of a wrong size) tests nothing and accepts. *)
Theorem C67_untested : forall (f : cfun) (o : copts) (rnd : nat -> nat -> vect) (junk : nat -> nat -> R),
  w_vars f <> [] -> euclidean f -> w_hasValue f = true -> w_hasJacobian f = true ->
  o_samples o = 0%nat -> o_configs o <> [] -> (forall c v, In c (o_configs o) -> c_value c = Some v -> length v <> width f) -> checkJacobian f o rnd junk = Ok true.
Proof. exact untested. Qed.
Print Assumptions C67_untested.
(* The checks throw without the outputs they need; those by finite differences of the value throw if a variable is not Euclidean. *)
Theorem C67_throws : forall (f : cfun) (o : copts) (rnd : nat -> nat -> vect) (junk : nat -> nat -> R),
  (w_hasValue f && w_hasJacobian f = false -> checkJacobian f o rnd junk = Throw) /\
  (w_hasVelocity f && w_hasJacobian f = false -> checkVelocity f o rnd = Throw) /\
  (w_hasNormalAcc f && w_hasVelocity f && w_hasJacobian f = false -> checkNormalAcceleration f o rnd = Throw) /\
  (w_hasNormalAcc f && w_hasVelocity f && w_hasJacobian f && w_hasValue f = false -> checkFunction f o rnd junk = Throw) /\
  ((exists x, In x (w_vars f) /\ v_eucl x = false) -> checkJacobian f o rnd junk = Throw /\ checkNormalAcceleration f o rnd = Throw /\ checkFunction f o rnd junk = Throw).
Proof. exact throws. Qed.
Print Assumptions C67_throws.

(* ---- cases ---- *)
(* the square at 1: its column is accepted for small steps *)
Example ex_hypotheses : w_vars square <> [] /\ euclidean square /\ column square 0 0 0 /\ partials square (fun _ => 1) (fun _ _ => 2 * 1) /\ scale square (fun _ => 1) (fun _ _ => 2 * 1) 4.
Proof.
  split; [discriminate|]. split; [exact square_eucl|]. split; [apply square_column; auto|]. split; [apply (square_partials (fun _ => 1))|].
  assert (E : forall k j : nat, Rmin (norm2 (w_size square) (fun _ => 2 * 1)) (norm2 (w_size square) (fun r => w_jac square k (fun _ => 1) r j)) = 4)
    by (intros; unfold norm2; cbn [square w_size rsum w_jac]; unfold Rmin; destruct (Rle_dec _ _); lra).
  split; [intros k j c _; cbn zeta; rewrite E; apply Rle_refl|right]. exists 0%nat, 0%nat, 0%nat. split; [apply square_column; auto|]. cbn zeta. rewrite E. reflexivity.
Qed.
Example ex_small_steps : exists d, 0 < d /\ forall o, o_prec o = / 1000 -> o_step o <> 0 -> Rabs (o_step o) < d -> column_ok square o (fun _ => 1) 0.
Proof.
  destruct ex_hypotheses as (_ & _ & C & P & Sc). apply (proj1 (C67_small_steps square (fun _ => 1) _ 4 0 0 0 (/ 1000) P Sc C)).
  unfold norm2, minus. cbn [square w_size rsum w_jac]. cbv beta. lra.
Qed.
Example ex_normal : exists d, 0 < d /\ forall o, o_prec o = / 1000 -> o_step o <> 0 -> Rabs (o_step o) < d -> normal_ok square o (fun _ => 1) (fun _ => 3) (fun _ => 5).
Proof.
  apply (proj1 (C67_normal_small_steps square (fun _ => 1) (fun _ => 3) (fun _ => 5) _ (/ 1000) (square_acc _ _ _))); unfold norm2, minus; cbn [square w_size rsum w_normalAcc]; rewrite ?square_apply; cbv beta; lra.
Qed.
(* an affine function of two variables of sizes 2 and 1 *)
Definition affE : cfun := mkCf [mkCv 2 2 true; mkCv 1 1 true] 1 true true true true
  (fun v _ => 7 + (2 * v 0%nat + 3 * v 1%nat + 5 * v 2%nat)) (fun k _ _ j => match k, j with O, O => 2 | O, _ => 3 | _, _ => 5 end)
  (fun _ d _ => 2 * d 0%nat + 3 * d 1%nat + 5 * d 2%nat) (fun _ _ _ => 0).
Example ex_affine : affine affE (fun _ c => match c with O => 2 | S O => 3 | _ => 5 end) (fun _ => 7) /\ euclidean affE.
Proof.
  split; [|repeat constructor]. split; [|split; [|split]]; try (intros; unfold width; cbn; lra).
  intros k j c v r (x & E & Hj & ->) _. destruct k as [|[|k]]; cbn in E; [| |destruct k; discriminate]; injection E as <-; cbn in Hj |- *; [destruct j as [|[|j]]; [reflexivity|reflexivity|lia]|]. assert (j = 0%nat) as -> by lia. reflexivity.
Qed.
