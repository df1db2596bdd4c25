(* C51: evaluating a function at given values. *)
From Coq Require Import List Bool Arith QArith Lia.
Import ListNotations.
From Verif Require Import Base UpdatelessModel UpdatelessSpec UpdatelessProofs UpdatelessProofs2.
Local Open Scope nat_scope.

(* value(...) and jacobian(...): if the arguments fit, the result is the function's output at the values given (at the
   previous ones for the variables not given), the variables have these values, and no other number changes. *)
Theorem C51_value_at_given : forall (O V : Type) (eqO : O -> O -> bool), (forall o, eqO o o = true) ->
  forall (f : fn O V) o a s G, apartV (fvars f) -> enabled f o = true -> fits (fvars f) a -> (forall m, out f o m = G (map (valueOf m) (fvars f))) ->
  exists r s' vs, evaluate eqO f o a s = Returns r s' /\ r = G vs /\ length vs = length (fvars f) /\
    (forall i x, nth_error (fvars f) i = Some x -> nth_error vs i = Some (given (fvars f) a i x (valueOf (memory s) x)) /\ valueOf (memory s') x = given (fvars f) a i x (valueOf (memory s) x)) /\
    (forall b c, (forall x, In x (fvars f) -> ~ inValue x b c) -> memory s' b c = memory s b c).
Proof. exact evaluate_fits. Qed.
Print Assumptions C51_value_at_given.

(* Wrong numbers or sizes of values and foreign variables are rejected with an exception, and only values of the
   function's variables may have changed. *)
Theorem C51_value_rejects : forall (O V : Type) (eqO : O -> O -> bool) (f : fn O V) o a s, NoDup (map vid (fvars f)) -> enabled f o = true -> ~ fits (fvars f) a ->
  exists s', evaluate eqO f o a s = Throws s' /\ cache s' = cache s /\
  (forall b c, (forall x, In x (fvars f) -> ~ inValue x b c) -> memory s' b c = memory s b c).
Proof. exact evaluate_unfit. Qed.
Print Assumptions C51_value_rejects.

(* velocity(...), normalAcceleration(...) and JDot(...): the same with values and velocities. *)
Theorem C51_velocity_at_given : forall (O V : Type) (eqO : O -> O -> bool), (forall o, eqO o o = true) ->
  forall (f : fn O V) o a s G, apartD (fvars f) -> enabled f o = true -> fits2 (fvars f) a -> (forall m, out f o m = G (map (fun x => (valueOf m x, velOf m x)) (fvars f))) ->
  exists r s' vs, evaluate2 eqO f o a s = Returns r s' /\ r = G vs /\ length vs = length (fvars f) /\
    (forall i x, nth_error (fvars f) i = Some x -> nth_error vs i = Some (given2 (fvars f) a i x (valueOf (memory s) x, velOf (memory s) x)) /\
       (valueOf (memory s') x, velOf (memory s') x) = given2 (fvars f) a i x (valueOf (memory s) x, velOf (memory s) x)) /\
    (forall b c, (forall x, In x (fvars f) -> ~ inValue x b c /\ ~ inVel x b c) -> memory s' b c = memory s b c).
Proof. exact evaluate2_fits. Qed.
Print Assumptions C51_velocity_at_given.

Theorem C51_velocity_rejects : forall (O V : Type) (eqO : O -> O -> bool) (f : fn O V) o a s, NoDup (map vid (fvars f)) -> enabled f o = true -> ~ fits2 (fvars f) a ->
  exists s', evaluate2 eqO f o a s = Throws s' /\ cache s' = cache s /\
  (forall b c, (forall x, In x (fvars f) -> ~ inValue x b c /\ ~ inVel x b c) -> memory s' b c = memory s b c).
Proof. exact evaluate2_unfit. Qed.
Print Assumptions C51_velocity_rejects.

(* An output the function does not have: an exception, and nothing changes. *)
Theorem C51_disabled : forall (O V : Type) (eqO : O -> O -> bool) (f : fn O V) o s, enabled f o = false ->
  (forall a, evaluate eqO f o a s = Throws s) /\ (forall a, evaluate2 eqO f o a s = Throws s).
Proof. exact evaluate_disabled. Qed.
Print Assumptions C51_disabled.

(* The constructor changes only derivatives that it creates. *)
Theorem C51_construct : forall xs m b c, (forall x, In x xs -> hasD x = false -> ~ inVel x b c) -> construct xs m b c = m b c.
Proof. exact construct_keeps. Qed.
Print Assumptions C51_construct.

(* Two variables of sizes 2 and 1 with derivatives of sizes 1 and 1 (the first is on a circle). *)
Definition xa := mkV 0 0 0 2 10 0 1 true.
Definition xb := mkV 1 1 0 1 11 0 1 true.
Definition fe : fn bool (list (list Q * list Q)) := mkF [xa; xb] (fun o => o) (fun _ m => map (fun x => (valueOf m x, velOf m x)) [xa; xb]).
Definition s0 : state bool (list (list Q * list Q)) := mkS (fun _ _ => 0%Q) (fun _ => []).
Definition result (r : answer bool (list (list Q * list Q))) : option (list (list Q * list Q)) := match r with Returns v _ => Some v | _ => None end.
Example C51_case : apartD (fvars fe) /\ enabled fe true = true /\ fits (fvars fe) (Vals [1; 2] [[3]])%Q /\ fits (fvars fe) (Vals [1; 2; 3] [])%Q /\ fits (fvars fe) (Pairs (1%nat, [4]) [(1%nat, [3])])%Q /\
  ~ fits (fvars fe) (Vals [1; 2] [[3]; [4]])%Q /\
  result (evaluate eqb fe true (Vals [1; 2] [[3]])%Q s0) = Some [([1; 2], [0]); ([3], [0])]%Q /\
  result (evaluate eqb fe true (Vals [1; 2; 3] [])%Q s0) = Some [([1; 2], [0]); ([3], [0])]%Q /\
  result (evaluate eqb fe true (Pairs (1%nat, [4]) [(1%nat, [3])])%Q s0) = Some [([0; 0], [0]); ([3], [0])]%Q /\
  fits2 (fvars fe) (Vals2 ([1; 2], [5]) [([3], [6])])%Q /\ fits2 (fvars fe) (Vals2 ([1; 2; 3], [5; 6]) [])%Q /\
  result (evaluate2 eqb fe true (Vals2 ([1; 2], [5]) [([3], [6])])%Q s0) = Some [([1; 2], [5]); ([3], [6])]%Q /\
  result (evaluate2 eqb fe true (Vals2 ([1; 2; 3], [5; 6]) [])%Q s0) = Some [([1; 2], [5]); ([3], [6])]%Q.
Proof.
  repeat match goal with |- _ /\ _ => split end; try (vm_compute; reflexivity).
  - split; [split; [repeat constructor; cbn; intuition discriminate|]|split].
    + intros [|[|[|i]]] [|[|[|j]]] x y N X Y b c [B1 C1] [B2 C2]; cbn in X, Y; try discriminate; injection X as <-; injection Y as <-; cbn in *; congruence.
    + intros [|[|[|i]]] [|[|[|j]]] x y N X Y b c [B1 C1] [B2 C2]; cbn in X, Y; try discriminate; injection X as <-; injection Y as <-; cbn in *; congruence.
    + intros x y [<-|[<-|[]]] [<-|[<-|[]]] b c [B1 C1] [B2 C2]; cbn in *; congruence.
  - left; reflexivity.
  - right. repeat split. discriminate.
  - intros n v [E|[E|[]]]; injection E as <- <-; exists xb; cbn; auto.
  - intros [E|[E _]]; discriminate.
  - left; split; reflexivity.
  - right. repeat split. discriminate.
Qed.

(* A rejected call is not without effect: the values before the wrong one are assigned. *)
Theorem C51_atomic_refuted : exists (f : fn bool (list (list Q * list Q))) a s s', apartV (fvars f) /\ enabled f true = true /\ evaluate eqb f true a s = Throws s' /\ exists x, In x (fvars f) /\ valueOf (memory s') x <> valueOf (memory s) x.
Proof.
  exists fe, (Vals [1; 2] [[3]; [4]])%Q, s0. eexists. split; [apply C51_case|]. split; [reflexivity|]. split; [reflexivity|]. exists xa. split; [now left|]. vm_compute. discriminate.
Qed.
Print Assumptions C51_atomic_refuted.
(* A function of x and dot(x): the value given for x's velocity is overwritten by the one given for dot(x). *)
Definition ya := mkV 0 0 0 1 1 0 1 true.
Definition yb := mkV 1 1 0 1 2 0 1 true.
Definition fd : fn bool (list (list Q * list Q)) := mkF [ya; yb] (fun o => o) (fun _ m => map (fun x => (valueOf m x, velOf m x)) [ya; yb]).
Theorem C51_with_derivative_refuted : exists (f : fn bool (list (list Q * list Q))) a s r s', apartV (fvars f) /\ fits2 (fvars f) a /\ evaluate2 eqb f true a s = Returns r s' /\
  exists i x, nth_error (fvars f) i = Some x /\ nth_error r i <> Some (given2 (fvars f) a i x (valueOf (memory s) x, velOf (memory s) x)).
Proof.
  exists fd, (Vals2 ([1], [2]) [([3], [4])])%Q, s0. do 2 eexists. split; [|split; [left; split; reflexivity|split; [reflexivity|]]].
  - split; [repeat constructor; cbn; intuition discriminate|]. intros [|[|[|i]]] [|[|[|j]]] x y N X Y b c [B1 C1] [B2 C2]; cbn in X, Y; try discriminate; injection X as <-; injection Y as <-; cbn in *; congruence.
  - exists 0, ya. split; [reflexivity|]. vm_compute. discriminate.
Qed.
Print Assumptions C51_with_derivative_refuted.
(* Wrapping a function of a sub-variable whose derivative was never used resets the current velocity of its variable. *)
Theorem C51_construct_refuted : exists xs m b c, apartD xs /\ construct xs m b c <> m b c.
Proof.
  exists [mkV 0 0 1 1 1 1 1 false], (fun b c => if (b =? 1) && (c <? 3) then 7%Q else 0%Q), 1, 1. split; [|vm_compute; discriminate].
  split; [split; [repeat constructor; cbn; intuition|]|split]; try (intros [|[|i]] [|[|j]] x y N X Y; try discriminate; contradiction).
  intros x y [<-|[]] [<-|[]] b c [B1 C1] [B2 C2]; cbn in *; congruence.
Qed.
Print Assumptions C51_construct_refuted.
