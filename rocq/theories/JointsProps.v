(* C49: joint selection keeps exactly the active columns. *)
From Coq Require Import List Bool Arith ZArith Lia Permutation Sorted.
Import ListNotations.
From Verif Require Import Base JointsModel JointsSpec JointsProofs JointsProofs2.

(* A robot with a free-flyer (joint 10), a revolute joint (11), a fixed joint (12), a spherical joint (13) and two
   revolute joints (14 and 15): six columns for the joints. The active joints are 15, 13, 12, the free-flyer and 13 again. *)
Definition jmb : mbody := [mkJ 10 6; mkJ 11 1; mkJ 12 0; mkJ 13 3; mkJ 14 1; mkJ 15 1].
Definition jlist : list nat := [15; 13; 12; 10; 13].
Definition jsorted : list nat := [10; 13; 12; 13; 15].
Example j_hyp : NoDup (map jname jmb) /\ known jmb jlist /\ ffOnce jmb jlist /\ sortOf jmb jlist jsorted /\ activeFF jmb jlist /\ activeQ jmb jlist.
Proof.
  split; [repeat (constructor; [cbn; lia|]); constructor|]. split; [intros n H; cbn in *; tauto|]. split; [intros r E _; injection E as <-; cbn; lia|]. split; [split|split].
  - apply (Permutation_trans (l' := [10; 15; 13; 12; 13])); [apply Permutation_sym, (Permutation_middle [15; 13; 12] [13] 10)|]. constructor.
    apply (Permutation_cons_append [13; 12; 13] 15).
  - repeat first [apply SSorted_nil | apply SSorted_cons | apply Forall_nil | apply Forall_cons]; (eexists; eexists; split; [reflexivity|split; [reflexivity|apply Nat.leb_le; reflexivity]]).
  - split; [reflexivity|]. exists 10. split; [reflexivity|]. cbn. tauto.
  - exists 1. split; [cbn; lia|]. exists 3, (mkJ 13 3). split; [reflexivity|]. split; [cbn; tauto|]. exists (mkJ 13 3). split; [reflexivity|]. cbn. lia.
Qed.
Example j_run : match ActiveJoints 0 jmb true true jsorted with
  | Ok s => match updates s [UJac (mkF [1;2;3;4;5;6] [7;8;9;10;11;12]); UJDot (mkF [1;2;3;4;5;6] [7;8;9;10;11;12])] with
            | Ok s' => (activeIndex s', jacQ s', jdotQ s') =
                ([(1, 3); (1, 3); (5, 1)]%Z, Some (map Some [0; 8; 9; 10; 0; 12]), Some [None; Some 8; Some 9; Some 10; None; Some 12])
            | _ => False end
  | _ => False end.
Proof. reflexivity. Qed.

(* For every list of active joints, of known names and with the free-flyer at most once, and every order the sort may
   give them: after any updates, the Jacobian with respect to qFreeFlyer() is that of the function if the free-flyer is
   active, and the selector does not depend on qFreeFlyer() otherwise; the Jacobian with respect to qJoints() has the
   active columns of that of the function, and zeros elsewhere, and the selector does not depend on qJoints() when there
   is no active column. The same holds of JDot, but that the inactive columns are never set.
   Missing: lists with the free-flyer twice, for which the statement is false, see below. *)
Theorem C49_active_partial : forall (C : Type) (zero : C) mb l sorted usesFF usesQ (us : list (update C)),
  NoDup (map jname mb) -> mb <> [] -> known mb l -> ffOnce mb l -> sortOf mb l sorted -> usesRobot mb usesFF usesQ ->
  (forall u, In u us -> fits mb (ofUpdate u)) ->
  exists s s', ActiveJoints zero mb usesFF usesQ sorted = Ok s /\ updates s us = Ok s' /\
  (activeFF mb l -> jacFF s' = Some (match lastJac us with Some f => map (@Some C) (fFF f) | None => repeat (Some zero) 6 end) /\ (forall f, lastJDot us = Some f -> jdotFF s' = Some (map (@Some C) (fFF f)))) /\
  (~ activeFF mb l -> jacFF s' = None /\ jdotFF s' = None) /\
  (activeQ mb l -> exists d d', jacQ s' = Some d /\ selected mb l d (lastJac us) (Some zero) /\ jdotQ s' = Some d' /\ selected mb l d' (lastJDot us) None) /\
  (~ activeQ mb l -> jacQ s' = None /\ jdotQ s' = None).
Proof. exact selector_all. Qed.
Print Assumptions C49_active_partial.
(* A sort always exists. *)
Theorem C49_sort_exists : forall mb l, known mb l -> exists sorted, sortOf mb l sorted.
Proof. intros mb l H. exists (isort mb l). exact (isort_ok mb l H). Qed.
Print Assumptions C49_sort_exists.

(* Building the selector throws exactly if the function does not depend on a non-empty variable of the robot. *)
Theorem C49_throws : forall (C : Type) (zero : C) mb l sorted usesFF usesQ,
  NoDup (map jname mb) -> mb <> [] -> known mb l -> ffOnce mb l -> sortOf mb l sorted ->
  (ActiveJoints zero mb usesFF usesQ sorted = Throw <-> ~ usesRobot mb usesFF usesQ).
Proof. exact selector_throws. Qed.
Print Assumptions C49_throws.
Example throws_case : ~ usesRobot jmb true false /\ ~ usesRobot jmb false true /\ usesRobot [mkJ 0 0] false false.
Proof. repeat split; try (intros [A B]); try discriminate; try (specialize (A eq_refl); discriminate); try (cbn in B; specialize (B ltac:(lia)); discriminate). intros H. cbn in H. congruence. Qed.

(* For every list of inactive joints, known or not, the joints given as active are all the others, and the above applies. *)
Theorem C49_inactive : forall mb inactive, NoDup (map jname mb) ->
  known mb (activeOf mb inactive) /\ ffOnce mb (activeOf mb inactive) /\
  forall n, In n (activeOf mb inactive) <-> In n (map jname mb) /\ ~ In n inactive.
Proof. intros mb inactive H. destruct (activeOf_once mb inactive H) as [A B]. split; [exact A|]. split; [exact B|]. intros n. exact (activeOf_spec mb inactive n H). Qed.
Print Assumptions C49_inactive.
Example inactive_case : activeOf jmb [11; 99; 14; 11] = [10; 12; 13; 15].
Proof. reflexivity. Qed.

(* With the free-flyer twice, columns are read and written out of range. *)
Theorem C49_free_flyer_twice_refuted : exists mb l f s, NoDup (map jname mb) /\ known mb l /\ sortOf mb l l /\ usesRobot mb true true /\ fits mb f /\
  ActiveJoints 0 mb true true l = Ok s /\ updates s [UJac f] = UB.
Proof.
  exists [mkJ 0 6; mkJ 1 1], [0; 0], (mkF [1;2;3;4;5;6] [7]). eexists.
  split; [repeat constructor; cbn; intuition; discriminate|]. split; [intros n H; cbn in *; tauto|]. split; [split; [reflexivity|]; repeat first [apply SSorted_nil | apply SSorted_cons | apply Forall_nil | apply Forall_cons]; (eexists; eexists; split; [reflexivity|split; [reflexivity|apply Nat.leb_le; reflexivity]])|].
  split; [split; reflexivity|]. split; [split; reflexivity|]. split; [reflexivity|reflexivity].
Qed.
Print Assumptions C49_free_flyer_twice_refuted.
(* Inactive columns of JDot have no value, whatever the updates. *)
Theorem C49_jdot_refuted : exists mb l f s s' d, NoDup (map jname mb) /\ known mb l /\ sortOf mb l l /\ fits mb f /\
  ActiveJoints 0 mb true true l = Ok s /\ updates s [UJDot f] = Ok s' /\ jdotQ s' = Some d /\ nth_error d 0 = Some None.
Proof.
  exists [mkJ 0 6; mkJ 1 1; mkJ 2 1], [2], (mkF [1;2;3;4;5;6] [7; 8]). eexists. eexists. eexists.
  split; [repeat constructor; cbn; intuition; discriminate|]. split; [intros n H; cbn in *; tauto|]. split; [split; [reflexivity|]; repeat constructor|].
  split; [split; reflexivity|]. split; [reflexivity|]. split; [reflexivity|]. split; reflexivity.
Qed.
Print Assumptions C49_jdot_refuted.
