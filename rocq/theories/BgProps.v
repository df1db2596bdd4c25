(* C82: the number standing for infinity *)
From Coq Require Import List Bool Arith QArith Lia Lqa.
From Verif Require Import Base BgModel BgSpec BgProofs.
Import ListNotations.
Local Open Scope nat_scope.

(* After any history, every constraint of every problem was assigned by some call for this problem, and holds the number
   of the scheme - whichever it is - that last created or rebuilt the data of a problem up to that call. *)
Theorem C82_number : forall b0 l s d i rows r, bgrun (bginit b0) l = Ok s -> nth_error (g_data s) d = Some (i, rows) -> In r rows ->
  exists l1 o l2, l = l1 ++ o :: l2 /\ assigns (rev l1) o d /\ w_big r = lastBuilt b0 (rev (l1 ++ [o])).
Proof. intros b0 l s d i rows r E. exact (proj2 (proj2 (proj2 (main b0 l s E))) d i rows r). Qed.
Print Assumptions C82_number.

(* Creating or rebuilding the data of a problem uses the number that its own scheme has at that time. *)
Theorem C82_build : forall b0 l s ts,
  (forall i, bgrun (bginit b0) (l ++ [Create i ts]) = Ok s -> nth_error (g_data s) (length (schemes (rev l))) = Some (i, map (fun t => mkRow t (nth i (numbers (rev l)) b0)) ts)) /\
  (forall d, bgrun (bginit b0) (l ++ [Reset d ts]) = Ok s -> nth_error (g_data s) d = Some (nth d (schemes (rev l)) 0, map (fun t => mkRow t (nth (nth d (schemes (rev l)) 0) (numbers (rev l)) b0)) ts)).
Proof. intros b0 l s ts. split; [intros i; apply created_rows|intros d; apply reset_rows]. Qed.
Print Assumptions C82_build.

(* When all schemes always have the same number, all constraints hold it. *)
Theorem C82_same : forall b0 l s b, bgrun (bginit b0) l = Ok s -> Forall (fun x => x = b) (given l) ->
  forall d i rows r, nth_error (g_data s) d = Some (i, rows) -> In r rows -> w_big r = b.
Proof.
  intros b0 l s b E F d i rows r Ed I. pose proof (sinv_run b l (bginit b0) s F) as H. assert (V : Forall (fun p => Forall (fun r => w_big r = b) (snd p)) (g_data s)).
  { apply H; [|exact E]. simpl. split; [constructor|]. split; [auto|constructor]. }
  apply nth_error_In in Ed. rewrite Forall_forall in V. specialize (V _ Ed). simpl in V. rewrite Forall_forall in V. auto.
Qed.
Print Assumptions C82_same.

(* What the solver gets implies the user's constraint, and is equivalent to it at the points whose value does not exceed
   the number the constraint holds. *)
Theorem C82_holds : forall r lo up y, (solverHolds r lo up y -> userHolds (w_type r) lo up y) /\
  ((- w_big r <= y /\ y <= w_big r)%Q -> (solverHolds r lo up y <-> userHolds (w_type r) lo up y)).
Proof. intros [t b] lo up y. unfold solverHolds, userHolds, sides. destruct t; simpl; (split; [intros [A B]; auto; split; auto|intros [A B]; tauto]). Qed.
Print Assumptions C82_holds.

(* The number is shared by all schemes: a task added to a problem of a scheme with the number 1000, after a scheme with
   the number 10 has been used on another problem, refuses the value 50. *)
Theorem C82_shared_refuted : exists b0 l s rows r, bgrun (bginit b0) l = Ok s /\ numbers (rev l) = [1000; 10]%Q /\ nth_error (g_data s) 0 = Some (0, rows) /\ In r rows /\ w_type r = GREATER_THAN /\
  (50 <= 1000)%Q /\ userHolds GREATER_THAN 0 0 50 /\ ~ solverHolds r 0 0 50.
Proof.
  exists 5%Q, [NewScheme Weighted 1000; NewScheme Weighted 10; Create 0 [EQUAL]; Create 1 [EQUAL]; AddTask 0 GREATER_THAN]%Q. eexists _, _, (mkRow GREATER_THAN 10%Q).
  split; [vm_compute; reflexivity|]. split; [reflexivity|]. split; [reflexivity|]. split; [simpl; auto|]. split; [reflexivity|]. split; [discriminate|]. split; [discriminate|].
  unfold solverHolds. simpl. intros [_ A]. apply A. reflexivity.
Qed.
Print Assumptions C82_shared_refuted.

(* Changing the number of a scheme does not change the constraints already assigned, nor the ones added afterwards until
   the data are rebuilt. *)
Theorem C82_changed_refuted : exists b0 l s rows, bgrun (bginit b0) l = Ok s /\ numbers (rev l) = [1000]%Q /\ nth_error (g_data s) 0 = Some (0, rows) /\ map w_big rows = [10; 10]%Q /\
  exists s' rows', bgrun s [Reset 0 [GREATER_THAN; LOWER_THAN]] = Ok s' /\ nth_error (g_data s') 0 = Some (0, rows') /\ map w_big rows' = [1000; 1000]%Q.
Proof.
  exists 5%Q, [NewScheme Weighted 10; Create 0 [GREATER_THAN]; SetBig 0 1000; AddTask 0 LOWER_THAN]%Q. eexists _, _.
  split; [vm_compute; reflexivity|]. split; [reflexivity|]. split; [reflexivity|]. split; [reflexivity|]. eexists _, _. split; [vm_compute; reflexivity|]. split; reflexivity.
Qed.
Print Assumptions C82_changed_refuted.

Example bg_ex : exists s, bgrun (bginit 5) [NewScheme Weighted 7; NewScheme Hierarchical 7; Create 0 [GREATER_THAN]; Create 1 [LOWER_THAN]; AddTask 0 LOWER_THAN; Reset 1 [EQUAL]]%Q = Ok s /\
  Forall (fun x => x = 7%Q) (given [NewScheme Weighted 7; NewScheme Hierarchical 7; Create 0 [GREATER_THAN]; Create 1 [LOWER_THAN]; AddTask 0 LOWER_THAN; Reset 1 [EQUAL]]%Q) /\
  map (fun p => length (snd p)) (g_data s) = [2; 1].
Proof. eexists. split; [vm_compute; reflexivity|]. split; [repeat constructor|reflexivity]. Qed.
