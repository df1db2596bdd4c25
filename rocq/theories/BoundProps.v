(* C24: the box made of several bounds on a variable. *)
Require Import QArith Qabs List Lqa.
Require Import Verif.Base Verif.AssignModel Verif.BoundModel Verif.BoundSpec Verif.BoundProofs.
Import ListNotations.
Local Open Scope Q_scope.

(* The box of the solver is the intersection of the bounds, on the points within reach of the
   constants that stand for infinity. [fits] also asks that a double-sided bound with a diagonal
   jacobian be ordered: see C24_unordered_refuted. *)
Theorem C24_box_partial sbig big l : exists lu, solverBox sbig big l = Ok lu /\
  forall x, Qabs x <= sbig -> Forall (fits big x) l ->
  (inbox lu x <-> Forall (fun p => bound_holds (fst p) (snd p) x) l).
Proof. exact (box_solver sbig big l). Qed.
(* The same when the first bound overwrites the box. *)
Theorem C24_first_partial big l lu0 : l <> [] -> exists lu, firstBox lu0 big l = Ok lu /\
  forall x, Forall (fits big x) l -> (inbox lu x <-> Forall (fun p => bound_holds (fst p) (snd p) x) l).
Proof. exact (box_first big l lu0). Qed.
(* No bound: the whole reset box. *)
Theorem C24_no_bound sbig big : solverBox sbig big [] = Ok (- sbig, sbig).
Proof. reflexivity. Qed.

(* x >= -4; -x >= -7; -2 x in [-6, 10]; x/2 <= 0 *)
Definition ex_l : list (bsource * bvalues) :=
  [(mkB GREATER_THAN AS_GIVEN BId, mkBV 0 (-(4)) 0 1); (mkB GREATER_THAN OPPOSITE BMinusId, mkBV 0 7 0 (-(1)));
   (mkB DOUBLE_SIDED AS_GIVEN BNeg, mkBV 0 (-(6)) 10 (-(2))); (mkB LOWER_THAN RZERO BPos, mkBV 0 0 3 (1#2))].
Example C24_ex : solverBox 1000 1000 ex_l = Ok (-(4), 0) /\ Forall (fits 1000 (-(1))) ex_l /\
  Forall (fun p => bound_holds (fst p) (snd p) (-(1))) ex_l /\ ~ Forall (fun p => bound_holds (fst p) (snd p) 1) ex_l.
Proof.
  split; [vm_compute; reflexivity|]. split; [|split].
  - repeat constructor; simpl; try discriminate; try reflexivity; try (intros; vm_compute; discriminate || reflexivity).
  - repeat constructor; simpl; vm_compute; try discriminate; try (split; discriminate).
  - intros H. inversion H as [|? ? _ H1]; subst. inversion H1 as [|? ? _ H2]; subst. inversion H2 as [|? ? _ H3]; subst.
    inversion H3 as [|? ? H4 _]; subst. vm_compute in H4. apply H4. reflexivity.
Qed.

(* l > u with a diagonal jacobian: no point meets the bound, the box is not empty
   (Assignment.hpp:59-64 takes the min and the max of both sides). *)
Theorem C24_unordered_refuted : exists s V lu, true_props s V /\ b_prop s = BPos /\
  (forall x, ~ bound_holds s V x) /\ solverBox 1000 1000 [(s, V)] = Ok lu /\ inbox lu 1.
Proof.
  exists (mkB DOUBLE_SIDED AS_GIVEN BPos), (mkBV 0 4 2 2). eexists.
  split; [reflexivity|]. split; [reflexivity|]. split; [intros x H; unfold bound_holds in H; simpl in H; lra|].
  split; [vm_compute; reflexivity|]. split; vm_compute; discriminate.
Qed.
(* The constant of the free side is multiplied by D instead of its inverse (Assignment.hpp:252-258):
   a point that meets the bound, well within big, is outside of the box. *)
Theorem C24_reach_refuted : exists big s V lu x, true_props s V /\ bound_holds s V x /\ Qabs x <= 1 /\ 1000 <= big /\
  solverBox big big [(s, V)] = Ok lu /\ ~ inbox lu x.
Proof.
  exists 1000, (mkB GREATER_THAN AS_GIVEN BPos), (mkBV 0 (-(1)) 0 (1#10000)). eexists. exists 1.
  split; [reflexivity|]. split; [vm_compute; discriminate|]. split; [vm_compute; discriminate|].
  split; [vm_compute; discriminate|]. split; [vm_compute; reflexivity|].
  intros [_ H]. vm_compute in H. apply H. reflexivity.
Qed.
(* In a single-sided target, a bound with jacobian -identity is accepted and never assigned
   (Assignment.cpp:626-629) ... *)
Theorem C24_lost_refuted : exists s V lo x, true_props s V /\
  constructBound 1000 s LOWER_THAN AS_GIVEN true = Ok [] /\ runBound ([], V) (lo, 1000) = (lo, 1000) /\
  x <= 1000 /\ ~ bound_holds s V x.
Proof.
  exists (mkB GREATER_THAN AS_GIVEN BMinusId), (mkBV 0 0 0 (-(1))), (-(1000)), 5.
  split; [reflexivity|]. split; [reflexivity|]. split; [reflexivity|]. split; [vm_compute; discriminate|].
  unfold bound_holds; simpl. lra.
Qed.
(* ... and the other accepted ones are written through an uninitialised reference. *)
Theorem C24_single_target_refuted big s tt r first : tt <> DOUBLE_SIDED -> b_prop s <> BMinusId -> canBeUsed s tt = true ->
  constructBound big s tt r first = UB.
Proof. intros T P C. unfold constructBound. rewrite C. destruct tt, (b_prop s); simpl; congruence. Qed.
Example C24_single_target_ex : canBeUsed (mkB GREATER_THAN AS_GIVEN BId) GREATER_THAN = true.
Proof. reflexivity. Qed.

Print Assumptions C24_box_partial.
Print Assumptions C24_first_partial.
Print Assumptions C24_no_bound.
Print Assumptions C24_unordered_refuted.
Print Assumptions C24_reach_refuted.
Print Assumptions C24_lost_refuted.
Print Assumptions C24_single_target_refuted.
