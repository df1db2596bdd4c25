(* C12: traversal of a VariableVectorPartition. *)
Require Import ZArith List Bool Lia.
Require Import Verif.Base Verif.RangeModel Verif.RangeCountingModel Verif.RangeCountingSpec.
Require Import Verif.SpaceModel Verif.VarCountingModel Verif.VarCountingSpec.
Require Import Verif.PartitionModel Verif.PartitionSpec Verif.PartitionProofs Verif.VarCountingProps.
Import ListNotations.
Local Open Scope Z_scope.

(* For a non-empty container compatible with the partition [vs] (sorted disjoint parts,
   as returned by VariableCountingVector::variables()), the traversal yields elements of
   the partition which, container element after container element, cut it into
   consecutive parts. *)
Theorem C12_traversal : forall L spOf base vs ps cs qs, good L spOf ->
  listed L vs ps -> (forall k, exists P, pieces (of_sup k ps) P) ->
  cs <> [] -> Forall2 (fun v q => made_of L v q /\ compatible ps (c_sup v) q) cs qs ->
  exists segs, iterate base cs vs = Ok (concat segs) /\
    (forall w, In w (concat segs) -> In w vs) /\ length segs = length cs /\
    forall i v q seg, nth_error cs i = Some v -> nth_error qs i = Some q -> nth_error segs i = Some seg -> parted L v q seg.
Proof. intros L spOf base vs ps cs qs G. exact (c12_traversal L spOf base G vs ps cs qs). Qed.

(* The intended use: all relevant variables were added to a fresh VariableCountingVector
   with split on. Then any non-empty container of some of them can be traversed. *)
Theorem C12_after_adds : forall L spOf base h ah cs qs, good L spOf -> Forall2 (denotes L) h ah ->
  (forall o, In o h -> exists v, o = CAdd v) ->
  cs <> [] -> Forall2 (fun v q => made_of L v q /\ 0 < dim q /\ In (AAdd (c_sup v) q) ah) cs qs ->
  exists s outs s' vs segs, vcrun spOf base (vc_init true) h = Ok (s, outs) /\
    variables spOf base s = Ok (s', vs) /\ iterate base cs vs = Ok (concat segs) /\
    (forall w, In w (concat segs) -> In w vs) /\ length segs = length cs /\
    forall i v q seg, nth_error cs i = Some v -> nth_error qs i = Some q -> nth_error segs i = Some seg -> parted L v q seg.
Proof. intros L spOf base h ah cs qs G. exact (c12_adds L spOf base G h ah cs qs). Qed.

(* u = x[0:4), v = x[2:8): the partition is x[0:2), x[2:4), x[4:8) *)
Definition ph : list vcop := [CAdd (exX 0 4); CAdd (exX 2 8)].
Example ex_partition : exists s outs s' vs, vcrun exSp exB (vc_init true) ph = Ok (s, outs) /\
  variables exSp exB s = Ok (s', vs) /\ vs = [exX 0 2; exX 2 4; exX 4 8] /\
  iterate exB [exX 2 8; exX 0 4] vs = Ok [exX 2 4; exX 4 8; exX 0 2; exX 2 4].
Proof. eexists _, _, _, _. split; [|split; [|split]]; vm_compute; reflexivity. Qed.

(* An empty container has an empty traversal? begin() reads var[0]. *)
Theorem C12_empty_container_refuted : exists L spOf base h ah s outs s' vs,
  good L spOf /\ Forall2 (denotes L) h ah /\ vcrun spOf base (vc_init true) h = Ok (s, outs) /\
  variables spOf base s = Ok (s', vs) /\ iterate base [] vs = UB.
Proof.
  exists exL, exSp, exB, ph, [AAdd 0 (rg 0 4); AAdd 0 (rg 2 8)]. eexists _, _, _, _.
  split; [exact ex_good|]. split; [unfold ph; den|]. split; [|split]; vm_compute; reflexivity.
Qed.

(* A container with a variable of size zero, although that variable was added, is
   rejected as an invalid partition. *)
Theorem C12_empty_variable_refuted : exists L spOf base h ah s outs s' vs v,
  good L spOf /\ Forall2 (denotes L) h ah /\ vcrun spOf base (vc_init true) h = Ok (s, outs) /\
  variables spOf base s = Ok (s', vs) /\ In (CAdd v) h /\ made_of L v (rg 1 1) /\ iterate base [v] vs = Throw.
Proof.
  exists exL, exSp, exB, [CAdd (exX 1 1); CAdd (exX 0 4)], [AAdd 0 (rg 1 1); AAdd 0 (rg 0 4)].
  eexists _, _, _, _, (exX 1 1). split; [exact ex_good|]. split; [den|]. split; [vm_compute; reflexivity|]. split; [vm_compute; reflexivity|].
  split; [left; reflexivity|]. split; [apply exX_made; lia|]. reflexivity.
Qed.

Print Assumptions C12_traversal.
Print Assumptions C12_after_adds.
Print Assumptions C12_empty_container_refuted.
Print Assumptions C12_empty_variable_refuted.
