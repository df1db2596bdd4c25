(* C70: exploring the values of a computation graph *)
From Coq Require Import List Bool Arith Lia Relations.
Import ListNotations.
From Verif Require Import Base CallGraphModel NdModel LgModel LgSpec LgProofs LgProofs2 GpModel GpSpec GpProofs GpProofs2.
Local Open Scope nat_scope.

Section Probe.
Variable M V : Type.
Variables (ptype ptypeUp : nat -> nat).
Variables (acc : nat -> nat -> option (nat -> M)) (vacc : nat -> nat -> option (nat -> list (V * M))).
Variable select : M -> bool.
Notation vals := (outputVal M V ptype ptypeUp acc vacc).
(* an output passes the test if one of its values does *)
Definition passes (n o : nat) : Prop := exists v, In v (vals (n, o)) /\ select (snd v) = true.

(* Whatever was logged, with cycles or not, following up an output ends.  The tree has exactly the outputs
   and updates reached through outputs that pass the test; every one of those that pass the test has, once,
   all it directly uses as children, in the order of the log, and is a leaf elsewhere; an exception is
   thrown exactly if one of those refers to an update or an input that was not logged. *)
Theorem C70_tree : forall L n o fuel, depth L <= fuel ->
  match followUpOf M V ptype ptypeUp acc vacc select fuel L (n, o) with
  | Ok t => rightTree L passes (AnOutput n o) t /\ ~ (exists y, seenFrom L passes (AnOutput n o) y /\ open passes y /\ dangling L y)
  | Throw => exists y, seenFrom L passes (AnOutput n o) y /\ open passes y /\ dangling L y
  | UB => False
  end.
Proof.
  intros L n o fuel B. pose proof (tree_spec M V ptype ptypeUp acc vacc select L (n, o) fuel B) as T. unfold followUpOf.
  destruct (followUp M V ptype ptypeUp acc vacc select fuel L (PO (n, o)) []) as [[t P]| |]; exact T.
Qed.

(* For a call graph: one tree for each output added to it that passes the test; it throws if the graph is not in the log. *)
Theorem C70_graph : forall L g fuel, depth L <= fuel ->
  match followUpG M V ptype ptypeUp acc vacc select fuel L g with
  | Ok ts => (exists p, In (g, p) (lgGraph L)) /\
      (exists os, Forall2 (fun o t => rightTree L passes (AnOutput (fst o) (snd o)) t) os ts /\ forall n o, In (n, o) os <-> isGraphOutput L g n o /\ passes n o) /\
      (forall n o, isGraphOutput L g n o -> passes n o -> ~ (exists y, seenFrom L passes (AnOutput n o) y /\ open passes y /\ dangling L y))
  | Throw => (forall p, ~ In (g, p) (lgGraph L)) \/
      exists n o, isGraphOutput L g n o /\ passes n o /\ exists y, seenFrom L passes (AnOutput n o) y /\ open passes y /\ dangling L y
  | UB => False
  end.
Proof. exact (graph_tree_spec M V ptype ptypeUp acc vacc select). Qed.

(* The values listed for an output are those of the outputs it uses, directly or not, for which there is an accessor. *)
Theorem C70_list : forall L n o fuel, turns L [(n, o)] <= fuel ->
  match listOutputVal M V ptype ptypeUp acc vacc fuel L (n, o) with
  | Ok l => forall n' o' v m, In (n', o', v, m) l <-> usedBy L [(n, o)] (AnOutput n' o') /\ In (n', o', v, m) (vals (n', o'))
  | Throw => exists x, usedBy L [(n, o)] x /\ dangling L x
  | UB => False
  end.
Proof.
  intros L n o fuel B. unfold listOutputVal. pose proof (follow_spec L [(n, o)] fuel B) as F.
  change (followUpDependency fuel L (allOutputs L) [(n, o)]) with (subGraphOf fuel L (n, o)) in F.
  destruct (subGraphOf fuel L (n, o)) as [[outs upds]| |]; cbn [bind]; [|exact F|exact F].
  exact (list_spec M V ptype ptypeUp acc vacc L [(n, o)] outs upds (proj1 F)).
Qed.
Theorem C70_list_graph : forall L g start, (forall n o, In (n, o) start <-> isGraphOutput L g n o) -> forall fuel, turns L (inputsOfGraph L g) <= fuel ->
  match listOutputValG M V ptype ptypeUp acc vacc fuel L g with
  | Ok l => forall n' o' v m, In (n', o', v, m) l <-> usedBy L start (AnOutput n' o') /\ In (n', o', v, m) (vals (n', o'))
  | Throw => exists x, usedBy L start x /\ dangling L x
  | UB => False
  end.
Proof.
  intros L g start S fuel B. unfold listOutputValG. pose proof (graph_spec L g start S fuel B) as F.
  destruct (subGraph fuel L g) as [[outs upds]| |]; cbn [bind]; [|exact F|exact F].
  exact (list_spec M V ptype ptypeUp acc vacc L start outs upds (proj1 F)).
Qed.
End Probe.
Print Assumptions C70_tree.
Print Assumptions C70_graph.
Print Assumptions C70_list.
Print Assumptions C70_list_graph.

(* Node 1 computes its output 0 by update 1, after update 0, from output 0 of node 2 and output 4 of node 3,
   which also uses it; the outputs of node 2 forward those of node 3.  All have type 0, the values are numbers
   and those of output 4 depend on a variable. *)
Definition exL : log := logOf [EUpdate 1 0 100; EUpdate 1 1 101; EOutputDep 1 0 1; EInternalDep 1 1 0; EInput 1 2 0; EInput 1 3 4; EInputDep 1 0 2 0; EInputDep 1 1 3 4;
  EInput 2 3 4; EDirectDep 2 0 3 4; EUpdate 3 5 300; EOutputDep 3 4 5; EInput 3 1 0; EInputDep 3 5 1 0; EInput 7 1 0; EInput 7 2 0; EGraph 9 7].
Definition ty (_ : nat) : nat := 0.
Definition exacc (t i : nat) : option (nat -> nat) := if i =? 0 then Some (fun n => 10 * n) else None.
Definition exvacc (t i : nat) : option (nat -> list (nat * nat)) := if i =? 4 then Some (fun n => [(60, n); (61, n + 1)]) else None.
Example ex_tree : depth exL <= 20 /\ followUpOf nat nat ty ty exacc exvacc (fun m => 4 <=? m) 20 exL (1, 0) =
  Ok (PNode (PO (1, 0)) [PNode (PU (1, 1, 101)) [
        PNode (PO (3, 4)) [PNode (PU (3, 5, 300)) [PNode (PO (1, 0)) []]];
        PNode (PU (1, 0, 100)) [PNode (PO (2, 0)) [PNode (PO (3, 4)) []]]]]).
Proof. split; [vm_compute; lia|vm_compute; reflexivity]. Qed.
Example ex_graph : followUpG nat nat ty ty exacc exvacc (fun m => 15 <=? m) 20 exL 9 = Ok [PNode (PO (2, 0)) [PNode (PO (3, 4)) []]] /\
  followUpG nat nat ty ty exacc exvacc (fun m => 15 <=? m) 20 exL 8 = Throw /\ listOutputValG nat nat ty ty exacc exvacc 20 exL 8 = Ok [].
Proof. split; [vm_compute; reflexivity|]. split; vm_compute; reflexivity. Qed.
Example ex_list : turns exL [(2, 0)] <= 300 /\ listOutputVal nat nat ty ty exacc exvacc 300 exL (2, 0) =
  Ok [(2, 0, None, 20); (3, 4, Some 60, 3); (3, 4, Some 61, 4); (1, 0, None, 10)].
Proof. split; [vm_compute; lia|vm_compute; reflexivity]. Qed.

(* A leaf does not mean that the output does not pass the test: it may have been met before. *)
Theorem C70_leaf_refuted : exists L o t, followUpOf nat nat ty ty exacc exvacc (fun m => 4 <=? m) 20 L o = Ok t /\
  exists n p, In (PO (n, p), []) (nodes t) /\ passes nat nat ty ty exacc exvacc (fun m => 4 <=? m) n p /\ uses1 L (AnOutput n p) <> [].
Proof.
  exists exL, (1, 0). eexists. split; [exact (proj2 ex_tree)|]. exists 1, 0. split; [right; right; right; right; left; reflexivity|]. split; [|discriminate].
  eexists. split; [left; reflexivity|reflexivity].
Qed.
Print Assumptions C70_leaf_refuted.
(* With the test that everything passes, what an output uses is still hidden behind outputs without accessor. *)
Theorem C70_all_refuted : exists L o t y, followUpOf nat nat ty ty exacc exvacc (fun _ => true) 20 L o = Ok t /\
  usedBy L [o] y /\ ~ exists v, within t v /\ key v = y.
Proof.
  exists (logOf [EUpdate 1 0 100; EOutputDep 1 7 0]), (1, 7). eexists. exists (AnUpdate 1 0). split; [vm_compute; reflexivity|]. split.
  - exists 1, 7. split; [left; reflexivity|]. apply rt_step. constructor. left. reflexivity.
  - intros [v [[cs [J|[]]] K]]. injection J as <- _. discriminate.
Qed.
Print Assumptions C70_all_refuted.
(* Both the exploration and the list throw for a node all of whose declarations returned, if an update
   uses several inputs declared in one call (C68). *)
Theorem C70_throws_refuted : exists H n o, let L := logOf (snd (nrun n nst0 H)) in
  (forall k, k < length H -> snd (nexec n (fst (nrun n nst0 (firstn k H))) (nth k H (NInternal (fun _ => true) 0 0))) = false) /\
  followUpOf nat nat ty ty exacc exvacc (fun _ => true) 20 L (n, o) = Throw /\ listOutputVal nat nat ty ty exacc exvacc 20 L (n, o) = Throw.
Proof.
  exists [NRegister (fun _ => true) [(0, 100)]; NOutput (fun _ => true) [0] 0; NInput true (fun _ => true) (fun _ _ => true) 0 2 [0; 1]], 1, 0. cbv zeta.
  split; [|split; vm_compute; reflexivity]. intros k. do 3 (destruct k as [|k]; [intros; reflexivity|]). cbn. lia.
Qed.
Print Assumptions C70_throws_refuted.
