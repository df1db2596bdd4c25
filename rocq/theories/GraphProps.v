(* C13-C17: DependencyGraph. A graph is reached by any sequence [h] of addNode, addEdge,
   removeNode and clear whose ids exist; [agraph_of h] is the graph it stands for. *)
Require Import ZArith List Arith Bool Lia Permutation Sorting.Sorted Relations.
Require Import Verif.Base Verif.GraphModel Verif.GraphSpec Verif.ListLemmas Verif.DisjointSetProofs Verif.GraphProofs.
Require Import Verif.OrderProofs Verif.TarjanProofs.
Import ListNotations.

Lemma reached h : valid aempty h -> exists g, grun empty_graph h = Ok g /\ gwf g (agraph_of h).
Proof. exact (grun_ok h empty_graph aempty gwf_empty). Qed.
Lemma reached' h g : valid aempty h -> grun empty_graph h = Ok g -> gwf g (agraph_of h).
Proof. intros V R. destruct (reached h V) as [g' [R' W]]. rewrite R in R'. injection R' as <-. exact W. Qed.

(* -------- C17: edges and removal -------- *)

(* After any valid sequence of calls, removals included, size() is the number of nodes and
   edges() lists exactly the edges of the graph, each once. *)
Theorem C17_edges_exact : forall h, valid aempty h -> exists g, grun empty_graph h = Ok g /\
  length (roots_ g) = an (agraph_of h) /\ NoDup (edges_ g) /\
  (forall x y, In (x, y) (edges_ g) <-> aE (agraph_of h) x y) /\
  (forall x y, aE (agraph_of h) x y -> x < an (agraph_of h) /\ y < an (agraph_of h)).
Proof.
  intros h V. destruct (reached h V) as [g [R W]]. exists g. split; [exact R|]. split; [apply W|]. split.
  { assert (S := gw_sorted _ _ W). induction S as [|e l S IH F]; [constructor|]. constructor; [|exact IH].
    intros C. rewrite Forall_forall in F. apply F, pair_lt_iff in C. destruct C as [C|[_ C]]; lia. }
  split; [apply W|apply W].
Qed.

(* removeNode(id): the remaining nodes are renumbered without a gap, and the remaining
   edges are those between the remaining nodes. *)
Theorem C17_remove : forall h id g, valid aempty h -> grun empty_graph h = Ok g -> id < length (roots_ g) ->
  exists g', removeNode g id = Ok g' /\ length (roots_ g') + 1 = length (roots_ g) /\
    (forall x y, In (x, y) (edges_ g') <-> In (up id x, up id y) (edges_ g)) /\
    (forall r, r < length (roots_ g') ->
       (nth r (roots_ g') false = true <-> forall b, ~ In (b, r) (edges_ g'))).
Proof.
  intros h id g V R L. assert (W := reached' h g V R). rewrite (gw_roots _ _ W) in L.
  destruct (removeNode_ok g _ id W L) as [g' [R' W']]. exists g'. split; [exact R'|].
  split; [rewrite (gw_roots _ _ W), (gw_roots _ _ W'); simpl; lia|]. split.
  - intros x y. rewrite (gw_edges _ _ W'), (gw_edges _ _ W). reflexivity.
  - intros r LR. rewrite (gw_roots _ _ W') in LR. rewrite (gw_root _ _ W' r).
    split.
    + intros [_ H] b E. apply (H b). revert E. apply (gw_edges _ _ W').
    + intros H. split; [exact LR|]. intros b E. apply (H b). revert E. apply (gw_edges _ _ W').
Qed.

(* A call with an id that is not a node is undefined. *)
Theorem C17_ids_needed : forall h, ~ valid aempty h -> grun empty_graph h = UB.
Proof. intros h. exact (grun_invalid h empty_graph aempty gwf_empty). Qed.

(* addEdge returns true exactly for a new edge. *)
Theorem C17_addEdge_flag : forall h g f t, valid aempty h -> grun empty_graph h = Ok g ->
  f < an (agraph_of h) -> t < an (agraph_of h) ->
  exists g' b, addEdge g f t = Ok (g', b) /\ (b = true <-> ~ aE (agraph_of h) f t).
Proof.
  intros h g f t V R F T. destruct (addEdge_ok g _ f t (reached' h g V R) F T) as [g' [b [A [_ B]]]].
  exists g', b. auto.
Qed.

Definition ex_h : list gop :=
  [GNode; GNode; GNode; GNode; GEdge 0 1; GEdge 1 2; GEdge 0 3; GEdge 3 2; GEdge 0 1; GRemove 1; GNode].
Example ex_h_valid : valid aempty ex_h.
Proof. simpl. unfold valid_op. simpl. lia. Qed.
Example ex_h_run : exists g, grun empty_graph ex_h = Ok g /\ edges_ g = [(0, 2); (2, 1)] /\ order g = Ok [1; 2; 0; 3].
Proof. eexists. split; [|split]; vm_compute; reflexivity. Qed.

(* -------- C13: order() -------- *)

(* On a graph without cycle, order() lists every node once, each after all the nodes it
   depends on. *)
Theorem C13_acyclic : forall h g, valid aempty h -> grun empty_graph h = Ok g -> ~ cyclic (aE (agraph_of h)) ->
  exists l, order g = Ok l /\ Permutation l (seq 0 (an (agraph_of h))) /\ dep_first (aE (agraph_of h)) l.
Proof. intros h g V R. exact (order_acyclic g _ (reached' h g V R)). Qed.

(* In general: the result lists exactly the nodes some root depends on, dependencies
   first; an exception is thrown only if there is a cycle; nothing is undefined. *)
Theorem C13_general : forall h g, valid aempty h -> grun empty_graph h = Ok g ->
  match order g with
  | Ok l => NoDup l /\ dep_first (aE (agraph_of h)) l /\
            (forall x, In x l <-> exists r, is_root (agraph_of h) r /\ reach (aE (agraph_of h)) r x)
  | Throw => cyclic (aE (agraph_of h))
  | UB => False
  end.
Proof. intros h g V R. exact (order_spec g _ (reached' h g V R)). Qed.

(* Exactly when it throws: no root at all, or a cycle some root leads to. *)
Theorem C13_throws : forall h g, valid aempty h -> grun empty_graph h = Ok g ->
  (order g = Throw <->
   (0 < an (agraph_of h) /\ forall r, ~ is_root (agraph_of h) r) \/
   exists r c d, is_root (agraph_of h) r /\ reach (aE (agraph_of h)) r c /\ aE (agraph_of h) c d /\
                 reach (aE (agraph_of h)) d c).
Proof. intros h g V R. exact (order_throws g _ (reached' h g V R)). Qed.

(* "Every cyclic graph is rejected" does not hold: with nodes 0, 1, 2 and the edges 1->2,
   2->1, order() returns [0] and drops the two others. *)
Theorem C13_cycle_rejected_refuted : exists h g l, valid aempty h /\ grun empty_graph h = Ok g /\
  cyclic (aE (agraph_of h)) /\ order g = Ok l /\ ~ In 1 l /\ 1 < an (agraph_of h).
Proof.
  exists [GNode; GNode; GNode; GEdge 1 2; GEdge 2 1]. eexists _, [0].
  split; [simpl; unfold valid_op; simpl; lia|]. split; [vm_compute; reflexivity|].
  split; [|split; [vm_compute; reflexivity|split; [simpl; lia|simpl; lia]]].
  exists 1, 2. simpl. split; [auto|]. apply rt_step. auto.
Qed.
Example ex_cycle_throws : exists g, grun empty_graph [GNode; GNode; GNode; GEdge 0 1; GEdge 1 2; GEdge 2 1] = Ok g /\ order g = Throw.
Proof. eexists. split; vm_compute; reflexivity. Qed.

(* an acyclic case *)
Definition ex_d : list gop := [GNode; GNode; GNode; GNode; GNode; GEdge 0 1; GEdge 0 2; GEdge 1 3; GEdge 2 3].
Example ex_d_case : valid aempty ex_d /\ ~ cyclic (aE (agraph_of ex_d)) /\
  exists g, grun empty_graph ex_d = Ok g /\ order g = Ok [3; 1; 2; 0; 4] /\ groupedOrder g = Ok [[3; 1; 2; 0]; [4]].
Proof.
  split; [simpl; unfold valid_op; simpl; lia|]. split.
  - assert (INC : forall x y, aE (agraph_of ex_d) x y -> x < y) by (intros x y; simpl; lia).
    assert (RI : forall x y, reach (aE (agraph_of ex_d)) x y -> x <= y).
    { intros x y R. induction R as [x y H|x|x y z _ H1 _ H2]; [apply INC in H; lia|lia|lia]. }
    intros [a [b [E R]]]. apply INC in E. apply RI in R. lia.
  - eexists. split; [|split]; vm_compute; reflexivity.
Qed.

(* -------- C14: groupedOrder() -------- *)

(* On a graph without cycle: every node is in a group; two nodes are in the same group
   exactly when they are linked by edges in whatever direction; each group is ordered
   dependencies first. *)
Theorem C14_grouped : forall h g, valid aempty h -> grun empty_graph h = Ok g -> ~ cyclic (aE (agraph_of h)) ->
  exists gs, groupedOrder g = Ok gs /\
  (forall x, x < an (agraph_of h) -> exists grp, In grp gs /\ In x grp) /\
  (forall i j gi gj x y, nth_error gs i = Some gi -> nth_error gs j = Some gj -> In x gi -> In y gj ->
     x < an (agraph_of h) /\ y < an (agraph_of h) /\ (i = j <-> linked (aE (agraph_of h)) x y)) /\
  (forall grp, In grp gs -> grp <> [] /\ NoDup grp /\ dep_first (aE (agraph_of h)) grp).
Proof. intros h g V R. exact (grouped_acyclic g _ (reached' h g V R)). Qed.

(* -------- C15: reduce() -------- *)

(* For every graph, cyclic or not: the first result partitions the nodes into the classes
   of mutual dependency; the second is the graph of those classes (reached by valid calls,
   so that all the theorems of this file apply to it): an edge from a class to another one
   exactly when some edge links members of them. *)
Theorem C15_reduce : forall h g, valid aempty h -> grun empty_graph h = Ok g ->
  exists cs g' h', reduce g = Ok (cs, g') /\
  Permutation (concat cs) (seq 0 (an (agraph_of h))) /\
  (forall c, In c cs -> c <> [] /\ forall x y, In x c -> (In y c <-> scc (aE (agraph_of h)) x y)) /\
  valid aempty h' /\ grun empty_graph h' = Ok g' /\ an (agraph_of h') = length cs /\
  (forall i j, aE (agraph_of h') i j <-> i <> j /\ exists ci cj x y,
     nth_error cs i = Some ci /\ nth_error cs j = Some cj /\ In x ci /\ In y cj /\ aE (agraph_of h) x y).
Proof.
  intros h g V R. destruct (reduce_ok g _ (reached' h g V R)) as [cs [g' [h' [H1 [H2 [H3 [H4 [H5 [H6 [H7 _]]]]]]]]]].
  exists cs, g', h'. split; [exact H1|]. split; [exact H2|]. split; [exact H3|]. split; [exact H4|].
  split; [exact H5|]. split; [exact H6|]. intros i j. rewrite H7. split.
  - intros [N [x [y [[ci [Ci X]] [[cj [Cj Y]] E]]]]]. split; [exact N|]. exists ci, cj, x, y. auto.
  - intros [N [ci [cj [x [y [Ci [Cj [X [Y E]]]]]]]]]. split; [exact N|]. exists x, y.
    split; [exists ci; auto|]. split; [exists cj; auto|]. exact E.
Qed.

(* The reduced graph has no cycle, and the classes are listed dependencies first, so
   ordering the reduced graph always succeeds. *)
Theorem C15_reduced_acyclic : forall h g cs g', valid aempty h -> grun empty_graph h = Ok g -> reduce g = Ok (cs, g') ->
  (forall i j ci cj x y, nth_error cs i = Some ci -> nth_error cs j = Some cj -> In x ci -> In y cj ->
     aE (agraph_of h) x y -> j <= i) /\
  exists l, order g' = Ok l /\ Permutation l (seq 0 (length cs)).
Proof.
  intros h g cs g' V R RD.
  destruct (reduce_ok g _ (reached' h g V R)) as [cs0 [g0 [h' [H1 [H2 [H3 [H4 [H5 [H6 [H7 H8]]]]]]]]]].
  rewrite RD in H1. injection H1 as <- <-. split.
  - intros i j ci cj x y Ci Cj X Y E. destruct (Nat.eq_dec i j); [lia|]. apply Nat.lt_le_incl, H8, H7.
    split; [assumption|]. exists x, y. split; [exists ci; auto|]. split; [exists cj; auto|]. exact E.
  - assert (AC : ~ cyclic (aE (agraph_of h'))).
    { assert (RI : forall x y, reach (aE (agraph_of h')) x y -> y <= x).
      { intros x y Q. induction Q as [x y H|x|x y z _ Q1 _ Q2]; [apply H8 in H; lia|lia|lia]. }
      intros [x [y [E Q]]]. apply H8 in E. apply RI in Q. lia. }
    destruct (C13_acyclic h' g' H4 H5 AC) as [l [O1 [O2 _]]]. exists l. rewrite H6 in O2. auto.
Qed.

Example ex_reduce : exists g, grun empty_graph
   [GNode; GNode; GNode; GNode; GEdge 0 1; GEdge 1 2; GEdge 2 1; GEdge 2 3; GEdge 0 3] = Ok g /\
   exists g', reduce g = Ok ([[3]; [2; 1]; [0]], g') /\ edges_ g' = [(1, 0); (2, 0); (2, 1)].
Proof. eexists. split; [vm_compute; reflexivity|]. eexists. split; vm_compute; reflexivity. Qed.

(* -------- C16: DisjointSet -------- *)

(* After any sequence of unify calls, two elements have the same root exactly when the
   pairs given link them; the root of an element is a member of its own set, and isRoot
   tells the elements which are their own root. *)
Theorem C16_equivalence : forall n ps, Forall (fun p => fst p < n /\ snd p < n) ps ->
  exists d rt, ds_unify_all (ds_init n) ps = Ok d /\
    (forall i, i < n -> ds_root d i = Ok (rt i) /\ rt i < n /\ pairs_linked ps i (rt i) /\
                        ds_isRoot d i = Ok (Nat.eqb (rt i) i)) /\
    (forall i j, i < n -> j < n -> (rt i = rt j <-> pairs_linked ps i j)).
Proof. exact c16_main. Qed.

(* Path compression changes no root. *)
Theorem C16_compression : forall n ps d, ds_unify_all (ds_init n) ps = Ok d ->
  Forall (fun p => fst p < n /\ snd p < n) ps ->
  forall i, i < n -> exists d' r, ds_rootCompr d i = Ok (d', r) /\ ds_root d i = Ok r /\
    forall j, j < n -> ds_root d' j = ds_root d j.
Proof. exact c16_compr. Qed.

Example ex_sets : exists d, ds_unify_all (ds_init 6) [(0, 1); (2, 3); (1, 3); (4, 5)] = Ok d /\
  map (ds_root d) [0; 1; 2; 3; 4; 5] = map Ok [0; 0; 0; 0; 4; 4].
Proof. eexists. split; vm_compute; reflexivity. Qed.

Print Assumptions C13_acyclic.
Print Assumptions C13_general.
Print Assumptions C13_throws.
Print Assumptions C13_cycle_rejected_refuted.
Print Assumptions C14_grouped.
Print Assumptions C15_reduce.
Print Assumptions C15_reduced_acyclic.
Print Assumptions C16_equivalence.
Print Assumptions C16_compression.
Print Assumptions C17_edges_exact.
Print Assumptions C17_remove.
Print Assumptions C17_ids_needed.
Print Assumptions C17_addEdge_flag.
