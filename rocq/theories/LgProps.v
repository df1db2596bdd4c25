(* C69: the part of the computation graph the log reports for outputs or for a call graph *)
From Coq Require Import List Bool Arith Lia Relations.
Import ListNotations.
From Verif Require Import Base CallGraphModel CallGraphSpec CallGraphProps InputsModel InputsSpec NdModel NdSpec LgModel LgSpec LgProofs LgProofs2.
Local Open Scope nat_scope.

(* Whatever was logged, the walk from an output ends.  It returns if and only if nothing that the output
   uses, directly or not, refers to an update or an input that was not logged; it then lists, once each,
   exactly the outputs and the updates used, the updates with the function first registered. *)
Theorem C69_output : forall L n o fuel, turns L [(n, o)] <= fuel ->
  match subGraphOf fuel L (n, o) with
  | Ok (outs, upds) => rightWalk L [(n, o)] outs upds /\ ~ (exists x, usedBy L [(n, o)] x /\ dangling L x)
  | Throw => exists x, usedBy L [(n, o)] x /\ dangling L x
  | UB => False
  end.
Proof. intros L n o. exact (follow_spec L [(n, o)]). Qed.
Print Assumptions C69_output.

(* The same from the inputs of the objects that were added to a call graph, none if it is unknown. *)
Theorem C69_graph : forall L g start, (forall n o, In (n, o) start <-> isGraphOutput L g n o) -> forall fuel, turns L (inputsOfGraph L g) <= fuel ->
  match subGraph fuel L g with
  | Ok (outs, upds) => rightWalk L start outs upds /\ ~ (exists x, usedBy L start x /\ dangling L x)
  | Throw => exists x, usedBy L start x /\ dangling L x
  | UB => False
  end.
Proof. exact graph_spec. Qed.
Print Assumptions C69_graph.

(* With the declarations of nodes logged, the updates listed for a call graph are exactly those its plan
   calls, each with the function its node registered. *)
Theorem C69_plan : forall H evs g rank D U h, toldBy H evs -> addedTo H evs g (registered h []) ->
  forwarding_ends (netOf (world H)) rank D -> enough_calls (netOf (world H)) (all_registered h) U -> ~ dep_cycle (netOf (world H)) (registered h []) ->
  forall fuel, length U * (D + 2) + D + 2 <= fuel ->
  forall fuel' outs upds, turns (logOf evs) (inputsOfGraph (logOf evs) g) <= fuel' -> subGraph fuel' (logOf evs) g = Ok (outs, upds) ->
  exists st p, cgrun fuel (netOf (world H)) h cg_init = Ok st /\ cg_update st = Ok p /\
    (forall n u, In (n, u) p <-> exists f, In (n, u, f) upds) /\
    (forall n u f, In (n, u, f) upds -> exists nd, world H n = Some nd /\ nUpd nd u = Some f).
Proof.
  intros H evs g rank D U h T A F E C fuel B fuel' outs upds B' G.
  destruct (graph_updates H evs T g (registered h []) fuel' outs upds A B' G) as [G1 G2].
  destruct (C18_plan (netOf (world H)) rank D U h F E fuel B) as [st [R P]]. destruct (P C) as [p [Q [_ [M _]]]].
  exists st, p. split; [exact R|]. split; [exact Q|]. split.
  - intros n u. rewrite M. apply G1.
  - intros n u f J. exists (stOf H n). split; [reflexivity|exact (G2 n u f J)].
Qed.
Print Assumptions C69_plan.

(* The walk returns if every input used by an update is an input of its node and every update referred to is registered. *)
Theorem C69_returns : forall H evs g fuel, toldBy H evs -> turns (logOf evs) (inputsOfGraph (logOf evs) g) <= fuel ->
  (forall n nd u s i, world H n = Some nd -> depends nd u s i -> hasInput nd s i) ->
  (forall n nd o us u, world H n = Some nd -> outDep (nDeps nd) o = Some us -> In u us -> nUpd nd u <> None) ->
  (forall n nd v us u, world H n = Some nd -> intDep (nDeps nd) v = Some us -> In u us -> nUpd nd u <> None) ->
  exists r, subGraph fuel (logOf evs) g = Ok r.
Proof.
  intros H evs g fuel T B C1 C2 C3. apply (tidy_returns H evs T g fuel B).
  - intros n u s i. exact (C1 n _ u s i eq_refl).
  - intros n o us u. exact (C2 n _ o us u eq_refl).
  - intros n v us u. exact (C3 n _ v us u eq_refl).
Qed.
Print Assumptions C69_returns.

(* The log holds what was told while the logger was enabled. *)
Theorem C69_disabled : forall h, fst (lrun h) = logOf (heard true h).
Proof. exact disabled_spec. Qed.
Print Assumptions C69_disabled.

(* Three nodes and an object 7 given to the graph 9: output 0 of node 1 is computed by its update 1, after
   its update 0, which uses output 0 of node 2; output 1 of node 2 is the output 4 of node 3. *)
Definition yes (_ : nat) : bool := true.
Definition yes2 (_ _ : nat) : bool := true.
Definition exH (n : nat) : list nop :=
  match n with
  | 1 => [NRegister yes [(0, 100); (1, 101); (2, 102)]; NOutput yes [0; 3] 1; NInternal yes 1 0; NInput true yes yes2 0 2 [0]]
  | 2 => [NRegister yes [(0, 200)]; NOutput yes [0] 0; NDirect true yes yes2 1 3 4]
  | 3 => [NRegister yes [(5, 300)]; NOutput yes [4] 5]
  | 7 => [NAddInput true yes2 1 [0]; NAddInput true yes2 2 [1]]
  | _ => []
  end.
Definition exEvs : list logev := flat_map (fun n => snd (nrun n nst0 (exH n))) [3; 2; 1; 7] ++ [EGraph 9 7].
Example ex_told : toldBy exH exEvs.
Proof. intros n. do 8 (destruct n as [|n]; [reflexivity|]). reflexivity. Qed.
Example ex_added : addedTo exH exEvs 9 [(1, [0]); (2, [1])].
Proof.
  intros s o. split.
  - intros [os [[E|[E|[]]] J]]; injection E as <- <-; destruct J as [<-|[]]; exists 7; (split; [apply in_or_app; right; left; reflexivity|]); (eexists; split; [reflexivity|left; reflexivity]).
  - intros [p [J K]]. apply in_app_or in J. destruct J as [J|[J|[]]].
    + exfalso. vm_compute in J. repeat (destruct J as [J|J]; [discriminate|]). exact J.
    + injection J as <-. destruct K as [l [E K]]. destruct (Nat.eq_dec s 1) as [->|N1].
      * injection E as <-. destruct K as [<-|[]]. exists [0]. split; [left; reflexivity|left; reflexivity].
      * destruct (Nat.eq_dec s 2) as [->|N2].
        -- injection E as <-. destruct K as [<-|[]]. exists [1]. split; [right; left; reflexivity|left; reflexivity].
        -- exfalso. do 3 (destruct s as [|s]; [try contradiction; discriminate|]). discriminate.
Qed.
Example ex_graph : turns (logOf exEvs) (inputsOfGraph (logOf exEvs) 9) <= 200 /\
  subGraph 200 (logOf exEvs) 9 = Ok ([(2, 1); (3, 4); (1, 0); (2, 0)], [(3, 5, 300); (1, 1, 101); (1, 0, 100); (2, 0, 200)]) /\
  subGraph 200 (logOf exEvs) 8 = Ok ([], []) /\
  subGraphOf 200 (logOf exEvs) (2, 1) = Ok ([(2, 1); (3, 4)], [(3, 5, 300)]).
Proof. split; [vm_compute; lia|]. split; [vm_compute; reflexivity|]. split; [vm_compute; reflexivity|vm_compute; reflexivity]. Qed.
Example ex_plan : exists st p, cgrun 50 (netOf (world exH)) [CGAdd [(1, [0]); (2, [1])]] cg_init = Ok st /\ cg_update st = Ok p /\ length p = 4 /\
  forall c, In c [(3, 5); (1, 1); (1, 0); (2, 0)] -> In c p.
Proof. eexists. eexists. split; [vm_compute; reflexivity|]. split; [vm_compute; reflexivity|]. split; [reflexivity|]. intros c. cbn. intuition. Qed.
(* a cycle of updates does not keep the walk from ending *)
Definition cyEvs : list logev := [EUpdate 1 0 100; EUpdate 1 1 101; EOutputDep 1 0 0; EInternalDep 1 0 1; EInternalDep 1 1 0].
Example ex_cycle : subGraphOf 50 (logOf cyEvs) (1, 0) = Ok ([(1, 0)], [(1, 0, 100); (1, 1, 101)]).
Proof. vm_compute. reflexivity. Qed.

(* An update may use several inputs declared in one call: the plan of the graph calls it, but the walk throws. *)
Definition vaH (n : nat) : list nop :=
  match n with 1 => [NRegister yes [(0, 100)]; NOutput yes [0] 0; NInput true yes yes2 0 2 [0; 1]] | 7 => [NAddInput true yes2 1 [0]] | _ => [] end.
Definition vaEvs : list logev := flat_map (fun n => snd (nrun n nst0 (vaH n))) [1; 7] ++ [EGraph 9 7].
Theorem C69_throws_refuted : exists H evs g st, toldBy H evs /\
  (forall n k, k < length (H n) -> snd (nexec n (fst (nrun n nst0 (firstn k (H n)))) (nth k (H n) (NInternal yes 0 0))) = false) /\
  cgrun 50 (netOf (world H)) [CGAdd [(1, [0])]] cg_init = Ok st /\ match cg_update st with Ok p => executePlan (world H) p | _ => UB end = Ok [(1, 100)] /\
  forall fuel, turns (logOf evs) (inputsOfGraph (logOf evs) g) <= fuel -> subGraph fuel (logOf evs) g = Throw.
Proof.
  exists vaH, vaEvs, 9. eexists. split; [intros n; do 8 (destruct n as [|n]; [reflexivity|]); reflexivity|].
  split.
  { intros n k. do 2 (destruct n as [|n]; [do 3 (destruct k as [|k]; [cbn; intros; try reflexivity; lia|]); cbn; lia|]).
    do 5 (destruct n as [|n]; [cbn; lia|]). destruct n as [|n]; [destruct k as [|k]; cbn; [reflexivity|lia]|cbn; lia]. }
  split; [vm_compute; reflexivity|]. split; [vm_compute; reflexivity|].
  intros fuel B. pose proof (follow_spec (logOf vaEvs) (inputsOfGraph (logOf vaEvs) 9) fuel B) as F. rewrite <- subGraph_follow in F.
  destruct (subGraph fuel (logOf vaEvs) 9) as [[outs upds]| |]; [|reflexivity|destruct F]. exfalso. apply (proj2 F). exists (AnUpdate 1 0). split.
  - exists 1, 0. split; [left; reflexivity|]. apply rt_step. constructor. left. reflexivity.
  - apply (dg_in _ 1 0 2 1); [right; left; reflexivity|]. vm_compute. intros J. repeat (destruct J as [J|J]; [discriminate|]). exact J.
Qed.
Print Assumptions C69_throws_refuted.

(* The log is not told when a call graph is cleared: the walk goes on listing what the graph called before. *)
Theorem C69_clear_refuted : exists H evs g h st outs upds, toldBy H evs /\ addedTo H evs g (all_registered h) /\
  cgrun 50 (netOf (world H)) h cg_init = Ok st /\ cg_update st = Ok [] /\ registered h [] = [] /\
  turns (logOf evs) (inputsOfGraph (logOf evs) g) <= 200 /\ subGraph 200 (logOf evs) g = Ok (outs, upds) /\ length outs = 4 /\ length upds = 4.
Proof.
  exists exH, exEvs, 9, [CGAdd [(1, [0]); (2, [1])]; CGClear]. eexists. eexists. eexists. split; [exact ex_told|]. split; [exact ex_added|].
  split; [vm_compute; reflexivity|]. split; [vm_compute; reflexivity|]. split; [reflexivity|]. split; [exact (proj1 ex_graph)|]. split; [exact (proj1 (proj2 ex_graph))|]. split; reflexivity.
Qed.
Print Assumptions C69_clear_refuted.

(* After the logger was disabled for a while, the walk may throw for a graph all of whose nodes are in order. *)
Theorem C69_disabled_refuted : exists evs1 evs2 g r, subGraph 200 (logOf (evs1 ++ evs2)) g = Ok r /\
  let L := fst (lrun (LDisable :: map LTell evs1 ++ LEnable :: map LTell evs2)) in subGraph 200 L g = Throw.
Proof.
  exists (firstn 1 exEvs), (skipn 1 exEvs), 9. eexists. split; [rewrite firstn_skipn; exact (proj1 (proj2 ex_graph))|]. vm_compute. reflexivity.
Qed.
Print Assumptions C69_disabled_refuted.
