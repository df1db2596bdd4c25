(* C78: the graph made by generateUpdateGraph. *)
From Coq Require Import List Bool Arith Lia Relations.
Require Import Verif.Base Verif.CallGraphModel Verif.CallGraphSpec Verif.CallGraphProps Verif.InputsModel Verif.InputsSpec Verif.GuModel Verif.GuSpec Verif.GuProofs Verif.GuProofs2.
Import ListNotations.
Local Open Scope nat_scope.

(* generateUpdateGraph(3, 1, 0, 2, 1) in the network of CallGraphProps *)
Definition guArgs : list arg := [Out 1; Out 0; Obj 2; Out 1; Obj 1].
Example gu_asked : asked 3 guArgs 3 0 /\ asked 3 guArgs 2 1 /\ ~ asked 3 guArgs 1 0.
Proof.
  split; [exists [], [1], [Obj 2; Out 1; Obj 1]; reflexivity|]. split; [exists [Obj 3; Out 1; Out 0], [], [Obj 1]; reflexivity|].
  unfold guArgs. rewrite !asked_out, asked_obj, asked_out, asked_obj. intros [[K _]|[[K _]|[[K _]|K]]]; try discriminate K. exact (asked_nil _ _ _ K).
Qed.
Example gu_finitely : finitely exN 3 guArgs exU.
Proof. split; [intros s o c _ F; eapply exN_calls; eauto|apply (exN_enough [])]. Qed.
Example gu_acyclic : ~ cyclic exN 3 guArgs.
Proof.
  intros (c & d & (s & o & c0 & _ & F & R) & Q). apply (ex_acyclic [(s, [o])]). exists c, d. split; [|exact Q].
  exists s, [o], o, c0. cbn. auto.
Qed.
Example gu_objects : lists_objects 3 guArgs [2; 1; 3].
Proof. split; [repeat constructor; cbn; lia|]. intros s. cbn. intros [[=]|[[=]|[[=]|[[=]|[[=]|[[=]|[]]]]]]]; subst; auto. Qed.
Example gu_plan : exists us, generate 18 exN (fun _ _ => true) [2; 1; 3] 3 guArgs = Ok (us, [(1, 0); (1, 1); (2, 0); (3, 0); (2, 1)]) /\ length us = 3.
Proof. eexists. split; vm_compute; reflexivity. Qed.

(* In a network where forwarding ends, when the outputs asked for are enabled, need finitely many updates
   and these do not depend on each other in a cycle: the plan has each of these updates exactly once, no
   other one, and each after those it depends on; the graph keeps alive exactly the objects of which an
   output is asked for. *)
Theorem C78_plan : forall N rank D fuel U en addrs obj args,
  forwarding_ends N rank D -> finitely N obj args U -> length U * (D + 2) + D + 2 <= fuel -> lists_objects obj args addrs ->
  (forall s o, asked obj args s o -> en s o = true) -> ~ cyclic N obj args ->
  exists us p, generate fuel N en addrs obj args = Ok (us, p) /\ NoDup p /\ (forall c, In c p <-> needs N obj args c) /\
    (forall c d, In c p -> dep N c d -> called_before p d c) /\
    (forall s, (exists u, In u us /\ owns u s) <-> exists o, asked obj args s o).
Proof. exact generate_ok. Qed.
Print Assumptions C78_plan.

(* It throws exactly if an output asked for is disabled. *)
Theorem C78_throws : forall N rank D fuel U en addrs obj args,
  forwarding_ends N rank D -> finitely N obj args U -> length U * (D + 2) + D + 2 <= fuel -> lists_objects obj args addrs ->
  ~ cyclic N obj args ->
  (generate fuel N en addrs obj args = Throw <-> exists s o, asked obj args s o /\ en s o = false).
Proof. exact generate_throw. Qed.
Print Assumptions C78_throws.
Example gu_throw : generate 18 exN (fun s o => negb ((s =? 2) && (o =? 1))) [2; 1; 3] 3 guArgs = Throw.
Proof. vm_compute. reflexivity. Qed.

(* Executing it, from any memory: the results of the updates needed are up to date, the others are not
   touched, and the results do not depend on the memory before: they are those of any memory that is up to
   date. F is what the updates compute, from the results of those they depend on. *)
Theorem C78_up_to_date : forall V N rank D fuel U en addrs obj args us p (F : call -> (call -> V) -> V) m,
  forwarding_ends N rank D -> finitely N obj args U -> length U * (D + 2) + D + 2 <= fuel -> lists_objects obj args addrs ->
  ~ cyclic N obj args -> reads_deps N F -> generate fuel N en addrs obj args = Ok (us, p) ->
  up_to_date F (needs N obj args) (run F p m) /\ (forall c, ~ needs N obj args c -> run F p m c = m c) /\
  (forall m', up_to_date F (needs N obj args) m' -> forall c, needs N obj args c -> run F p m c = m' c).
Proof. exact generate_run. Qed.
Print Assumptions C78_up_to_date.
(* update (1,0) reads a variable, of value 5; (1,1) doubles it; (3,0) adds the results of (1,1) and (2,0) *)
Definition guF (c : call) (m : call -> nat) : nat :=
  match c with (1, 1) => 2 * m (1, 0) | (3, 0) => m (1, 1) + m (2, 0) | (2, 1) => S (m (2, 0)) | _ => 5 end.
Example gu_reads : reads_deps exN guF.
Proof.
  intros [s u] m m' H.
  assert (K1 : s = 1 -> u = 1 -> m (1, 0) = m' (1, 0)).
  { intros -> ->. apply H. eapply dep_int; [reflexivity|reflexivity|left; reflexivity]. }
  assert (K2 : s = 2 -> u = 1 -> m (2, 0) = m' (2, 0)).
  { intros -> ->. apply H. eapply dep_int; [reflexivity|reflexivity|left; reflexivity]. }
  assert (K3 : s = 3 -> u = 0 -> m (1, 1) = m' (1, 1) /\ m (2, 0) = m' (2, 0)).
  { intros -> ->. split; apply H.
    - eapply dep_in; [reflexivity|reflexivity|left; reflexivity|left; reflexivity|]. eapply feeds_out; [reflexivity|reflexivity|left; reflexivity].
    - eapply dep_in; [reflexivity|reflexivity|right; left; reflexivity|left; reflexivity|]. eapply feeds_out; [reflexivity|reflexivity|left; reflexivity]. }
  unfold guF. destruct s as [|[|[|[|s]]]]; try reflexivity; destruct u as [|[|u]]; try reflexivity.
  - rewrite K1; reflexivity.
  - rewrite K2; reflexivity.
  - destruct K3 as [-> ->]; reflexivity.
Qed.
Example gu_run : let p := [(1, 0); (1, 1); (2, 0); (3, 0); (2, 1)] in
  map (run guF p (fun _ => 100)) p = [5; 10; 5; 15; 6] /\ run guF p (fun _ => 100) (7, 7) = 100.
Proof. split; vm_compute; reflexivity. Qed.

(* Whatever the dependencies: no undefined behaviour, only updates needed, at most once, dependencies
   first; an exception means a disabled output or a cycle. *)
Theorem C78_general : forall N rank D fuel U en addrs obj args,
  forwarding_ends N rank D -> finitely N obj args U -> length U * (D + 2) + D + 2 <= fuel -> lists_objects obj args addrs ->
  match generate fuel N en addrs obj args with
  | Ok (us, p) => (forall s o, asked obj args s o -> en s o = true) /\ NoDup p /\ (forall c, In c p -> needs N obj args c) /\
      (forall c d, In c p -> dep N c d -> called_before p d c)
  | Throw => (exists s o, asked obj args s o /\ en s o = false) \/ cyclic N obj args
  | UB => False
  end.
Proof. exact generate_any. Qed.
Print Assumptions C78_general.

(* With updates depending on each other in a cycle, the graph may be made without exception and leave out
   an update of an output asked for: its result is not up to date after execute(). *)
Theorem C78_cycle_refuted : exists N rank D U obj args addrs us p (F : call -> (call -> nat) -> nat) m c,
  forwarding_ends N rank D /\ finitely N obj args U /\ lists_objects obj args addrs /\ reads_deps N F /\
  generate (length U * (D + 2) + D + 2) N (fun _ _ => true) addrs obj args = Ok (us, p) /\
  needs N obj args c /\ run F p m c <> F c (run F p m).
Proof.
  set (N := fun s => match s with
     | 0 => Some (mkNode (only 0 [0]) (fun u => Some [1 - u]) (fun _ => None) (fun _ => None))
     | 1 => Some (mkNode (only 0 [0]) (fun _ => None) (fun _ => None) (fun _ => None))
     | _ => None end).
  exists N, (fun _ _ => 0), 0, [(0, 0); (0, 1); (1, 0)], 0, [Out 0; Obj 1; Out 0], [0; 1]. eexists _, _, (fun _ _ => 1), (fun _ => 0), (0, 0).
  assert (FU : forall s o c, feeds N s o c -> In c [(0, 0); (0, 1); (1, 0)]).
  { intros s o c F. induction F as [s nd o us u NS OD I|]; [|assumption]. unfold N in NS. destruct s as [|[|s]]; try discriminate;
      injection NS as <-; cbn [outDep] in OD; unfold only in OD; (destruct (o =? 0); [|discriminate]); injection OD as <-;
      destruct I as [<-|[]]; simpl; auto. }
  split. { split; [lia|]. intros s nd o s' o' NS _ DD. unfold N in NS. destruct s as [|[|s]]; try discriminate; injection NS as <-; discriminate. }
  split. { split; [intros s o c _ F; eapply FU; eauto|]. intros c d _ H.
    destruct H as [s nd u us u' NS ID J|]; [|eapply FU; eauto]. unfold N in NS. destruct s as [|[|s]]; try discriminate; injection NS as <-;
      cbn [intDep] in ID; try discriminate. injection ID as <-. destruct J as [<-|[]]. destruct u as [|[|u]]; simpl; auto. }
  split. { split; [repeat constructor; cbn; lia|]. intros s. cbn. intros [[=]|[[=]|[[=]|[[=]|[]]]]]; subst; auto. }
  split; [intros c m m' _; reflexivity|].
  split; [vm_compute; reflexivity|]. split.
  - exists 0, 0, (0, 0). split; [exists [], [], [Obj 1; Out 0]; reflexivity|]. split; [|apply rt_refl].
    eapply feeds_out; [reflexivity|reflexivity|simpl; auto].
  - vm_compute. discriminate.
Qed.
Print Assumptions C78_cycle_refuted.
