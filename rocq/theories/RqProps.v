(* C71: the solving requirements of tasks. *)
From Coq Require Import List Bool Arith ZArith QArith Lia Permutation.
Import ListNotations.
From Verif Require Import Base QueueModel PbModel PbSpec RqModel RqSpec RqProofs.
Local Open Scope nat_scope.

(* the state after a history which is defined *)
Definition after (w : world) (l : list wop) : world := match wrun (fun _ => true) w l with Ok w' => w' | _ => w end.
Lemma after_ok w l : is_ok (wrun (fun _ => true) w l) = true -> wrun (fun _ => true) w l = Ok (after w l).
Proof. unfold after. destruct (wrun _ w l); [reflexivity|discriminate|discriminate]. Qed.

(* ---- construction ---- *)
(* Arguments are accepted exactly if no kind is given twice; then each requirement is the one given, or the default one. *)
Theorem C71_arguments : forall l : list arg, (newReqs l = None <-> ~ NoDup (map (@projT1 kind single) l)) /\
  forall r, newReqs l = Some r -> forall k, (forall s, In (existT _ k s) l -> r k = s) /\ (~ In k (map (@projT1 kind single) l) -> r k = mkS (defaultValue k) true).
Proof. exact arguments. Qed.
Print Assumptions C71_arguments.
(* The order of the arguments does not matter. *)
Theorem C71_order : forall (l l' : list arg) (r : reqs), Permutation l l' -> newReqs l = Some r -> exists r', newReqs l' = Some r' /\ forall k, r' k = r k.
Proof. exact order_free. Qed.
Print Assumptions C71_order.
(* A task gets the requirements it was given. *)
Theorem C71_task : forall req : reqs, exists r, withCallbacks req = Some r /\ forall k, r k = req k.
Proof. exact of_task. Qed.
Print Assumptions C71_task.
(* The constructors throw exactly for negative priorities and weights. *)
Theorem C71_checked : forall (k : kind) (v : ty k), (acceptable v -> newSingle k v = Ok (mkS v false)) /\ (~ acceptable v -> newSingle k v = Throw).
Proof. exact checked. Qed.
Print Assumptions C71_checked.

Definition two : single KPriority := @mkS KPriority 2%Z false.
Definition three : single KWeight := @mkS KWeight (3 # 1) false.
Example C71_construct : exists r, newReqs [existT single KWeight three; existT single KPriority two] = Some r /\
  r KPriority = two /\ r KWeight = three /\ r KAnisotropic = @mkS KAnisotropic [] true /\ r KEvaluation = @mkS KEvaluation L2 true /\
  newReqs [existT single KWeight three; existT single KWeight three] = None /\
  newSingle KAnisotropic [1%Q; (-1 # 2)%Q] = Throw /\ newSingle KAnisotropic [1%Q; 0%Q] = Ok (@mkS KAnisotropic [1%Q; 0%Q] false).
Proof. eexists. split; [reflexivity|]. repeat match goal with |- _ /\ _ => split end; reflexivity. Qed.

(* ---- changes ---- *)
(* After any history the requirements are the last ones given. *)
Theorem C71_current : forall b l w w', wrun b w l = Ok w' -> forall t k, wreq w' t k = lastGiven t k l (wreq w t k).
Proof. exact current. Qed.
Print Assumptions C71_current.
(* A requirement that says it is the default one has the default value, if this is so of those given. *)
Theorem C71_default : forall b l w w', (forall t k s, In (CopyFrom t k s) l -> isDefault s = true -> value s = defaultValue k) ->
  (forall t k, isDefault (wreq w t k) = true -> value (wreq w t k) = defaultValue k) -> wrun b w l = Ok w' ->
  forall t k, isDefault (wreq w' t k) = true -> value (wreq w' t k) = defaultValue k.
Proof.
  intros b l w w' H I R. apply (kept (fun k s => isDefault s = true -> value s = defaultValue k) b l (fun t k v _ X => False_ind _ (diff_false_true X)) H w w' I R).
Qed.
Print Assumptions C71_default.
(* The converse does not hold. *)
Theorem C71_default_refuted : exists s, newSingle KWeight 1%Q = Ok s /\ value s = defaultValue KWeight /\ isDefault s = false.
Proof. eexists. split; [reflexivity|split; reflexivity]. Qed.
Print Assumptions C71_default_refuted.

(* Priorities and weights stay non-negative if the values given are; *)
Theorem C71_nonnegative_partial : forall b l w w', (forall t k v, In (SetValue t k v) l -> acceptable v) -> (forall t k s, In (CopyFrom t k s) l -> acceptable (value s)) ->
  (forall t k, acceptable (value (wreq w t k))) -> wrun b w l = Ok w' -> forall t k, acceptable (value (wreq w' t k)).
Proof. intros b l w w' H1 H2 I R. exact (kept (fun k s => acceptable (value s)) b l H1 H2 w w' I R). Qed.
Print Assumptions C71_nonnegative_partial.
(* setting a negative one is not refused: nothing throws, and the scheme is told to use it. *)
Theorem C71_nonnegative_refuted : exists l w, wrun (fun _ => true) (mkW empty newDefault_all) l = Ok w /\ newSingle KWeight (-1 # 1)%Q = Throw /\
  In 1 (tr (wpb w)) /\ value (wreq w 1 KWeight) = (-1 # 1)%Q /\ queues (wpb w) = [[mkE WeightChange (addrTask 1)]].
Proof.
  exists [Other NewData; Other (Add 1); Other (Process 0); SetValue 1 KWeight (-1 # 1)%Q]. eexists. split; [apply after_ok; vm_compute; reflexivity|]. split; [reflexivity|]. split; [vm_compute; auto|]. split; vm_compute; reflexivity.
Qed.
Print Assumptions C71_nonnegative_refuted.

(* ---- what the schemes are told ---- *)
(* In a history of a problem where tasks are only added when absent and nothing throws: if a weight of a task of the problem
   is not the one it had when the scheme i had no pending event (w1), an event tells the scheme, provided the weight was not
   assigned from another requirement. *)
Theorem C71_announced_partial : forall b r0 l1 l2 w1 w2 i t k, aWeight k -> proper b empty (callsOf (l1 ++ l2)) ->
  wrun b (mkW empty r0) l1 = Ok w1 -> wrun b w1 l2 = Ok w2 -> nth_error (queues (wpb w1)) i = Some [] -> ~ In (Other (Process i)) l2 ->
  (forall c, ~ In (CopyFrom t k c) l2) -> In t (tr (wpb w2)) -> wreq w2 t k <> wreq w1 t k ->
  exists q, nth_error (queues (wpb w2)) i = Some q /\ told k t q.
Proof. exact announced. Qed.
Print Assumptions C71_announced_partial.
Example C71_announced_case : exists w1 w2, let l1 := [Other NewData; Other (Add 1); Other (Add 2); Other (Process 0)] in
  let l2 := [SetValue 1 KWeight (2 # 1)%Q; SetValue 2 KAnisotropic [(3 # 1)%Q]; Other (Remove 2); Other (Add 2)] in
  proper (fun _ => true) empty (callsOf (l1 ++ l2)) /\ wrun (fun _ => true) (mkW empty newDefault_all) l1 = Ok w1 /\ wrun (fun _ => true) w1 l2 = Ok w2 /\
  nth_error (queues (wpb w1)) 0 = Some [] /\ In 2 (tr (wpb w2)) /\ value (wreq w2 1 KWeight) = (2 # 1)%Q /\ value (wreq w2 2 KAnisotropic) = [(3 # 1)%Q] /\
  queues (wpb w2) = [[mkE WeightChange (addrTask 1); mkE TaskRemoval (addrTask 2); mkE TaskAddition (addrTask 2)]].
Proof.
  eexists. eexists. cbv zeta. split; [vm_compute; repeat match goal with |- _ /\ _ => split end; try exact I; intuition discriminate|]. split; [apply after_ok; vm_compute; reflexivity|]. split; [apply after_ok; vm_compute; reflexivity|]. split; [reflexivity|]. split; [vm_compute; auto|]. split; [vm_compute; reflexivity|split; vm_compute; reflexivity].
Qed.

(* An assignment from another requirement, such as weight() = Weight(2), and any change of the priority or of the evaluation
   of the violation, tell nothing to anyone; *)
Theorem C71_silent : forall b w t k w', (exists s, wstep b w (CopyFrom t k s) = WDone w') \/ (~ aWeight k /\ exists v, wstep b w (SetValue t k v) = WDone w') -> wpb w' = wpb w.
Proof. exact silent. Qed.
Print Assumptions C71_silent.
(* so that a scheme may go on with another weight, or another priority, than those of the task. *)
Theorem C71_announced_refuted : exists l1 l2 w1 w2, proper (fun _ => true) empty (callsOf (l1 ++ l2)) /\
  wrun (fun _ => true) (mkW empty newDefault_all) l1 = Ok w1 /\ wrun (fun _ => true) w1 l2 = Ok w2 /\ queues (wpb w1) = [[]] /\ In 1 (tr (wpb w1)) /\
  tr (wpb w2) = tr (wpb w1) /\ value (wreq w2 1 KWeight) <> value (wreq w1 1 KWeight) /\ value (wreq w2 1 KPriority) <> value (wreq w1 1 KPriority) /\ queues (wpb w2) = [[]].
Proof.
  exists [Other NewData; Other (Add 1); Other (Process 0)], [CopyFrom 1 KWeight three; SetValue 1 KPriority 2%Z]. eexists. eexists.
  split; [vm_compute; repeat match goal with |- _ /\ _ => split end; try exact I; intuition discriminate|]. split; [apply after_ok; vm_compute; reflexivity|]. split; [apply after_ok; vm_compute; reflexivity|]. split; [reflexivity|]. split; [vm_compute; auto|]. split; [vm_compute; reflexivity|]. split; [vm_compute; discriminate|]. split; [vm_compute; discriminate|vm_compute; reflexivity].
Qed.
Print Assumptions C71_announced_refuted.
