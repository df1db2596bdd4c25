(* C68: what a node declares is what its maps, the call graph and the logger hold. *)
From Coq Require Import List Bool Arith Lia Relations.
Import ListNotations.
From Verif Require Import Base GraphModel CallGraphModel CallGraphSpec CallGraphProofs CallGraphProofs2 CallGraphProps InputsModel InputsSpec NdModel NdSpec NdProofs NdProofs2 NdProofs3.
Local Open Scope nat_scope.

(* Any sequence of calls, some of which may throw, amounts to a sequence of calls that return: those that
   returned, and for those that threw nothing or the same call for fewer arguments. *)
Theorem C68_history : forall n h, exists st ev a, nrun n nst0 h = (st, ev) /\ made n h st ev a.
Proof. exact made_exists. Qed.
Print Assumptions C68_history.

(* After any calls: the update functions are the registered ones, the updates of an output and of an
   update are those declared for it, in order, an update depends on exactly the declared inputs, and an
   output forwards the declared input; no output both forwards an input and depends on updates. *)
Theorem C68_declared : forall n h st ev a, made n h st ev a ->
  (forall u f, nUpd st u = Some f <-> registers a u f) /\
  (forall o, outDep (nDeps st) o = asList (flat_map (updatesFor o) a)) /\
  (forall u, intDep (nDeps st) u = asList (flat_map (updatesBefore u) a)) /\
  (forall u s i, depends st u s i <-> usesInput a u s i) /\
  (forall u l, inDep (nDeps st) u = Some l -> NoDup (map fst l)) /\
  (forall o s i, dirDep (nDeps st) o = Some (s, i) <-> forwards a o s i) /\
  (forall o, dirDep (nDeps st) o = None \/ outDep (nDeps st) o = None).
Proof.
  intros n h st ev a M. destruct (made_holds _ _ _ _ _ M) as [A1 A2 A3 A4 A5 A6 A7 A8 A9 A10 A11].
  split; [exact A1|]. split; [exact A2|]. split; [exact A3|]. split; [exact A4|]. split; [|split; [exact A5|exact A6]].
  intros u l F. exact (proj1 (keys_NoDup l 0 (A11 u l F))).
Qed.
Print Assumptions C68_declared.

(* The logger is told exactly what was declared, in order, and of each input once. *)
Theorem C68_logged : forall n h st ev a, made n h st ev a ->
  filter notInput ev = flat_map (declarations n) a /\
  (forall e, In e (filter isInput ev) <-> exists s i, e = EInput n s i /\ hasInput st s i) /\ NoDup (filter isInput ev).
Proof. intros n h st ev a M. destruct (made_holds _ _ _ _ _ M) as [A1 A2 A3 A4 A5 A6 A7 A8 A9 A10 A11]. auto. Qed.
Print Assumptions C68_logged.

(* The inputs of the node are those of addInput and addDirectDependency, and the first one of each addInputDependency. *)
Theorem C68_inputs : forall n h st ev a, made n h st ev a -> forall s i, hasInput st s i <-> takes a s i.
Proof. intros n h st ev a M. exact (hd_inp _ _ _ _ (made_holds _ _ _ _ _ M)). Qed.
Print Assumptions C68_inputs.
(* The sources kept alive by the node are those given by shared pointers to calls that returned. *)
Theorem C68_alive : forall n h st ev a, made n h st ev a -> forall s, alive st s <-> exists c, In c a /\ shares c s.
Proof. exact made_alive. Qed.
Print Assumptions C68_alive.

(* When calls throw, and what a call that throws has done. *)
Theorem C68_throws : forall n h st ev a o, made n h st ev a ->
  (snd (nexec n st o) = true <->
   match o with
   | NRegister uen ufs => exists l1 u f l2, ufs = l1 ++ (u, f) :: l2 /\ (uen u = false \/ hasUpd a u \/ In u (map fst l1))
   | NOutput oen os u => exists o, In o os /\ (oen o = false \/ hasDirect a o)
   | NInternal uen ud u => uen ud = false \/ uen u = false
   | NInput sh uen sen u s is => uen u = false \/ exists i is', is = i :: is' /\ sen s i = false
   | NDirect sh oen sen o s i => oen o = false \/ hasDirect a o \/ hasOutDep a o \/ sen s i = false
   | NAddInput sh sen s is => exists i, In i is /\ sen s i = false
   end).
Proof. exact throws_spec. Qed.
Print Assumptions C68_throws.
Theorem C68_throw_effect : forall n st o st' ev, nexec n st o = (st', ev, true) ->
  (oneShot o /\ st' = st /\ ev = []) \/ (exists o', shorter o' o /\ nexec n st o' = (st', ev, false)).
Proof. exact throws_shorter. Qed.
Print Assumptions C68_throw_effect.

(* Executing the plan of a call graph over nodes that declared their dependencies: the functions run are
   those registered for the needed updates, and the execution is defined exactly if all the needed
   updates were registered. *)
Theorem C68_execute : forall (W : nat -> option nst) rank D U h,
  forwarding_ends (netOf W) rank D -> enough_calls (netOf W) (all_registered h) U ->
  ~ dep_cycle (netOf W) (registered h []) ->
  forall fuel, length U * (D + 2) + D + 2 <= fuel ->
  exists st p, cgrun fuel (netOf W) h cg_init = Ok st /\ cg_update st = Ok p /\
    (forall r, executePlan W p = Ok r ->
       Forall2 (fun c x => fst x = fst c /\ exists nd, W (fst c) = Some nd /\ nUpd nd (snd c) = Some (snd x)) p r) /\
    (is_ok (executePlan W p) = true <->
       forall s u, needed (netOf W) (registered h []) (s, u) -> exists nd f, W s = Some nd /\ nUpd nd u = Some f).
Proof.
  intros W rank D U h F E C fuel B. destruct (C18_plan (netOf W) rank D U h F E fuel B) as [st [R P]].
  destruct (P C) as [p [Q [_ [M _]]]]. exists st, p. split; [exact R|]. split; [exact Q|].
  destruct (execute_spec W p) as [X1 [X2 _]]. split; [exact X1|]. rewrite X2. split; intros K s u J; apply K; apply M; exact J.
Qed.
Print Assumptions C68_execute.

(* A function of a source (address 5): update 0 computes the value from inputs 0 and 1 of source 9,
   update 1 the velocity, after update 0; output 2 forwards input 3 of the source; the last three calls throw. *)
Definition yes (_ : nat) : bool := true.
Definition yes2 (_ _ : nat) : bool := true.
Definition no4 (_ i : nat) : bool := negb (i =? 4).
Definition exh : list nop := [NRegister yes [(0, 100); (1, 101)]; NOutput yes [0] 0; NOutput yes [1; 3] 1; NInternal yes 1 0;
  NInput true yes yes2 0 9 [0]; NInput true yes yes2 0 9 [1]; NDirect false yes yes2 2 9 3;
  NDirect false yes yes2 1 9 3; NOutput yes [4; 2; 5] 0; NInput false yes no4 1 9 [4]].
Definition exst : nst := fst (nrun 5 nst0 exh).
Example ex_declared : map (nUpd exst) [0; 1; 2] = [Some 100; Some 101; None] /\
  map (outDep (nDeps exst)) [0; 1; 2; 3; 4; 5] = [Some [0]; Some [1]; None; Some [1]; Some [0]; None] /\
  intDep (nDeps exst) 1 = Some [0] /\ inDep (nDeps exst) 0 = Some [(9, [0; 1])] /\ dirDep (nDeps exst) 2 = Some (9, 3) /\
  getInput (nInp exst) 9 = Some [0; 1; 3].
Proof. repeat split. Qed.
Example ex_alive : map (store (nInp exst)) [9; 3] = [true; false].
Proof. reflexivity. Qed.
Example ex_logged : snd (nrun 5 nst0 exh) = [EUpdate 5 0 100; EUpdate 5 1 101; EOutputDep 5 0 0; EOutputDep 5 1 1; EOutputDep 5 3 1;
  EInternalDep 5 1 0; EInput 5 9 0; EInputDep 5 0 9 0; EInput 5 9 1; EInputDep 5 0 9 1; EInput 5 9 3; EDirectDep 5 2 9 3; EOutputDep 5 4 0].
Proof. reflexivity. Qed.
Example ex_throws : map (fun k => snd (nexec 5 (fst (nrun 5 nst0 (firstn k exh))) (nth k exh (NInternal yes 0 0)))) (seq 0 10) =
  [false; false; false; false; false; false; false; true; true; true].
Proof. reflexivity. Qed.
(* the plan for output 1 runs the two functions *)
Definition exW (s : nat) : option nst := if s =? 5 then Some exst else None.
Example ex_execute : exists st, cgrun 20 (netOf exW) [CGAdd [(5, [1])]] cg_init = Ok st /\
  match cg_update st with Ok p => executePlan exW p | _ => Throw end = Ok [(5, 100); (5, 101)].
Proof. eexists. split; [vm_compute; reflexivity|vm_compute; reflexivity]. Qed.

(* An update can be declared to depend on several inputs in one call: only the first is checked to be
   enabled, becomes an input of the node and is told to the logger. *)
Theorem C68_inputs_refuted : exists n o st ev a, made n [o] st ev a /\ snd (nexec n nst0 o) = false /\
  exists u s i, depends st u s i /\ ~ hasInput st s i /\ ~ In (EInput n s i) ev /\
    match o with NInput _ _ sen _ _ _ => sen s i = false | _ => False end.
Proof.
  set (o := NInput true yes no4 0 9 [0; 4]). destruct (nexec 5 nst0 o) as [[st ev] t] eqn:E.
  assert (t = false) by (cbn in E; congruence). subst t.
  exists 5, o, st, ev, [o]. split; [exact (made_returned 5 [] nst0 [] [] o st ev (made0 5) E)|]. split; [rewrite E; reflexivity|].
  cbn in E. injection E as <- <-. exists 0, 9, 4. split; [exists [(9, [0; 4])], [0; 4]; cbn; auto|].
  split; [|split; [|reflexivity]].
  - intros [l [F J]]. cbn in F. injection F as <-. destruct J as [J|[]]; discriminate.
  - intros [J|[J|[J|[]]]]; discriminate.
Qed.
Print Assumptions C68_inputs_refuted.

(* An output or an update can depend on an update that is never registered: no call throws, the plan is
   built, and its execution is undefined (AbstractNode.h:107). *)
Theorem C68_execute_refuted : exists n h st p, let nd := fst (nrun n nst0 h) in
  (forall k, k < length h -> snd (nexec n (fst (nrun n nst0 (firstn k h))) (nth k h (NInternal yes 0 0))) = false) /\
  cgrun 20 (netOf (fun s => if s =? n then Some nd else None)) [CGAdd [(n, [0])]] cg_init = Ok st /\ cg_update st = Ok p /\
  executePlan (fun s => if s =? n then Some nd else None) p = UB.
Proof.
  exists 5, [NOutput yes [0] 0]. eexists. eexists. split; [|split; [vm_compute; reflexivity|split; [vm_compute; reflexivity|reflexivity]]].
  intros k K. destruct k; [reflexivity|cbn in K; lia].
Qed.
Print Assumptions C68_execute_refuted.
