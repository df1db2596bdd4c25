(* C45: inputs record exactly the requested outputs. *)
From Coq Require Import List Bool Arith.
Import ListNotations.
From Verif Require Import InputsModel InputsSpec InputsProofs InputsProofs2.
Local Open Scope nat_scope.

(* output 9 of source 7 is disabled *)
Definition en79 (s i : nat) : bool := negb ((s =? 7) && (i =? 9)).
Definition nview (st : state) (n : nat) := (map (getInput st) (seq 0 n), map (store st) (seq 0 n)).
Definition nex : list op := [AddShared en79 1 [3; 2; 3]; AddRef en79 2 [0]; AddRef en79 1 [5]; RemoveSome 1 [5; 2]; AddShared en79 2 [1]; RemoveAll 1; AddRef en79 1 [4]].
Fixpoint runAll (st : state) (h : list op) : option state :=
  match h with [] => Some st | o :: h' => match exec st o with (st', false) => runAll st' h' | _ => None end end.
Definition nviewo (r : option state) (n : nat) := match r with Some st => Some (nview st n) | None => None end.
Example nex_run : nviewo (runAll empty (firstn 4 nex)) 3 = Some ([None; Some [3]; Some [0]], [false; true; false]) /\
  nviewo (runAll empty nex) 3 = Some ([None; Some [4]; Some [0; 1]], [false; false; true]).
Proof. split; reflexivity. Qed.
Lemma runAll_reached h : forall st0 h0 st, reached st0 h0 -> Forall nonempty h -> runAll st0 h = Some st -> reached st (h0 ++ h).
Proof.
  induction h as [|o h IH]; intros st0 h0 st R F E; cbn in E.
  - injection E as <-. rewrite app_nil_r. exact R.
  - apply Forall_cons_iff in F. destruct F as [Fo F]. destruct (exec st0 o) as [st1 [|]] eqn:X; [discriminate|].
    change (o :: h) with ([o] ++ h). rewrite app_assoc. apply (IH st1); [|exact F|exact E]. apply (ROk st0 h0 o st1); assumption.
Qed.
Example nex_reached : exists st, reached st nex /\ nview st 3 = ([None; Some [4]; Some [0; 1]], [false; false; true]).
Proof.
  destruct (runAll empty nex) as [st|] eqn:E; [|discriminate]. exists st. split.
  - apply (runAll_reached nex empty [] st); [constructor| |exact E]. repeat (apply Forall_cons; [constructor|]). constructor.
  - pose proof (proj2 nex_run) as V. rewrite E in V. cbn [nviewo] in V. injection V as V1 V2 V3 V4 V5 V6. unfold nview. cbn [map seq].
    rewrite V1, V2, V3, V4, V5, V6. reflexivity.
Qed.

(* After every history of calls that returned, and of calls that threw without effect, each source has
   exactly the outputs added and not removed since, there is an entry for it exactly if it has some,
   and it is kept alive exactly if it was added with shared ownership and used ever since. *)
Theorem C45_history : forall st h, reached st h ->
  (forall s i, holds st s i <-> requested h s i) /\ (forall s, owns st s <-> kept h s) /\ (forall s, getInput st s <> None <-> used h s).
Proof. exact reached_spec. Qed.
Print Assumptions C45_history.

(* A call throws exactly if it asks for a disabled output, or removes from a source that is not there
   or an output that is not there. *)
Theorem C45_throws : forall st h o, reached st h -> nonempty o -> (snd (exec st o) = true <->
  match o with
  | AddRef en s os | AddShared en s os => exists i, In i os /\ en s i = false
  | RemoveAll s => ~ used h s
  | RemoveSome s os => exists i, In i os /\ ~ requested h s i
  end).
Proof. exact throws_when. Qed.
Print Assumptions C45_throws.

(* A call for one output, or removing a whole source, throws without effect. *)
Theorem C45_atomic_add_one : forall en (sh : bool) s i st st', exec st (if sh then AddShared en s [i] else AddRef en s [i]) = (st', true) -> st' = st.
Proof. exact one_output. Qed.
Print Assumptions C45_atomic_add_one.
Theorem C45_atomic_remove_one : forall s i st st', exec st (RemoveSome s [i]) = (st', true) -> same st st'.
Proof. exact one_removal. Qed.
Print Assumptions C45_atomic_remove_one.
Theorem C45_atomic_remove_all : forall s st st', exec st (RemoveAll s) = (st', true) -> st' = st.
Proof. exact removeAll_throw. Qed.
Print Assumptions C45_atomic_remove_all.
Example atomic_cases : snd (exec empty (AddShared en79 7 [9])) = true /\ snd (exec empty (RemoveAll 1)) = true /\ snd (exec empty (RemoveSome 1 [2])) = true.
Proof. repeat split. Qed.

(* A throwing call for several outputs has added those before the first disabled one, or removed those
   smaller than the first one that is not there; the sources kept alive are the same. *)
Theorem C45_throw_add : forall en (sh : bool) s os st st', exec st (if sh then AddShared en s os else AddRef en s os) = (st', true) ->
  (forall t j, holds st' t j <-> holds st t j \/ (t = s /\ In j (before (en s) os))) /\ (forall t, owns st' t <-> owns st t).
Proof. exact add_throw. Qed.
Print Assumptions C45_throw_add.
Theorem C45_throw_remove : forall s os st st', exec st (RemoveSome s os) = (st', true) -> getInput st s <> None ->
  exists i, In i os /\ ~ holds st s i /\
   (forall t j, holds st' t j <-> holds st t j /\ ~ (t = s /\ In j os /\ j < i)) /\ (forall t, owns st' t <-> owns st t).
Proof. exact removeSome_throws. Qed.
Print Assumptions C45_throw_remove.

(* Hence the throwing calls are not without effect: outputs are added; the source of a shared pointer is
   then used but not kept alive; outputs are removed; an unused source is then kept alive. *)
Theorem C45_add_atomic_refuted : exists en s os st', exec empty (AddShared en s os) = (st', true) /\
  (exists i, holds st' s i) /\ ~ owns st' s.
Proof.
  exists en79, 7, [1; 9]. eexists. split; [reflexivity|]. split; [|discriminate]. exists 1, [1]. split; [reflexivity|left; reflexivity].
Qed.
Print Assumptions C45_add_atomic_refuted.
Theorem C45_remove_atomic_refuted : exists st h s os st', reached st h /\ exec st (RemoveSome s os) = (st', true) /\
  (exists i, holds st s i) /\ (forall i, ~ holds st' s i) /\ owns st' s /\ getInput st' s <> None.
Proof.
  exists (mkS (upd (inputs empty) 1 (Some [2])) (upd (store empty) 1 true)), [AddShared en79 1 [2]], 1, [2; 3].
  eexists. split; [|split; [reflexivity|]].
  - apply (ROk empty [] (AddShared en79 1 [2])); [constructor|constructor|reflexivity].
  - split; [exists 2, [2]; split; [reflexivity|left; reflexivity]|]. split; [intros i [l [E K]]; injection E as <-; destruct K|].
    split; [reflexivity|discriminate].
Qed.
Print Assumptions C45_remove_atomic_refuted.
