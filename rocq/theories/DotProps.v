(* C75: the drawings of the log *)
From Coq Require Import List Bool Arith String Ascii DecimalString Lia Relations.
Import ListNotations.
From Verif Require Import Base CallGraphModel InputsModel InputsSpec NdModel NdSpec LgModel LgSpec LgProps DotModel DotSpec DotProofs DotProofs2 DotProofs3 DotProofs4.
Local Open Scope nat_scope.
Local Open Scope list_scope.

(* The drawing of the whole log with highlighted outputs and updates.  It returns if and only if every update and input a dependency
   refers to was logged; it then has one cluster per object, shows every output and every update once, those to highlight in orange, and
   an arrow for each dependency, orange if both ends are, an update being taken with the least of its functions. *)
Theorem C75_whole : forall demangle tname oName uName evs nm lbl, named demangle tname oName uName evs nm lbl -> forall oh uh,
  match generateDot demangle tname oName uName (tlogOf evs) oh uh with
  | Ok d => complete (theLog evs) /\ shows nm lbl (inOuts oh) (inUpds uh) (litLeast (theLog evs) uh) (theLog evs) d /\ clusters demangle tname evs d
  | Throw => ~ complete (theLog evs)
  | UB => False
  end.
Proof. exact whole_spec. Qed.
Print Assumptions C75_whole.

(* Names as asked always exist. *)
Theorem C75_names_exist : forall demangle tname oName uName evs, exists nm lbl, named demangle tname oName uName evs nm lbl.
Proof. intros demangle tname oName uName evs. eexists. eexists. apply named_ex. Qed.
Print Assumptions C75_names_exist.

(* The drawing of one object: the same with its inputs, without highlights; it depends on what the object declared only. *)
Theorem C75_object : forall demangle tname oName uName evs nm lbl, named demangle tname oName uName evs nm lbl -> forall p,
  match generateDot1 demangle tname oName uName (tlogOf evs) p with
  | Ok d => completeFor (theLog evs) p /\ shows1 nm lbl (theLog evs) p d
  | Throw => ~ completeFor (theLog evs) p
  | UB => False
  end.
Proof. exact one_spec. Qed.
Print Assumptions C75_object.

(* The drawing of a call graph: empty if no input was given to the graph; otherwise the drawing of the whole log, and not of the graph
   only, so that it throws on an object the graph does not use; the elements walked through from the graph are highlighted. *)
Theorem C75_graph : forall demangle tname oName uName evs nm lbl, named demangle tname oName uName evs nm lbl ->
  forall g start, (forall n o, In (n, o) start <-> isGraphOutput (theLog evs) g n o) -> forall fuel, turns (theLog evs) (inputsOfGraph (theLog evs) g) <= fuel ->
  match generateDotOf demangle tname oName uName (tlogOf evs) fuel g with
  | Ok d => (start = [] /\ d = []) \/
            (start <> [] /\ complete (theLog evs) /\ clusters demangle tname evs d /\
             exists outs upds, rightWalk (theLog evs) start outs upds /\ shows nm lbl (inOuts outs) (inUpds upds) (litLeast (theLog evs) upds) (theLog evs) d)
  | Throw => start <> [] /\ ~ complete (theLog evs)
  | UB => False
  end.
Proof. exact graph_draw. Qed.
Print Assumptions C75_graph.

(* When each update has one function, an output or an update is orange if and only if the graph uses it, directly or not, and an arrow if
   and only if the graph uses both its ends, *)
Theorem C75_graph_colours_partial : forall demangle tname oName uName evs nm lbl, named demangle tname oName uName evs nm lbl ->
  forall g start, oneFunction (theLog evs) -> (forall n o, In (n, o) start <-> isGraphOutput (theLog evs) g n o) ->
  forall fuel, turns (theLog evs) (inputsOfGraph (theLog evs) g) <= fuel ->
  match generateDotOf demangle tname oName uName (tlogOf evs) fuel g with
  | Ok d => (start = [] /\ d = []) \/
            (start <> [] /\ complete (theLog evs) /\ clusters demangle tname evs d /\
             shows nm lbl (fun n o => usedBy (theLog evs) start (AnOutput n o)) (fun n u _ => usedBy (theLog evs) start (AnUpdate n u))
               (fun n u => usedBy (theLog evs) start (AnUpdate n u)) (theLog evs) d)
  | Throw => start <> [] /\ ~ complete (theLog evs)
  | UB => False
  end.
Proof. exact graph_colours. Qed.
Print Assumptions C75_graph_colours_partial.
(* that is, its end: what a used element uses is used. *)
Theorem C75_used_target : forall L start x y, uses L x y -> usedBy L start x -> usedBy L start y.
Proof. exact used_target. Qed.
Print Assumptions C75_used_target.

(* The log of nodes: each update has one function, *)
Theorem C75_nodes_one_function : forall H evs, toldBy H (map te_ev evs) -> oneFunction (theLog evs).
Proof. exact told_oneFunction. Qed.
Print Assumptions C75_nodes_one_function.
(* and the drawings return if the updates and inputs the nodes refer to are theirs. *)
Theorem C75_nodes_return_partial : forall H evs, toldBy H (map te_ev evs) ->
  (forall n nd u s i, world H n = Some nd -> depends nd u s i -> hasInput nd s i /\ nUpd nd u <> None) ->
  (forall n nd o us u, world H n = Some nd -> outDep (nDeps nd) o = Some us -> In u us -> nUpd nd u <> None) ->
  (forall n nd v us u, world H n = Some nd -> intDep (nDeps nd) v = Some us -> In u us -> nUpd nd u <> None /\ nUpd nd v <> None) ->
  forall demangle tname oName uName oh uh, exists d, generateDot demangle tname oName uName (tlogOf evs) oh uh = Ok d.
Proof.
  intros H evs T C1 C2 C3 demangle tname oName uName oh uh. pose proof (told_complete H evs T C1 C2 C3) as C.
  pose proof (whole_spec demangle tname oName uName evs _ _ (named_ex demangle tname oName uName evs) oh uh) as W.
  destruct (generateDot demangle tname oName uName (tlogOf evs) oh uh) as [d| |]; [eauto|destruct (W C)|destruct W].
Qed.
Print Assumptions C75_nodes_return_partial.

(* the log of C69, with types: object n has type n, named by a letter *)
Definition typed (l : list logev) : list tev :=
  map (fun e => mkTE e (match e with EUpdate n _ _ | EInput n _ _ | EOutputDep n _ _ | EInternalDep n _ _ | EInputDep n _ _ _ | EDirectDep n _ _ _ => n | EGraph _ _ => 0 end)
                       (match e with EInput _ s _ | EInputDep _ _ s _ | EDirectDep _ _ s _ => s | _ => 0 end)) l.
Definition letters (t : nat) : string := String (ascii_of_nat (96 + t)) EmptyString.
Definition ids (pre : string) (n i : nat) : string := String.append pre (letters i).
Lemma typed_ev l : map te_ev (typed l) = l.
Proof. unfold typed. rewrite map_map. cbn [te_ev]. apply map_id. Qed.
Example ex_drawing : generateDotOf (fun s => s) letters (ids "x") (ids "up") (tlogOf (typed (exEvs ++ [EOutputDep 1 5 2]))) 200 9 =
  Ok [SCluster 1 "a"; SUp "a1_upup`" "up`" true; SUp "a1_upupa" "upa" true; SUp "a1_upupb" "upb" false;
        SOut "a1_outx`" "x`" true true; SOut "a1_outxc" "xc" false false; SOut "a1_outxe" "xe" false false;
      SCluster 2 "b"; SUp "b2_upup`" "up`" true; SOut "b2_outx`" "x`" true true; SOut "b2_outxa" "xa" true true;
      SCluster 3 "c"; SUp "c3_upupe" "upe" true; SOut "c3_outxd" "xd" true true;
      SCluster 4 "g";
      SEdge "b2_outx`" "a1_upup`" true;
      SEdge "c3_upupe" "c3_outxd" true; SEdge "b2_upup`" "b2_outx`" true; SEdge "a1_upupa" "a1_outx`" true; SEdge "a1_upupa" "a1_outxc" false; SEdge "a1_upupb" "a1_outxe" false;
      SEdge "a1_upup`" "a1_upupa" true;
      SEdge "c3_outxd" "b2_outxa" true]%string.
Proof. vm_compute. reflexivity. Qed.
Example ex_one_function : oneFunction (theLog (typed exEvs)).
Proof. apply (told_oneFunction exH). rewrite typed_ev. exact ex_told. Qed.
Example ex_object : generateDot1 (fun s => s) letters (ids "x") (ids "up") (tlogOf (typed exEvs)) 1 =
  Ok [SCluster 0 ""; SIn "b2_inx`" "x`"; SUp "a1_upup`" "up`" false; SUp "a1_upupa" "upa" false; SUp "a1_upupb" "upb" false;
      SOut "a1_outx`" "x`" false false; SOut "a1_outxc" "xc" false false;
      SEdge "b2_inx`" "a1_upup`" false; SEdge "a1_upupa" "a1_outx`" false; SEdge "a1_upupa" "a1_outxc" false; SEdge "a1_upup`" "a1_upupa" false]%string.
Proof. vm_compute. reflexivity. Qed.

(* Inputs declared together (the variadic addInputDependency, C69_throws_refuted): all declarations return, the graph is updated, and no
   drawing of the log can be made, not even one of an object that has nothing to do with them in a graph. *)
Theorem C75_returns_refuted : exists H evs, toldBy H (map te_ev evs) /\
  (forall n k, k < List.length (H n) -> snd (nexec n (fst (nrun n nst0 (firstn k (H n)))) (nth k (H n) (NInternal yes 0 0))) = false) /\
  (exists st, cgrun 50 (netOf (world H)) [CGAdd [(1, [0])]] cg_init = Ok st /\ match cg_update st with Ok p => executePlan (world H) p | _ => UB end = Ok [(1, 100)]) /\
  (forall demangle tname oName uName oh uh, generateDot demangle tname oName uName (tlogOf evs) oh uh = Throw) /\
  (exists g start, start <> [] /\ (forall n o, In (n, o) start <-> isGraphOutput (theLog evs) g n o) /\
     (forall n u f, In (n, u, f) (lgUpd (theLog evs)) -> ~ usedBy (theLog evs) start (AnUpdate n u)) /\
     forall demangle tname oName uName, generateDotOf demangle tname oName uName (tlogOf evs) 100 g = Throw).
Proof.
  exists vaH, (typed (vaEvs ++ [EGraph 8 1])).
  assert (T : toldBy vaH (map te_ev (typed (vaEvs ++ [EGraph 8 1])))) by (rewrite typed_ev; intros n; do 8 (destruct n as [|n]; [reflexivity|]); reflexivity).
  split; [exact T|]. split.
  { intros n k. do 2 (destruct n as [|n]; [do 3 (destruct k as [|k]; [cbn; intros; try reflexivity; lia|]); cbn; lia|]).
    do 5 (destruct n as [|n]; [cbn; lia|]). destruct n as [|n]; [destruct k as [|k]; cbn; [reflexivity|lia]|cbn; lia]. }
  split; [eexists; split; vm_compute; reflexivity|].
  set (e := typed (vaEvs ++ [EGraph 8 1])).
  assert (NC : ~ complete (theLog e)).
  { intros (C & _). destruct (C 1 0 2 1) as [X _]; [vm_compute; auto|]. vm_compute in X. intuition discriminate. }
  assert (TH : forall demangle tname oName uName oh uh, generateDot demangle tname oName uName (tlogOf e) oh uh = Throw).
  { intros demangle tname oName uName oh uh. pose proof (whole_spec demangle tname oName uName e _ _ (named_ex demangle tname oName uName e) oh uh) as W.
    destruct (generateDot demangle tname oName uName (tlogOf e) oh uh) as [d| |]; [tauto|reflexivity|destruct W]. }
  split; [exact TH|]. exists 8, [(2, 0)].
  assert (S : forall n o, In (n, o) [(2, 0)] <-> isGraphOutput (theLog e) 8 n o).
  { intros n o. split.
    - intros [E|[]]. injection E as <- <-. exists 1. vm_compute. auto.
    - intros (p & I & J). vm_compute in I, J. destruct I as [I|[I|[]]]; [discriminate|]. injection I as <-. destruct J as [J|[J|[]]]; [|discriminate]. left. congruence. }
  split; [discriminate|]. split; [exact S|]. split.
  - intros n u f _ (n' & o' & [E|[]] & R). injection E as <- <-. apply clos_rt_rt1n in R. inversion R as [|y z U R' E1]. inversion U as [a b c I|a b c d I| |]; subst; vm_compute in I; intuition discriminate.
  - intros demangle tname oName uName. assert (B : turns (theLog e) (inputsOfGraph (theLog e) 8) <= 100) by (vm_compute; lia).
    pose proof (graph_draw demangle tname oName uName e _ _ (named_ex demangle tname oName uName e) 8 [(2, 0)] S 100 B) as W.
    destruct (generateDotOf demangle tname oName uName (tlogOf e) 100 8) as [d| |]; [|reflexivity|destruct W]. destruct W as [[W _]|(_ & W & _)]; [discriminate|tauto].
Qed.
Print Assumptions C75_returns_refuted.

(* An update logged with two functions, as when an object is made at the address of a dead one: the walk takes the function first
   registered and the arrows the least, here the second: the output and the update are used and orange, the arrow between them is not. *)
Definition twoEvs : list tev := typed [EUpdate 1 0 200; EUpdate 1 0 100; EOutputDep 1 0 0; EInput 7 1 0; EGraph 9 7].
Theorem C75_graph_colours_refuted : exists evs g start fuel d n u o a b,
  (forall n o, In (n, o) start <-> isGraphOutput (theLog evs) g n o) /\ turns (theLog evs) (inputsOfGraph (theLog evs) g) <= fuel /\
  generateDotOf (fun s => s) letters (ids "x") (ids "up") (tlogOf evs) fuel g = Ok d /\
  usedBy (theLog evs) start (AnOutput n o) /\ usedBy (theLog evs) start (AnUpdate n u) /\ In (n, o, u) (lgOutDep (theLog evs)) /\
  In (SUp a "up`" true) d /\ In (SOut b "x`" true true) d /\ filter isEdge d = [SEdge a b false].
Proof.
  exists twoEvs, 9, [(1, 0)], 50, [SCluster 1 "a"; SUp "a1_upup`" "up`" false; SUp "a1_upup`" "up`" true; SOut "a1_outx`" "x`" true true; SCluster 2 "g"; SEdge "a1_upup`" "a1_outx`" false]%string.
  exists 1, 0, 0, "a1_upup`"%string, "a1_outx`"%string. split.
  { intros n o. split.
    - intros [E|[]]. injection E as <- <-. exists 7. vm_compute. auto.
    - intros (p & I & J). vm_compute in I, J. destruct I as [I|[]]. injection I as <-. destruct J as [J|[]]. left. congruence. }
  split; [vm_compute; lia|]. split; [vm_compute; reflexivity|].
  assert (U : usedBy (theLog twoEvs) [(1, 0)] (AnOutput 1 0)) by (exists 1, 0; split; [left; reflexivity|apply rt_refl]).
  assert (D : In (1, 0, 0) (lgOutDep (theLog twoEvs))) by (vm_compute; auto).
  split; [exact U|]. split; [exact (used_target _ _ _ _ (uses_out _ 1 0 0 D) U)|]. split; [exact D|]. cbn. auto 10.
Qed.
Print Assumptions C75_graph_colours_refuted.

(* Log.h:239-250, nodeName "generates a (unique) name".  The nodes of one object have different names, *)
Theorem C75_names_of_one_object : forall demangle tname oName uName evs nm lbl, named demangle tname oName uName evs nm lbl ->
  forall k v i k' i', (exists t, In (v, t) (allTold evs)) -> nm k v i = nm k' v i' -> k = k' /\ lbl k v i = lbl k' v i'.
Proof. exact names_owner. Qed.
Print Assumptions C75_names_of_one_object.
(* those of different objects too if the names of their types have no digit, *)
Theorem C75_unique_names_partial : forall demangle tname oName uName evs nm lbl, named demangle tname oName uName evs nm lbl ->
  forall k v i k' v' i' t t', lastNewType evs v t -> lastNewType evs v' t' ->
  Forall (fun c => isDigit c = false) (chars (clean demangle true (tname t))) -> Forall (fun c => isDigit c = false) (chars (clean demangle true (tname t'))) ->
  nm k v i = nm k' v' i' -> v = v' /\ k = k' /\ lbl k v i = lbl k' v' i'.
Proof. exact names_digits. Qed.
Print Assumptions C75_unique_names_partial.
(* but not always: the address follows the name of the type directly. *)
Definition digitEvs : list tev := [mkTE (EUpdate 2 0 100) 0 0; mkTE (EUpdate 12 0 101) 1 0].
Definition digitNames (t : nat) : string := match t with 0 => "tvm::P1" | _ => "tvm::P" end%string.
Theorem C75_unique_names_refuted : exists evs tname oName uName v v' u,
  v <> v' /\ (exists f, In (v, u, f) (lgUpd (theLog evs))) /\ (exists f, In (v', u, f) (lgUpd (theLog evs))) /\
  exists a, upName (fun s => s) tname uName (tl_types (tlogOf evs)) (v, u, 100) = Ok a /\ upName (fun s => s) tname uName (tl_types (tlogOf evs)) (v', u, 101) = Ok a /\
  exists d, generateDot (fun s => s) tname oName uName (tlogOf evs) [] [] = Ok d /\ filter isUp d = [SUp a "Value" false; SUp a "Value" false]%string.
Proof.
  exists digitEvs, digitNames, (fun _ _ => "x"%string), (fun _ _ => "Value"%string), 2, 12, 0. split; [discriminate|]. split; [exists 100; vm_compute; auto|]. split; [exists 101; vm_compute; auto|].
  exists "P12_upValue"%string. split; [vm_compute; reflexivity|]. split; [vm_compute; reflexivity|]. eexists. split; vm_compute; reflexivity.
Qed.
Print Assumptions C75_unique_names_refuted.

(* Clean names have no space, and no colon unless asked; a name without space, colon or known namespace is its own clean name. *)
Theorem C75_clean : forall demangle colons s, ~ In " "%char (chars (clean demangle colons s)) /\ (colons = true -> ~ In ":"%char (chars (clean demangle colons s))).
Proof. exact clean_chars. Qed.
Print Assumptions C75_clean.
Theorem C75_clean_same : forall demangle colons s, (forall p, In p listed -> String.index 0 (String.append p "::") (demangle s) = None) ->
  ~ In " "%char (chars (demangle s)) -> (colons = true -> ~ In ":"%char (chars (demangle s))) -> clean demangle colons s = demangle s.
Proof. exact clean_id. Qed.
Print Assumptions C75_clean_same.
(* The namespace of a name is removed. *)
Theorem C75_namespace : forall p s, In p listed -> ~ In ":"%char (chars s) -> removeNamespace (String.append p (String.append "::" s)) = s.
Proof. exact removed_ns. Qed.
Print Assumptions C75_namespace.
(* each namespace is removed once, wherever it is *)
Example ex_clean : map (clean (fun s => s) true)
  ["tvm::function::abstract::Function"; "tvm::graph::internal::Logger<tvm::Variable>"; "mytvm::Function"; "tvm::graph::internal::Inputs const"; "std::graph::X"]%string =
  ["Function"; "Logger<tvm__Variable>"; "myFunction"; "Inputs_const"; "std__X"]%string.
Proof. vm_compute. reflexivity. Qed.

(* The promoted type of an object is the last type to have appeared at its address, or the given type if none was told. *)
Theorem C75_promoted_type : forall evs t v, exists t', getPromotedType (tl_types (tlogOf evs)) t v = Ok t' /\
  (lastNewType evs v t' \/ (t' = t /\ forall a, ~ In (v, a) (allTold evs))).
Proof. exact promoted_spec. Qed.
Print Assumptions C75_promoted_type.
(* It may not be the type told last, as when an object has the address and the type of a dead one. *)
Theorem C75_promoted_type_is_last_refuted : exists evs v t t', t <> t' /\ allTold evs = [(v, t); (v, t'); (v, t)] /\ getPromotedType (tl_types (tlogOf evs)) t v = Ok t'.
Proof.
  exists [mkTE (EUpdate 1 0 100) 5 0; mkTE (EUpdate 1 0 101) 6 0; mkTE (EUpdate 1 0 100) 5 0], 1, 5, 6. split; [discriminate|]. split; vm_compute; reflexivity.
Qed.
Print Assumptions C75_promoted_type_is_last_refuted.
