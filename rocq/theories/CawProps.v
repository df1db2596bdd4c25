(* C73: wrappers of compiled assignments are values, and own what they wrap. *)
From Coq Require Import List Arith Bool QArith.
From Verif Require Import Base CawModel CawSpec CawProofs.
Import ListNotations.
Local Open Scope nat_scope.

(* Whatever calls a program makes, the wrappers show what values would. *)
Theorem C73_wrappers_are_values : forall l,
  fst (caw_exec caw_init l) = fst (caw_vexec [] l).
Proof. exact value_semantics. Qed.
Print Assumptions C73_wrappers_are_values.

(* At any time an allocation is alive iff a wrapper owns it, and then a single
   one does. *)
Theorem C73_owned_by_exactly_one : forall l a,
  let st := snd (caw_exec caw_init l) in
  (caw_alive st a <-> exists i, caw_owns st i a) /\
  (forall i j, caw_owns st i a -> caw_owns st j a -> i = j).
Proof. exact owned_once. Qed.
Print Assumptions C73_owned_by_exactly_one.

(* Once all wrappers are destroyed nothing is left. *)
Theorem C73_nothing_leaks : forall l, let st := snd (caw_exec caw_init l) in
  (forall i, caw_get st i = None) -> forall a, ~ caw_alive st a.
Proof. exact no_leak. Qed.
Print Assumptions C73_nothing_leaks.

(* A program is undefined exactly when it uses a destroyed wrapper, or copies,
   runs or re-targets one that holds nothing, or gives a source of the kind of
   the assignment that was moved away. *)
Theorem C73_undefined_iff_improper : forall l op,
  ~ In CoUndef (fst (caw_exec caw_init l)) ->
  (In CoUndef (fst (caw_exec caw_init (l ++ [op]))) <-> ~ caw_proper (snd (caw_vexec [] l)) op).
Proof. exact defined_iff. Qed.
Print Assumptions C73_undefined_iff_improper.

(* A copy is independent of the wrapper it was copied from. *)
Theorem C73_copy_is_independent : forall l1 i j o l2,
  fst (caw_exec caw_init (l1 ++ [CRun j])) = fst (caw_exec caw_init l1) ++ [CoRan o] ->
  ~ In CoUndef (fst (caw_exec caw_init (l1 ++ CCopy i j true :: l2))) ->
  Forall (fun op => ~ caw_touches op i) l2 ->
  fst (caw_exec caw_init (l1 ++ CCopy i j true :: l2 ++ [CRun i])) =
  fst (caw_exec caw_init (l1 ++ CCopy i j true :: l2)) ++ [CoRan o].
Proof. exact copy_independent. Qed.
Print Assumptions C73_copy_is_independent.

(* to() and from() change what they say, and nothing when they throw; from()
   throws for the wrong kind of source only. *)
Theorem C73_modifiers : forall l i o d m,
  fst (caw_exec caw_init (l ++ [CRun i])) = fst (caw_exec caw_init l) ++ [CoRan o] ->
  fst (caw_exec caw_init (l ++ [CTo i m; CRun i])) =
    fst (caw_exec caw_init l) ++
    [CoDone; CoRan {| cwo_type := cwo_type o; cwo_to := m; cwo_from := cwo_from o; cwo_rest := cwo_rest o |}] /\
  fst (caw_exec caw_init (l ++ [CFromD i d; CRun i])) =
    fst (caw_exec caw_init l) ++
    match cwt_f (cwo_type o) with
    | CawConstant => [CoDone; CoRan {| cwo_type := cwo_type o; cwo_to := cwo_to o;
                                      cwo_from := CSConst d; cwo_rest := cwo_rest o |}]
    | _ => [CoThrew; CoRan o]
    end /\
  fst (caw_exec caw_init (l ++ [CFromM i m; CRun i])) =
    fst (caw_exec caw_init l) ++
    match cwt_f (cwo_type o) with
    | CawConstant => [CoThrew; CoRan o]
    | CawExternal => [CoDone; CoRan {| cwo_type := cwo_type o; cwo_to := cwo_to o;
                                      cwo_from := CSRef m; cwo_rest := cwo_rest o |}]
    | CawZero => [CoDone; CoRan o]
    end.
Proof. exact modifiers. Qed.
Print Assumptions C73_modifiers.

(* A call that throws, for the kind of the source or for lack of memory, leaves
   the heap and all wrappers as they were. *)
Theorem C73_throwing_changes_nothing : forall op l st,
  fst (caw_exec st (l ++ [op])) = fst (caw_exec st l) ++ [CoThrew] ->
  snd (caw_exec st (l ++ [op])) = snd (caw_exec st l).
Proof. exact throw_changes_nothing. Qed.
Print Assumptions C73_throwing_changes_nothing.

(* An assignment that runs has the kind of source its type asks for. *)
Theorem C73_runs_with_its_kind_of_source : forall l o,
  In (CoRan o) (fst (caw_exec caw_init l)) -> caw_src_kind (cwo_from o) = cwt_f (cwo_type o).
Proof. exact ran_source_kind. Qed.
Print Assumptions C73_runs_with_its_kind_of_source.

(* A program in which all of this happens: wrapper 0 copies matrix 7 into
   matrix 1, wrapper 1 adds the constant 3 to 2, wrapper 2 is default
   constructed and receives a copy of 0, which is then re-targeted; 0 receives
   a copy of 1; 2 is moved to the new wrapper 3, then destroyed. *)
Definition caw_demo : list caw_op :=
  [CMake CawCopy CawNone CawIdentity 1 (CSRef 7) [] true;
   CMake CawAdd CawNone CawIdentity 2 (CSConst 3) [] true;
   CDefault; CCopy 2 0 true; CTo 0 5; CRun 2; CRun 0; CFromD 0 4; CCopy 0 1 true; CFromD 0 4;
   CRun 0; CRun 1; CMoveNew 2; CDestroy 2; CCopy 3 3 true; CCopy 3 0 false; CRun 3].

Definition caw_ty a f : caw_type :=
  {| cwt_a := a; cwt_w := CawNone; cwt_m := CawIdentity; cwt_f := f |}.

Example C73_demo :
  fst (caw_exec caw_init caw_demo) =
  [CoDone; CoDone; CoDone; CoDone; CoDone;
   CoRan {| cwo_type := caw_ty CawCopy CawExternal; cwo_to := 1; cwo_from := CSRef 7; cwo_rest := [] |};
   CoRan {| cwo_type := caw_ty CawCopy CawExternal; cwo_to := 5; cwo_from := CSRef 7; cwo_rest := [] |};
   CoThrew; CoDone; CoDone;
   CoRan {| cwo_type := caw_ty CawAdd CawConstant; cwo_to := 2; cwo_from := CSConst 4; cwo_rest := [] |};
   CoRan {| cwo_type := caw_ty CawAdd CawConstant; cwo_to := 2; cwo_from := CSConst 3; cwo_rest := [] |};
   CoDone; CoDone; CoDone; CoThrew;
   CoRan {| cwo_type := caw_ty CawCopy CawExternal; cwo_to := 1; cwo_from := CSRef 7; cwo_rest := [] |}].
Proof. vm_compute. reflexivity. Qed.

(* Its allocations: the objects first made for 0, 2 and 3 are deleted. *)
Example C73_demo_heap :
  map (fun c => match c with CLive _ => true | CDead => false end)
      (cws_heap (snd (caw_exec caw_init caw_demo))) = [false; true; false; true; true].
Proof. vm_compute. reflexivity. Qed.

(* All wrappers destroyed: nothing is alive. *)
Example C73_demo_end :
  let st := snd (caw_exec caw_init (caw_demo ++ [CDestroy 0; CDestroy 1; CDestroy 3])) in
  (forall i, caw_get st i = None) /\ cws_heap st = [CDead; CDead; CDead; CDead; CDead].
Proof.
  split; [|vm_compute; reflexivity]. vm_compute. intros [|[|[|[|[|]]]]]; reflexivity.
Qed.

(* The hypotheses of the independence theorem on this program. *)
Example C73_copy_example :
  fst (caw_exec caw_init (firstn 3 caw_demo ++ CCopy 2 0 true :: [CTo 0 5; CDestroy 0] ++ [CRun 2])) =
  [CoDone; CoDone; CoDone; CoDone; CoDone; CoDone;
   CoRan {| cwo_type := caw_ty CawCopy CawExternal; cwo_to := 1; cwo_from := CSRef 7; cwo_rest := [] |}].
Proof. vm_compute. reflexivity. Qed.

(* A wrapper cannot always be copied: a default-constructed one has no clone
   function, a moved-from one has nothing to clone.  The call is undefined, it
   does not throw. *)
Theorem C73_every_wrapper_can_be_copied_refuted :
  exists l1 l2 j k,
    ~ In CoUndef (fst (caw_exec caw_init l1)) /\ caw_get (snd (caw_exec caw_init l1)) j = Some caw_default /\
    In CoUndef (fst (caw_exec caw_init (l1 ++ [CCopyNew j true]))) /\
    ~ In CoUndef (fst (caw_exec caw_init l2)) /\ caw_get (snd (caw_exec caw_init l2)) k <> None /\
    In CoUndef (fst (caw_exec caw_init (l2 ++ [CCopyNew k true]))).
Proof.
  exists [CDefault], [CMake CawCopy CawNone CawIdentity 1 (CSRef 7) [] true; CMoveNew 0], 0, 0.
  vm_compute. repeat match goal with |- _ /\ _ => split end; intuition discriminate.
Qed.
Print Assumptions C73_every_wrapper_can_be_copied_refuted.

(* A wrapper without an assignment does not report it: from() throws on a
   default-constructed wrapper, but run() and to() are undefined, and so is
   from() on one that was moved from. *)
Theorem C73_empty_wrappers_report_refuted :
  fst (caw_exec caw_init [CDefault; CFromD 0 1; CFromM 0 1]) = [CoDone; CoThrew; CoThrew] /\
  fst (caw_exec caw_init [CDefault; CRun 0]) = [CoDone; CoUndef] /\
  fst (caw_exec caw_init [CDefault; CTo 0 1]) = [CoDone; CoUndef] /\
  fst (caw_exec caw_init [CMake CawCopy CawNone CawIdentity 1 (CSRef 7) [] true; CMoveNew 0; CFromM 0 1]) =
    [CoDone; CoDone; CoUndef] /\
  fst (caw_exec caw_init [CMake CawCopy CawNone CawIdentity 1 (CSRef 7) [] true; CMoveNew 0; CRun 0]) =
    [CoDone; CoDone; CoUndef].
Proof. vm_compute. repeat split. Qed.
Print Assumptions C73_empty_wrappers_report_refuted.
