(* C74: resolutions, their data, and the permission to allocate. *)
From Coq Require Import List Arith Bool.
From Verif Require Import Base MalModel MalSpec MalProofs.
Import ListNotations.

Definition mal_plain : mal_script :=
  {| ms_final := MTemp MAlloc; ms_create := MSeq MAlloc (MTemp MAlloc); ms_update := MSkip;
     ms_updata := MAlloc; ms_solve := MSkip; ms_result := true; ms_setvars := MSkip; ms_subst := MSkip |}.

Definition mal_failing : mal_script :=
  {| ms_final := MSkip; ms_create := MAlloc; ms_update := MSkip; ms_updata := MThrow;
     ms_solve := MSkip; ms_result := false; ms_setvars := MSkip; ms_subst := MSkip |}.

(* "Solving leaves the permission to allocate as it was" is false: the first
   resolution of a problem by a scheme leaves allocations allowed, and one more
   value on the stack. *)
Theorem C74_solving_keeps_the_permission_refuted : exists w p s sc w',
  mal_solve true p s sc w = WOk w' /\ mal_flag (mw_mem w) = false /\ mal_flag (mw_mem w') = true /\
  length (mal_stack (mw_mem w')) = S (length (mal_stack (mw_mem w))).
Proof.
  exists (snd (mal_run true mal_world0 [OSet false])), 0, 0, mal_plain.
  eexists. vm_compute. repeat split.
Qed.
Print Assumptions C74_solving_keeps_the_permission_refuted.

(* It is true of calls which mirror overrides by restores, return, and solve
   with schemes already used on the problems. *)
Theorem C74_solving_keeps_the_permission_partial : forall w l,
  stable w l -> all_return (fst (mal_run true w l)) ->
  mw_mem (snd (mal_run true w l)) = mw_mem w.
Proof. exact stable_preserves. Qed.
Print Assumptions C74_solving_keeps_the_permission_partial.

Example C74_partial_example :
  let w := snd (mal_run true mal_world0 [OSolve 0 0 mal_plain; OSet false]) in
  let l := [OSolve 0 0 mal_plain; OOverride true; OSet false; OSet true; OAlloc; OSolve 0 0 mal_plain; ORestore;
            OChange 0; OSolve 0 0 mal_plain] in
  stable w l /\ all_return (fst (mal_run true w l)) /\ mal_flag (mw_mem w) = false.
Proof.
  assert (F : ~ mal_fresh (snd (mal_run true mal_world0 [OSolve 0 0 mal_plain; OSet false])) 0 0).
  { intro H. apply (H 0). vm_compute. auto. }
  split; [|split].
  - constructor; [exact F|].
    apply (st_over _ true [OSet false; OSet true; OAlloc; OSolve 0 0 mal_plain] [OChange 0; OSolve 0 0 mal_plain]);
      repeat constructor; exact F.
  - vm_compute. split; intuition discriminate.
  - reflexivity.
Qed.

(* The exact effect of a resolution with a scheme already used: none if it
   returns; if an exception leaves it, the overrides that were open stay so. *)
Theorem C74_later_resolution : forall p s sc w, ~ mal_fresh w p s ->
  match mal_solve true p s sc w with
  | WOk w' => mal_depth (mal_again w p sc) = None /\ mw_mem w' = mw_mem w
  | WExc w' => exists n, mal_depth (mal_again w p sc) = Some n /\ mw_mem w' = mal_open n (mw_mem w)
  | WUB => mal_flag (mw_mem w) = false
  end.
Proof. exact again_exact. Qed.
Print Assumptions C74_later_resolution.

(* And of the first one. *)
Theorem C74_first_resolution : forall p s sc w, mal_fresh w p s ->
  match mal_solve true p s sc w with
  | WOk w' => mal_depth (mal_first w p sc) = None /\
              mw_mem w' = {| mal_flag := true; mal_stack := mal_flag (mw_mem w) :: mal_stack (mw_mem w) |}
  | WExc w' => exists n, mal_depth (mal_first w p sc) = Some n /\ mw_mem w' = mal_open n (mw_mem w)
  | WUB => mal_flag (mw_mem w) = false
  end.
Proof. exact first_exact. Qed.
Print Assumptions C74_first_resolution.

Example C74_resolutions_example :
  let w := snd (mal_run true mal_world0 [OSolve 0 0 mal_plain; OSet false]) in
  ~ mal_fresh w 0 0 /\ mal_fresh w 0 1 /\
  match mal_solve true 0 0 mal_plain w with WOk _ => True | _ => False end /\
  match mal_solve true 0 0 mal_failing w with WExc w' => mw_mem w' = mal_open 1 (mw_mem w) | _ => False end /\
  match mal_solve true 0 1 mal_failing w with WExc w' => mw_mem w' = mal_open 2 (mw_mem w) | _ => False end.
Proof.
  split; [|split; [|split; [|split]]].
  - intro H. apply (H 0). vm_compute. auto.
  - intros d H. vm_compute in H. destruct H as [H|[]]. discriminate.
  - vm_compute. exact I.
  - vm_compute. reflexivity.
  - vm_compute. reflexivity.
Qed.

(* The books: what is on the stack after calls that all return. *)
Theorem C74_balance : forall l w, all_return (fst (mal_run true w l)) ->
  length (mal_stack (mw_mem (snd (mal_run true w l)))) + restores l + creations w =
  length (mal_stack (mw_mem w)) + overrides l + creations (snd (mal_run true w l)).
Proof. exact balance. Qed.
Print Assumptions C74_balance.

(* A program which never overrides leaves one value on the stack for each
   problem and scheme it used. *)
Theorem C74_one_value_per_scheme_and_problem : forall l,
  all_return (fst (mal_run true mal_world0 l)) -> overrides l = 0 -> restores l = 0 ->
  length (mal_stack (mw_mem (snd (mal_run true mal_world0 l)))) =
  length (mw_data (snd (mal_run true mal_world0 l))).
Proof. exact leaked. Qed.
Print Assumptions C74_one_value_per_scheme_and_problem.

Example C74_balance_example :
  let r := mal_run true mal_world0 [OSolve 0 0 mal_plain; OSolve 1 0 mal_plain; OSolve 0 0 mal_plain; OIs] in
  fst r = [BBool true; BBool true; BBool true; BBool true] /\
  length (mal_stack (mw_mem (snd r))) = 2 /\ length (mw_data (snd r)) = 2.
Proof. vm_compute. auto. Qed.

(* What a program observes.  The check against allocations is disabled by a
   first resolution: the allocation after it goes unnoticed. *)
Theorem C74_check_disabled_refuted :
  fst (mal_run true mal_world0 [OSet false; OAlloc]) = [BBool false; BUndef] /\
  fst (mal_run true mal_world0 [OSet false; OSolve 0 0 mal_plain; OAlloc; OIs]) =
    [BBool false; BBool true; BDone; BBool true] /\
  (* later resolutions keep it *)
  fst (mal_run true mal_world0 [OSolve 0 0 mal_plain; OSet false; OSolve 0 0 mal_plain; OIs; OAlloc]) =
    [BBool true; BBool false; BBool true; BBool false; BUndef].
Proof. vm_compute. auto. Qed.
Print Assumptions C74_check_disabled_refuted.

(* The advice of memoryChecks.h, to restore in the scope of the override, does
   not help: the restore takes the value left by the resolution, and a program
   that allowed allocations finds them forbidden. *)
Theorem C74_mirrored_restore_refuted :
  fst (mal_run true mal_world0 [OIs; OOverride false; OSolve 0 0 mal_plain; ORestore; OIs; OAlloc]) =
    [BBool true; BDone; BBool true; BDone; BBool false; BUndef] /\
  fst (mal_run true mal_world0 [OIs; OOverride false; ORestore; OIs; OAlloc]) =
    [BBool true; BDone; BDone; BBool true; BDone].
Proof. vm_compute. auto. Qed.
Print Assumptions C74_mirrored_restore_refuted.

(* An exception in the update of the data, caught by the program, has the same
   effect on a scheme already used. *)
Theorem C74_exception_disables_check_refuted :
  fst (mal_run true mal_world0 [OSolve 0 0 mal_plain; OSet false; OSolve 0 0 mal_failing; OIs; OAlloc]) =
    [BBool true; BBool false; BThrew; BBool true; BDone].
Proof. vm_compute. auto. Qed.
Print Assumptions C74_exception_disables_check_refuted.

(* Builds without the checks: nothing is recorded, nothing is undefined, and
   is_malloc_allowed says true whatever was set. *)
Theorem C74_unchecked_builds : forall w o,
  fst (mal_step false w o) <> BUndef /\ mw_mem (snd (mal_step false w o)) = mw_mem w /\
  (o = OIs -> fst (mal_step false w o) = BBool true).
Proof. exact unchecked_step. Qed.
Print Assumptions C74_unchecked_builds.

(* The guarantee of ResolutionScheme.h:33-35: solve_ gets the data created for
   the same problem by the same scheme, before; *)
Theorem C74_solve_gets_its_own_data : forall ch l p s d b l1 l2,
  mw_log (snd (mal_run ch mal_world0 l)) = l1 ++ ESolve p s d b :: l2 -> In (ECreate p s d) l1.
Proof. exact own_data. Qed.
Print Assumptions C74_solve_gets_its_own_data.

(* and it is created once, for one problem and one scheme. *)
Theorem C74_data_created_once : forall ch l p s d p' s' d',
  In (ECreate p s d) (mw_log (snd (mal_run ch mal_world0 l))) ->
  In (ECreate p' s' d') (mw_log (snd (mal_run ch mal_world0 l))) ->
  ((p = p' /\ s = s') <-> d = d').
Proof. exact data_unique. Qed.
Print Assumptions C74_data_created_once.

(* A resolution that returns has finalized the problem if needed, created the
   data if needed, updated the problem and the data, solved, set the variables
   and the substituted variables, in this order, whether the solver succeeded
   or not. *)
Theorem C74_order : forall ch w p s sc w', mal_solve ch p s sc w = WOk w' ->
  exists d, In (p, s, d) (mw_data w') /\
    mw_log w' = mw_log w ++
      (if existsb (Nat.eqb p) (mw_final w) then [] else [EFinal p]) ++
      (match mal_find p s (mw_data w) with Some _ => [] | None => [ECreate p s d] end) ++
      [EUpdate p; EUpdata p s d; ESolve p s d (ms_result sc); ESetVars d; ESubst p].
Proof. exact solve_order. Qed.
Print Assumptions C74_order.

(* A problem is finalized once for its first resolution and once for the first
   resolution after its changes, and by no other. *)
Theorem C74_finalizations : forall ch p l, all_return (fst (mal_run ch mal_world0 l)) ->
  finals p (snd (mal_run ch mal_world0 l)) = mal_needed p false l.
Proof. intros ch p l. exact (finalized ch p l mal_world0). Qed.
Print Assumptions C74_finalizations.

Example C74_log_example :
  mw_log (snd (mal_run true mal_world0 [OSolve 3 5 mal_plain; OSolve 4 5 mal_plain; OChange 3; OSolve 3 5 mal_plain])) =
  [EFinal 3; ECreate 3 5 0; EUpdate 3; EUpdata 3 5 0; ESolve 3 5 0 true; ESetVars 0; ESubst 3;
   EFinal 4; ECreate 4 5 1; EUpdate 4; EUpdata 4 5 1; ESolve 4 5 1 true; ESetVars 1; ESubst 4;
   EFinal 3; EUpdate 3; EUpdata 3 5 0; ESolve 3 5 0 true; ESetVars 0; ESubst 3].
Proof. vm_compute. reflexivity. Qed.

(* A solver that fails does not keep the variables from being set. *)
Theorem C74_failure_keeps_the_variables_refuted : exists w sc w',
  mal_solve true 0 0 sc w = WOk w' /\ ms_result sc = false /\ In (ESetVars 0) (mw_log w').
Proof.
  exists mal_world0, {| ms_final := MSkip; ms_create := MSkip; ms_update := MSkip; ms_updata := MSkip;
     ms_solve := MSkip; ms_result := false; ms_setvars := MSkip; ms_subst := MSkip |}.
  eexists. vm_compute. repeat split. auto 10.
Qed.
Print Assumptions C74_failure_keeps_the_variables_refuted.
