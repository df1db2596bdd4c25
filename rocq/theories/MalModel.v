(* Model of the permission to allocate memory in Eigen objects
   (/repo/include/tvm/utils/memoryChecks.h, /repo/src/utils/memoryChecks.cpp)
   and of the resolution of a problem by a scheme, which changes it
   (/repo/include/tvm/scheme/abstract/ResolutionScheme.h,
   /repo/include/tvm/scheme/internal/helpers.hpp).

   [checks] tells whether the build has the checks: NDEBUG is not defined and
   EIGEN_RUNTIME_NO_MALLOC is.  The check that the executable and the library
   see the same flag (memoryChecks.h:25-33, 39-44) is not modelled: there is a
   single flag here. *)
From Coq Require Import List Arith Bool.
From Verif Require Import Base.
Import ListNotations.

(* The flag of Eigen and the stack of recorded values (memoryChecks.cpp:10). *)
Record mal_mem := { mal_flag : bool; mal_stack : list bool }.

(* Allocations are allowed at first (the flag of Eigen is initially true). *)
Definition mal_mem0 : mal_mem := {| mal_flag := true; mal_stack := [] |}.

(* The outcome of a piece of code: normal return or exception, with the state
   of the flag; undefined behaviour or failed assertion. *)
Inductive mal_out := MalOk (m : mal_mem) | MalExc (m : mal_mem) | MalUB.

(* is_malloc_allowed, memoryChecks.h:48-52 and 13, memoryChecks.cpp:12-19. *)
Definition mal_is (checks : bool) (m : mal_mem) : bool := if checks then mal_flag m else true.

(* set_is_malloc_allowed, memoryChecks.h:55-61 and 14, memoryChecks.cpp:21-28. *)
Definition mal_set (checks b : bool) (m : mal_mem) : mal_mem :=
  if checks then {| mal_flag := b; mal_stack := mal_stack m |} else m.

(* override_is_malloc_allowed, memoryChecks.h:69-74 and 15,
   memoryChecks.cpp:30-36. *)
Definition mal_override (checks b : bool) (m : mal_mem) : mal_mem :=
  if checks then {| mal_flag := b; mal_stack := mal_flag m :: mal_stack m |} else m.

(* restore_is_malloc_allowed, memoryChecks.h:77-82 and 16,
   memoryChecks.cpp:38-46: an assertion on an empty stack. *)
Definition mal_restore (checks : bool) (m : mal_mem) : mal_out :=
  if checks then
    match mal_stack m with
    | [] => MalUB
    | b :: r => MalOk {| mal_flag := b; mal_stack := r |}
    end
  else MalOk m.

(* A code of the library, as far as the flag is concerned: allocations,
   exceptions, and code between an override with true and a restore, as
   TVM_TEMPORARY_ALLOW_EIGEN_MALLOC (memoryChecks.h:85-88), the constructor of
   CachedResult (scheme/internal/CompiledAssignment.h:183) and the constructor
   of SubstitutionUnit (src/hint/SubstitutionUnit.cpp:87-90).  An exception
   between the two skips the restore. *)
Inductive mal_code :=
| MSkip
| MAlloc
| MThrow
| MSeq (a b : mal_code)
| MTemp (a : mal_code).

Definition mal_then (o : mal_out) (k : mal_mem -> mal_out) : mal_out :=
  match o with MalOk m => k m | x => x end.

Fixpoint mal_exec (checks : bool) (c : mal_code) (m : mal_mem) : mal_out :=
  match c with
  | MSkip => MalOk m
  | MAlloc => if mal_is checks m then MalOk m else MalUB
  | MThrow => MalExc m
  | MSeq a b => mal_then (mal_exec checks a m) (mal_exec checks b)
  | MTemp a => mal_then (mal_exec checks a (mal_override checks true m)) (mal_restore checks)
  end.

(* The codes met in one resolution: finalization of the problem
   (/repo/src/ControlProblem.cpp:51-59), createComputationData_,
   ControlProblem::update past the finalization (ControlProblem.cpp:44-49),
   updateComputationData_, solve_ and its result, setVariablesToSolution,
   updateVariableValues. *)
Record mal_script := {
  ms_final : mal_code;
  ms_create : mal_code;
  ms_update : mal_code;
  ms_updata : mal_code;
  ms_solve : mal_code;
  ms_result : bool;
  ms_setvars : mal_code;
  ms_subst : mal_code }.

(* What is done: data are numbered in the order of their creation. *)
Inductive mal_event :=
| EFinal (p : nat)
| ECreate (p s d : nat)
| EUpdate (p : nat)
| EUpdata (p s d : nat)
| ESolve (p s d : nat) (b : bool)
| ESetVars (d : nat)
| ESubst (p : nat).

(* The problems, by number: those finalized; the map computationData_ of each
   problem p (/repo/include/tvm/ControlProblem.h:121), a datum per scheme s.
   Schemes are designated by their identifiers, unique by C44. *)
Record mal_world := {
  mw_mem : mal_mem;
  mw_final : list nat;
  mw_data : list (nat * nat * nat);
  mw_next : nat;
  mw_log : list mal_event }.

Definition mal_world0 : mal_world :=
  {| mw_mem := mal_mem0; mw_final := []; mw_data := []; mw_next := 0; mw_log := [] |}.

Inductive mal_wout := WOk (w : mal_world) | WExc (w : mal_world) | WUB.

Definition mal_wthen (o : mal_wout) (k : mal_world -> mal_wout) : mal_wout :=
  match o with WOk w => k w | x => x end.

Definition mal_with_mem (w : mal_world) (m : mal_mem) : mal_world :=
  {| mw_mem := m; mw_final := mw_final w; mw_data := mw_data w; mw_next := mw_next w;
     mw_log := mw_log w |}.

Definition mal_logged (w : mal_world) (e : mal_event) : mal_world :=
  {| mw_mem := mw_mem w; mw_final := mw_final w; mw_data := mw_data w; mw_next := mw_next w;
     mw_log := mw_log w ++ [e] |}.

Definition mal_lift (w : mal_world) (o : mal_out) : mal_wout :=
  match o with
  | MalOk m => WOk (mal_with_mem w m)
  | MalExc m => WExc (mal_with_mem w m)
  | MalUB => WUB
  end.

(* A stage: it is logged, then its code runs. *)
Definition mal_stage (checks : bool) (e : mal_event) (c : mal_code) (w : mal_world) : mal_wout :=
  let w' := mal_logged w e in mal_lift w' (mal_exec checks c (mw_mem w')).

(* ControlProblem::finalize, ControlProblem.cpp:51-59. *)
Definition mal_finalize (checks : bool) (p : nat) (c : mal_code) (w : mal_world) : mal_wout :=
  if existsb (Nat.eqb p) (mw_final w) then WOk w
  else mal_wthen (mal_stage checks (EFinal p) c w) (fun w' =>
         WOk {| mw_mem := mw_mem w'; mw_final := p :: mw_final w'; mw_data := mw_data w';
                mw_next := mw_next w'; mw_log := mw_log w' |}).

(* createComputationData, ResolutionScheme.h:83-91: the return comes before the
   restore. *)
Definition mal_create (checks : bool) (c : mal_code) (m : mal_mem) : mal_out :=
  mal_exec checks c (mal_override checks true m).

Fixpoint mal_find (p s : nat) (l : list (nat * nat * nat)) : option nat :=
  match l with
  | [] => None
  | (p', s', d) :: r => if Nat.eqb p p' && Nat.eqb s s' then Some d else mal_find p s r
  end.

(* getComputationData, scheme/internal/helpers.hpp:13-29. *)
Definition mal_get_data (checks : bool) (p s : nat) (sc : mal_script) (w : mal_world)
  (k : nat -> mal_world -> mal_wout) : mal_wout :=
  match mal_find p s (mw_data w) with
  | Some d => k d w
  | None =>
    mal_wthen (mal_finalize checks p (ms_final sc) w) (fun w1 =>
      mal_wthen (mal_lift w1 (mal_create checks (ms_create sc) (mw_mem w1))) (fun w2 =>
        let d := mw_next w2 in
        k d {| mw_mem := mw_mem w2; mw_final := mw_final w2;
               mw_data := (p, s, d) :: mw_data w2; mw_next := S d;
               mw_log := mw_log w2 ++ [ECreate p s d] |}))
  end.

(* ResolutionScheme::solve, ResolutionScheme.h:70-81, with updateComputationData,
   lines 93-101. *)
Definition mal_solve (checks : bool) (p s : nat) (sc : mal_script) (w : mal_world) : mal_wout :=
  mal_get_data checks p s sc w (fun d w1 =>
  mal_wthen (mal_finalize checks p (ms_final sc) w1) (fun w2 =>
  mal_wthen (mal_stage checks (EUpdate p) (ms_update sc) w2) (fun w3 =>
  mal_wthen (mal_stage checks (EUpdata p s d) (MTemp (ms_updata sc)) w3) (fun w4 =>
  mal_wthen (mal_stage checks (ESolve p s d (ms_result sc)) (ms_solve sc) w4) (fun w5 =>
  mal_wthen (mal_stage checks (ESetVars d) (ms_setvars sc) w5) (fun w6 =>
  mal_stage checks (ESubst p) (ms_subst sc) w6)))))).

(* What a program does. *)
Inductive mal_op :=
| OSet (b : bool)
| OOverride (b : bool)
| ORestore
| OIs
| OAlloc
| OChange (p : nat)
| OSolve (p s : nat) (sc : mal_script).

(* What it sees: normal return, a boolean, an exception, undefined behaviour. *)
Inductive mal_obs := BDone | BBool (b : bool) | BThrew | BUndef.

Definition mal_step (checks : bool) (w : mal_world) (o : mal_op) : mal_obs * mal_world :=
  match o with
  | OSet b => (BBool b, mal_with_mem w (mal_set checks b (mw_mem w)))
  | OOverride b => (BDone, mal_with_mem w (mal_override checks b (mw_mem w)))
  | ORestore => match mal_restore checks (mw_mem w) with
                | MalOk m => (BDone, mal_with_mem w m)
                | _ => (BUndef, w)
                end
  | OIs => (BBool (mal_is checks (mw_mem w)), w)
  | OAlloc => match mal_exec checks MAlloc (mw_mem w) with
              | MalOk _ => (BDone, w)
              | _ => (BUndef, w)
              end
  (* adding or removing a task or a substitution, ControlProblem.cpp:19-38,63 *)
  | OChange p => (BDone, {| mw_mem := mw_mem w;
                            mw_final := filter (fun q => negb (Nat.eqb q p)) (mw_final w);
                            mw_data := mw_data w; mw_next := mw_next w; mw_log := mw_log w |})
  | OSolve p s sc => match mal_solve checks p s sc w with
                     | WOk w' => (BBool (ms_result sc), w')
                     | WExc w' => (BThrew, w')
                     | WUB => (BUndef, w)
                     end
  end.

(* A program: it stops at undefined behaviour and catches exceptions. *)
Fixpoint mal_run (checks : bool) (w : mal_world) (l : list mal_op) : list mal_obs * mal_world :=
  match l with
  | [] => ([], w)
  | o :: r =>
    match mal_step checks w o with
    | (BUndef, w') => ([BUndef], w')
    | (b, w') => let (bs, w2) := mal_run checks w' r in (b :: bs, w2)
    end
  end.
