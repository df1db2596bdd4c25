(* Model of tvm::scheme::internal::CompiledAssignmentWrapper
   (/repo/include/tvm/scheme/internal/CompiledAssignmentWrapper.h): a wrapper
   holds a [void *] to a heap-allocated CompiledAssignment whose type has been
   erased, and pointers to functions which cast that pointer back.  The heap is
   explicit, so that a cast to the wrong type, a call through a null pointer, a
   use after deletion and a second deletion are all undefined behaviour here. *)
From Coq Require Import List Arith Bool QArith.
From Verif Require Import Base.
Import ListNotations.
Local Open Scope nat_scope.

(* The template parameters of CompiledAssignment
   (/repo/include/tvm/scheme/internal/CompiledAssignment.h:20-72). *)
Inductive caw_assign := CawCopy | CawAdd | CawSub | CawMin | CawMax.
Inductive caw_weight := CawNone | CawMinus | CawScalar | CawDiagonal.
Inductive caw_mult := CawIdentity | CawGeneral | CawInvDiagonal | CawCustom.
Inductive caw_source := CawExternal | CawZero | CawConstant.

(* A type CompiledAssignment<MatrixType, A, W, M, F> for a given MatrixType
   (CompiledAssignment.h:590-598).  [MatrixType] is a vector type: with a
   matrix type the static_assert of line 626 rules CONSTANT out. *)
Record caw_type := { cwt_a : caw_assign; cwt_w : caw_weight;
                     cwt_m : caw_mult; cwt_f : caw_source }.

Definition caw_type_eq (s t : caw_type) : {s = t} + {s <> t}.
Proof. repeat decide equality. Defined.

(* The source of an assignment: a reference to a matrix for EXTERNAL, nothing
   for ZERO, a number for CONSTANT (CompiledAssignment.h:543-567).  Matrices
   are named by numbers. *)
Inductive caw_src := CSRef (m : nat) | CSNone | CSConst (d : Q).

Definition caw_src_kind (s : caw_src) : caw_source :=
  match s with CSRef _ => CawExternal | CSNone => CawZero | CSConst _ => CawConstant end.

(* A CompiledAssignment: its type, its target (CompiledAssignment.h:663), its
   source (line 561), and its weight and multiplier, as named data ([cwo_rest]),
   which no function of the wrapper changes.  The caches are not modelled. *)
Record caw_obj := { cwo_type : caw_type; cwo_to : nat; cwo_from : caw_src;
                    cwo_rest : list nat }.

(* One allocation: alive, or deleted. *)
Inductive caw_cell := CLive (o : caw_obj) | CDead.

Definition caw_heap := list caw_cell.

(* A wrapper (CompiledAssignmentWrapper.h:86-101).  A function pointer is null
   or is the instance of the function for a type: [Some t] in [cww_run] is
   srun<t>, and so on.  [cww_ca] and [cww_del] are the pointer and the deleter
   of the unique_ptr [ca_]. *)
Record caw_wrap := {
  cww_ca : option nat;
  cww_del : option caw_type;
  cww_run : option caw_type;
  cww_fromd : option caw_type;
  cww_fromm : option caw_type;
  cww_to : option caw_type;
  cww_clone : option caw_type }.

(* The program: the heap, and the wrappers, named in the order of their
   construction; [None] once destroyed. *)
Record caw_state := { cws_heap : caw_heap; cws_wraps : list (option caw_wrap) }.

Definition caw_init : caw_state := {| cws_heap := []; cws_wraps := [] |}.

Fixpoint caw_set {A} (l : list A) (n : nat) (a : A) : list A :=
  match l, n with
  | [], _ => []
  | _ :: r, O => a :: r
  | x :: r, S k => x :: caw_set r k a
  end.

(* What a call shows: normal return, the assignment performed by run(), a C++
   exception, undefined behaviour. *)
Inductive caw_obs := CoDone | CoRan (o : caw_obj) | CoThrew | CoUndef.

(* static_cast<T *>(p) followed by an access: defined only if [p] points to a
   living object of type T. *)
Definition caw_deref (h : caw_heap) (t : caw_type) (p : option nat) : option (nat * caw_obj) :=
  match p with
  | None => None
  | Some a =>
    match nth_error h a with
    | Some (CLive o) => if caw_type_eq (cwo_type o) t then Some (a, o) else None
    | _ => None
    end
  end.

(* sdelete<T>, CompiledAssignmentWrapper.h:109-112, on a non-null pointer. *)
Definition caw_sdelete (h : caw_heap) (t : caw_type) (a : nat) : option caw_heap :=
  match caw_deref h t (Some a) with
  | Some (b, _) => Some (caw_set h b CDead)
  | None => None
  end.

(* srun<T>, CompiledAssignmentWrapper.h:104-107: shows the assignment that is
   performed.  What it computes is the matter of AssignModel. *)
Definition caw_srun (h : caw_heap) (t : caw_type) (p : option nat) : option caw_obj :=
  match caw_deref h t p with Some (_, o) => Some o | None => None end.

(* T::from: CompiledAssignment.h:553-558 for EXTERNAL and CONSTANT, nothing for
   ZERO (lines 681, 708, 735 and 757). *)
Definition caw_obj_from (o : caw_obj) (s : caw_src) : caw_obj :=
  match cwt_f (cwo_type o) with
  | CawZero => o
  | _ => {| cwo_type := cwo_type o; cwo_to := cwo_to o; cwo_from := s; cwo_rest := cwo_rest o |}
  end.

(* T::to: CompiledAssignment.h:653-658, 682-687, 709-714, 736 and 758. *)
Definition caw_obj_to (o : caw_obj) (m : nat) : caw_obj :=
  {| cwo_type := cwo_type o; cwo_to := m; cwo_from := cwo_from o; cwo_rest := cwo_rest o |}.

(* sfrom<T>, CompiledAssignmentWrapper.h:114-117. *)
Definition caw_sfrom (h : caw_heap) (t : caw_type) (p : option nat) (s : caw_src) : option caw_heap :=
  match caw_deref h t p with
  | Some (a, o) => Some (caw_set h a (CLive (caw_obj_from o s)))
  | None => None
  end.

(* sto<T>, CompiledAssignmentWrapper.h:119-122. *)
Definition caw_sto (h : caw_heap) (t : caw_type) (p : option nat) (m : nat) : option caw_heap :=
  match caw_deref h t p with
  | Some (a, o) => Some (caw_set h a (CLive (caw_obj_to o m)))
  | None => None
  end.

(* sclone<T>, CompiledAssignmentWrapper.h:124-127.  [mem] tells whether the
   allocation succeeds; if it does not, std::bad_alloc is thrown. *)
Definition caw_sclone (h : caw_heap) (t : caw_type) (p : option nat) (mem : bool)
  : res (caw_heap * nat) :=
  match caw_deref h t p with
  | Some (_, o) => if mem then Ok (h ++ [CLive o], length h) else Throw
  | None => UB
  end.

(* std::unique_ptr::reset(p) and the destructor of std::unique_ptr: the deleter
   held at that time is called on the old pointer unless it is null; calling a
   null deleter is undefined. *)
Definition caw_release (h : caw_heap) (w : caw_wrap) : option caw_heap :=
  match cww_ca w with
  | None => Some h
  | Some a => match cww_del w with
              | Some t => caw_sdelete h t a
              | None => None
              end
  end.

(* The default constructor, CompiledAssignmentWrapper.h:152-155. *)
Definition caw_default : caw_wrap :=
  {| cww_ca := None; cww_del := None; cww_run := None; cww_fromd := None;
     cww_fromm := None; cww_to := None; cww_clone := None |}.

(* The calls a program can make.  Wrappers are designated by their number. *)
Inductive caw_op :=
| CMake (a : caw_assign) (w : caw_weight) (m : caw_mult) (to : nat) (s : caw_src)
        (rest : list nat) (mem : bool)
| CDefault
| CCopyNew (j : nat) (mem : bool)
| CMoveNew (j : nat)
| CCopy (i j : nat) (mem : bool)
| CMove (i j : nat)
| CRun (i : nat)
| CFromD (i : nat) (d : Q)
| CFromM (i : nat) (m : nat)
| CTo (i : nat) (m : nat)
| CDestroy (i : nat).

Definition caw_get (st : caw_state) (i : nat) : option caw_wrap :=
  match nth_error (cws_wraps st) i with Some (Some w) => Some w | _ => None end.

(* make, CompiledAssignmentWrapper.h:129-150.  F is read off the source given:
   a call whose arguments do not match F does not compile.  The local [w] is
   returned by move or built in place, with the same effect; if the allocation
   fails it is destroyed with a null [ca_]. *)
Definition caw_make (st : caw_state) (a : caw_assign) (w : caw_weight) (m : caw_mult)
    (to : nat) (s : caw_src) (rest : list nat) (mem : bool) : caw_obs * caw_state :=
  let f := caw_src_kind s in
  let t := {| cwt_a := a; cwt_w := w; cwt_m := m; cwt_f := f |} in
  let o := {| cwo_type := t; cwo_to := to; cwo_from := s; cwo_rest := rest |} in
  if mem then
    (CoDone,
     {| cws_heap := cws_heap st ++ [CLive o];
        cws_wraps := cws_wraps st ++
          [Some {| cww_ca := Some (length (cws_heap st));
                   cww_del := Some t;
                   cww_run := Some t;
                   cww_fromd := match f with CawConstant => Some t | _ => None end;
                   cww_fromm := match f with CawConstant => None | _ => Some t end;
                   cww_to := Some t;
                   cww_clone := Some t |}] |})
  else (CoThrew, st).

(* A call through a possibly null function pointer. *)
Definition caw_call {A} (f : option caw_type) (k : caw_type -> caw_obs * A) (st : A) : caw_obs * A :=
  match f with Some t => k t | None => (CoUndef, st) end.

(* The copy constructor, CompiledAssignmentWrapper.h:162-166. *)
Definition caw_copy_new (st : caw_state) (o : caw_wrap) (mem : bool) : caw_obs * caw_state :=
  caw_call (cww_clone o) (fun t =>
    match caw_sclone (cws_heap st) t (cww_ca o) mem with
    | Ok (h, a) =>
        (CoDone, {| cws_heap := h;
                    cws_wraps := cws_wraps st ++
                      [Some {| cww_ca := Some a; cww_del := cww_del o; cww_run := cww_run o;
                               cww_fromd := cww_fromd o; cww_fromm := cww_fromm o;
                               cww_to := cww_to o; cww_clone := cww_clone o |}] |})
    | Throw => (CoThrew, st)
    | UB => (CoUndef, st)
    end) st.

(* The wrapper a move leaves behind: the pointer of the unique_ptr becomes
   null, all function pointers stay (defaulted moves,
   CompiledAssignmentWrapper.h:34 and 38). *)
Definition caw_moved (o : caw_wrap) : caw_wrap :=
  {| cww_ca := None; cww_del := cww_del o; cww_run := cww_run o; cww_fromd := cww_fromd o;
     cww_fromm := cww_fromm o; cww_to := cww_to o; cww_clone := cww_clone o |}.

(* The move constructor, CompiledAssignmentWrapper.h:34. *)
Definition caw_move_new (st : caw_state) (j : nat) (o : caw_wrap) : caw_obs * caw_state :=
  (CoDone, {| cws_heap := cws_heap st;
              cws_wraps := caw_set (cws_wraps st) j (Some (caw_moved o)) ++ [Some o] |}).

(* The copy assignment, CompiledAssignmentWrapper.h:168-181: the clone is made
   first, then the old object is deleted with the old deleter, then the deleter
   and the function pointers are copied.  If [i] and [j] are the same wrapper
   the copied pointers are its own. *)
Definition caw_copy (st : caw_state) (i : nat) (w : caw_wrap) (o : caw_wrap) (mem : bool)
  : caw_obs * caw_state :=
  caw_call (cww_clone o) (fun t =>
    match caw_sclone (cws_heap st) t (cww_ca o) mem with
    | Ok (h, a) =>
        match caw_release h w with
        | Some h' =>
            (CoDone, {| cws_heap := h';
                        cws_wraps := caw_set (cws_wraps st) i
                          (Some {| cww_ca := Some a; cww_del := cww_del o; cww_run := cww_run o;
                                   cww_fromd := cww_fromd o; cww_fromm := cww_fromm o;
                                   cww_to := cww_to o; cww_clone := cww_clone o |}) |})
        | None => (CoUndef, st)
        end
    | Throw => (CoThrew, st)
    | UB => (CoUndef, st)
    end) st.

(* The move assignment, CompiledAssignmentWrapper.h:38: the one of unique_ptr,
   reset(u.release()) then the deleter, then the pointers.  With [i] = [j] the
   pointer is released and taken back. *)
Definition caw_move (st : caw_state) (i j : nat) (w : caw_wrap) (o : caw_wrap)
  : caw_obs * caw_state :=
  if Nat.eqb i j then (CoDone, st)
  else
    match caw_release (cws_heap st) w with
    | Some h =>
        (CoDone, {| cws_heap := h;
                    cws_wraps := caw_set (caw_set (cws_wraps st) j (Some (caw_moved o))) i (Some o) |})
    | None => (CoUndef, st)
    end.

Definition caw_with_heap (st : caw_state) (h : option caw_heap) : caw_obs * caw_state :=
  match h with
  | Some h' => (CoDone, {| cws_heap := h'; cws_wraps := cws_wraps st |})
  | None => (CoUndef, st)
  end.

(* run, CompiledAssignmentWrapper.h:183-185. *)
Definition caw_run (st : caw_state) (w : caw_wrap) : caw_obs * caw_state :=
  caw_call (cww_run w) (fun t =>
    match caw_srun (cws_heap st) t (cww_ca w) with
    | Some o => (CoRan o, st)
    | None => (CoUndef, st)
    end) st.

(* from(double), CompiledAssignmentWrapper.h:187-199. *)
Definition caw_fromd (st : caw_state) (w : caw_wrap) (d : Q) : caw_obs * caw_state :=
  match cww_fromd w with
  | Some t => caw_with_heap st (caw_sfrom (cws_heap st) t (cww_ca w) (CSConst d))
  | None => (CoThrew, st)
  end.

(* from(const Eigen::Ref<const MatrixType> &), CompiledAssignmentWrapper.h:201-213. *)
Definition caw_fromm (st : caw_state) (w : caw_wrap) (m : nat) : caw_obs * caw_state :=
  match cww_fromm w with
  | Some t => caw_with_heap st (caw_sfrom (cws_heap st) t (cww_ca w) (CSRef m))
  | None => (CoThrew, st)
  end.

(* to, CompiledAssignmentWrapper.h:215-217. *)
Definition caw_to (st : caw_state) (w : caw_wrap) (m : nat) : caw_obs * caw_state :=
  caw_call (cww_to w) (fun t =>
    caw_with_heap st (caw_sto (cws_heap st) t (cww_ca w) m)) st.

(* The destructor, CompiledAssignmentWrapper.h:35: the one of unique_ptr. *)
Definition caw_destroy (st : caw_state) (i : nat) (w : caw_wrap) : caw_obs * caw_state :=
  match caw_release (cws_heap st) w with
  | Some h => (CoDone, {| cws_heap := h; cws_wraps := caw_set (cws_wraps st) i None |})
  | None => (CoUndef, st)
  end.

(* A wrapper that was never constructed or is destroyed must not be used. *)
Definition caw_with (st : caw_state) (i : nat) (k : caw_wrap -> caw_obs * caw_state)
  : caw_obs * caw_state :=
  match caw_get st i with Some w => k w | None => (CoUndef, st) end.

Definition caw_step (st : caw_state) (op : caw_op) : caw_obs * caw_state :=
  match op with
  | CMake a w m to s rest mem => caw_make st a w m to s rest mem
  | CDefault => (CoDone, {| cws_heap := cws_heap st; cws_wraps := cws_wraps st ++ [Some caw_default] |})
  | CCopyNew j mem => caw_with st j (fun o => caw_copy_new st o mem)
  | CMoveNew j => caw_with st j (fun o => caw_move_new st j o)
  | CCopy i j mem => caw_with st i (fun w => caw_with st j (fun o => caw_copy st i w o mem))
  | CMove i j => caw_with st i (fun w => caw_with st j (fun o => caw_move st i j w o))
  | CRun i => caw_with st i (caw_run st)
  | CFromD i d => caw_with st i (fun w => caw_fromd st w d)
  | CFromM i m => caw_with st i (fun w => caw_fromm st w m)
  | CTo i m => caw_with st i (fun w => caw_to st w m)
  | CDestroy i => caw_with st i (caw_destroy st i)
  end.

(* A program: the calls in order, up to the first undefined behaviour.  An
   exception is caught and the program goes on. *)
Fixpoint caw_exec (st : caw_state) (l : list caw_op) : list caw_obs * caw_state :=
  match l with
  | [] => ([], st)
  | op :: r =>
    match caw_step st op with
    | (CoUndef, st') => ([CoUndef], st')
    | (b, st') => let (bs, st2) := caw_exec st' r in (b :: bs, st2)
    end
  end.
