(* What a program using CompiledAssignmentWrapper may rely on: wrappers are
   values.  There is no heap and no pointer here. *)
From Coq Require Import List Arith Bool QArith.
From Verif Require Import Base CawModel.
Import ListNotations.
Local Open Scope nat_scope.

(* A wrapper is default-constructed, or holds an assignment, or had its
   assignment (of the type said) moved out of it; [VGone]: destroyed. *)
Inductive caw_value := VNull | VMoved (t : caw_type) | VHas (o : caw_obj) | VGone.

Definition caw_left (v : caw_value) : caw_value :=
  match v with VHas o => VMoved (cwo_type o) | x => x end.

Definition caw_is_const (t : caw_type) : bool :=
  match cwt_f t with CawConstant => true | _ => false end.

Definition caw_vget (vs : list caw_value) (i : nat) : caw_value := nth i vs VGone.

(* The effect of each call on the values. *)
Definition caw_vstep (vs : list caw_value) (op : caw_op) : caw_obs * list caw_value :=
  match op with
  | CMake a w m to s rest mem =>
      if mem
      then (CoDone, vs ++ [VHas {| cwo_type := {| cwt_a := a; cwt_w := w; cwt_m := m;
                                                 cwt_f := caw_src_kind s |};
                                   cwo_to := to; cwo_from := s; cwo_rest := rest |}])
      else (CoThrew, vs)
  | CDefault => (CoDone, vs ++ [VNull])
  | CCopyNew j mem =>
      match caw_vget vs j with
      | VHas o => if mem then (CoDone, vs ++ [VHas o]) else (CoThrew, vs)
      | _ => (CoUndef, vs)
      end
  | CMoveNew j =>
      match caw_vget vs j with
      | VGone => (CoUndef, vs)
      | v => (CoDone, caw_set vs j (caw_left v) ++ [v])
      end
  | CCopy i j mem =>
      match caw_vget vs i, caw_vget vs j with
      | VGone, _ => (CoUndef, vs)
      | _, VHas o => if mem then (CoDone, caw_set vs i (VHas o)) else (CoThrew, vs)
      | _, _ => (CoUndef, vs)
      end
  | CMove i j =>
      match caw_vget vs i, caw_vget vs j with
      | VGone, _ => (CoUndef, vs)
      | _, VGone => (CoUndef, vs)
      | _, v => if Nat.eqb i j then (CoDone, vs)
                else (CoDone, caw_set (caw_set vs j (caw_left v)) i v)
      end
  | CRun i =>
      match caw_vget vs i with
      | VHas o => (CoRan o, vs)
      | _ => (CoUndef, vs)
      end
  | CFromD i d =>
      match caw_vget vs i with
      | VNull => (CoThrew, vs)
      | VMoved t => if caw_is_const t then (CoUndef, vs) else (CoThrew, vs)
      | VHas o => if caw_is_const (cwo_type o)
                  then (CoDone, caw_set vs i (VHas (caw_obj_from o (CSConst d))))
                  else (CoThrew, vs)
      | VGone => (CoUndef, vs)
      end
  | CFromM i m =>
      match caw_vget vs i with
      | VNull => (CoThrew, vs)
      | VMoved t => if caw_is_const t then (CoThrew, vs) else (CoUndef, vs)
      | VHas o => if caw_is_const (cwo_type o) then (CoThrew, vs)
                  else (CoDone, caw_set vs i (VHas (caw_obj_from o (CSRef m))))
      | VGone => (CoUndef, vs)
      end
  | CTo i m =>
      match caw_vget vs i with
      | VHas o => (CoDone, caw_set vs i (VHas (caw_obj_to o m)))
      | _ => (CoUndef, vs)
      end
  | CDestroy i =>
      match caw_vget vs i with
      | VGone => (CoUndef, vs)
      | _ => (CoDone, caw_set vs i VGone)
      end
  end.

Fixpoint caw_vexec (vs : list caw_value) (l : list caw_op) : list caw_obs * list caw_value :=
  match l with
  | [] => ([], vs)
  | op :: r =>
    match caw_vstep vs op with
    | (CoUndef, vs') => ([CoUndef], vs')
    | (b, vs') => let (bs, vs2) := caw_vexec vs' r in (b :: bs, vs2)
    end
  end.

(* The wrapper [i] of the program owns the allocation [a]. *)
Definition caw_owns (st : caw_state) (i a : nat) : Prop :=
  exists w, caw_get st i = Some w /\ cww_ca w = Some a.

(* The allocation [a] is alive. *)
Definition caw_alive (st : caw_state) (a : nat) : Prop :=
  exists o, nth_error (cws_heap st) a = Some (CLive o).

(* The wrappers a call may change. *)
Definition caw_touches (op : caw_op) (i : nat) : Prop :=
  match op with
  | CMoveNew j => i = j
  | CCopy k _ _ => i = k
  | CMove k j => i = k \/ i = j
  | CFromD k _ | CFromM k _ | CTo k _ | CDestroy k => i = k
  | _ => False
  end.

(* The calls which may be made on values [vs] by a program that never uses a
   destroyed wrapper, and never copies, runs or re-targets one that holds
   nothing. *)
Definition caw_holds (vs : list caw_value) (i : nat) : Prop := exists o, caw_vget vs i = VHas o.
Definition caw_present (vs : list caw_value) (i : nat) : Prop := caw_vget vs i <> VGone.

Definition caw_proper (vs : list caw_value) (op : caw_op) : Prop :=
  match op with
  | CMake _ _ _ _ _ _ _ | CDefault => True
  | CCopyNew j _ => caw_holds vs j
  | CMoveNew j => caw_present vs j
  | CCopy i j _ => caw_present vs i /\ caw_holds vs j
  | CMove i j => caw_present vs i /\ caw_present vs j
  | CRun i | CTo i _ => caw_holds vs i
  | CFromD i _ => caw_present vs i /\
                  (forall t, caw_vget vs i = VMoved t -> cwt_f t <> CawConstant)
  | CFromM i _ => caw_present vs i /\
                  (forall t, caw_vget vs i = VMoved t -> cwt_f t = CawConstant)
  | CDestroy i => caw_present vs i
  end.
