(* Specification vocabulary for variables: which memory cells a variable denotes, and what
   a chain of dot/subvariable calls should denote. *)
Require Import ZArith List Bool.
Require Import Verif.Base Verif.RangeModel Verif.SpaceModel Verif.SpaceProps Verif.VariableModel.
Import ListNotations.
Local Open Scope Z_scope.

(* The memory cell (block, index) belongs to the value of [v]. *)
Definition cell (h : heap) (v : nat) (c : nat * Z) : Prop :=
  exists o, nth_error (objs h) v = Some o /\ fst c = v_block o /\ v_off o <= snd c < v_off o + v_size o.

(* the content of a memory cell *)
Definition content (h : heap) (c : nat * Z) : option Z := nth_error (blockOf h (fst c)) (Z.to_nat (snd c)).

(* Admissible calls: existing variables, spaces built through the API, at least one
   derivation. *)
Definition valid_vop (h : heap) (o : vop) : Prop :=
  match o with
  | VNew s => api s
  | VDot v n _ => (v < length (objs h))%nat /\ n <> O
  | VSub v s sh _ => (v < length (objs h))%nat /\ api s /\ api sh
  | VSet v _ | VSetI v _ _ | VSetS v _ _ _ | VZero v => (v < length (objs h))%nat
  end.
Inductive reachable : heap -> Prop :=
| r_init : reachable empty_heap
| r_step : forall h o h', reachable h -> valid_vop h o -> vstep h o = Ok h' -> reachable h'.

(* Chains of derivations and sub-variables starting from one variable. *)
Inductive cop := CDot (auto : bool) | CSub (s shift : space) (auto : bool).
Fixpoint chain (h : heap) (v : nat) (c : list cop) : res (heap * nat) :=
  match c with
  | [] => Ok (h, v)
  | CDot a :: c' => do (h1, d) <- dot h v 1 a; chain h1 d c'
  | CSub s sh a :: c' => do (h1, u) <- subvariable h v s sh a; chain h1 u c'
  end.
Definition valid_cop (o : cop) : Prop := match o with CDot _ => True | CSub s sh _ => api s /\ api sh end.

(* The slice a chain denotes: derivation order, space, and offset in the representation
   and in the tangent representation; None when a sub-variable does not fit. *)
Definition slice := (nat * space * Z * Z)%type.
Fixpoint chain_slice (c : list cop) (x : slice) : option slice :=
  let '(n, s, r, t) := x in
  match c with
  | [] => Some x
  | CDot _ :: c' => chain_slice c' (S n, s, r, t)
  | CSub s' sh _ :: c' =>
      if (mSize s' + mSize sh <=? mSize s) && (rSize s' + rSize sh <=? rSize s) && (tSize s' + tSize sh <=? tSize s)
      then chain_slice c' (n, s', r + rSize sh, t + tSize sh) else None
  end.
Definition slice_range (x : slice) : Range :=
  let '(n, s, r, t) := x in match n with O => mkRange r (rSize s) | S _ => mkRange t (tSize s) end.
