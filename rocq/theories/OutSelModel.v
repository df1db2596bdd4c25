(* Model of OutputSelector (include/tvm/graph/abstract/OutputSelector.h), of isOutputEnabled
   (include/tvm/graph/abstract/Outputs.h:63-88) and of the macros SET_OUTPUTS and DISABLE_OUTPUTS
   (include/tvm/internal/enums.h:135-167).  An object is described through its construction, one class
   of its inheritance chain after the other; calls may come between, from the constructors. *)
From Coq Require Import List Bool Arith.
Import ListNotations.
From Verif Require Import Base.
Local Open Scope nat_scope.

(* An enumeration value: one of the chain of the class, by its number (the values are numbered
   from the size of the parent on, enums.h:136), or one of another class. *)
Inductive enumv := Own (e : nat) | Foreign.

(* osize: OutputSize of the class reached in the construction; off: the outputs its override of
   isOutputStaticallyEnabled disables; dyn: dynamicallyEnabled_ (None before the first
   OutputSelector of the chain); prov: OutputSize of the OutputProvider of the last one. *)
Record obj := mkO { osize : nat; off : list nat; dyn : option (list bool); prov : nat; locked : bool }.
(* class Outputs *)
Definition outputs : obj := mkO 0 [] None 0 false.

Inductive selector := NoSel | SelBase | SelSelf.
(* Derive n dis sel: the construction of a derived class adding n outputs (SET_OUTPUTS), disabling dis
   (DISABLE_OUTPUTS; Some [] for CLEAR_DISABLED_OUTPUTS), inheriting from OutputSelector<Base>
   (SelBase), from OutputSelector<Self, Base> (SelSelf) or from Base. *)
Inductive event :=
| Derive (n : nat) (dis : option (list nat)) (sel : selector)
| Disable (e : enumv)
| Enable (e : enumv)
| Lock
| Unlock.

(* std::vector<bool>::resize(n, true) *)
Definition resize (l : list bool) (n : nat) : list bool := firstn n l ++ repeat true (n - length l).
Fixpoint setAt (l : list bool) (i : nat) (b : bool) : list bool :=
  match l, i with
  | [], _ => []
  | _ :: l', 0 => b :: l'
  | x :: l', Datatypes.S i' => x :: setAt l' i' b
  end.
(* isOutputStaticallyEnabled of the class reached (virtual calls from a constructor), enums.h:154-161 *)
Definition static (o : obj) (e : nat) : bool := negb (existsb (Nat.eqb e) (off o)).
(* is_valid_output<OutputProvider>(e), Outputs.h:124-133 *)
Definition valid (o : obj) (e : enumv) : bool := match e with Own i => i <? prov o | Foreign => false end.

(* The request made through the last OutputSelector, OutputSelector.h:100-110 and 121-134; UB: there is
   none (not a program), or the vector is accessed out of its bounds. *)
Definition request (o : obj) (e : enumv) (b : bool) : res obj :=
  match dyn o with
  | None => UB
  | Some d =>
      if negb (valid o e) then Throw
      else match e with
           | Foreign => Throw
           | Own i =>
               if b && negb (static o i) then Throw
               else if locked o then Throw
               else if i <? length d then Ok (mkO (osize o) (off o) (Some (setAt d i b)) (prov o) (locked o))
               else UB
           end
  end.

Definition step (o : obj) (v : event) : res obj :=
  match v with
  | Derive n dis sel =>
      let o' := mkO (osize o + n) (match dis with Some l => l | None => off o end) (dyn o) (prov o) (locked o) in
      match sel with
      | NoSel => Ok o'
      | SelBase | SelSelf =>
          (* OutputSelector.h:86; the provider is the base or the class itself *)
          let p := match sel with SelSelf => osize o' | _ => osize o end in
          let d := match dyn o with Some d => d | None => [] end in
          Ok (mkO (osize o') (off o') (Some (resize d p)) p (locked o))
      end
  | Disable e => request o e false
  | Enable e => request o e true
  | Lock => match dyn o with None => UB | Some _ => Ok (mkO (osize o) (off o) (dyn o) (prov o) true) end
  | Unlock => match dyn o with None => UB | Some _ => Ok (mkO (osize o) (off o) (dyn o) (prov o) false) end
  end.

(* A throwing call is caught and leaves the object as it is. *)
Fixpoint run (o : obj) (h : list event) : res obj :=
  match h with
  | [] => Ok o
  | v :: h' => match step o v with Ok o' => run o' h' | Throw => run o h' | UB => UB end
  end.

(* disableOutput(e, args...), enableOutput(e, args...), OutputSelector.h:113-118 and 137-142:
   the object left and whether the call returns *)
Fixpoint requests (o : obj) (es : list enumv) (b : bool) : obj * res unit :=
  match es with
  | [] => (o, Ok tt)
  | e :: es' => match request o e b with Ok o' => requests o' es' b | Throw => (o, Throw) | UB => (o, UB) end
  end.

(* isOutputEnabled(int), Outputs.h:72; isOutputCustomEnabled, Outputs.h:88 and OutputSelector.h:145-150 *)
Definition isEnabled (o : obj) (e : nat) : res bool :=
  if static o e then
    match dyn o with
    | None => Ok true
    | Some d => if length d <=? e then Throw else Ok (nth e d false)
    end
  else Ok false.
