(* C86. The options given to the solvers. *)
From Coq Require Import List Bool ZArith QArith String.
Import ListNotations.
From Verif Require Import Base OptModel OptSpec OptProofs.
Local Open Scope string_scope.
Local Open Scope list_scope.

(* An option reads as the value last given to it, or else as its default value, whatever was given to the other ones. *)
Theorem C86_getter : forall k l n d, In (n, d) (declared k) -> getOpt n (setAll l (declared k)) = match lastGiven n l with Some v => Some v | None => d end.
Proof. exact getter_ok. Qed.
Print Assumptions C86_getter.

(* A solver can be made from any options, without exception; its own options have the values chosen; each other option of the class
   reaches the parameter of the same name of each object of the library, those chosen by nobody are as in the library (but for three
   of LSSOL), and no other parameter is changed (but for one of LSSOL). *)
Theorem C86_reaches : forall k libs l, exists s, construct k libs (setAll l (declared k)) = Ok s /\ configured k libs l s.
Proof. exact reach_ok. Qed.
Print Assumptions C86_reaches.

(* Each solver made by a scheme has the options as they were when the scheme was made: what is given afterwards to the object of the
   user is without effect. *)
Theorem C86_copied : forall k libs a b, ~ In WScheme b ->
  exists s, createSolver k libs (wrun k (a ++ WScheme :: b)) = Some (Ok s) /\ configured k libs (setters a) s.
Proof. exact copy_ok. Qed.
Print Assumptions C86_copied.

(* The default solver is the first available one of LSSOL, QLD and Quadprog, with the two options of the default class, and the other
   options at their default values. *)
Theorem C86_default : forall lssol qld quadprog libs l, lssol || qld || quadprog = true ->
  exists k s b v, createDefault lssol qld quadprog libs (setAll l defaultOptions) = Some (k, Ok s) /\
    k = (if lssol then LSSOL else if qld then QLD else Quadprog) /\
    chosen "big_number" l (Some BigNumber) = Some b /\ chosen "verbose" l (Some (VB false)) = Some v /\ configured k libs [("big_number", b); ("verbose", v)] s.
Proof. exact default_ok. Qed.
Print Assumptions C86_default.

(* LSSOL with an option given twice, and an iteration limit given; LexLS with warm start and a tolerance. *)
Definition someLib : params := fun n => if n =? "feasibilityMaxIter" then VZ 50 else if n =? "optimalityMaxIter" then VZ 60 else if n =? "persistence" then VB false else VD 7.
Example C86_case : exists s, construct LSSOL [someLib; someLib] (setAll [("rankTol", VD 1); ("optimalityMaxIter", VZ 5); ("verbose", VB true); ("rankTol", VD 2)] (declared LSSOL)) = Ok s /\
  In ("verbose", VB true) (ls_fields s) /\ In ("big_number", BigNumber) (ls_fields s) /\
  map (fun p => (p "rankTol", p "optimalityMaxIter", p "feasibilityMaxIter")) (ls_libs s) = repeat (VD 2, VZ 5, VZ 200) 2 /\
  map (fun p => (p "persistence", p "crashTol", p "warm", p "other")) (ls_libs s) = repeat (VB true, VD 7, VB true, VD 7) 2.
Proof. eexists. split; [reflexivity|]. repeat split; cbn; tauto. Qed.
Example C86_copied_case : exists s, createSolver LexLS [someLib] (wrun LexLS [WSet "warmStart" (VB true); WSet "tol_feasibility" (VD 3); WScheme; WSet "tol_feasibility" (VD 4); WSet "warmStart" (VB false)]) = Some (Ok s) /\
  In ("warmStart", VB true) (ls_fields s) /\ map (fun p => (p "tol_feasibility", p "cycling_handling_enabled", p "use_phase1_v0")) (ls_libs s) = [(VD 3, VB true, VD 7)].
Proof. eexists. split; [reflexivity|]. repeat split; cbn; tauto. Qed.
Example C86_default_case : exists s, createDefault false true true [] (setAll [("verbose", VB true)] defaultOptions) = Some (QLD, Ok s) /\
  ls_fields s = [("verbose", VB true); ("big_number", BigNumber); ("eps", VD (1 # 1000000)); ("cholesky", VB false); ("choleskyDamping", VD (1 # 100000000))].
Proof. eexists. split; reflexivity. Qed.
