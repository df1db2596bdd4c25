(* C46: output enabling respects locks and static disabling. *)
From Coq Require Import List Bool Arith.
Import ListNotations.
From Verif Require Import Base OutSelModel OutSelSpec OutSelProofs.
Local Open Scope nat_scope.

(* The classes of tests/OutputSelectorTest.cpp: Provider1 (3 outputs), Provider2 (2 more, O1 disabled),
   Provider3 (selector, disables O1 and O3), Provider4 (3 more), Provider5 (selector, disables O0 and O6). *)
Definition p3 : list event := [Derive 3 None NoSel; Derive 2 (Some [1]) NoSel; Derive 0 None SelBase; Disable (Own 1); Disable (Own 3)].
Definition p4 : list event := p3 ++ [Derive 3 None NoSel].
Definition p5 : list event := p4 ++ [Derive 0 None SelBase; Disable (Own 0); Disable (Own 6)].
Definition sex : list event := p5 ++ [Enable (Own 0); Lock; Disable (Own 2); Unlock; Enable (Own 1); Disable (Own 4); Enable Foreign].
Definition sview (h : list event) (n : nat) := match run outputs h with Ok o => Some (map (isEnabled o) (seq 0 n)) | _ => None end.
Example p5_run : program p5 false = true /\ covered p5 = total p5 /\
  sview p5 8 = Some [Ok false; Ok false; Ok true; Ok false; Ok true; Ok true; Ok false; Ok true].
Proof. repeat split. Qed.
Example sex_run : program sex false = true /\ covered sex = total sex /\
  sview sex 8 = Some [Ok true; Ok false; Ok true; Ok false; Ok false; Ok true; Ok false; Ok true].
Proof. repeat split. Qed.

(* When all the outputs of the class are known to its last selector, an output is reported enabled exactly
   if it is not statically disabled and the last accepted request for it was not to disable it. *)
Theorem C46_enabled : forall h e, program h false = true -> covered h = total h -> e < total h ->
  exists o b, run outputs h = Ok o /\ isEnabled o e = Ok b /\ (b = true <-> ~ staticallyOff h e /\ ~ lastDisabled h e).
Proof. exact enabled_all. Qed.
Print Assumptions C46_enabled.

(* In general. *)
Theorem C46_enabled_any : forall h e, program h false = true -> exists o, run outputs h = Ok o /\
  (staticallyOff h e -> isEnabled o e = Ok false) /\
  (~ staticallyOff h e -> hasSelector h -> e < covered h -> exists b, isEnabled o e = Ok b /\ (b = true <-> ~ lastDisabled h e)) /\
  (~ staticallyOff h e -> hasSelector h -> covered h <= e -> isEnabled o e = Throw) /\
  (~ staticallyOff h e -> ~ hasSelector h -> isEnabled o e = Ok true).
Proof. exact enabled_spec. Qed.
Print Assumptions C46_enabled_any.

(* A request throws exactly if it is not accepted, and is never undefined. *)
Theorem C46_request : forall h o x, program h false = true -> hasSelector h -> run outputs h = Ok o ->
  (step o (Disable x) = Throw <-> match x with Foreign => True | Own e => ~ acceptedDisable h e end) /\
  (step o (Enable x) = Throw <-> match x with Foreign => True | Own e => ~ acceptedEnable h e end) /\
  step o (Disable x) <> UB /\ step o (Enable x) <> UB.
Proof. exact requests_throw. Qed.
Print Assumptions C46_request.

(* While locked, requests, for one or several outputs, throw without effect. *)
Theorem C46_locked : forall h o es b, program h false = true -> run outputs h = Ok o -> lockedBy h false = true -> hasSelector h -> es <> [] ->
  requests o es b = (o, Throw).
Proof. exact requests_locked. Qed.
Print Assumptions C46_locked.
Example locked_case : program (p5 ++ [Lock]) false = true /\ lockedBy (p5 ++ [Lock]) false = true /\ hasSelector (p5 ++ [Lock]).
Proof. split; [reflexivity|]. split; [reflexivity|]. exists 0, None, SelBase. split; [right; right; left; reflexivity|discriminate]. Qed.

(* A request for several outputs is a sequence of requests, up to the first that throws... *)
Theorem C46_several : forall o es b, match requests o es b with
  | (o', Ok _) => run o (map (fun x => if b : bool then Enable x else Disable x) es) = Ok o'
  | (o', Throw) => exists es1 x es2, es = es1 ++ x :: es2 /\ run o (map (fun x => if b then Enable x else Disable x) es1) = Ok o' /\ request o' x b = Throw
  | (_, UB) => True
  end.
Proof. exact requests_run. Qed.
Print Assumptions C46_several.
(* ...so that when it throws it may have had an effect. *)
Theorem C46_several_atomic_refuted : exists h o es o' e, program h false = true /\ run outputs h = Ok o /\
  requests o es true = (o', Throw) /\ isEnabled o e = Ok false /\ isEnabled o' e = Ok true.
Proof.
  exists p5, (mkO 8 [1] (Some [false; false; true; false; true; true; false; true]) 8 false), [Own 0; Own 1],
    (mkO 8 [1] (Some [true; false; true; false; true; true; false; true]) 8 false), 0.
  split; [reflexivity|]. split; [reflexivity|]. split; [reflexivity|]. split; reflexivity.
Qed.
Print Assumptions C46_several_atomic_refuted.

(* isOutputEnabled throws for an output added by a class deriving from a selector without being one:
   Provider4 of the tests, output O5. *)
Theorem C46_added_output_refuted : exists h o e, program h false = true /\ run outputs h = Ok o /\ e < total h /\
  ~ staticallyOff h e /\ ~ lastDisabled h e /\ isEnabled o e = Throw.
Proof.
  exists p4, (mkO 8 [1] (Some [true; false; true; false; true]) 5 false), 5.
  split; [reflexivity|]. split; [reflexivity|]. split; [apply Nat.ltb_lt; reflexivity|]. split; [intros [K|[]]; discriminate|].
  split; [apply not_last_uncovered; apply Nat.leb_le; reflexivity|reflexivity].
Qed.
Print Assumptions C46_added_output_refuted.

(* A class disabling outputs enables again those its bases disabled. *)
Theorem C46_static_inherited_refuted : exists h o e n l, program h false = true /\ run outputs h = Ok o /\
  In (Derive n (Some l) NoSel) h /\ In e l /\ isEnabled o e = Ok true.
Proof.
  exists [Derive 3 (Some [1]) NoSel; Derive 1 (Some [2]) NoSel], (mkO 4 [2] None 0 false), 1, 3, [1].
  split; [reflexivity|]. split; [reflexivity|]. split; [left; reflexivity|]. split; [left; reflexivity|reflexivity].
Qed.
Print Assumptions C46_static_inherited_refuted.
