(* C18: the plan of a CallGraph. *)
Require Import List Arith Bool Lia Relations.
Require Import Verif.Base Verif.GraphModel Verif.CallGraphModel Verif.CallGraphSpec Verif.CallGraphProofs Verif.CallGraphProofs2.
Import ListNotations.

(* After any sequence of add() and clear() on any network in which output forwarding ends
   and finitely many updates are needed, add() terminates (with a recursion depth bounded
   as given), and if the needed updates do not depend on each other in a cycle, update()
   yields a plan calling each needed update exactly once, no other one, and each after
   those it depends on. *)
Theorem C18_plan : forall N rank D U h, forwarding_ends N rank D -> enough_calls N (all_registered h) U ->
  forall fuel, length U * (D + 2) + D + 2 <= fuel ->
  exists st, cgrun fuel N h cg_init = Ok st /\
    (~ dep_cycle N (registered h []) -> exists p, cg_update st = Ok p /\ NoDup p /\
       (forall c, In c p <-> needed N (registered h []) c) /\
       (forall c d, In c p -> dep N c d -> called_before p d c)).
Proof.
  intros N rank D U h FE EC fuel B. destruct (c18 N rank D U h FE EC fuel B) as [st [R H]].
  exists st. split; [exact R|]. exact (plan_acyclic N st _ H).
Qed.

(* Whatever the dependencies, the plan only has needed calls, at most once, dependencies
   first, and an exception means that there is a cycle. *)
Theorem C18_general : forall N rank D U h, forwarding_ends N rank D -> enough_calls N (all_registered h) U ->
  forall fuel, length U * (D + 2) + D + 2 <= fuel ->
  exists st, cgrun fuel N h cg_init = Ok st /\
  match cg_update st with
  | Ok p => NoDup p /\ (forall c, In c p -> needed N (registered h []) c) /\
            (forall c d, In c p -> dep N c d -> called_before p d c)
  | Throw => dep_cycle N (registered h [])
  | UB => False
  end.
Proof.
  intros N rank D U h FE EC fuel B. destruct (c18 N rank D U h FE EC fuel B) as [st [R H]].
  exists st. split; [exact R|]. exact (plan_general N st _ H).
Qed.

(* A network: 0 is a plain source, 1 and 2 are functions of it, 3 uses both and forwards
   an output of 1. *)
Definition only {B} (k : nat) (v : B) (j : nat) : option B := if Nat.eqb j k then Some v else None.
Definition fn (src : nat) : node :=
  mkNode (fun o => if o <? 2 then Some [o] else None) (only 1 [0]) (only 0 [(src, [0])]) (fun _ => None).
Definition exN : net := fun s =>
  match s with
  | 1 => Some (fn 0)
  | 2 => Some (fn 0)
  | 3 => Some (mkNode (only 0 [0]) (fun _ => None) (only 0 [(1, [1]); (2, [0])]) (only 1 (1, 0)))
  | _ => None
  end.
Definition exU : list call := [(1, 0); (1, 1); (2, 0); (2, 1); (3, 0)].
Definition exRank (s o : nat) : nat := if s =? 3 then 1 else 0.
Lemma exN_forward : forwarding_ends exN exRank 1.
Proof.
  split; [intros s o; unfold exRank; destruct (s =? 3); lia|].
  intros s nd o s' o' NS OD DD. destruct s as [|[|[|[|s]]]]; simpl in NS; try discriminate; injection NS as <-; simpl in *; try discriminate.
  unfold only in *. destruct (o =? 1); [|discriminate]. injection DD as <- <-. unfold exRank. simpl. lia.
Qed.
Lemma exN_calls s o c : feeds exN s o c -> In c exU.
Proof.
  intros F. induction F as [s nd o us u NS OD I|]; [|assumption].
  destruct s as [|[|[|[|s]]]]; simpl in NS; try discriminate; injection NS as <-; cbn [fn outDep] in OD.
  - destruct (Nat.ltb_spec o 2); [|discriminate]. injection OD as <-. destruct I as [<-|[]].
    destruct o as [|[|o]]; [simpl; auto|simpl; auto|lia].
  - destruct (Nat.ltb_spec o 2); [|discriminate]. injection OD as <-. destruct I as [<-|[]].
    destruct o as [|[|o]]; [simpl; auto|simpl; auto|lia].
  - unfold only in OD. destruct (o =? 0); [|discriminate]. injection OD as <-. destruct I as [<-|[]]. simpl. auto 10.
Qed.
Lemma exN_enough ins : enough_calls exN ins exU.
Proof.
  split; [intros s os o c _ _ F; eapply exN_calls; eauto|].
  intros c d I H. destruct H as [s nd u us u' NS ID J|]; [|eapply exN_calls; eauto].
  destruct s as [|[|[|[|s]]]]; simpl in NS; try discriminate; injection NS as <-; cbn [fn intDep] in ID; try discriminate;
    unfold only in ID; destruct (u =? 1); try discriminate; injection ID as <-; destruct J as [<-|[]]; simpl; auto.
Qed.
Example ex_plan : exists st, cgrun 18 exN [CGAdd [(2, [1])]; CGClear; CGAdd [(3, [1; 0])]; CGAdd [(1, [0])]] cg_init = Ok st /\
  cg_update st = Ok [(1, 0); (1, 1); (2, 0); (3, 0)].
Proof. eexists. split; vm_compute; reflexivity. Qed.
(* the level of an update decreases along dependencies: no cycle *)
Definition exLevel (c : call) : nat := if fst c =? 3 then 2 else snd c.
Example ex_acyclic ins : ~ dep_cycle exN ins.
Proof.
  assert (FL : forall s o c, feeds exN s o c -> s < 3 -> exLevel c < 2).
  { intros s o c F. induction F as [s nd o us u NS OD I|s nd o s' o' c NS OD DD F IH]; intros L.
    - destruct s as [|[|[|s]]]; simpl in NS; try discriminate; [| |lia]; injection NS as <-; cbn [fn outDep] in OD;
        (destruct (Nat.ltb_spec o 2); [|discriminate]); injection OD as <-; destruct I as [<-|[]]; unfold exLevel; simpl; lia.
    - destruct s as [|[|[|s]]]; simpl in NS; try discriminate; [| |lia]; injection NS as <-; discriminate DD. }
  assert (DL : forall c d, dep exN c d -> exLevel d < exLevel c).
  { intros c d H. destruct H as [s nd u us u' NS ID J|s nd u ins' s' os o d NS ID I1 I2 F].
    - destruct s as [|[|[|[|s]]]]; simpl in NS; try discriminate; injection NS as <-; cbn [fn intDep] in ID; try discriminate;
        unfold only in ID; (destruct (Nat.eqb_spec u 1); [|discriminate]); injection ID as <-; destruct J as [<-|[]]; subst u; unfold exLevel; simpl; lia.
    - destruct s as [|[|[|[|s]]]]; simpl in NS; try discriminate; injection NS as <-; cbn [fn inDep] in ID; unfold only in ID;
        (destruct (Nat.eqb_spec u 0); [|discriminate]); injection ID as <-.
      + destruct I1 as [[= <- <-]|[]]. inversion F; subst; discriminate.
      + destruct I1 as [[= <- <-]|[]]. inversion F; subst; discriminate.
      + unfold exLevel at 2. simpl. apply (FL s' o d F). destruct I1 as [[= <- <-]|[[= <- <-]|[]]]; lia. }
  assert (CL : forall c d, clos_refl_trans call (dep exN) c d -> exLevel d <= exLevel c).
  { intros c d R. induction R as [c d H|c|c d e _ H1 _ H2]; [apply DL in H; lia|lia|lia]. }
  intros [c [d [_ [Q R]]]]. apply DL in Q. apply CL in R. lia.
Qed.

(* "All the needed updates are called, or update() throws" does not hold when two updates
   depend on each other while something else is registered: here update (0,0), asked for,
   is silently left out. *)
Theorem C18_needed_or_throw_refuted : exists N rank D U h st p c,
  forwarding_ends N rank D /\ enough_calls N (all_registered h) U /\
  cgrun (length U * (D + 2) + D + 2) N h cg_init = Ok st /\ cg_update st = Ok p /\
  needed N (registered h []) c /\ ~ In c p.
Proof.
  set (N := fun s => match s with
     | 0 => Some (mkNode (only 0 [0]) (fun u => Some [1 - u]) (fun _ => None) (fun _ => None))
     | 1 => Some (mkNode (only 0 [0]) (fun _ => None) (fun _ => None) (fun _ => None))
     | _ => None end).
  exists N, (fun _ _ => 0), 0, [(0, 0); (0, 1); (1, 0)], [CGAdd [(0, [0]); (1, [0])]]. eexists _, _, (0, 0).
  assert (FU : forall s o c, feeds N s o c -> In c [(0, 0); (0, 1); (1, 0)]).
  { intros s o c F. induction F as [s nd o us u NS OD I|]; [|assumption]. unfold N in NS. destruct s as [|[|s]]; try discriminate;
      injection NS as <-; cbn [outDep] in OD; unfold only in OD; (destruct (o =? 0); [|discriminate]); injection OD as <-;
      destruct I as [<-|[]]; simpl; auto. }
  split. { split; [lia|]. intros s nd o s' o' NS _ DD. unfold N in NS. destruct s as [|[|s]]; try discriminate; injection NS as <-; discriminate. }
  split. { split; [intros s os o c _ _ F; eapply FU; eauto|]. intros c d _ H.
    destruct H as [s nd u us u' NS ID J|]; [|eapply FU; eauto]. unfold N in NS. destruct s as [|[|s]]; try discriminate; injection NS as <-;
      cbn [intDep] in ID; try discriminate. injection ID as <-. destruct J as [<-|[]]. destruct u as [|[|u]]; simpl; auto. }
  split; [vm_compute; reflexivity|]. split; [vm_compute; reflexivity|]. split.
  - exists 0, [0], 0, (0, 0). split; [simpl; auto|]. split; [simpl; auto|]. split; [|apply rt_refl].
    eapply feeds_out; [reflexivity|reflexivity|simpl; auto].
  - simpl. intros [Q|[]]. discriminate Q.
Qed.

(* Forwarding in a circle: add() never returns, whatever the stack. *)
Theorem C18_forwarding_needed_refuted : exists N ins, forall fuel, cg_add fuel N ins cg_init = UB.
Proof.
  exists (fun s => Some (mkNode (fun _ => None) (fun _ => None) (fun _ => None) (fun o => Some (1 - s, o)))), [(0, [0])].
  intros fuel. simpl.
  assert (Q : forall f s o, addOutput f (fun s => Some (mkNode (fun _ => None) (fun _ => None) (fun _ => None) (fun o => Some (1 - s, o)))) s o cg_init = UB).
  { induction f as [|f IH]; intros s o; [reflexivity|]. cbn [addOutput lookup visited_ cg_init outDep dirDep]. rewrite IH. reflexivity. }
  rewrite Q. reflexivity.
Qed.

Print Assumptions C18_plan.
Print Assumptions C18_general.
Print Assumptions C18_needed_or_throw_refuted.
Print Assumptions C18_forwarding_needed_refuted.
