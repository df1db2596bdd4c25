(* C47: event notification reaches every live listener. *)
From Coq Require Import List Bool Arith.
Import ListNotations.
From Verif Require Import Base EventModel EventSpec EventProofs.
Local Open Scope nat_scope.

Definition trace (r : res (state * list delivery)) : option (list delivery) := match r with Ok (_, t) => Some t | _ => None end.
(* Listeners 1 and 2 for event 0, 2 for event 5, a third one destroyed before any notification of its event. *)
Definition vex : list action := [Regist 1 0; Regist 2 0; Regist 2 5; Notify 0; Regist 3 6; Destroy 3; Notify 5; Regist 4 0; Notify 0].
Example vex_trace : trace (run quiet 2 init vex) =
  Some [Receive 1 0 []; Receive 2 0 []; Receive 2 5 []; Receive 1 0 []; Receive 2 0 []; Receive 4 0 []].
Proof. reflexivity. Qed.
(* Handlers that notify and register themselves. *)
Definition vproc (l e : nat) : list action := match l, e with 1, 0 => [Notify 5; Regist 1 7; Destroy 1] | 2, 5 => [Regist 8 7] | _, _ => [] end.
Example vproc_trace : trace (run vproc 3 init [Regist 1 0; Regist 2 0; Regist 2 5; Notify 0]) =
  Some [Receive 1 0 [Receive 2 5 []]; Receive 2 0 []].
Proof. reflexivity. Qed.

(* Whatever the listeners do when notified, a notification that is defined is delivered to the listeners
   registered for it when it is issued, in the order of registration, once per registration. *)
Theorem C47_order : forall process f s e s' tr, run process f s [Notify e] = Ok (s', tr) ->
  map receiver tr = regs s e /\ Forall (fun d => about d = e) tr /\ regs s' e = regs s e.
Proof. exact notify_order. Qed.
Print Assumptions C47_order.

(* It is undefined if one of them is dead. *)
Theorem C47_dead : forall process f s e ls1 l ls2, regs s e = ls1 ++ l :: ls2 -> alive s l = false -> run process f s [Notify e] = UB.
Proof. exact notify_dead. Qed.
Print Assumptions C47_dead.
Example dead_case : exists s, (exists t, run quiet 2 init [Regist 1 0; Regist 2 0; Destroy 2] = Ok (s, t)) /\ regs s 0 = [1] ++ 2 :: [] /\ alive s 2 = false.
Proof.
  destruct (run quiet 2 init [Regist 1 0; Regist 2 0; Destroy 2]) as [[s t]| |] eqn:E; try discriminate.
  exists s. split; [exists t; reflexivity|]. cbn in E. injection E as <- <-. split; reflexivity.
Qed.

(* All histories of registrations, destructions and notifications, when the listeners do nothing
   to the source: they are defined exactly if every notification finds all its listeners alive, and
   then everything expected is received, in order. *)
Theorem C47_history : forall f h, allAlive h -> exists s, run quiet (S (S f)) init h = Ok (s, expected [] h).
Proof. exact delivers. Qed.
Print Assumptions C47_history.
Lemma notify_split h1 e h2 a h : a :: h = h1 ++ Notify e :: h2 -> (h1 = [] /\ a = Notify e) \/ exists h1', h1 = a :: h1' /\ h = h1' ++ Notify e :: h2.
Proof. destruct h1 as [|x h1]; cbn; intros H; injection H as -> ->; [left; split; reflexivity|right; exists h1; split; reflexivity]. Qed.
Example vex_alive : allAlive vex.
Proof.
  intros h1 e h2 E. unfold vex in E.
  do 9 (apply notify_split in E; destruct E as [[-> E]|[? [-> E]]];
    [first [discriminate E|injection E as <-; cbn; intros l K D; unfold destroyed in D; cbn in D; intuition (subst; discriminate)]|]).
  exfalso. exact (app_cons_not_nil _ _ _ E).
Qed.
Theorem C47_undefined : forall f h h1 e h2 l, h = h1 ++ Notify e :: h2 -> In l (registered h1 e) -> destroyed h1 l ->
  run quiet (S (S f)) init h = UB.
Proof. exact undefined. Qed.
Print Assumptions C47_undefined.

(* Hence a notification is not safe once a listener was destroyed... *)
Theorem C47_destroyed_refuted : exists h1 e l, In l (registered h1 e) /\ destroyed h1 l /\
  (forall f, run quiet (S (S f)) init (h1 ++ [Notify e]) = UB).
Proof.
  exists [Regist 1 0; Destroy 1], 0, 1. split; [left; reflexivity|]. split; [right; left; reflexivity|].
  intros f. apply (undefined f _ [Regist 1 0; Destroy 1] 0 [] 1); [reflexivity|left; reflexivity|right; left; reflexivity].
Qed.
Print Assumptions C47_destroyed_refuted.
(* ...even by a listener notified before it... *)
Theorem C47_destroy_while_refuted : exists process h, allAlive h /\ forall f, run process f init h = UB.
Proof.
  exists (fun l _ => if l =? 1 then [Destroy 2] else []), [Regist 1 0; Regist 2 0; Notify 0]. split.
  - intros h1 e h2 E. do 3 (apply notify_split in E; destruct E as [[-> E]|[? [-> E]]];
      [first [discriminate E|injection E as <-; cbn; intros l K D; unfold destroyed in D; cbn in D; intuition (subst; discriminate)]|]).
    exfalso. exact (app_cons_not_nil _ _ _ E).
  - intros [|[|f]]; reflexivity.
Qed.
Print Assumptions C47_destroy_while_refuted.
(* ...nor if a listener registers for the event it is notified of. *)
Theorem C47_regist_while_refuted : exists process h, allAlive h /\ forall f, run process f init h = UB.
Proof.
  exists (fun l e => [Regist 3 e]), [Regist 1 0; Notify 0]. split.
  - intros h1 e h2 E. do 2 (apply notify_split in E; destruct E as [[-> E]|[? [-> E]]];
      [first [discriminate E|injection E as <-; cbn; intros l K D; unfold destroyed in D; cbn in D; intuition (subst; discriminate)]|]).
    exfalso. exact (app_cons_not_nil _ _ _ E).
  - intros [|[|f]]; reflexivity.
Qed.
Print Assumptions C47_regist_while_refuted.
(* A listener registered twice is notified twice. *)
Theorem C47_once_refuted : exists h s tr, run quiet 2 init h = Ok (s, tr) /\ tr = [Receive 1 0 []; Receive 1 0 []] /\ count_occ Nat.eq_dec (map receiver tr) 1 = 2.
Proof.
  destruct (delivers 0 [Regist 1 0; Regist 1 0; Notify 0]) as [s E].
  - intros h1 e h2 E. do 3 (apply notify_split in E; destruct E as [[-> E]|[? [-> E]]];
      [first [discriminate E|injection E as <-; cbn; intros l K D; unfold destroyed in D; cbn in D; intuition (subst; discriminate)]|]).
    exfalso. exact (app_cons_not_nil _ _ _ E).
  - exists [Regist 1 0; Regist 1 0; Notify 0], s, [Receive 1 0 []; Receive 1 0 []]. split; [exact E|]. split; reflexivity.
Qed.
Print Assumptions C47_once_refuted.
