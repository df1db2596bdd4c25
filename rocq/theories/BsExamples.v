(* Concrete problems for C72. *)
From Coq Require Import List Bool Arith Lia.
Import ListNotations.
From Verif Require Import Base MatPropModel BsModel BsSpec BsProofs2.
Local Open Scope nat_scope.

(* super-variables: X of size 8, Y and Z of size 2, W of size 4 *)
Definition size4 (k : nat) : nat := match k with 0 => 8 | 1 => 2 | 2 => 2 | _ => 4 end.
Definition diagP : props := mkP false true DIAGONAL true PD.
Definition X (s d : nat) : var := mkVar 0 s d.
Definition Y (s d : nat) : var := mkVar 1 s d.
Definition Zv : var := mkVar 2 0 2.
Definition W : var := mkVar 3 0 4.
Definition task (l : list (nat * var)) : cst := mkC l true diagP GE 0 false.
Definition sub1 (id : nat) (x y : var) : sub := mkSub id x [(y, default_props)].

Ltac nats := repeat match goal with
  | H : has _ _ _ |- _ => destruct H; cbn in *
  | H : _ \/ _ |- _ => destruct H
  | H : False |- _ => contradiction
  end.
Lemma sane_two x y x' y' : realVar size4 4 x -> realVar size4 4 y -> realVar size4 4 x' -> realVar size4 4 y' ->
  ~ meets x x' -> (forall v w, In v [x; x'] -> In w [y; y'] -> ~ meets v w) -> sane size4 4 [sub1 10 x y; sub1 11 x' y'].
Proof.
  intros Rx Ry Rx' Ry' N F. unfold sub1. split; [|split; [|split]].
  - intros s [<-|[<-|[]]]; cbn; (split; [assumption|]); intros v p [E|[]]; injection E as <- <-; assumption.
  - intros s t [<-|[<-|[]]] [<-|[<-|[]]]; cbn; intros M; try reflexivity; exfalso; [exact (N M)|].
    apply N. destruct M as (k & i & A & B). exists k, i. auto.
  - intros s t [<-|[<-|[]]] [<-|[<-|[]]]; cbn; intros E; try reflexivity; discriminate.
  - intros s v p k i [<-|[<-|[]]]; cbn; (intros [E|[]]; injection E as <- <-; intros H (t & [<-|[<-|[]]] & T); cbn in T).
    + apply (F x y); [cbn; auto|cbn; auto|exists k, i; auto].
    + apply (F x' y); [cbn; auto|cbn; auto|exists k, i; auto].
    + apply (F x y'); [cbn; auto|cbn; auto|exists k, i; auto].
    + apply (F x' y'); [cbn; auto|cbn; auto|exists k, i; auto].
Qed.
Lemma plain_two x y x' y' : plainMatrices [sub1 10 x y; sub1 11 x' y'].
Proof. intros s v p [<-|[<-|[]]] [E|[]]; injection E as <- <-; reflexivity. Qed.
Ltac far := let k := fresh in let i := fresh in intros (k & i & [? ?] & [? ?]); cbn in *; lia.
Ltac rv := unfold realVar; cbn; lia.
Ltac saneT := apply sane_two; [rv|rv|rv|rv|far|intros v w [<-|[<-|[]]] [<-|[<-|[]]]; far].

(* X[0,2) is replaced using Y, X[4,6) using Z *)
Definition subsA : list sub := [sub1 10 (X 0 2) (Y 0 2); sub1 11 (X 4 2) Zv].
Lemma sane_A : sane size4 4 subsA. Proof. saneT. Qed.
(* X[0,2) is replaced using Y, X[4,8) using Z *)
Definition subsB : list sub := [sub1 10 (X 0 2) (Y 0 2); sub1 11 (X 4 4) Zv].
Lemma sane_B : sane size4 4 subsB. Proof. saneT. Qed.
(* X[0,2) is replaced using Y[0,1), X[4,6) using Y *)
Definition subsC : list sub := [sub1 10 (X 0 2) (Y 0 1); sub1 11 (X 4 2) (Y 0 2)].
Lemma sane_C : sane size4 4 subsC. Proof. saneT. Qed.

Lemma good_A : good subsA (task [(1, X 0 4); (2, W)]).
Proof.
  split.
  - intros id x [E|[E|[]]]; injection E as <- <-; split.
    + intros s t [<-|[<-|[]]] [<-|[<-|[]]]; try reflexivity; intros A B; exfalso; revert A B; [|]; intros (k & i & [? ?] & [? ?]) (k' & i' & [? ?] & [? ?]); cbn in *; lia.
    + intros s [<-|[<-|[]]]; [intros _ k i [? ?]; split; cbn in *; lia|intros M; exfalso; revert M; far].
    + intros s t [<-|[<-|[]]] [<-|[<-|[]]]; try reflexivity; intros A; exfalso; revert A; far.
    + intros s [<-|[<-|[]]] M; exfalso; revert M; far.
  - intros s t id x id' x' y p z q [<-|[<-|[]]] [<-|[<-|[]]] I I' M M' [E|[]] [E'|[]]; injection E as <- <-; injection E' as <- <-;
      try reflexivity; intros Q; exfalso; revert Q; far.
Qed.
Lemma asked_A x : asked [task [(1, X 0 4); (2, W)]] x -> realVar size4 4 x.
Proof. intros (c & id & [<-|[]] & _ & [E|[E|[]]]); injection E as <- <-; rv. Qed.
Lemma asked_one l x : asked [task l] x <-> exists id, In (id, x) l.
Proof.
  split; [intros (c & id & [<-|[]] & _ & H); exists id; exact H|intros (id & H)]. exists (task l), id. split; [left; reflexivity|auto].
Qed.
