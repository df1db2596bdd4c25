(* Proofs for C34. *)
From Coq Require Import List Bool Arith Lia.
Import ListNotations.
From Verif Require Import Base TokenModel TokenSpec.
Local Open Scope nat_scope.

Definition good (m : mem) : Prop := forall a b, m a = Some (Some b) -> a <> b /\ m b = Some (Some a).
Lemma good_consistent s : good (toks s) <-> consistent (worldOf s).
Proof.
  split.
  - intros G a b H. simpl in *. destruct (G a b H) as [D H']. repeat split; try congruence. 
  - intros C a b H. destruct (C a b H) as (D & _ & _ & H' & _). auto.
Qed.
Ltac eqs := repeat match goal with
  | |- context [?x =? ?y] => destruct (Nat.eqb_spec x y); subst
  | H : context [?x =? ?y] |- _ => destruct (Nat.eqb_spec x y); subst
  end.
Ltac destruct_conjs_ := repeat match goal with H : _ /\ _ |- _ => destruct H end.
Definition mworld (m : mem) : world := mkW (fun a => m a <> None) (fun a b => m a = Some (Some b)).

Lemma new_ok m a : good m -> m a = None -> exists m', newToken m a = Ok m' /\ good m' /\
  same (mworld m') (mkW (fun x => m x <> None \/ x = a) (fun x y => m x = Some (Some y))).
Proof.
  intros G F. unfold newToken, place. rewrite F. eexists. split; [reflexivity|]. split; [|split].
  - intros x y. unfold upd. eqs; try discriminate.
    + intros H. destruct (G _ _ H). congruence.
    + intros H. apply (G _ _ H).
  - intros x. simpl. unfold upd. eqs; [split; [auto|discriminate]|]. split; [auto|]. intros [H|H]; [exact H|congruence].
  - intros x y. simpl. unfold upd. eqs; [rewrite F; split; discriminate|reflexivity].
Qed.
Lemma delete_ok m a : good m -> m a <> None -> exists m', delete m a = Ok m' /\ good m' /\
  same (mworld m') (mkW (fun x => m x <> None /\ x <> a) (without (fun x y => m x = Some (Some y)) a)).
Proof.
  intros G L. unfold delete, get. destruct (m a) as [o|] eqn:E; [|congruence]. cbn [bind]. unfold notify, set. destruct o as [p|].
  - destruct (G _ _ E) as [D E']. rewrite E'. cbn [bind]. eexists. split; [reflexivity|]. split; [|split].
    + intros x y. unfold upd. eqs; try discriminate; intros H; destruct (G _ _ H); try congruence. auto.
    + intros x. simpl. unfold upd. eqs; [tauto| |]; [split; [intros _; split; congruence|discriminate]|tauto].
    + intros x y. simpl. unfold upd, without. eqs.
      * split; [discriminate|]. intros (_ & H & _). congruence.
      * split; [discriminate|]. intros (H & _ & H'). congruence.
      * split; [|tauto]. intros H. split; [exact H|]. split; [congruence|]. intros ->. destruct (G _ _ H). congruence.
  - cbn [bind]. eexists. split; [reflexivity|]. split; [|split].
    + intros x y. unfold upd. eqs; try discriminate; intros H; destruct (G _ _ H); try congruence. auto.
    + intros x. simpl. unfold upd. eqs; [tauto|]. tauto.
    + intros x y. simpl. unfold upd, without. eqs.
      * split; [discriminate|]. intros (_ & H & _). congruence.
      * split; [|tauto]. intros H. split; [exact H|]. split; [congruence|]. intros ->. destruct (G _ _ H). congruence.
Qed.
Lemma pair_ok m a b : good m -> m a <> None -> m b <> None -> a <> b ->
  (pairWith m a b = Throw /\ (exists c, m a = Some (Some c) \/ m b = Some (Some c))) \/
  (m a = Some None /\ m b = Some None /\ exists m', pairWith m a b = Ok m' /\ good m' /\
   same (mworld m') (mkW (fun x => m x <> None) (joined (fun x y => m x = Some (Some y)) a b))).
Proof.
  intros G La Lb D. unfold pairWith, get. destruct (m a) as [[c|]|] eqn:Ea; [| |congruence]; cbn [bind].
  { left. split; [reflexivity|]. exists c. auto. }
  destruct (m b) as [[c|]|] eqn:Eb; [| |congruence]; cbn [bind].
  { left. split; [reflexivity|]. exists c. auto. }
  right. split; [reflexivity|]. split; [reflexivity|]. unfold set. rewrite Ea. cbn [bind]. unfold upd at 1. replace (b =? a) with false by (symmetry; apply Nat.eqb_neq; congruence).
  rewrite Eb. eexists. split; [reflexivity|]. split; [|split].
  - intros x y. unfold upd. eqs; intros H; try congruence; try (injection H as <-); try (split; congruence); try (destruct (G _ _ H); split; congruence).
  - intros x. simpl. unfold upd. eqs; split; congruence.
  - intros x y. simpl. unfold upd, joined. eqs.
    + split; [intros H; injection H as <-; auto|]. intros [H|[[H1 H2]|[H1 H2]]]; congruence.
    + split; [intros H; injection H as <-; auto|]. intros [H|[[H1 H2]|[H1 H2]]]; congruence.
    + split; [auto|]. intros [H|[[H1 H2]|[H1 H2]]]; congruence.
Qed.
Lemma moved_iff m a b x y : good m -> a <> b ->
  (moved (fun x y => m x = Some (Some y)) a b x y <->
   (x = a /\ y <> a /\ y <> b /\ m b = Some (Some y)) \/ (y = a /\ x <> a /\ x <> b /\ m x = Some (Some b)) \/
   (x <> a /\ x <> b /\ y <> a /\ y <> b /\ m x = Some (Some y)) ).
Proof.
  intros G D. unfold moved, without, rename. split.
  - intros (x0 & y0 & (H & H1 & H2) & Ex & Ey). destruct (G _ _ H) as [D' H']. destruct (Nat.eqb_spec x0 b), (Nat.eqb_spec y0 b); subst; try congruence.
    + left. repeat split; congruence.
    + right. left. repeat split; congruence.
    + right. right. repeat split; congruence.
  - intros [(-> & H1 & H2 & H)|[(-> & H1 & H2 & H)|(H1 & H2 & H3 & H4 & H)]].
    + exists b, y. rewrite Nat.eqb_refl. replace (y =? b) with false by (symmetry; now apply Nat.eqb_neq). repeat split; auto.
    + exists x, b. rewrite Nat.eqb_refl. replace (x =? b) with false by (symmetry; now apply Nat.eqb_neq). repeat split; auto.
    + exists x, y. replace (y =? b) with false by (symmetry; now apply Nat.eqb_neq). replace (x =? b) with false by (symmetry; now apply Nat.eqb_neq). repeat split; auto.
Qed.
Ltac nq := match goal with |- context [?x =? ?y] => replace (x =? y) with false by (symmetry; apply Nat.eqb_neq; congruence) end.
Lemma moveNew_ok m a b : good m -> m a = None -> m b <> None -> exists m', moveNew m a b = Ok m' /\ good m' /\
  same (mworld m') (mkW (fun x => m x <> None \/ x = a) (moved (fun x y => m x = Some (Some y)) a b)).
Proof.
  intros G F L. assert (D : a <> b) by congruence. unfold moveNew, get. destruct (m b) as [o|] eqn:E; [|congruence]. cbn [bind]. unfold place. rewrite F. cbn [bind].
  unfold set at 1. unfold upd at 1. nq. rewrite E. cbn [bind]. destruct o as [p|]; cbn [notify].
  - destruct (G _ _ E) as [D' E']. assert (p <> a) by congruence. unfold set. unfold upd at 1 2. do 2 nq. rewrite E'.
    eexists. split; [reflexivity|]. split; [|split].
    + intros x y. unfold upd. eqs; intros H'; try congruence; try (injection H' as <-); try (split; congruence); try (destruct (G _ _ H'); split; congruence).
    + intros x. simpl. unfold upd. eqs; split; intros; try tauto; try congruence; try (left; congruence).
    + intros x y. unfold same in *. simpl. rewrite (moved_iff m a b x y G D). unfold upd. eqs; split; intros H'; try congruence.
      * injection H' as <-. right. left. repeat split; congruence.
      * destruct H' as [(? & ? & ? & ?)|[(? & ? & ? & ?)|(? & ? & ? & ? & ?)]]; congruence.
      * destruct H' as [(? & ? & ? & ?)|[(? & ? & ? & ?)|(? & ? & ? & ? & ?)]]; congruence.
      * injection H' as <-. left. repeat split; congruence.
      * destruct H' as [(? & ? & ? & ?)|[(? & ? & ? & ?)|(? & ? & ? & ? & ?)]]; congruence.
      * right. right. destruct (G _ _ H'). repeat split; congruence.
      * destruct H' as [(? & ? & ? & ?)|[(? & ? & ? & ?)|(? & ? & ? & ? & ?)]]; try congruence. destruct (G _ _ H3). congruence.
  - eexists. split; [reflexivity|]. split; [|split].
    + intros x y. unfold upd. eqs; intros H'; try congruence; try (injection H' as <-); try (split; congruence); try (destruct (G _ _ H'); split; congruence).
    + intros x. simpl. unfold upd. eqs; split; intros; try tauto; try congruence; try (left; congruence).
    + intros x y. unfold same in *. simpl. rewrite (moved_iff m a b x y G D). unfold upd. eqs; split; intros H'; try congruence.
      * destruct H' as [(? & ? & ? & ?)|[(? & ? & ? & ?)|(? & ? & ? & ? & ?)]]; congruence.
      * destruct H' as [(? & ? & ? & ?)|[(? & ? & ? & ?)|(? & ? & ? & ? & ?)]]; congruence.
      * right. right. destruct (G _ _ H'). repeat split; congruence.
      * destruct H' as [(? & ? & ? & ?)|[(? & ? & ? & ?)|(? & ? & ? & ? & ?)]]; try congruence. destruct (G _ _ H2). congruence.
Qed.
(* the destination loses its pair first *)
Lemma unpair_ok m a : good m -> m a <> None -> exists m1, (do oa <- get m a; notify m oa None) = Ok m1 /\
  (forall x, x <> a -> m1 x = if match m a with Some (Some p) => p =? x | _ => false end then Some None else m x) /\ m1 a = m a.
Proof.
  intros G L. unfold get. destruct (m a) as [[p|]|] eqn:E; [| |congruence]; cbn [bind notify].
  - destruct (G _ _ E) as [D E']. unfold set. rewrite E'. eexists. split; [reflexivity|]. split.
    + intros x N. unfold upd. rewrite (Nat.eqb_sym x p). reflexivity.
    + unfold upd. nq. exact E.
  - exists m. split; [reflexivity|]. split; [reflexivity|exact E].
Qed.
Lemma moveAssign_ok m a b : good m -> m a <> None -> m b <> None -> a <> b -> exists m', moveAssign m a b = Ok m' /\ good m' /\
  same (mworld m') (mkW (fun x => m x <> None) (moved (fun x y => m x = Some (Some y)) a b)).
Proof.
  intros G La Lb D. unfold moveAssign. destruct (unpair_ok m a G La) as (m1 & E1 & H1 & H1a).
  destruct (get m a) as [oa| |] eqn:Ga; cbn [bind] in E1 |- *; try discriminate. rewrite E1. cbn [bind].
  unfold get in Ga. destruct (m a) as [oa'|] eqn:Ea; [|congruence]. injection Ga as ->.
  assert (L1 : forall x, m1 x <> None <-> m x <> None).
  { intros x. destruct (Nat.eq_dec x a) as [->|N]; [rewrite H1a, Ea; tauto|]. rewrite (H1 x N). destruct oa as [p|]; [|tauto].
    destruct (Nat.eqb_spec p x) as [<-|]; [|tauto]. destruct (G _ _ Ea) as [_ E']. rewrite E'. split; discriminate. }
  unfold get at 1. destruct (m1 b) as [ob|] eqn:Eb; [|exfalso; now apply (proj2 (L1 b))]. cbn [bind].
  unfold set at 1. rewrite H1a. cbn [bind]. unfold set at 1. unfold upd at 1. nq. rewrite Eb. cbn [bind].
  unfold get at 1. unfold upd at 1 2. nq. rewrite Nat.eqb_refl. cbn [bind].
  assert (G1 : forall x y, x <> a -> m1 x = Some (Some y) -> m x = Some (Some y) /\ y <> a /\ x <> y /\ m1 y = Some (Some x)).
  { intros x y N H. rewrite (H1 x N) in H. destruct oa as [p|].
    - destruct (Nat.eqb_spec p x) as [|N']; [discriminate|]. destruct (G _ _ H) as [D' H'].
      assert (y <> a) by congruence. split; [exact H|]. split; [exact H0|]. split; [exact D'|]. rewrite (H1 y H0).
      destruct (Nat.eqb_spec p y) as [->|]; [|exact H']. destruct (G _ _ Ea). congruence.
    - destruct (G _ _ H) as [D' H']. assert (y <> a) by congruence. split; [exact H|]. split; [exact H0|]. split; [exact D'|]. rewrite (H1 y H0). exact H'. }
  assert (G2 : forall x y, x <> a -> y <> a -> m x = Some (Some y) -> m1 x = Some (Some y)).
  { intros x y N N' H. rewrite (H1 x N). destruct oa as [p|]; [|exact H]. destruct (Nat.eqb_spec p x) as [->|]; [|exact H].
    destruct (G _ _ Ea). congruence. }
  destruct ob as [p|]; cbn [notify].
  - destruct (G1 b p ltac:(congruence) Eb) as (Mb & Pa & Pb & Mp). unfold set. unfold upd at 1 2. do 2 nq. rewrite Mp.
    eexists. split; [reflexivity|]. split; [|split].
    + intros x y. unfold upd. eqs; intros H'; try congruence; try (injection H' as <-); try (split; congruence).
      all: destruct (G1 _ _ n1 H') as (? & ? & H2 & H3); split; congruence.
    + intros x. simpl. unfold upd. eqs; split; intros; try tauto; try congruence; try (apply L1; congruence).
      all: now apply L1.
    + intros x y. simpl. rewrite (moved_iff m a b x y G D). unfold upd. eqs; split; intros H'; try congruence.
      * injection H' as <-. right. left. destruct (G _ _ Mb). repeat split; congruence.
      * destruct H' as [(? & ? & ? & ?)|[(? & ? & ? & ?)|(? & ? & ? & ? & ?)]]; try congruence. destruct (G _ _ Mb). congruence.
      * destruct H' as [(? & ? & ? & ?)|[(? & ? & ? & ?)|(? & ? & ? & ? & ?)]]; congruence.
      * injection H' as <-. left. repeat split; congruence.
      * destruct H' as [(? & ? & ? & ?)|[(? & ? & ? & ?)|(? & ? & ? & ? & ?)]]; congruence.
      * right. right. destruct (G1 _ _ n1 H') as (? & ? & ? & ?). repeat split; congruence.
      * destruct H' as [(? & ? & ? & ?)|[(? & ? & ? & ?)|(? & ? & ? & ? & ?)]]; try congruence; [destruct (G _ _ H3); congruence|]. now apply G2.
  - eexists. split; [reflexivity|]. split; [|split].
    + intros x y. unfold upd. eqs; intros H'; try congruence.
      all: destruct (G1 _ _ n0 H') as (? & ? & H2 & H3); split; congruence.
    + intros x. simpl. unfold upd. eqs; split; intros; try tauto; try congruence; try (apply L1; congruence).
      all: now apply L1.
    + intros x y. simpl. rewrite (moved_iff m a b x y G D). unfold upd.
      assert (Nb : forall z, z <> a -> m b <> Some (Some z)). { intros z N H. apply (G2 b z) in H; congruence. }
      eqs; split; intros H'; try congruence.
      * destruct H' as [(? & ? & ? & ?)|[(? & ? & ? & ?)|(? & ? & ? & ? & ?)]]; congruence.
      * destruct H' as [(? & ? & ? & ?)|[(? & ? & ? & ?)|(? & ? & ? & ? & ?)]]; try congruence. exfalso. eapply Nb; eassumption.
      * right. right. destruct (G1 _ _ n0 H') as (? & ? & ? & ?). repeat split; congruence.
      * destruct H' as [(? & ? & ? & ?)|[(? & ? & ? & ?)|(? & ? & ? & ? & ?)]]; try congruence; [exfalso; subst; match goal with K : m x = Some (Some b) |- _ => destruct (G _ _ K) end; eapply (Nb x); eassumption|]. now apply G2.
Qed.
Lemma selfMove_ok m a : good m -> m a <> None -> exists m', moveAssign m a a = Ok m' /\ good m' /\
  same (mworld m') (mkW (fun x => m x <> None) (moved (fun x y => m x = Some (Some y)) a a)).
Proof.
  intros G La. unfold moveAssign, get at 1. destruct (m a) as [oa|] eqn:Ea; [|congruence]. cbn [bind].
  assert (Q : forall x y, moved (fun x y => m x = Some (Some y)) a a x y <-> m x = Some (Some y) /\ x <> a /\ y <> a).
  { assert (R : forall z, rename a a z = z) by (intros z; unfold rename; destruct (Nat.eqb_spec z a); congruence).
    intros x y. unfold moved, without. split; [intros (u & v & K & -> & ->); now rewrite !R|]. intros K. exists x, y. now rewrite !R. }
  destruct oa as [p|]; cbn [notify].
  - destruct (G _ _ Ea) as [D E']. unfold set at 1. rewrite E'. cbn [bind]. unfold get at 1. unfold upd at 1. nq. rewrite Ea. cbn [bind].
    unfold set at 1. unfold upd at 1. nq. rewrite Ea. cbn [bind]. unfold set at 1. unfold upd at 1. rewrite Nat.eqb_refl. cbn [bind].
    unfold get at 1. unfold upd at 1. rewrite Nat.eqb_refl. cbn [bind notify]. eexists. split; [reflexivity|]. split; [|split].
    + intros x y. unfold upd. eqs; intros H'; try congruence; try (destruct (G _ _ H'); split; congruence).
    + intros x. simpl. unfold upd. eqs; split; intros; try tauto; congruence.
    + intros x y. simpl. rewrite Q. unfold upd. eqs; split; intros H'; try discriminate; try tauto; try (destruct_conjs_; congruence).
      destruct (G _ _ H'). repeat split; congruence.
  - cbn [bind]. unfold get at 1. rewrite Ea. cbn [bind]. unfold set at 1. rewrite Ea. cbn [bind]. unfold set at 1. unfold upd at 1. rewrite Nat.eqb_refl. cbn [bind].
    unfold get at 1. unfold upd at 1. rewrite Nat.eqb_refl. cbn [bind notify]. eexists. split; [reflexivity|]. split; [|split].
    + intros x y. unfold upd. eqs; intros H'; try congruence; try (destruct (G _ _ H'); split; congruence).
    + intros x. simpl. unfold upd. eqs; split; intros; try tauto; congruence.
    + intros x y. simpl. rewrite Q. unfold upd. eqs; split; intros H'; try discriminate; try tauto; try (destruct_conjs_; congruence).
      destruct (G _ _ H'). repeat split; congruence.
Qed.
Lemma fromHandle_ok m a p : good m -> m a = None -> m p = Some None -> exists m', fromHandle m a (Some p) = Ok m' /\ good m' /\
  same (mworld m') (mkW (fun x => m x <> None \/ x = a) (joined (fun x y => m x = Some (Some y)) a p)).
Proof.
  intros G F L. assert (D : a <> p) by congruence. unfold fromHandle, place. rewrite F. cbn [bind]. unfold set. unfold upd at 1. nq. rewrite L.
  eexists. split; [reflexivity|]. split; [|split].
  - intros x y. unfold upd. eqs; intros H'; try congruence; try (injection H' as <-); try (split; congruence); try (destruct (G _ _ H'); split; congruence).
  - intros x. simpl. unfold upd. eqs; split; intros; try tauto; try congruence; try (left; congruence).
  - intros x y. simpl. unfold upd, joined. eqs.
    + split; [intros H; injection H as <-; auto|]. intros [H|[[H1 H2]|[H1 H2]]]; congruence.
    + split; [intros H; injection H as <-; auto|]. intros [H|[[H1 H2]|[H1 H2]]]; congruence.
    + split; [auto|]. intros [H|[[H1 H2]|[H1 H2]]]; congruence.
Qed.
Lemma assignHandle_ok m a p : good m -> m a <> None -> m p = Some None -> p <> a -> exists m', assignHandle m a (Some p) = Ok m' /\ good m' /\
  same (mworld m') (mkW (fun x => m x <> None) (joined (without (fun x y => m x = Some (Some y)) a) a p)).
Proof.
  intros G La L D. unfold assignHandle, get. destruct (m a) as [oa|] eqn:Ea; [|congruence]. cbn [bind]. destruct oa as [q|]; cbn [notify].
  - destruct (G _ _ Ea) as [D' E']. assert (q <> p) by congruence. unfold set at 1. rewrite E'. cbn [bind]. unfold set at 1. unfold upd at 1. nq. rewrite Ea. cbn [bind].
    unfold set. unfold upd at 1 2. do 2 nq. rewrite L. eexists. split; [reflexivity|]. split; [|split].
    + intros x y. unfold upd. eqs; intros H'; try congruence; try (injection H' as <-); try (split; congruence); try (destruct (G _ _ H'); split; congruence).
    + intros x. simpl. unfold upd. eqs; split; intros; try tauto; try congruence; try (left; congruence).
    + intros x y. simpl. unfold upd, joined, without. eqs.
      * split; [intros H'; injection H' as <-; auto|]. intros [H'|[[H1 H2]|[H1 H2]]]; destruct_conjs_; congruence.
      * split; [intros H'; injection H' as <-; auto|]. intros [H'|[[H1 H2]|[H1 H2]]]; destruct_conjs_; congruence.
      * split; [discriminate|]. intros [H'|[[H1 H2]|[H1 H2]]]; destruct_conjs_; congruence.
      * split; [intros H'; left; destruct (G _ _ H'); repeat split; congruence|]. intros [H'|[[H1 H2]|[H1 H2]]]; destruct_conjs_; congruence.
  - cbn [bind]. unfold set at 1. rewrite Ea. cbn [bind]. unfold set. unfold upd at 1. nq. rewrite L. eexists. split; [reflexivity|]. split; [|split].
    + intros x y. unfold upd. eqs; intros H'; try congruence; try (injection H' as <-); try (split; congruence); try (destruct (G _ _ H'); split; congruence).
    + intros x. simpl. unfold upd. eqs; split; intros; try tauto; try congruence; try (left; congruence).
    + intros x y. simpl. unfold upd, joined, without. eqs.
      * split; [intros H'; injection H' as <-; auto|]. intros [H'|[[H1 H2]|[H1 H2]]]; destruct_conjs_; congruence.
      * split; [intros H'; injection H' as <-; auto|]. intros [H'|[[H1 H2]|[H1 H2]]]; destruct_conjs_; congruence.
      * split; [intros H'; left; destruct (G _ _ H'); repeat split; congruence|]. intros [H'|[[H1 H2]|[H1 H2]]]; destruct_conjs_; congruence.
Qed.

Lemma step_ok s o : good (toks s) -> legal s o ->
  match step s o with
  | Ok s' => good (toks s') /\ same (worldOf s') (effect (hands s) o (worldOf s))
  | Throw => exists a b c, o = PairWith a b /\ (toks s a = Some (Some c) \/ toks s b = Some (Some c))
  | UB => False
  end.
Proof.
  intros G L. destruct o as [a|a b|a b|a|a b|h a|a h|a h|h]; cbn [step legal effect] in *; unfold liftT, useHandle.
  - destruct (new_ok _ a G L) as (m' & E & G' & S). rewrite E. cbn [bind]. split; [exact G'|exact S].
  - destruct L as [L1 L2]. destruct (moveNew_ok _ a b G L1 L2) as (m' & E & G' & S). rewrite E. cbn [bind]. split; [exact G'|exact S].
  - destruct L as [L1 L2]. destruct (Nat.eq_dec a b) as [<-|D].
    + destruct (selfMove_ok _ a G L1) as (m' & E & G' & S). rewrite E. cbn [bind]. split; [exact G'|exact S].
    + destruct (moveAssign_ok _ a b G L1 L2 D) as (m' & E & G' & S). rewrite E. cbn [bind]. split; [exact G'|exact S].
  - destruct (delete_ok _ a G L) as (m' & E & G' & S). rewrite E. cbn [bind]. split; [exact G'|exact S].
  - destruct L as (L1 & L2 & L3). destruct (pair_ok _ a b G L1 L2 L3) as [[E (c & H)]|(_ & _ & m' & E & G' & S)]; rewrite E; cbn [bind].
    + exists a, b, c. auto.
    + split; [exact G'|exact S].
  - destruct L as [L1 L2]. rewrite L2. cbn. split; [exact G|]. split; intros; reflexivity.
  - destruct L as (L1 & p & L2 & L3). rewrite L2. destruct (fromHandle_ok _ a p G L1 L3) as (m' & E & G' & S). rewrite E. cbn [bind]. split; [exact G'|exact S].
  - destruct L as (L1 & p & L2 & L3 & L4). rewrite L2. destruct (assignHandle_ok _ a p G L1 L3 L4) as (m' & E & G' & S). rewrite E. cbn [bind]. split; [exact G'|exact S].
  - cbn. split; [exact G|]. split; intros; reflexivity.
Qed.
Lemma reachable_good s : reachable s -> good (toks s).
Proof.
  induction 1 as [|s o s' R IH L E]; [intros a b H; discriminate|]. pose proof (step_ok s o IH L) as H. rewrite E in H. apply H.
Qed.
(* ---- swap ---- *)
Lemma moved_ext (P Q : nat -> nat -> Prop) a b x y : (forall u v, P u v <-> Q u v) -> (moved P a b x y <-> moved Q a b x y).
Proof. intros H. unfold moved, without. split; intros (u & v & (K & K') & E); exists u, v; (split; [split; [now apply H|exact K']|exact E]). Qed.
Lemma swap_paths (P : nat -> nat -> Prop) t a b : t <> a -> t <> b -> a <> b -> (forall x y, P x y -> x <> t /\ y <> t) ->
  forall x y, without (moved (moved (moved P t a) a b) b t) t x y <-> P (exch a b x) (exch a b y).
Proof.
  intros N1 N2 N3 F x y. split.
  - intros ((x3 & y3 & ((x2 & y2 & ((x1 & y1 & (H & _) & E1 & E1') & Ha) & E2 & E2') & Hb) & E3 & E3') & Ht).
    destruct (F _ _ H) as [Fx Fy]. unfold rename, exch in *.
    replace (if x =? a then b else if x =? b then a else x) with x1; [replace (if y =? a then b else if y =? b then a else y) with y1; [exact H|]|].
    + subst. clear -Fx Fy N1 N2 N3 Ht Ha Hb. destruct Ht as [_ Ht], Ha as [_ Ha], Hb as [_ Hb].
      destruct (Nat.eqb_spec y1 a); [subst y1|]; repeat (match goal with H : context [?u =? ?v] |- _ => destruct (Nat.eqb_spec u v) | |- context [?u =? ?v] => destruct (Nat.eqb_spec u v) end; try congruence).
    + subst. clear -Fx Fy N1 N2 N3 Ht Ha Hb. destruct Ht as [Ht _], Ha as [Ha _], Hb as [Hb _].
      destruct (Nat.eqb_spec x1 a); [subst x1|]; repeat (match goal with H : context [?u =? ?v] |- _ => destruct (Nat.eqb_spec u v) | |- context [?u =? ?v] => destruct (Nat.eqb_spec u v) end; try congruence).
  - intros H. destruct (F _ _ H) as [Fx Fy].
    set (x1 := exch a b x) in *. set (y1 := exch a b y) in *.
    assert (Q : forall z, exch a b z <> t -> let z1 := exch a b z in rename a t z1 <> a /\ rename b a (rename a t z1) <> b /\ z = rename t b (rename b a (rename a t z1)) /\ z <> t).
    { intros z. unfold rename, exch. cbv zeta. intros K. repeat split; intros; repeat (match goal with H : context [?u =? ?v] |- _ => destruct (Nat.eqb_spec u v) | |- context [?u =? ?v] => destruct (Nat.eqb_spec u v) end; try congruence). }
    destruct (Q x Fx) as (Q1 & Q2 & Q3 & Q4), (Q y Fy) as (R1 & R2 & R3 & R4). fold x1 in Q1, Q2, Q3. fold y1 in R1, R2, R3.
    split; [|auto]. exists (rename b a (rename a t x1)), (rename b a (rename a t y1)). split; [|auto]. split; [|auto].
    exists (rename a t x1), (rename a t y1). split; [|auto]. split; [|auto]. exists x1, y1. split; [|auto]. split; [exact H|auto].
Qed.
Lemma swap_ok m tmp a b : good m -> m tmp = None -> m a <> None -> m b <> None -> a <> b -> exists m', swap m tmp a b = Ok m' /\ good m' /\
  (forall x, m' x <> None <-> m x <> None) /\ (forall x y, m' x = Some (Some y) <-> m (exch a b x) = Some (Some (exch a b y))).
Proof.
  intros G F La Lb D. assert (N1 : tmp <> a) by congruence. assert (N2 : tmp <> b) by congruence. unfold swap.
  destruct (moveNew_ok m tmp a G F La) as (m1 & E1 & G1 & A1 & P1). rewrite E1. cbn [bind]. simpl in A1, P1.
  destruct (moveAssign_ok m1 a b G1) as (m2 & E2 & G2 & A2 & P2); [apply A1; auto|apply A1; auto|exact D|]. rewrite E2. cbn [bind]. simpl in A2, P2.
  destruct (moveAssign_ok m2 b tmp G2) as (m3 & E3 & G3 & A3 & P3); [apply A2, A1; auto|apply A2, A1; auto|congruence|]. rewrite E3. cbn [bind]. simpl in A3, P3.
  destruct (delete_ok m3 tmp G3) as (m4 & E4 & G4 & A4 & P4); [apply A3, A2, A1; auto|]. simpl in A4, P4.
  exists m4. split; [exact E4|]. split; [exact G4|]. split.
  - intros x. rewrite A4, A3, A2, A1. split; [tauto|]. intros H. split; [auto|congruence].
  - intros x y. rewrite P4. rewrite <- (swap_paths (fun x y => m x = Some (Some y)) tmp a b N1 N2 D).
    + unfold without at 1 2. rewrite P3. rewrite (moved_ext _ _ b tmp x y P2).
      assert (Q : forall u v, moved (fun x y => m1 x = Some (Some y)) a b u v <-> moved (moved (fun x y => m x = Some (Some y)) tmp a) a b u v) by (intros; now apply moved_ext).
      rewrite (moved_ext _ _ b tmp x y Q). reflexivity.
    + intros u v H. destruct (G _ _ H). split; congruence.
Qed.

Lemma reachable_consistent s : reachable s -> consistent (worldOf s).
Proof. intros R. apply good_consistent, reachable_good, R. Qed.
Lemma step_reachable s o : reachable s -> legal s o ->
  match step s o with
  | Ok s' => same (worldOf s') (effect (hands s) o (worldOf s))
  | Throw => exists a b c, o = PairWith a b /\ (paired (worldOf s) a c \/ paired (worldOf s) b c)
  | UB => False
  end.
Proof.
  intros R L. pose proof (step_ok s o (reachable_good s R) L) as H. destruct (step s o); [apply H|exact H|exact H].
Qed.
Lemma pair_throws s a b : paired (worldOf s) a b -> forall c, toks s c <> None -> step s (PairWith a c) = Throw /\ step s (PairWith c a) = Throw.
Proof.
  intros H c L. simpl in H. cbn [step]. unfold liftT, pairWith, get. rewrite H. cbn [bind]. split; [reflexivity|].
  destruct (toks s c) as [[|]|]; [reflexivity|reflexivity|congruence].
Qed.
Lemma swap_reachable s tmp a b : reachable s -> toks s tmp = None -> alive (worldOf s) a -> alive (worldOf s) b -> a <> b ->
  exists s', run s [MoveNew tmp a; MoveAssign a b; MoveAssign b tmp; Delete tmp] = Ok s' /\
    same (worldOf s') (mkW (alive (worldOf s)) (fun x y => paired (worldOf s) (exch a b x) (exch a b y))).
Proof.
  intros R F La Lb D. destruct (swap_ok (toks s) tmp a b (reachable_good s R) F La Lb D) as (m' & E & _ & A & P).
  exists (mkSt m' (hands s)). split; [|split; [exact A|exact P]].
  unfold swap in E. cbn [run step]. unfold liftT. destruct (moveNew (toks s) tmp a) as [m1| |]; cbn [bind] in E |- *; try discriminate. cbn [toks].
  destruct (moveAssign m1 a b) as [m2| |]; cbn [bind] in E |- *; try discriminate. cbn [toks].
  destruct (moveAssign m2 b tmp) as [m3| |]; cbn [bind] in E |- *; try discriminate. cbn [toks]. rewrite E. reflexivity.
Qed.
Lemma legals_reachable s l s' : reachable s -> legals s l -> run s l = Ok s' -> reachable s'.
Proof.
  revert s. induction l as [|o l IH]; intros s R L E; cbn [run legals] in *; [now injection E as <-|]. destruct L as [L L'].
  destruct (step s o) as [s1| |] eqn:E1; cbn [bind] in E; try contradiction. apply (IH s1); auto. now apply (r_step s o).
Qed.
