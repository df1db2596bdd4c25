(* Finite sums of rationals. *)
Require Import QArith List Arith Lia Lqa Setoid Morphisms.
Import ListNotations.
Local Open Scope Q_scope.

Fixpoint qsum {A} (f : A -> Q) (l : list A) : Q :=
  match l with [] => 0 | a :: l' => f a + qsum f l' end.
(* f 0 + ... + f (n-1) *)
Definition qsumn (f : nat -> Q) (n : nat) : Q := qsum f (seq 0 n).

Lemma qsum_ext {A} (f g : A -> Q) l : (forall a, In a l -> f a == g a) -> qsum f l == qsum g l.
Proof. induction l as [|a l IH]; intros H; simpl; [reflexivity|]. rewrite (H a), IH; simpl; auto; try reflexivity. intros b I. apply H. simpl. auto. Qed.
Lemma qsum_zero {A} (f : A -> Q) l : (forall a, In a l -> f a == 0) -> qsum f l == 0.
Proof. induction l as [|a l IH]; intros H; simpl; [reflexivity|]. rewrite (H a), IH; simpl; auto; [reflexivity|]. intros b I. apply H. simpl. auto. Qed.
Lemma qsum_add {A} (f g : A -> Q) l : qsum (fun a => f a + g a) l == qsum f l + qsum g l.
Proof. induction l as [|a l IH]; simpl; [reflexivity|]. rewrite IH. ring. Qed.
Lemma qsum_scale {A} c (f : A -> Q) l : qsum (fun a => c * f a) l == c * qsum f l.
Proof. induction l as [|a l IH]; simpl; [ring|]. rewrite IH. ring. Qed.
Lemma qsum_scale_r {A} c (f : A -> Q) l : qsum (fun a => f a * c) l == qsum f l * c.
Proof. induction l as [|a l IH]; simpl; [ring|]. rewrite IH. ring. Qed.
Lemma qsum_app {A} (f : A -> Q) l l' : qsum f (l ++ l') == qsum f l + qsum f l'.
Proof. induction l as [|a l IH]; simpl; [ring|]. rewrite IH. ring. Qed.
Lemma qsum_swap {A B} (f : A -> B -> Q) l l' :
  qsum (fun a => qsum (fun b => f a b) l') l == qsum (fun b => qsum (fun a => f a b) l) l'.
Proof.
  induction l as [|a l IH]; simpl.
  - symmetry. apply qsum_zero. reflexivity.
  - rewrite IH. rewrite qsum_add. reflexivity.
Qed.
Lemma qsumn_ext f g n : (forall k, (k < n)%nat -> f k == g k) -> qsumn f n == qsumn g n.
Proof. intros H. apply qsum_ext. intros a I. apply in_seq in I. apply H. lia. Qed.
Lemma qsumn_zero f n : (forall k, (k < n)%nat -> f k == 0) -> qsumn f n == 0.
Proof. intros H. apply qsum_zero. intros a I. apply in_seq in I. apply H. lia. Qed.
Lemma qsumn_add f g n : qsumn (fun k => f k + g k) n == qsumn f n + qsumn g n.
Proof. apply qsum_add. Qed.
Lemma qsumn_scale c f n : qsumn (fun k => c * f k) n == c * qsumn f n.
Proof. apply qsum_scale. Qed.
Lemma qsumn_swap (f : nat -> nat -> Q) n m : qsumn (fun i => qsumn (fun j => f i j) m) n == qsumn (fun j => qsumn (fun i => f i j) n) m.
Proof. apply qsum_swap. Qed.
(* picking one term *)
Lemma qsum_pick_none {A} (dec : forall a b : A, {a = b} + {a <> b}) (f : A -> Q) l a :
  ~ In a l -> qsum (fun b => if dec b a then f b else 0) l == 0.
Proof. intros N. apply qsum_zero. intros b I. destruct (dec b a); [subst; tauto|reflexivity]. Qed.
Lemma qsum_pick {A} (dec : forall a b : A, {a = b} + {a <> b}) (f : A -> Q) l a :
  NoDup l -> In a l -> qsum (fun b => if dec b a then f b else 0) l == f a.
Proof.
  induction 1 as [|b l N D IH]; intros I; [destruct I|]. simpl. destruct (dec b a) as [->|E].
  - rewrite (qsum_pick_none dec f l a N). ring.
  - destruct I as [->|I]; [congruence|]. rewrite IH by auto. ring.
Qed.
Lemma qsumn_delta (f : nat -> Q) n i : (i < n)%nat -> qsumn (fun k => if Nat.eqb k i then f k else 0) n == f i.
Proof.
  intros L. unfold qsumn.
  rewrite <- (qsum_pick Nat.eq_dec f (seq 0 n) i) by (try apply seq_NoDup; apply in_seq; lia).
  apply qsum_ext. intros b _. destruct (Nat.eq_dec b i) as [->|E].
  - rewrite Nat.eqb_refl. reflexivity.
  - apply Nat.eqb_neq in E. rewrite E. reflexivity.
Qed.
(* summing over a sub-list *)
Lemma qsum_incl {A} (dec : forall a b : A, {a = b} + {a <> b}) (f : A -> Q) l l' : NoDup l -> NoDup l' -> incl l' l ->
  qsum (fun a => if in_dec dec a l' then f a else 0) l == qsum f l'.
Proof.
  intros N N'. induction N' as [|b l' NI N' IH]; intros I.
  - apply qsum_zero. intros a _. simpl. reflexivity.
  - cbn [qsum]. rewrite <- IH by (intros x X; apply I; simpl; auto).
    rewrite <- (qsum_pick dec f l b N) by (apply I; simpl; auto). rewrite <- qsum_add.
    apply qsum_ext. intros a _.
    destruct (in_dec dec a (b :: l')) as [J|J]; destruct (dec a b) as [->|E]; destruct (in_dec dec _ l') as [K|K]; simpl in J;
      try tauto; try ring; exfalso; destruct J; congruence || tauto.
Qed.
