(* Facts on the list accessors of GraphModel.v. *)
Require Import List Arith Lia Bool.
Require Import Verif.Base Verif.GraphModel.
Import ListNotations.

Lemma nthR_ok {A} (l : list A) i d : i < length l -> nthR l i = Ok (nth i l d).
Proof. intros H. unfold nthR. rewrite (nth_error_nth' l d H). reflexivity. Qed.
Lemma nthR_inv {A} (l : list A) i x d : nthR l i = Ok x -> i < length l /\ nth i l d = x.
Proof.
  unfold nthR. destruct (nth_error l i) eqn:E; [|discriminate]. intros H. injection H as ->. split.
  - apply nth_error_Some. rewrite E. discriminate.
  - apply nth_error_nth. exact E.
Qed.
Lemma setN_length {A} (l : list A) i x : length (setN l i x) = length l.
Proof. revert i. induction l; intros [|i]; simpl; auto. Qed.
Lemma setN_same {A} (l : list A) i x d : i < length l -> nth i (setN l i x) d = x.
Proof. revert i. induction l; intros [|i]; simpl; intros; try lia; auto. apply IHl. lia. Qed.
Lemma setN_other {A} (l : list A) i j x d : i <> j -> nth j (setN l i x) d = nth j l d.
Proof. revert i j. induction l; intros [|i] [|j]; simpl; intros; auto; try lia. Qed.
Lemma nth_setN {A} (l : list A) i j x d : i < length l ->
  nth j (setN l i x) d = if Nat.eqb i j then x else nth j l d.
Proof.
  intros H. destruct (Nat.eqb i j) eqn:E.
  - apply Nat.eqb_eq in E. subst. apply setN_same. exact H.
  - apply Nat.eqb_neq in E. apply setN_other. exact E.
Qed.
Lemma setN_out {A} (l : list A) i x : length l <= i -> setN l i x = l.
Proof. revert i. induction l; intros [|i]; simpl; intros; auto; try lia. f_equal. apply IHl. lia. Qed.
Lemma nth_repeat' {A} (x : A) n i : nth i (repeat x n) x = x.
Proof. revert i. induction n; intros [|i]; simpl; auto. Qed.
Lemma delN_length {A} (l : list A) i : i < length l -> length (delN i l) = length l - 1.
Proof. intros H. unfold delN. rewrite app_length, firstn_length, skipn_length. lia. Qed.
Lemma nth_delN {A} (l : list A) i j d : i < length l -> nth j (delN i l) d = nth (if Nat.ltb j i then j else S j) l d.
Proof.
  intros H. unfold delN. assert (Lf : length (firstn i l) = i) by (rewrite firstn_length; lia).
  destruct (Nat.ltb j i) eqn:E.
  - apply Nat.ltb_lt in E. rewrite app_nth1 by lia.
    rewrite <- (firstn_skipn i l) at 2. rewrite app_nth1 by lia. reflexivity.
  - apply Nat.ltb_ge in E. rewrite app_nth2 by lia. rewrite Lf.
    rewrite <- (firstn_skipn (S i) l) at 2. rewrite app_nth2; rewrite firstn_length; [|lia].
    f_equal. lia.
Qed.
