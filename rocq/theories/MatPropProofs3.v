(* Exhaustive facts on the finite set of properties. *)
Require Import List Bool Arith.
Require Import Verif.Base Verif.MatPropModel.
Import ListNotations.

Definition shapes := [GENERAL; LOWER; UPPER; DIAGONAL; MULTIPLE; IDENTITY; MINUSID; ZERO].
Definition posits := [NA; PSD; PD; NSD; ND; INDEF; NZI].
Definition obools := [None; Some true; Some false].
Definition all_args : list args :=
  flat_map (fun s => flat_map (fun p => flat_map (fun c => map (mkArgs s p c) obools) obools) posits) shapes.
Lemma all_args_in a : In a all_args.
Proof.
  destruct a as [s p c i]. unfold all_args. apply in_flat_map. exists s. split; [destruct s; simpl; tauto|].
  apply in_flat_map. exists p. split; [destruct p; simpl; tauto|].
  apply in_flat_map. exists c. split; [destruct c as [[]|]; simpl; tauto|].
  apply in_map. destruct i as [[]|]; simpl; tauto.
Qed.
Definition props_eqb (p q : props) : bool :=
  Bool.eqb (constant_ p) (constant_ q) && Bool.eqb (invertible_ p) (invertible_ q) && sh_eq (shape_ p) (shape_ q)
  && Bool.eqb (symmetric_ p) (symmetric_ q) && po_eq (positiveness_ p) (positiveness_ q).
Lemma props_eqb_eq p q : props_eqb p q = true -> p = q.
Proof.
  destruct p as [c i s y p], q as [c' i' s' y' p']. unfold props_eqb. cbn [constant_ invertible_ shape_ symmetric_ positiveness_].
  rewrite !andb_true_iff. intros [[[[A B] C] D] E]. apply eqb_prop in A, B, D. subst.
  destruct s, s'; try discriminate C; destruct p, p'; try discriminate E; reflexivity.
Qed.
Fixpoint dedup (l acc : list props) : list props :=
  match l with [] => acc | p :: l' => if existsb (props_eqb p) acc then dedup l' acc else dedup l' (p :: acc) end.
Lemma dedup_in l : forall acc p, In p acc \/ In p l -> In p (dedup l acc).
Proof.
  induction l as [|q l IH]; intros acc p H; simpl in *; [tauto|].
  destruct (existsb (props_eqb q) acc) eqn:E.
  - apply IH. destruct H as [H|[<-|H]]; auto. left. apply existsb_exists in E. destruct E as [r [I Q]].
    apply props_eqb_eq in Q. subst. exact I.
  - apply IH. simpl. tauto.
Qed.
Definition built_list : list props :=
  dedup (default_props :: flat_map (fun a => match build a with Ok p => [p] | _ => [] end) all_args) [].
Lemma built_in p : p = default_props \/ (exists a, build a = Ok p) -> In p built_list.
Proof.
  intros H. apply dedup_in. right. destruct H as [->|[a H]]; [left; reflexivity|right].
  apply in_flat_map. exists a. split; [apply all_args_in|]. rewrite H. left. reflexivity.
Qed.
Definition is_throw {A} (r : res A) : bool := match r with Throw => true | _ => false end.
Definition is_okb {A} (r : res A) : bool := match r with Ok _ => true | _ => false end.
Definition res_eqb (a b : res props) : bool :=
  match a, b with Ok p, Ok q => props_eqb p q | Throw, Throw => true | UB, UB => true | _, _ => false end.
Lemma res_eqb_eq a b : res_eqb a b = true -> a = b.
Proof. destruct a, b; simpl; try discriminate; auto. intros H. apply props_eqb_eq in H. congruence. Qed.

(* addition throws exactly when the sum would be known to be definite, or +-I *)
Definition def_sum (p1 p2 : posit) : bool :=
  (po_eq p1 PD && (po_eq p2 PD || po_eq p2 PSD)) || (po_eq p2 PD && po_eq p1 PSD) ||
  (po_eq p1 ND && (po_eq p2 ND || po_eq p2 NSD)) || (po_eq p2 ND && po_eq p1 NSD).
Definition add_throws (p1 p2 : props) : bool :=
  def_sum (positiveness_ p1) (positiveness_ p2) ||
  ((isIdentity p1 || isMinusIdentity p1) && isZero p2) || ((isIdentity p2 || isMinusIdentity p2) && isZero p1).
Definition check1 (f : props -> bool) : bool := forallb f built_list.
Definition check2 (f : props -> props -> bool) : bool := forallb (fun p => forallb (f p) built_list) built_list.
Lemma check1_ok f p : check1 f = true -> In p built_list -> f p = true.
Proof. unfold check1. rewrite forallb_forall. auto. Qed.
Lemma check2_ok f p q : check2 f = true -> In p built_list -> In q built_list -> f p q = true.
Proof. unfold check2. rewrite forallb_forall. intros H P Q. specialize (H p P). rewrite forallb_forall in H. auto. Qed.

Definition mul_throws (p1 p2 : props) : bool := (isZero p1 || isZero p2) && negb (isConstant p1 && isConstant p2).
Definition exact_throw (b : bool) (r : res props) : bool := if b then is_throw r else is_okb r.
Lemma add_exact : check2 (fun p q => exact_throw (add_throws p q) (mp_add p q)) = true.
Proof. vm_compute. reflexivity. Qed.
Lemma mul_exact : check2 (fun p q => exact_throw (mul_throws p q) (mp_mul p q)) = true.
Proof. vm_compute. reflexivity. Qed.
Lemma sub_exact : check2 (fun p q => res_eqb (mp_sub p q) (do r <- mp_neg q; mp_add p r)) = true.
Proof. vm_compute. reflexivity. Qed.
Lemma neg_exact : check1 (fun p => is_okb (mp_neg p)) = true.
Proof. vm_compute. reflexivity. Qed.
Lemma scale_exact : check1 (fun p => is_okb (mp_scale Lt p) && is_okb (mp_scale Gt p) && exact_throw (negb (isConstant p)) (mp_scale Eq p)) = true.
Proof. vm_compute. reflexivity. Qed.
(* negation is an involution, scaling by a positive factor changes nothing *)
Lemma neg_invol : check1 (fun p => res_eqb (do q <- mp_neg p; mp_neg q) (Ok p)) = true.
Proof. vm_compute. reflexivity. Qed.
Lemma add_comm : check2 (fun p q => res_eqb (mp_add p q) (mp_add q p)) = true.
Proof. vm_compute. reflexivity. Qed.
Lemma mul_comm : check2 (fun p q => res_eqb (mp_mul p q) (mp_mul q p)) = true.
Proof. vm_compute. reflexivity. Qed.
