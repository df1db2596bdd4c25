(* Proofs about PbModel. *)
From Coq Require Import List Bool Arith Lia.
Import ListNotations.
From Verif Require Import Base QueueModel QueueSpec QueueProps PbModel PbSpec.

(* Notification *)
Lemma notifyAll_shape : forall qs e qs', notifyAll qs e = Ok qs' -> Forall2 (fun q q' => addEvent q e = Ok q') qs qs'.
Proof.
  induction qs as [|q qs IH]; intros e qs' H; cbn [notifyAll] in H; [injection H as <-; constructor|]. destruct (addEvent q e) as [q'| |] eqn:E; try discriminate. cbn [bind] in H.
  destruct (notifyAll qs e) as [r| |] eqn:E'; try discriminate. cbn [bind] in H. injection H as <-. constructor; [exact E|]. now apply IH.
Qed.
Lemma notifyAll_ok : forall qs e, (forall q, In q qs -> exists q', addEvent q e = Ok q') -> exists qs', notifyAll qs e = Ok qs'.
Proof.
  induction qs as [|q qs IH]; intros e H; [eexists; reflexivity|]. destruct (H q (or_introl eq_refl)) as [q' E]. destruct (IH e) as [r E']; [intros; apply H; now right|]. cbn [notifyAll]. rewrite E. cbn [bind]. rewrite E'. cbn [bind]. eauto.
Qed.
Lemma notify_inv : forall p e r, notify p e = Done r -> exists qs, r = setQueues p qs /\ Forall2 (fun q q' => addEvent q e = Ok q') (queues p) qs.
Proof. intros p e r H. unfold notify in H. destruct (notifyAll (queues p) e) as [qs| |] eqn:E; try discriminate. injection H as <-. exists qs. split; [reflexivity|]. now apply notifyAll_shape. Qed.
Lemma notify_not_threw : forall p e r, notify p e <> Threw r.
Proof. intros p e r H. unfold notify in H. destruct (notifyAll (queues p) e); discriminate. Qed.

(* Counting *)
Definition cnt (t : nat) (l : list nat) : nat := count_occ Nat.eq_dec l t.
Lemma cnt_app : forall t a b, cnt t (a ++ b) = cnt t a + cnt t b.
Proof. intros. apply count_occ_app. Qed.
Lemma cnt_one : forall t u, cnt t [u] = if u =? t then 1 else 0.
Proof. intros t u. unfold cnt. cbn. destruct (Nat.eq_dec u t), (Nat.eqb_spec u t); congruence. Qed.
Lemma cnt_erase : forall t u l, cnt t (eraseFirst u l) = if u =? t then pred (cnt t l) else cnt t l.
Proof.
  intros t u. induction l as [|x l IH]; [cbn; now destruct (u =? t)|]. unfold cnt in *. cbn [eraseFirst count_occ]. destruct (Nat.eqb_spec x u) as [->|N].
  - destruct (Nat.eq_dec u t), (Nat.eqb_spec u t); try congruence; reflexivity.
  - cbn [count_occ]. rewrite IH. destruct (Nat.eq_dec x t), (Nat.eqb_spec u t); try congruence. 
Qed.
Lemma existsb_eqb : forall t l, existsb (Nat.eqb t) l = true <-> In t l.
Proof. intros t l. rewrite existsb_exists. split; [intros (x & I & E); apply Nat.eqb_eq in E; congruence|intros I; exists t; split; [exact I|apply Nat.eqb_refl]]. Qed.
Lemma cnt_zero : forall t l, existsb (Nat.eqb t) l = false -> cnt t l = 0.
Proof. intros t l H. apply count_occ_not_In. intros I. apply existsb_eqb in I. congruence. Qed.

Definition result (r : outcome) : option pb := match r with Done p | Threw p => Some p | Undef => None end.
Lemma baseAdd_inv : forall t p r, baseAdd t p = r -> match r with
  | Done p' => tr p' = tr p ++ [t] /\ tokens p' = without t (tokens p) ++ [t] /\ cons p' = cons p /\ inputs p' = inputs p /\ subs p' = subs p /\ next p' = next p /\ fin p' = false /\
      Forall2 (fun q q' => addEvent q (mkE TaskAddition (addrTask t)) = Ok q') (queues p) (queues p')
  | Threw _ => False | Undef => True end.
Proof.
  intros t p r <-. unfold baseAdd. match goal with |- context [notify ?a ?b] => destruct (notify a b) as [p'|p'|] eqn:E end; cbn [andThen]; [|exact (notify_not_threw _ _ _ E)|exact I].
  apply notify_inv in E as (qs & -> & F). cbn in *. repeat split; auto.
Qed.
Lemma baseRemove_inv : forall t p r, baseRemove t p = r -> match r with
  | Done p' => tr p' = eraseFirst t (tr p) /\ cons p' = cons p /\ inputs p' = inputs p /\ subs p' = subs p /\ next p' = next p /\
      ((In t (tr p) /\ tokens p' = without t (tokens p) /\ fin p' = false /\ Forall2 (fun q q' => addEvent q (mkE TaskRemoval (addrTask t)) = Ok q') (queues p) (queues p')) \/ (~ In t (tr p) /\ p' = p))
  | Threw _ => False | Undef => True end.
Proof.
  intros t p r <-. unfold baseRemove. destruct (existsb (Nat.eqb t) (tr p)) eqn:X.
  - match goal with |- context [notify ?a ?b] => destruct (notify a b) as [p'|p'|] eqn:E end; cbn [andThen]; [|exact (notify_not_threw _ _ _ E)|exact I].
    apply notify_inv in E as (qs & -> & F). cbn in *. apply existsb_eqb in X. repeat split; auto.
  - assert (N : ~ In t (tr p)) by (intros I; apply existsb_eqb in I; congruence). repeat split; auto.
    clear X. induction (tr p) as [|x l IH]; [reflexivity|]. cbn in *. destruct (Nat.eqb_spec x t) as [->|Ne]; [exfalso; auto|]. f_equal. apply IH. auto.
Qed.
Definition subList (r : sref) (l : list subst) : list subst := match r with User _ => l | Slot i => firstn i l ++ skipn (S i) l end.
Lemma removeSub_inv : forall s p r, removeSub s p = r -> match r with
  | Done p' => tr p' = tr p /\ tokens p' = tokens p /\ cons p' = cons p /\ inputs p' = inputs p /\ next p' = next p /\ fin p' = false /\ subs p' = subList s (subs p) /\
      Forall2 (fun q q' => addEvent q (mkE SubstitutionRemoval (addrSub s)) = Ok q') (queues p) (queues p')
  | Threw _ => False | Undef => True end.
Proof.
  intros s p r <-. unfold removeSub. match goal with |- context [notify ?a ?b] => destruct (notify a b) as [p'|p'|] eqn:E end; cbn [andThen]; [|exact (notify_not_threw _ _ _ E)|exact I].
  apply notify_inv in E as (qs & -> & F). cbn in *. repeat split; auto.
Qed.
Lemma removeSub_ok : forall s p, exists p', removeSub s p = Done p'.
Proof.
  intros s p. unfold removeSub, notify. match goal with |- context [notifyAll ?a ?b] => destruct (notifyAll_ok a b) as [qs ->] end.
  - intros q _. unfold addEvent. cbn. eauto.
  - cbn. eauto.
Qed.
Lemma addSub_inv : forall n s p, exists p', addSub n s p = Done p' /\ tr p' = tr p /\ tokens p' = tokens p /\ cons p' = cons p /\ inputs p' = inputs p /\ next p' = next p /\ fin p' = false /\ subs p' = subs p ++ [s] /\
  queues p' = map (fun q => q ++ [mkE SubstitutionAddition (addrUser n)]) (queues p).
Proof.
  intros n s p. unfold addSub, notify. cbn [queues]. assert (E : forall qs, notifyAll qs (mkE SubstitutionAddition (addrUser n)) = Ok (map (fun q => q ++ [mkE SubstitutionAddition (addrUser n)]) qs)).
  { induction qs as [|q qs IH]; [reflexivity|]. cbn [notifyAll map]. unfold addEvent at 1. cbn [isRemoval e_type bind]. rewrite IH. reflexivity. }
  rewrite E. cbn. eexists. split; [reflexivity|]. cbn. repeat split; auto.
Qed.
Lemma substFor_spec : forall c l i, match substFor c l i with
  | Some (j, s) => i <= j /\ nth_error l (j - i) = Some s /\ In c (s_cstr s) /\ (forall k u, k < j - i -> nth_error l k = Some u -> ~ In c (s_cstr u))
  | None => forall s, In s l -> ~ In c (s_cstr s) end.
Proof.
  intros c. induction l as [|s l IH]; intros i; [cbn; intros s []|]. cbn [substFor]. destruct (existsb (Nat.eqb c) (s_cstr s)) eqn:E.
  - apply existsb_eqb in E. split; [lia|]. rewrite Nat.sub_diag. split; [reflexivity|]. split; [exact E|]. intros k u H. lia.
  - assert (N : ~ In c (s_cstr s)) by (intros I; apply existsb_eqb in I; congruence). specialize (IH (S i)). destruct (substFor c l (S i)) as [[j u]|].
    + destruct IH as (A & B & C & D). split; [lia|]. replace (j - i) with (S (j - S i)) by lia. split; [exact B|]. split; [exact C|]. intros [|k] v K V; cbn in V; [congruence|]. apply (D k v); [lia|exact V].
    + intros u [<-|I]; auto.
Qed.
Lemma add_inv : forall b t p r, add b t p = r -> match r with
  | Done p' => b t = true /\ exists p1, baseAdd t p = Done p1 /\ p' = mkPb (tr p1) (tokens p1) ((t, next p1) :: drop t (cons p1)) (inputs p1 ++ [next p1]) (subs p1) (fin p1) (queues p1) (S (next p1))
  | Threw p' => b t = false /\ baseAdd t p = Done p'
  | Undef => baseAdd t p = Undef end.
Proof.
  intros b t p r <-. unfold add. pose proof (baseAdd_inv t p _ eq_refl) as B. destruct (baseAdd t p) as [p1|p1|]; cbn [andThen]; [|contradiction|reflexivity]. destruct (b t); eauto.
Qed.
(* Removing a task: the three outcomes. *)
Lemma remove_inv : forall t p r, remove t p = r -> match r with
  | Done p' => exists p1, baseRemove t p = Done p1 /\
      (lookup t (cons p) = None /\ p' = p1 \/
       exists c, lookup t (cons p) = Some c /\ exists p2, tr p2 = tr p1 /\ tokens p2 = tokens p1 /\ cons p2 = cons p1 /\ inputs p2 = inputs p1 /\ next p2 = next p1 /\
         (substFor c (subs p) 0 = None /\ p2 = p1 \/ exists i s, substFor c (subs p) 0 = Some (i, s) /\ isSimple s = true /\ removeSub (Slot i) p1 = Done p2) /\
         p' = mkPb (tr p2) (tokens p2) (drop t (cons p2)) (without c (inputs p2)) (subs p2) (fin p2) (queues p2) (next p2))
  | Threw p' => baseRemove t p = Done p' /\ exists c i s, lookup t (cons p) = Some c /\ substFor c (subs p) 0 = Some (i, s) /\ isSimple s = false
  | Undef => baseRemove t p = Undef end.
Proof.
  intros t p r <-. unfold remove. pose proof (baseRemove_inv t p _ eq_refl) as B. destruct (baseRemove t p) as [p1|p1|]; cbn [andThen]; [|contradiction|reflexivity].
  destruct B as (_ & Ec & _ & Es & _). rewrite Ec. destruct (lookup t (cons p)) as [c|] eqn:L; [|exists p1; split; [reflexivity|]; left; auto].
  unfold removeSubstitutionFor. rewrite Es. destruct (substFor c (subs p) 0) as [[i s]|] eqn:F.
  - destruct (isSimple s) eqn:Si.
    + destruct (removeSub_ok (Slot i) p1) as [p2 R]. rewrite R. cbn [andThen]. exists p1. split; [reflexivity|]. right. exists c. split; [reflexivity|]. exists p2.
      pose proof (removeSub_inv (Slot i) p1 _ eq_refl) as V. rewrite R in V. destruct V as (V1 & V2 & V3 & V4 & V5 & _). repeat match goal with |- _ /\ _ => split end; auto. right. exists i, s. rewrite R. auto.
    + cbn [andThen]. split; [reflexivity|]. exists c, i, s. auto.
  - cbn [andThen]. exists p1. split; [reflexivity|]. right. exists c. split; [reflexivity|]. exists p1. repeat match goal with |- _ /\ _ => split end; auto.
Qed.
Lemma weight_inv : forall k t p r, (k = WeightChange \/ k = AnisotropicWeightChange) -> weight k t p = r -> match r with
  | Done p' => p' = setQueues p (if existsb (Nat.eqb t) (tokens p) then map (fun q => q ++ [mkE k (addrTask t)]) (queues p) else queues p)
  | _ => False end.
Proof.
  intros k t p r K <-. unfold weight. destruct (existsb (Nat.eqb t) (tokens p)); [|now destruct p]. unfold notify.
  assert (E : forall qs, notifyAll qs (mkE k (addrTask t)) = Ok (map (fun q => q ++ [mkE k (addrTask t)]) qs)).
  { induction qs as [|q qs IH]; [reflexivity|]. cbn [notifyAll map]. unfold addEvent at 1. destruct K as [-> | ->]; cbn [isRemoval e_type bind]; rewrite IH; reflexivity. }
  rewrite E. reflexivity.
Qed.

(* Membership *)
Lemma step_times : forall b p c p' t, result (step b p c) = Some p' -> cnt t (tr p') = times t [c] (cnt t (tr p)).
Proof.
  intros b p c p' t H. destruct c as [u|u|u|u|n s|s|u|u| |i|]; cbn [step times] in *.
  - pose proof (add_inv b u p _ eq_refl) as A. pose proof (baseAdd_inv u p _ eq_refl) as B. destruct (add b u p) as [q|q|]; cbn in H; try discriminate; injection H as <-.
    + destruct A as (_ & p1 & E & ->). rewrite E in B. destruct B as (-> & _). cbn [tr]. rewrite cnt_app, cnt_one. destruct (u =? t); lia.
    + destruct A as (_ & E). rewrite E in B. destruct B as (-> & _). rewrite cnt_app, cnt_one. destruct (u =? t); lia.
  - pose proof (remove_inv u p _ eq_refl) as A. pose proof (baseRemove_inv u p _ eq_refl) as B. destruct (remove u p) as [q|q|]; cbn in H; try discriminate; injection H as <-.
    + destruct A as (p1 & E & [[_ ->]|(c & _ & p2 & T & _ & _ & _ & _ & _ & ->)]); rewrite E in B; destruct B as (B & _); cbn [tr]; [rewrite B|rewrite T, B]; rewrite cnt_erase; destruct (u =? t); reflexivity.
    + destruct A as (E & _). rewrite E in B. destruct B as (-> & _). rewrite cnt_erase. destruct (u =? t); reflexivity.
  - pose proof (baseAdd_inv u p _ eq_refl) as B. destruct (baseAdd u p) as [q|q|]; cbn in H; try discriminate; [|contradiction]. injection H as <-. destruct B as (-> & _). rewrite cnt_app, cnt_one. destruct (u =? t); lia.
  - pose proof (baseRemove_inv u p _ eq_refl) as B. destruct (baseRemove u p) as [q|q|]; cbn in H; try discriminate; [|contradiction]. injection H as <-. destruct B as (-> & _). rewrite cnt_erase. destruct (u =? t); reflexivity.
  - destruct (addSub_inv n s p) as (q & E & T & _). rewrite E in H. cbn in H. injection H as <-. now rewrite T.
  - pose proof (removeSub_inv s p _ eq_refl) as B. destruct (removeSub s p) as [q|q|]; cbn in H; try discriminate; [|contradiction]. injection H as <-. destruct B as (-> & _). reflexivity.
  - pose proof (weight_inv WeightChange u p _ (or_introl eq_refl) eq_refl) as B. destruct (weight WeightChange u p); try contradiction. cbn in H. injection H as <-. subst. reflexivity.
  - pose proof (weight_inv AnisotropicWeightChange u p _ (or_intror eq_refl) eq_refl) as B. destruct (weight AnisotropicWeightChange u p); try contradiction. cbn in H. injection H as <-. subst. reflexivity.
  - cbn in H. injection H as <-. reflexivity.
  - cbn in H. injection H as <-. reflexivity.
  - cbn in H. injection H as <-. reflexivity.
Qed.
Lemma run_times : forall b cs p p' t, run b p cs = Ok p' -> cnt t (tr p') = times t cs (cnt t (tr p)).
Proof.
  intros b. induction cs as [|c cs IH]; intros p p' t H; [cbn in H; injection H as <-; reflexivity|]. cbn [run] in H.
  assert (E : exists p1, result (step b p c) = Some p1 /\ run b p1 cs = Ok p') by (destruct (step b p c); [cbn; eauto|cbn; eauto|discriminate]). destruct E as (p1 & E & R).
  rewrite (IH _ _ t R), (step_times _ _ _ _ t E). reflexivity.
Qed.
