(* Proofs about RqModel. *)
From Coq Require Import List Bool Arith ZArith QArith Lia Permutation.
Import ListNotations.
From Verif Require Import Base QueueModel QueueSpec PbModel PbSpec PbProofs PbProofs2 RqModel RqSpec.
Local Open Scope nat_scope.

Lemma copy_id k (s : single k) : copy s = s.
Proof. destruct s. reflexivity. Qed.
Lemma put_same k (r : reqs) (s : single k) : put r s k = s.
Proof. unfold put. destruct k; reflexivity. Qed.
Lemma put_other k k' (r : reqs) (s : single k) : k <> k' -> put r s k' = r k'.
Proof. intros N. unfold put. destruct (kind_dec k k'); [contradiction|reflexivity]. Qed.
Lemma checkArgs_iff k l : checkArgs k l = true <-> In k (map (@projT1 kind single) l).
Proof.
  unfold checkArgs. rewrite existsb_exists, in_map_iff. split.
  - intros (a & I & E). exists a. destruct (kind_dec k (projT1 a)); [auto|discriminate].
  - intros (a & E & I). exists a. split; [exact I|]. destruct (kind_dec k (projT1 a)); [reflexivity|congruence].
Qed.
Lemma build_spec l : forall r, (build r l = None <-> ~ NoDup (map (@projT1 kind single) l)) /\
  forall r', build r l = Some r' -> forall k, (forall s, In (existT _ k s) l -> r' k = s) /\ (~ In k (map (@projT1 kind single) l) -> r' k = r k).
Proof.
  induction l as [|[k m] l IH]; intros r; cbn [build map projT1].
  - split; [split; [discriminate|intros N; exfalso; apply N; constructor]|]. intros r' E k. injection E as <-. split; [intros s []|reflexivity].
  - destruct (checkArgs k l) eqn:C.
    + apply checkArgs_iff in C. split; [|discriminate]. split; [|reflexivity]. intros _ N. inversion N. contradiction.
    + assert (N : ~ In k (map (@projT1 kind single) l)) by (intros I; apply checkArgs_iff in I; congruence).
      destruct (IH (put r (copy m))) as [A B]. split.
      * rewrite A. split; intros H K; apply H; [inversion K; assumption|constructor; assumption].
      * intros r' E k'. destruct (B r' E k') as [B1 B2]. split.
        -- intros s [I|I]; [|apply B1; exact I]. assert (k = k') by (apply (f_equal (@projT1 kind single)) in I; exact I). subst k'.
           apply (Eqdep_dec.inj_pair2_eq_dec _ kind_dec) in I. subst s. rewrite B2, put_same; [apply copy_id|exact N].
        -- intros I. rewrite B2; [|intros J; apply I; right; exact J]. apply put_other. intros J. apply I. left. exact J.
Qed.
Lemma arguments l : (newReqs l = None <-> ~ NoDup (map (@projT1 kind single) l)) /\
  forall r, newReqs l = Some r -> forall k, (forall s, In (existT _ k s) l -> r k = s) /\ (~ In k (map (@projT1 kind single) l) -> r k = mkS (defaultValue k) true).
Proof.
  destruct (build_spec l newDefault) as [A B]. split; [exact A|]. intros r E k. destruct (B r E k) as [B1 B2]. split; [exact B1|]. intros N. rewrite (B2 N). destruct k; reflexivity.
Qed.
Lemma order_free l l' r : Permutation l l' -> newReqs l = Some r -> exists r', newReqs l' = Some r' /\ forall k, r' k = r k.
Proof.
  intros P E. destruct (arguments l) as [A B], (arguments l') as [A' B'].
  assert (N : NoDup (map (@projT1 kind single) l)).
  { destruct (ListDec.NoDup_dec kind_dec (map (@projT1 kind single) l)) as [N|N]; [exact N|]. apply A in N. congruence. }
  destruct (newReqs l') as [r'|] eqn:E'.
  - exists r'. split; [reflexivity|]. intros k. destruct (B r E k) as [B1 B2], (B' r' eq_refl k) as [B1' B2'].
    destruct (in_dec kind_dec k (map (@projT1 kind single) l)) as [I|I].
    + apply in_map_iff in I. destruct I as ([k' s] & K & I). cbn in K. subst k'. rewrite (B1 s I). apply B1'. apply (Permutation_in _ P I).
    + rewrite (B2 I). apply B2'. intros J. apply I. apply (Permutation_in _ (Permutation_sym (Permutation_map _ P)) J).
  - exfalso. destruct A' as [A' _]. apply (A' eq_refl). apply (Permutation_NoDup (Permutation_map _ P) N).
Qed.
Lemma of_task req : exists r, withCallbacks req = Some r /\ forall k, r k = req k.
Proof.
  unfold withCallbacks. match goal with |- context [newReqs ?l] => destruct (arguments l) as [A B] end.
  match goal with |- exists r, ?e = Some r /\ _ => destruct e as [r|] eqn:E end.
  - exists r. split; [reflexivity|]. intros k. destruct (B r eq_refl k) as [B1 _]. apply B1. destruct k; cbn; tauto.
  - exfalso. destruct A as [A _]. apply (A eq_refl). cbn. repeat constructor; cbn; intuition discriminate.
Qed.

(* constructors *)
Lemma negative_iff q : negative q = false <-> (0 <= q)%Q.
Proof. unfold negative. rewrite negb_false_iff. apply Qle_bool_iff. Qed.
Lemma existsb_negative w : existsb negative w = false <-> Forall (fun x => (0 <= x)%Q) w.
Proof.
  induction w as [|x w IH]; cbn; [split; [constructor|reflexivity]|]. rewrite orb_false_iff, negative_iff, IH. split; [intros [A B]; constructor; assumption|intros H; inversion H; auto].
Qed.
Lemma checked k (v : ty k) : (acceptable v -> newSingle k v = Ok (mkS v false)) /\ (~ acceptable v -> newSingle k v = Throw).
Proof.
  destruct k; cbn.
  - destruct (Z.ltb_spec v 0); split; intros H'; try reflexivity; [lia|exfalso; apply H'; lia].
  - split; intros H.
    + apply negative_iff in H. rewrite H. reflexivity.
    + destruct (negative v) eqn:E; [reflexivity|]. apply negative_iff in E. contradiction.
  - split; intros H.
    + apply existsb_negative in H. rewrite H. reflexivity.
    + destruct (existsb negative v) eqn:E; [reflexivity|]. apply existsb_negative in E. contradiction.
  - split; [reflexivity|tauto].
Qed.

(* histories *)
Definition wresult (r : wout) : option world := match r with WDone w | WThrew w => Some w | WUndef => None end.
Lemma wrun_cons b w o l w' : wrun b w (o :: l) = Ok w' -> exists w1, wresult (wstep b w o) = Some w1 /\ wrun b w1 l = Ok w'.
Proof. cbn [wrun]. destruct (wstep b w o) as [w1|w1|]; cbn; intros H; [eauto|eauto|discriminate]. Qed.
Lemma wstep_req b w o w1 : wresult (wstep b w o) = Some w1 -> forall t k, wreq w1 t k = given1 t k (wreq w t k) o.
Proof.
  intros H t k. destruct o as [u k' v|u k' s|c]; cbn [wstep given1] in *.
  - assert (E : wreq w1 = wreq (change w u (setValue v))) by (destruct (callbacks u k' (wpb (change w u (setValue v)))); cbn in H; [injection H as <-; reflexivity|injection H as <-; reflexivity|discriminate]).
    rewrite E. cbn [change wreq]. rewrite Nat.eqb_sym. destruct (u =? t); [|reflexivity]. destruct (kind_dec k' k) as [->|N]; [apply put_same|apply put_other; exact N].
  - cbn in H. injection H as <-. cbn [change wreq]. rewrite Nat.eqb_sym. destruct (u =? t); [|reflexivity]. destruct (kind_dec k' k) as [->|N]; [rewrite put_same; apply copy_id|apply put_other; exact N].
  - destruct (step b (wpb w) c); cbn in H; [injection H as <-; reflexivity|injection H as <-; reflexivity|discriminate].
Qed.
Lemma current b l : forall w w', wrun b w l = Ok w' -> forall t k, wreq w' t k = lastGiven t k l (wreq w t k).
Proof.
  induction l as [|o l IH]; intros w w' H t k; [cbn in H; injection H as <-; reflexivity|]. destruct (wrun_cons _ _ _ _ _ H) as (w1 & E & R).
  rewrite (IH _ _ R), (wstep_req _ _ _ _ E). reflexivity.
Qed.
(* a property of single requirements which is kept *)
Lemma kept (P : forall k, single k -> Prop) b l : (forall t k v, In (SetValue t k v) l -> P k (mkS v false)) -> (forall t k s, In (CopyFrom t k s) l -> P k s) ->
  forall w w', (forall t k, P k (wreq w t k)) -> wrun b w l = Ok w' -> forall t k, P k (wreq w' t k).
Proof.
  intros H1 H2 w w' I R t k. rewrite (current _ _ _ _ R). clear R. specialize (I t k). revert I. generalize (wreq w t k). revert H1 H2. induction l as [|o l IH]; intros H1 H2 s I; [exact I|].
  cbn [lastGiven fold_left]. apply IH; [intros; eapply H1; right; eassumption|intros; eapply H2; right; eassumption|].
  destruct o as [u k' v|u k' c|c]; cbn [given1]; [| |exact I].
  - destruct (u =? t); [|exact I]. destruct (kind_dec k' k) as [e|]; [|exact I]. subst k'. cbn. apply (H1 u). left. reflexivity.
  - destruct (u =? t); [|exact I]. destruct (kind_dec k' k) as [e|]; [|exact I]. subst k'. cbn. apply (H2 u). left. reflexivity.
Qed.

(* the underlying calls *)
Lemma wstep_calls b w o w1 : wresult (wstep b w o) = Some w1 -> forall cs, run b (wpb w) (callOf o ++ cs) = run b (wpb w1) cs.
Proof.
  intros H cs. destruct o as [u k v|u k s|c]; cbn [wstep callOf] in *.
  - destruct k; cbn [callbacks] in H; cbn [wpb change] in H; cbn [app run step].
    + cbn in H. injection H as <-. reflexivity.
    + destruct (weight WeightChange u (wpb w)); cbn in H; try discriminate; injection H as <-; reflexivity.
    + destruct (weight AnisotropicWeightChange u (wpb w)); cbn in H; try discriminate; injection H as <-; reflexivity.
    + cbn in H. injection H as <-. reflexivity.
  - cbn in H. injection H as <-. reflexivity.
  - cbn [app run]. destruct (step b (wpb w) c); cbn in H; try discriminate; injection H as <-; reflexivity.
Qed.
Lemma wrun_calls b l : forall w w', wrun b w l = Ok w' -> run b (wpb w) (callsOf l) = Ok (wpb w').
Proof.
  induction l as [|o l IH]; intros w w' H; [cbn in *; injection H as <-; reflexivity|]. destruct (wrun_cons _ _ _ _ _ H) as (w1 & E & R).
  cbn [callsOf flat_map]. rewrite (wstep_calls _ _ _ _ E). apply IH. exact R.
Qed.

(* ---- notifications ---- *)
Definition follow (i : nat) (p p' : pb) : Prop := forall q, nth_error (queues p) i = Some q -> exists q', nth_error (queues p') i = Some q' /\
  forall t, In t (tokens p') -> (In t (tokens p) /\ forall e, e_emitter e = addrTask t -> In e q -> In e q') \/ In (mkE TaskAddition (addrTask t)) q'.
Lemma follow_trans i p p1 p2 : follow i p p1 -> follow i p1 p2 -> follow i p p2.
Proof.
  intros A B q E. destruct (A q E) as (q1 & E1 & A1). destruct (B q1 E1) as (q2 & E2 & B1). exists q2. split; [exact E2|]. intros t I.
  destruct (B1 t I) as [[J K]|K]; [|right; exact K]. destruct (A1 t J) as [[J' K']|K']; [|right; apply K; [reflexivity|exact K']]. left. split; [exact J'|]. intros e Ee Ie. apply K; [exact Ee|]. apply K'; assumption.
Qed.
Lemma follow_same i p p' : queues p' = queues p -> (forall t, In t (tokens p') -> In t (tokens p)) -> follow i p p'.
Proof. intros E T q H. exists q. rewrite E. split; [exact H|]. intros t I. left. split; [apply T; exact I|auto]. Qed.
Lemma addEvent_keeps q e q' x : addEvent q e = Ok q' -> isRemoval (e_type e) = false -> In x q -> In x q'.
Proof. unfold addEvent. intros H N I. rewrite N in H. injection H as <-. apply in_or_app. left. exact I. Qed.
Lemma addEvent_has q e q' : addEvent q e = Ok q' -> isRemoval (e_type e) = false -> In e q'.
Proof. unfold addEvent. intros H N. rewrite N in H. injection H as <-. apply in_or_app. right. left. reflexivity. Qed.
Lemma purge_keeps t x : e_emitter x <> t -> forall q add r, purge t q add = Ok r -> In x q -> In x (fst r).
Proof.
  intros N. induction q as [|e q IH]; intros add r H I; [destruct I|]. cbn [purge] in H.
  destruct ((e_emitter e =? t) && negb (isRemoval (e_type e))) eqn:C.
  - assert (e <> x) by (intros ->; apply andb_prop in C; destruct C as [C _]; apply Nat.eqb_eq in C; contradiction). destruct I as [I|I]; [contradiction|].
    destruct (isAddition (e_type e)); [destruct add; [|discriminate]|]; eapply IH; eauto.
  - destruct (purge t q add) as [r'| |] eqn:E; try discriminate. cbn [bind] in H. injection H as <-. cbn [fst]. destruct I as [->|I]; [left; reflexivity|right; eapply IH; eauto].
Qed.
Lemma addEvent_other q e q' x : addEvent q e = Ok q' -> e_emitter x <> e_emitter e -> In x q -> In x q'.
Proof.
  intros H N I. destruct (isRemoval (e_type e)) eqn:R; [|eapply addEvent_keeps; eauto]. unfold addEvent in H. rewrite R in H.
  destruct (purge (e_emitter e) q true) as [r| |] eqn:E; try discriminate. cbn [bind] in H. injection H as <-. pose proof (purge_keeps _ _ N _ _ _ E I). destruct (snd r); [apply in_or_app; left|]; assumption.
Qed.
Lemma follow_event i p p' e : isRemoval (e_type e) = false -> Forall2 (fun q q' => addEvent q e = Ok q') (queues p) (queues p') -> (forall t, In t (tokens p') -> In t (tokens p)) -> follow i p p'.
Proof.
  intros R F T q E. destruct (Forall2_nth _ _ _ _ _ F i q E) as (q' & E' & A). exists q'. split; [exact E'|]. intros t I. left. split; [apply T; exact I|]. intros x _ X. eapply addEvent_keeps; eauto.
Qed.
Lemma follow_add i t p p' : baseAdd t p = Done p' -> follow i p p'.
Proof.
  intros H. pose proof (baseAdd_inv t p _ eq_refl) as B. rewrite H in B. destruct B as (_ & T & _ & _ & _ & _ & _ & F). intros q E.
  destruct (Forall2_nth _ _ _ _ _ F i q E) as (q' & E' & A). exists q'. split; [exact E'|]. intros u I. rewrite T in I. apply in_app_or in I. destruct I as [I|[<-|[]]].
  - left. apply in_without in I. destruct I as [I _]. split; [exact I|]. intros x _ X. eapply addEvent_keeps; [exact A|reflexivity|exact X].
  - right. eapply addEvent_has; [exact A|reflexivity].
Qed.
Lemma follow_remove i t p p' : baseRemove t p = Done p' -> follow i p p'.
Proof.
  intros H. pose proof (baseRemove_inv t p _ eq_refl) as B. rewrite H in B. destruct B as (_ & _ & _ & _ & _ & [(_ & T & _ & F)|(_ & ->)]); [|apply follow_same; auto]. intros q E.
  destruct (Forall2_nth _ _ _ _ _ F i q E) as (q' & E' & A). exists q'. split; [exact E'|]. intros u I. rewrite T in I. apply in_without in I. destruct I as [I N]. left. split; [exact I|].
  intros x Ex X. eapply addEvent_other; [exact A|cbn|exact X]. rewrite Ex. intros K. apply addr_inj in K. contradiction.
Qed.
Lemma follow_removeSub i s p p' : removeSub s p = Done p' -> follow i p p'.
Proof. intros H. pose proof (removeSub_inv s p _ eq_refl) as B. rewrite H in B. destruct B as (_ & T & _ & _ & _ & _ & _ & F). eapply follow_event; [|exact F|]; [reflexivity|]. intros t. rewrite T. auto. Qed.
Lemma follow_weight i k t p p' : k = WeightChange \/ k = AnisotropicWeightChange -> weight k t p = Done p' -> follow i p p' /\ tokens p' = tokens p /\
  forall q', In t (tokens p) -> nth_error (queues p') i = Some q' -> In (mkE k (addrTask t)) q'.
Proof.
  intros K H. pose proof (weight_inv k t p _ K eq_refl) as B. rewrite H in B. subst p'. split; [|split; [reflexivity|]].
  - destruct (existsb (Nat.eqb t) (tokens p)); [|destruct p; apply follow_same; auto]. intros q E. exists (q ++ [mkE k (addrTask t)]). cbn [setQueues queues tokens]. split.
    + rewrite nth_error_map, E. reflexivity.
    + intros u I. left. split; [exact I|]. intros x _ X. apply in_or_app. left. exact X.
  - intros q' I E. cbn [setQueues queues] in E. apply existsb_eqb in I. rewrite I in E. rewrite nth_error_map in E. destruct (nth_error (queues p) i); [|discriminate]. injection E as <-. apply in_or_app. right. left. reflexivity.
Qed.
Lemma follow_step i b p c p' : c <> Process i -> result (step b p c) = Some p' -> follow i p p'.
Proof.
  intros N H. destruct c as [u|u|u|u|n s|s|u|u| |j|]; cbn [step] in H.
  - pose proof (add_inv b u p _ eq_refl) as A. destruct (add b u p) as [q|q|]; cbn in H; try discriminate; injection H as <-.
    + destruct A as (_ & p1 & E & ->). apply follow_trans with p1; [eapply follow_add; eauto|apply follow_same; auto].
    + destruct A as (_ & E). eapply follow_add; eauto.
  - pose proof (remove_inv u p _ eq_refl) as A. destruct (remove u p) as [q|q|]; cbn in H; try discriminate; injection H as <-.
    + destruct A as (p1 & E & [[_ ->]|(c & _ & p2 & T & T' & _ & _ & _ & D & ->)]); [eapply follow_remove; eauto|]. apply follow_trans with p1; [eapply follow_remove; eauto|].
      apply follow_trans with p2; [|apply follow_same; auto]. destruct D as [[_ ->]|(j & s & _ & _ & D)]; [apply follow_same; auto|eapply follow_removeSub; eauto].
    + destruct A as (E & _). eapply follow_remove; eauto.
  - pose proof (baseAdd_inv u p _ eq_refl) as B. destruct (baseAdd u p) as [q|q|] eqn:E; cbn in H; try discriminate; [|contradiction]. injection H as <-. eapply follow_add; eauto.
  - pose proof (baseRemove_inv u p _ eq_refl) as B. destruct (baseRemove u p) as [q|q|] eqn:E; cbn in H; try discriminate; [|contradiction]. injection H as <-. eapply follow_remove; eauto.
  - destruct (addSub_inv n s p) as (q & E & _ & T & _ & _ & _ & _ & _ & Q). rewrite E in H. cbn in H. injection H as <-. intros x Ex. exists (x ++ [mkE SubstitutionAddition (addrUser n)]). rewrite Q, nth_error_map, Ex.
    split; [reflexivity|]. intros t I. left. rewrite T in I. split; [exact I|]. intros y _ Y. apply in_or_app. left. exact Y.
  - pose proof (removeSub_inv s p _ eq_refl) as B. destruct (removeSub s p) as [q|q|] eqn:E; cbn in H; try discriminate; [|contradiction]. injection H as <-. eapply follow_removeSub; eauto.
  - pose proof (weight_inv WeightChange u p _ (or_introl eq_refl) eq_refl) as B. destruct (weight WeightChange u p) as [q|q|] eqn:E; try contradiction. cbn in H. injection H as <-. eapply follow_weight; [|exact E]. auto.
  - pose proof (weight_inv AnisotropicWeightChange u p _ (or_intror eq_refl) eq_refl) as B. destruct (weight AnisotropicWeightChange u p) as [q|q|] eqn:E; try contradiction. cbn in H. injection H as <-. eapply follow_weight; [|exact E]. auto.
  - cbn in H. injection H as <-. intros q E. exists q. cbn [setQueues queues tokens]. split; [|intros t I; left; auto]. rewrite nth_error_app1; [exact E|]. apply nth_error_Some. congruence.
  - cbn in H. injection H as <-. assert (Nj : j <> i) by congruence. intros q E. exists q. cbn [setQueues queues tokens]. split; [|intros t I; left; auto].
    clear N. revert j Nj E. generalize (queues p). clear. intros l. revert i. induction l as [|x l IH]; intros i j Nj E; [destruct i; discriminate|]. destruct j as [|j].
    + cbn. destruct i; [contradiction|exact E].
    + cbn [firstn skipn app]. destruct i; [exact E|]. cbn in *. apply IH; [lia|exact E].
  - cbn in H. injection H as <-. apply follow_same; auto.
Qed.

Lemma told_follow i k p p' q q' t : follow i p p' -> nth_error (queues p) i = Some q -> nth_error (queues p') i = Some q' -> In t (tokens p') -> (In t (tokens p) -> told k t q) -> told k t q'.
Proof.
  intros F E E' I H. destruct (F q E) as (q2 & E2 & A). replace q2 with q' in * by congruence. destruct (A t I) as [[J K]|K]; [|left; exact K]. specialize (H J). destruct H as [H|H]; [left; apply K; [reflexivity|exact H]|right].
  destruct k; try contradiction; apply K; [reflexivity|exact H|reflexivity|exact H].
Qed.
Definition agree (i : nat) (k : kind) (t : nat) (s : single k) (w : world) : Prop :=
  exists q, nth_error (queues (wpb w)) i = Some q /\ (In t (tokens (wpb w)) -> wreq w t k = s \/ told k t q).
Lemma agree_step i k t s b w o w1 : aWeight k -> o <> Other (Process i) -> (forall c, o <> CopyFrom t k c) -> wresult (wstep b w o) = Some w1 -> agree i k t s w -> agree i k t s w1.
Proof.
  intros Wk NP NC H (q & E & A). pose proof (wstep_req _ _ _ _ H t k) as Rq.
  assert (F : follow i (wpb w) (wpb w1)).
  { destruct o as [u k' v|u k' c|c]; cbn [wstep] in H.
    - cbn [wpb change] in H. destruct k'; cbn [callbacks] in H.
      + cbn in H. injection H as <-. apply follow_same; auto.
      + pose proof (weight_inv WeightChange u (wpb w) _ (or_introl eq_refl) eq_refl) as B. destruct (weight WeightChange u (wpb w)) as [p|p|] eqn:X; try contradiction. cbn in H. injection H as <-. cbn. eapply follow_weight; [|exact X]. auto.
      + pose proof (weight_inv AnisotropicWeightChange u (wpb w) _ (or_intror eq_refl) eq_refl) as B. destruct (weight AnisotropicWeightChange u (wpb w)) as [p|p|] eqn:X; try contradiction. cbn in H. injection H as <-. cbn. eapply follow_weight; [|exact X]. auto.
      + cbn in H. injection H as <-. apply follow_same; auto.
    - cbn in H. injection H as <-. apply follow_same; auto.
    - apply (follow_step i b (wpb w) c (wpb w1)); [congruence|]. destruct (step b (wpb w) c); cbn in H; try discriminate; injection H as <-; reflexivity. }
  destruct (F q E) as (q' & E' & _). exists q'. split; [exact E'|]. intros I.
  assert (G : wreq w1 t k = wreq w t k -> wreq w1 t k = s \/ told k t q').
  { intros Eq. destruct (F q E) as (q2 & E2 & K). replace q2 with q' in * by congruence. destruct (K t I) as [[J K']|K']; [|right; left; exact K'].
    destruct (A J) as [<-|T]; [left; exact Eq|]. right. eapply told_follow; eauto. }
  destruct o as [u k' v|u k' c|c]; cbn [given1] in Rq.
  - destruct (Nat.eqb_spec u t) as [->|Nt]; [|apply G; exact Rq]. destruct (kind_dec k' k) as [e|Nk]; [|apply G; exact Rq]. subst k'. right. right.
    cbn [wstep wpb change] in H. destruct Wk as [-> | ->]; cbn [callbacks] in H.
    + pose proof (weight_inv WeightChange t (wpb w) _ (or_introl eq_refl) eq_refl) as B. destruct (weight WeightChange t (wpb w)) as [p|p|] eqn:X; try contradiction. cbn in H. injection H as <-. cbn [wpb] in *.
      destruct (follow_weight i _ _ _ _ (or_introl eq_refl) X) as (_ & T & S). apply S; [rewrite <- T; exact I|exact E'].
    + pose proof (weight_inv AnisotropicWeightChange t (wpb w) _ (or_intror eq_refl) eq_refl) as B. destruct (weight AnisotropicWeightChange t (wpb w)) as [p|p|] eqn:X; try contradiction. cbn in H. injection H as <-. cbn [wpb] in *.
      destruct (follow_weight i _ _ _ _ (or_intror eq_refl) X) as (_ & T & S). apply S; [rewrite <- T; exact I|exact E'].
  - destruct (Nat.eqb_spec u t) as [->|Nt]; [|apply G; exact Rq]. destruct (kind_dec k' k) as [e|Nk]; [|apply G; exact Rq]. subst k'. exfalso. apply (NC c). reflexivity.
  - apply G. exact Rq.
Qed.
Lemma agree_run i k t s b l : aWeight k -> ~ In (Other (Process i)) l -> (forall c, ~ In (CopyFrom t k c) l) -> forall w w', wrun b w l = Ok w' -> agree i k t s w -> agree i k t s w'.
Proof.
  intros Wk. induction l as [|o l IH]; intros NP NC w w' H A; [cbn in H; injection H as <-; exact A|]. destruct (wrun_cons _ _ _ _ _ H) as (w1 & E & R).
  apply (IH (fun X => NP (or_intror X)) (fun c X => NC c (or_intror X)) w1 w' R). apply (agree_step i k t s b w o w1 Wk); [intros ->; apply NP; left; reflexivity|intros c ->; apply (NC c); left; reflexivity|exact E|exact A].
Qed.
Lemma proper_app b l1 l2 p : proper b p (l1 ++ l2) -> forall p1, run b p l1 = Ok p1 -> proper b p1 l2.
Proof.
  revert p. induction l1 as [|c l1 IH]; intros p P p1 H; [cbn in *; injection H as <-; exact P|]. cbn [app proper] in P. destruct P as [_ P]. cbn [run] in H. destruct (step b p c) as [q|q|]; [eapply IH; eauto|contradiction|discriminate].
Qed.
Lemma announced b r0 l1 l2 w1 w2 i t k : aWeight k -> proper b empty (callsOf (l1 ++ l2)) -> wrun b (mkW empty r0) l1 = Ok w1 -> wrun b w1 l2 = Ok w2 ->
  nth_error (queues (wpb w1)) i = Some [] -> ~ In (Other (Process i)) l2 -> (forall c, ~ In (CopyFrom t k c) l2) -> In t (tr (wpb w2)) -> wreq w2 t k <> wreq w1 t k ->
  exists q, nth_error (queues (wpb w2)) i = Some q /\ told k t q.
Proof.
  intros Wk P R1 R2 E NP NC I D.
  assert (A : agree i k t (wreq w1 t k) w2). { eapply agree_run; [exact Wk|exact NP|exact NC|exact R2|]. exists []. split; [exact E|]. left. reflexivity. }
  destruct A as (q & Eq & A). exists q. split; [exact Eq|]. destruct A as [A|A]; [|contradiction|exact A].
  destruct (proper_consistent b _ P) as (p & Rp & C).
  assert (X : run b empty (callsOf (l1 ++ l2)) = Ok (wpb w2)).
  { unfold callsOf. rewrite flat_map_app. fold (callsOf l1) (callsOf l2). pose proof (wrun_calls _ _ _ _ R1) as X1. cbn [wpb] in X1. pose proof (wrun_calls _ _ _ _ R2) as X2.
    revert X1 X2. generalize (callsOf l1) as c1. generalize empty. clear. intros p c1. revert p. induction c1 as [|c c1 IH]; intros p X1 X2; [cbn in *; injection X1 as ->; exact X2|].
    cbn [app run] in *. destruct (step b p c); [eapply IH; eauto|eapply IH; eauto|discriminate]. }
  replace p with (wpb w2) in * by congruence. apply (co_tokens _ C). exact I.
Qed.
Lemma silent b w t k w' : (exists s, wstep b w (CopyFrom t k s) = WDone w') \/ (~ aWeight k /\ exists v, wstep b w (SetValue t k v) = WDone w') -> wpb w' = wpb w.
Proof.
  intros [(s & H)|(N & v & H)]; cbn [wstep] in H; [injection H as <-; reflexivity|]. destruct k; cbn in H; try (injection H as <-; reflexivity); exfalso; apply N; unfold aWeight; auto.
Qed.
