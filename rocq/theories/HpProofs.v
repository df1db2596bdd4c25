From Coq Require Import List Bool Arith QArith Lia.
Import ListNotations.
From Verif Require Import Base QueueModel QueueSpec PbModel PbSpec PbProofs PbProofs2 HpModel HpSpec.
Local Open Scope nat_scope.

(* ---- queues ---- *)
Definition ev (k : etype) (t : nat) (q : list event) : Prop := In (mkE k (addrTask t)) q.
Lemma purge_in x : forall q a q' a', purge x q a = Ok (q', a') ->
  (forall e, In e q' <-> In e q /\ (e_emitter e <> x \/ e_type e = TaskRemoval)) /\ (a' = true <-> a = true /\ ~ In (mkE TaskAddition x) q).
Proof.
  induction q as [|e q IH]; intros a q' a' E; cbn [purge] in E.
  - injection E as <- <-. split; [intros e; cbn; tauto|]. cbn. tauto.
  - destruct (Nat.eqb_spec (e_emitter e) x) as [Ex|Ex]; cbn [andb] in E.
    + destruct (isRemoval (e_type e)) eqn:R; cbn [negb] in E.
      * destruct (purge x q a) as [[q1 a1]| |] eqn:P; try discriminate. cbn [bind fst snd] in E. injection E as <- <-. destruct (IH _ _ _ P) as [I A]. assert (T : e_type e = TaskRemoval) by (destruct (e_type e); try discriminate; reflexivity).
        split; [intros f; cbn [In]; rewrite I; split; [intros [<-|H]; [auto|tauto]|tauto]|]. rewrite A. cbn [In]. split; [intros [H N]; split; [exact H|]; intros [H1|H1]; [subst e; discriminate|tauto]|tauto].
      * assert (P : exists a2, purge x q a2 = Ok (q', a') /\ (isAddition (e_type e) = true -> a = true /\ a2 = false) /\ (isAddition (e_type e) = false -> a2 = a)).
        { destruct (isAddition (e_type e)); [destruct a; [|discriminate]|]; eexists; (split; [exact E|]); split; intros; try discriminate; auto. }
        destruct P as (a2 & P & P1 & P2). destruct (IH _ _ _ P) as [I A]. split.
        -- intros f. cbn [In]. rewrite I. split; [tauto|]. intros [[<-|H] [H'|H']]; try tauto. rewrite H' in R. discriminate.
        -- rewrite A. cbn [In]. destruct (isAddition (e_type e)) eqn:Ad.
           ++ destruct (P1 eq_refl) as [-> ->]. split; [intros [H _]; discriminate|]. intros [_ N]. exfalso. apply N. left. destruct e as [k m]. cbn in *. subst m. destruct k; try discriminate. reflexivity.
           ++ rewrite (P2 eq_refl). split; [intros [H N]; split; [exact H|]; intros [H1|H1]; [subst e; discriminate|tauto]|tauto].
    + destruct (purge x q a) as [[q1 a1]| |] eqn:P; try discriminate. cbn [bind fst snd] in E. injection E as <- <-. destruct (IH _ _ _ P) as [I A].
      split; [intros f; cbn [In]; rewrite I; split; [intros [<-|H]; [auto|tauto]|tauto]|]. rewrite A. cbn [In]. split; [intros [H N]; split; [exact H|]; intros [H1|H1]; [subst e; cbn in Ex; congruence|tauto]|tauto].
Qed.
Lemma removal_in x q q' : addEvent q (mkE TaskRemoval x) = Ok q' ->
  forall e, In e q' <-> (In e q /\ (e_emitter e <> x \/ e_type e = TaskRemoval)) \/ (e = mkE TaskRemoval x /\ ~ In (mkE TaskAddition x) q).
Proof.
  unfold addEvent. cbn [isRemoval e_type e_emitter]. intros E. destruct (purge x q true) as [[q1 a1]| |] eqn:P; try discriminate. cbn [bind fst snd] in E. injection E as <-.
  destruct (purge_in x _ _ _ _ P) as [I A]. intros e. destruct a1.
  - rewrite in_app_iff, I. cbn [In]. destruct A as [A _]. destruct (A eq_refl) as [_ N]. split; [intros [H|[<-|[]]]; auto|intros [H|[-> _]]; auto].
  - rewrite I. split; [auto|]. intros [H|[-> N]]; [exact H|]. destruct A as [_ A]. discriminate A. auto.
Qed.
Lemma other_in k x q q' : addEvent q (mkE k x) = Ok q' -> isRemoval k = false -> q' = q ++ [mkE k x].
Proof. unfold addEvent. cbn [e_type]. intros E R. rewrite R in E. injection E as <-. reflexivity. Qed.
Lemma rebuilds_in q : rebuilds q = true <-> exists e, In e q /\ isSub e = true.
Proof. unfold rebuilds. rewrite existsb_exists. split; intros (e & I & H); exists e; (split; [exact I|]); unfold isSub in *; exact H. Qed.

(* ---- what a queue and what was built say about the current problem ---- *)
Definition dd (q : list event) (a c : option (nat * weights)) (t : nat) : Prop :=
  ev TaskRemoval t q \/ (ev TaskAddition t q /\ a = None) \/
  (~ ev TaskAddition t q /\ c <> None /\ (ev WeightChange t q \/ ev AnisotropicWeightChange t q)) \/ (~ ev TaskAddition t q /\ a = c).
Lemma dd_ext q q' a c c' t : (forall k, ev k t q' <-> ev k t q) -> c' = c -> dd q a c t -> dd q' a c' t.
Proof. intros H ->. unfold dd. rewrite !H. tauto. Qed.
Definition cur (s : hp) (t : nat) : option (nat * weights) := sn_task (buildOf (h_pb s) (h_w s)) t.
Record good (s : hp) (q : list event) (sn : snap) : Prop := {
  g_tag : forall e t, In e q -> isSub e = true -> e_emitter e <> addrTask t;
  g_subs : rebuilds q = false -> sn_subs sn = subs (h_pb s);
  g_dd : forall t, dd q (sn_task sn t) (cur s t) t }.
Record hinv (s : hp) : Prop := { hi_inv : inv (h_pb s); hi_len : length (h_built s) = length (queues (h_pb s));
  hi_good : forall i q sn, nth_error (queues (h_pb s)) i = Some q -> nth_error (h_built s) i = Some sn -> good s q sn }.

Lemma good_now s : good s [] (buildOf (h_pb s) (h_w s)).
Proof. split; [intros e t []|reflexivity|]. intros t. right. right. right. split; [intros []|reflexivity]. Qed.
Lemma good_current s sn : good s [] sn -> isCurrent s sn.
Proof.
  intros G. split; [|apply (g_subs _ _ _ G); reflexivity]. intros t c w. destruct (g_dd _ _ _ G t) as [[]|[[[] _]|[(_ & _ & [[]|[]])|[_ ->]]]].
  unfold cur, buildOf. cbn [sn_task]. destruct (lookup t (cons (h_pb s))) as [d|]; cbn; [|split; [discriminate|intros [H _]; discriminate]].
  split; [intros [= -> ->]; auto|intros [[= ->] ->]; reflexivity].
Qed.
Lemma build_current s sn : sn = buildOf (h_pb s) (h_w s) -> isCurrent s sn.
Proof. intros ->. apply good_current. apply good_now. Qed.

(* a call that sends an event *)
Lemma good_plain s s' q k x sn : good s q sn -> isRemoval k = false -> (isSub (mkE k x) = true -> forall t, x <> addrTask t) ->
  (isSub (mkE k x) = false -> subs (h_pb s') = subs (h_pb s)) ->
  (forall t, x <> addrTask t -> cur s' t = cur s t) ->
  (forall t, x = addrTask t -> match k with TaskAddition => cur s t = None | WeightChange | AnisotropicWeightChange => cur s' t <> None | _ => False end) ->
  good s' (q ++ [mkE k x]) sn.
Proof.
  intros G R T Sb C D. split.
  - intros e t I. apply in_app_or in I as [I|[<-|[]]]; [apply (g_tag _ _ _ G e t I)|]. intros H. apply (T H).
  - intros H. unfold rebuilds in *. rewrite existsb_app in H. apply orb_false_iff in H as [H1 H2]. cbn in H2. rewrite (g_subs _ _ _ G H1). symmetry. apply Sb. unfold isSub. cbn. destruct k; cbn in *; congruence.
  - intros t. pose proof (g_dd _ _ _ G t) as H. destruct (Nat.eq_dec x (addrTask t)) as [->|N].
    + specialize (D t eq_refl). unfold dd, ev in *. rewrite !in_app_iff. cbn [In]. destruct k; try contradiction.
      * destruct H as [H|[[H1 H2]|H]]; [tauto|tauto|]. right. right. left. split; [intros [H'|[H'|[]]]; [|discriminate]; tauto|]. auto.
      * destruct H as [H|[[H1 H2]|H]]; [tauto|tauto|]. right. right. left. split; [intros [H'|[H'|[]]]; [|discriminate]; tauto|]. auto.
      * destruct H as [H|[[H1 H2]|[(H1 & H2 & _)|[H1 H2]]]]; [tauto|tauto|congruence|]. right. left. split; [auto|congruence].
    + apply (dd_ext q _ _ (cur s t)); [|apply (C t N)|exact H]. intros k'. unfold ev. rewrite in_app_iff. cbn [In]. split; [intros [I|[I|[]]]; [exact I|congruence]|auto].
Qed.
Lemma good_removal s s' q q' t sn : good s q sn -> addEvent q (mkE TaskRemoval (addrTask t)) = Ok q' -> subs (h_pb s') = subs (h_pb s) ->
  (forall u, u <> t -> cur s' u = cur s u) -> cur s' t = None -> good s' q' sn.
Proof.
  intros G E Sb C D. pose proof (removal_in _ _ _ E) as I. split.
  - intros e u Ie H. apply I in Ie. destruct Ie as [[Ie _]|[-> _]]; [apply (g_tag _ _ _ G e u Ie H)|discriminate H].
  - intros H. rewrite Sb. apply (g_subs _ _ _ G). destruct (rebuilds q) eqn:R; [|reflexivity]. apply rebuilds_in in R as (e & Ie & Se). rewrite <- H. symmetry. apply rebuilds_in. exists e. split; [|exact Se]. apply I. left. split; [exact Ie|]. left. apply (g_tag _ _ _ G e t Ie Se).
  - intros u. pose proof (g_dd _ _ _ G u) as H. destruct (Nat.eq_dec u t) as [->|N].
    + unfold dd, ev. rewrite !I. cbn [e_emitter e_type]. destruct H as [H|[[H1 H2]|[(H1 & _)|[H1 _]]]].
      * left. left. auto.
      * right. right. right. split; [intros [[_ [K|K]]|[K _]]; [congruence|discriminate|discriminate]|congruence].
      * left. right. auto.
      * left. right. auto.
    + apply (dd_ext q _ _ (cur s u)); [|apply C; exact N|exact H]. intros k. unfold ev. rewrite I. cbn [e_emitter e_type]. split; [intros [[K _]|[K _]]; [exact K|]|].
      * injection K as _ K. apply addr_inj in K. contradiction.
      * intros K. left. split; [exact K|]. left. intros K'. apply addr_inj in K'. contradiction.
Qed.

Lemma cur_none s t : cur s t = None <-> lookup t (cons (h_pb s)) = None.
Proof. unfold cur, buildOf. cbn. destruct (lookup t (cons (h_pb s))); cbn; split; congruence. Qed.
Lemma cur_eq s s' t : lookup t (cons (h_pb s')) = lookup t (cons (h_pb s)) -> (lookup t (cons (h_pb s)) <> None -> h_w s' t = h_w s t) -> cur s' t = cur s t.
Proof. unfold cur, buildOf. cbn. intros -> H. destruct (lookup t (cons (h_pb s))); cbn; [|reflexivity]. rewrite H by discriminate. reflexivity. Qed.
Lemma good_same s s' q sn : subs (h_pb s') = subs (h_pb s) -> (forall t, cur s' t = cur s t) -> good s q sn -> good s' q sn.
Proof. intros Sb C [G1 G2 G3]. split; [exact G1|rewrite Sb; exact G2|]. intros t. rewrite C. apply G3. Qed.

Lemma setAt_nth {A} (x : A) : forall l i j, i < length l -> nth_error (setAt l i x) j = if j =? i then Some x else nth_error l j.
Proof.
  induction l as [|a l IH]; intros i j L; [cbn in L; lia|]. unfold setAt in *. destruct i as [|i]; cbn [firstn skipn app]; [destruct j; reflexivity|].
  destruct j as [|j]; [reflexivity|]. cbn [nth_error]. rewrite IH by (cbn in L; lia). reflexivity.
Qed.
Lemma setAt_len {A} (x : A) : forall l i, length (setAt l i x) = length l.
Proof. induction l as [|a l IH]; intros i; unfold setAt in *; [destruct i; reflexivity|]. destruct i as [|i]; cbn [firstn skipn app length]; [reflexivity|]. rewrite IH. reflexivity. Qed.
Lemma nth_in {A} (l : list A) i : i < length l -> exists x, nth_error l i = Some x.
Proof. intros L. destruct (nth_error l i) as [x|] eqn:E; [eauto|]. apply nth_error_None in E. lia. Qed.
Lemma Forall2_nth2 {A B} (R : A -> B -> Prop) l l' : Forall2 R l l' -> forall i y, nth_error l' i = Some y -> exists x, nth_error l i = Some x /\ R x y.
Proof. induction 1 as [|a b l l' H F IH]; intros [|i] y E; try discriminate; cbn in *; [injection E as <-; eauto|auto]. Qed.
Lemma Forall2_len {A B} (R : A -> B -> Prop) l l' : Forall2 R l l' -> length l = length l'.
Proof. induction 1; cbn; congruence. Qed.

(* calls on the problem that send one event *)
Lemma event_step s s' e : hinv s -> inv (h_pb s') -> h_built s' = h_built s -> Forall2 (fun q q' => addEvent q e = Ok q') (queues (h_pb s)) (queues (h_pb s')) ->
  (forall q q' sn, good s q sn -> addEvent q e = Ok q' -> good s' q' sn) -> hinv s'.
Proof.
  intros [_ L G] V B F H. split; [exact V|rewrite B, L; apply (Forall2_len _ _ _ F)|]. intros i q' sn Nq Ns. rewrite B in Ns. destruct (Forall2_nth2 _ _ _ F i q' Nq) as (q & Nq0 & E). apply (H q q' sn (G i q sn Nq0 Ns) E).
Qed.
Lemma quiet_step b s o s' r : hinv s -> match o with UAdd t _ => ~ In t (tr (h_pb s)) | _ => True end -> hstep b s o = HDone s' r -> hinv s'.
Proof.
  intros V H E. pose proof (hi_inv _ V) as Vi. pose proof (iv_c _ Vi) as C. destruct o as [t w|t|n u|rf|t x|t x|i].
  - pose proof (step_inv b (h_pb s) (Add t) Vi H) as Sv. cbn [hstep] in E. destruct (step b (h_pb s) (Add t)) as [p'|p'|] eqn:Es; try discriminate. cbn [onPb] in E. injection E as <- <-. destruct Sv as [Vi' _].
    cbn [step] in Es. destruct (add_inv b t (h_pb s) _ Es) as (_ & p1 & E1 & Ep). pose proof (baseAdd_inv t (h_pb s) _ E1) as B. cbv beta iota in B. destruct B as (B1 & B2 & B3 & B4 & B5 & B6 & _ & B8).
    assert (Nl : lookup t (cons (h_pb s)) = None). { destruct (lookup t (cons (h_pb s))) as [c|] eqn:L; [|reflexivity]. exfalso. apply H. apply (co_cons _ C). eauto. }
    apply (event_step s _ (mkE TaskAddition (addrTask t)) V); [exact Vi'|reflexivity|cbn [h_pb]; rewrite Ep; exact B8|].
    intros q q' sn G Eq. rewrite (other_in _ _ _ _ Eq eq_refl). apply (good_plain s); try assumption; try reflexivity; try discriminate.
    + intros _. cbn [h_pb]. rewrite Ep. exact B5.
    + intros v Nv. assert (Nt : v <> t) by congruence. apply cur_eq; cbn [h_pb h_w]; [rewrite Ep; cbn [cons]; rewrite lookup_cons, lookup_drop, B3; destruct (Nat.eqb_spec t v); [congruence|reflexivity]|].
      intros _. unfold setW. destruct (Nat.eqb_spec v t); [contradiction|reflexivity].
    + intros v Ev. apply addr_inj in Ev. subst v. apply cur_none. exact Nl.
  - pose proof (step_inv b (h_pb s) (Remove t) Vi I) as Sv. cbn [hstep] in E. destruct (step b (h_pb s) (Remove t)) as [p'|p'|] eqn:Es; try discriminate. cbn [onPb] in E. injection E as <- <-. destruct Sv as [Vi' _].
    cbn [step] in Es. destruct (remove_inv t (h_pb s) _ Es) as (p1 & E1 & R). pose proof (baseRemove_inv t (h_pb s) _ E1) as B. cbv beta iota in B. destruct B as (B1 & B2 & B3 & B4 & B5 & B6).
    destruct R as [[L Ep]|(c & L & p2 & T1 & T2 & T3 & T4 & T5 & Sx & Ep)].
    + destruct B6 as [(It & _)|[_ E1']]; [exfalso; apply (co_cons _ C) in It as [c It]; congruence|]. subst p1 p'. destruct V as [V1 V2 V3]. split; cbn; auto. intros i q sn Nq Ns. apply (good_same s); [reflexivity|intros u; reflexivity|apply (V3 i q sn Nq Ns)].
    + assert (It : In t (tr (h_pb s))) by (apply (co_cons _ C); eauto). destruct B6 as [(_ & _ & _ & F)|[N _]]; [|contradiction].
      set (s2 := mkHp p2 (h_w s) (h_built s)). set (s3 := mkHp p' (h_w s) (h_built s)).
      assert (Cu : forall u, cur s3 u = if u =? t then None else cur s u).
      { intros u. unfold cur, buildOf, s3. cbn. rewrite Ep. cbn [cons]. rewrite lookup_drop, T3, B2. rewrite Nat.eqb_sym. destruct (u =? t); reflexivity. }
      destruct Sx as [[_ E2]|(k & x & _ & _ & Rs)].
      * subst p2. apply (event_step s s3 (mkE TaskRemoval (addrTask t)) V); [exact Vi'|reflexivity|unfold s3; cbn; rewrite Ep; exact F|].
        intros q q' sn G Eq. apply (good_removal s _ q _ t); try assumption; [unfold s3; cbn; rewrite Ep; exact B4| |].
        -- intros u Nu. rewrite Cu. destruct (Nat.eqb_spec u t); [contradiction|reflexivity].
        -- rewrite Cu, Nat.eqb_refl. reflexivity.
      * pose proof (removeSub_inv (Slot k) p1 _ Rs) as Rv. cbv beta iota in Rv. destruct Rv as (_ & _ & _ & _ & _ & _ & _ & F2). destruct V as [V1 V2 V3]. split; [exact Vi'| |].
        -- unfold s3. cbn. rewrite Ep. cbn [queues]. rewrite V2, (Forall2_len _ _ _ F), (Forall2_len _ _ _ F2). reflexivity.
        -- intros i q2 sn Nq Ns. unfold s3 in Nq, Ns. cbn in Nq, Ns. rewrite Ep in Nq. cbn [queues] in Nq. destruct (Forall2_nth2 _ _ _ F2 i q2 Nq) as (q1 & Nq1 & Eq2). destruct (Forall2_nth2 _ _ _ F i q1 Nq1) as (q & Nq0 & Eq1).
           pose proof (V3 i q sn Nq0 Ns) as G. rewrite (other_in _ _ _ _ Eq2 eq_refl).
           apply (good_plain (mkHp (mkPb (tr p') (tokens p') (cons p') (inputs p') (subs (h_pb s)) (fin p') (queues p') (next p')) (h_w s) (h_built s))); [|reflexivity| |discriminate| |].
           ++ apply (good_removal s _ q _ t); try assumption; [reflexivity| |].
              ** intros u Nu. change (cur s3 u = cur s u). rewrite Cu. destruct (Nat.eqb_spec u t); [contradiction|reflexivity].
              ** change (cur s3 t = None). rewrite Cu, Nat.eqb_refl. reflexivity.
           ++ intros _ u. apply (slot_not_task (Slot k)).
           ++ intros u _. reflexivity.
           ++ intros u Eu. exact (slot_not_task (Slot k) u Eu).
  - pose proof (step_inv b (h_pb s) (AddSub n u) Vi I) as Sv. cbn [hstep] in E. destruct (step b (h_pb s) (AddSub n u)) as [p'|p'|] eqn:Es; try discriminate. cbn [onPb] in E. injection E as <- <-. destruct Sv as [Vi' _].
    cbn [step] in Es. destruct (addSub_inv n u (h_pb s)) as (p1 & E1 & B1 & B2 & B3 & B4 & B5 & _ & B7 & B8). assert (p1 = p') by congruence. subst p1.
    apply (event_step s _ (mkE SubstitutionAddition (addrUser n)) V); [exact Vi'|reflexivity|cbn; rewrite B8; apply map_forall2; reflexivity|].
    intros q q' sn G Eq. rewrite (other_in _ _ _ _ Eq eq_refl). apply (good_plain s); try assumption; try reflexivity; try discriminate.
    + intros _ v. apply (slot_not_task (User n)).
    + intros v _. apply cur_eq; cbn; [rewrite B3; reflexivity|reflexivity].
    + intros v Ev. exact (slot_not_task (User n) v Ev).
  - pose proof (step_inv b (h_pb s) (RemoveSub rf) Vi I) as Sv. cbn [hstep] in E. destruct (step b (h_pb s) (RemoveSub rf)) as [p'|p'|] eqn:Es; try discriminate. cbn [onPb] in E. injection E as <- <-. destruct Sv as [Vi' _].
    cbn [step] in Es. pose proof (removeSub_inv rf (h_pb s) _ Es) as B. cbv beta iota in B. destruct B as (B1 & B2 & B3 & B4 & B5 & _ & B7 & B8).
    apply (event_step s _ (mkE SubstitutionRemoval (addrSub rf)) V); [exact Vi'|reflexivity|exact B8|].
    intros q q' sn G Eq. rewrite (other_in _ _ _ _ Eq eq_refl). apply (good_plain s); try assumption; try reflexivity; try discriminate.
    + intros _ v. apply (slot_not_task rf).
    + intros v _. apply cur_eq; cbn; [rewrite B3; reflexivity|reflexivity].
    + intros v Ev. exact (slot_not_task rf v Ev).
  - pose proof (step_inv b (h_pb s) (Weight t) Vi I) as Sv. cbn [hstep] in E. destruct (step b (h_pb s) (Weight t)) as [p'|p'|] eqn:Es; try discriminate. cbn [onPb] in E. injection E as <- <-. destruct Sv as [Vi' _].
    cbn [step] in Es. pose proof (weight_inv WeightChange t (h_pb s) _ (or_introl eq_refl) Es) as B. cbv beta iota in B. destruct (existsb (Nat.eqb t) (tokens (h_pb s))) eqn:X.
    + apply existsb_eqb in X. apply (co_tokens _ C) in X. apply (co_cons _ C) in X as [c X].
      apply (event_step s _ (mkE WeightChange (addrTask t)) V); [exact Vi'|reflexivity|cbn; rewrite B; apply map_forall2; reflexivity|].
      intros q q' sn G Eq. rewrite (other_in _ _ _ _ Eq eq_refl). apply (good_plain s); try assumption; try reflexivity; try discriminate.
      * intros _. cbn. rewrite B. reflexivity.
      * intros v Nv. apply cur_eq; cbn; [rewrite B; reflexivity|]. intros _. unfold setW. destruct (Nat.eqb_spec v t); [congruence|reflexivity].
      * intros v Ev. apply addr_inj in Ev. subst v. intros K. apply cur_none in K. cbn in K. rewrite B in K. cbn in K. congruence.
    + assert (Nl : lookup t (cons (h_pb s)) = None). { destruct (lookup t (cons (h_pb s))) as [c|] eqn:L; [|reflexivity]. exfalso. assert (It : In t (tokens (h_pb s))) by (apply (co_tokens _ C), (co_cons _ C); eauto). apply existsb_eqb in It. congruence. }
      assert (p' = h_pb s) by (rewrite B; destruct (h_pb s); reflexivity). subst p'. destruct V as [V1 V2 V3]. split; cbn; auto. intros i q sn Nq Ns. apply (good_same s); [reflexivity| |apply (V3 i q sn Nq Ns)].
      intros v. apply cur_eq; cbn; [reflexivity|]. intros Nv. unfold setW. destruct (Nat.eqb_spec v t); [congruence|reflexivity].
  - pose proof (step_inv b (h_pb s) (Aniso t) Vi I) as Sv. cbn [hstep] in E. destruct (step b (h_pb s) (Aniso t)) as [p'|p'|] eqn:Es; try discriminate. cbn [onPb] in E. injection E as <- <-. destruct Sv as [Vi' _].
    cbn [step] in Es. pose proof (weight_inv AnisotropicWeightChange t (h_pb s) _ (or_intror eq_refl) Es) as B. cbv beta iota in B. destruct (existsb (Nat.eqb t) (tokens (h_pb s))) eqn:X.
    + apply existsb_eqb in X. apply (co_tokens _ C) in X. apply (co_cons _ C) in X as [c X].
      apply (event_step s _ (mkE AnisotropicWeightChange (addrTask t)) V); [exact Vi'|reflexivity|cbn; rewrite B; apply map_forall2; reflexivity|].
      intros q q' sn G Eq. rewrite (other_in _ _ _ _ Eq eq_refl). apply (good_plain s); try assumption; try reflexivity; try discriminate.
      * intros _. cbn. rewrite B. reflexivity.
      * intros v Nv. apply cur_eq; cbn; [rewrite B; reflexivity|]. intros _. unfold setW. destruct (Nat.eqb_spec v t); [congruence|reflexivity].
      * intros v Ev. apply addr_inj in Ev. subst v. intros K. apply cur_none in K. cbn in K. rewrite B in K. cbn in K. congruence.
    + assert (Nl : lookup t (cons (h_pb s)) = None). { destruct (lookup t (cons (h_pb s))) as [c|] eqn:L; [|reflexivity]. exfalso. assert (It : In t (tokens (h_pb s))) by (apply (co_tokens _ C), (co_cons _ C); eauto). apply existsb_eqb in It. congruence. }
      assert (p' = h_pb s) by (rewrite B; destruct (h_pb s); reflexivity). subst p'. destruct V as [V1 V2 V3]. split; cbn; auto. intros i q sn Nq Ns. apply (good_same s); [reflexivity| |apply (V3 i q sn Nq Ns)].
      intros v. apply cur_eq; cbn; [reflexivity|]. intros Nv. unfold setW. destruct (Nat.eqb_spec v t); [congruence|reflexivity].
  - cbn [hstep] in E. unfold solve in E. cbn [queues setFin] in E. destruct V as [V1 V2 V3].
    pose proof (step_inv b (h_pb s) Finalize V1 I) as [Vf _]. cbn [step] in Vf.
    assert (New : hinv (mkHp (setQueues (setFin (h_pb s) true) (queues (h_pb s) ++ [[]])) (h_w s) (h_built s ++ [buildOf (setFin (h_pb s) true) (h_w s)]))).
    { pose proof (step_inv b (setFin (h_pb s) true) NewData Vf I) as [Vn _]. split; [exact Vn|cbn; rewrite !app_length, V2; reflexivity|]. cbn. intros j q sn Nq Ns. destruct (Nat.lt_ge_cases j (length (queues (h_pb s)))) as [L|L].
      - rewrite nth_error_app1 in Nq by exact L. rewrite nth_error_app1 in Ns by (rewrite V2; exact L). apply (good_same s); [reflexivity|intros t; reflexivity|apply (V3 j q sn Nq Ns)].
      - rewrite nth_error_app2 in Nq by exact L. rewrite nth_error_app2 in Ns by (rewrite V2; exact L). rewrite V2 in Ns. destruct (j - length (queues (h_pb s))) as [|m]; [|destruct m; discriminate Nq]. injection Nq as <-. injection Ns as <-.
        apply (good_same s); [reflexivity|intros t; reflexivity|apply good_now]. }
    destruct (nth_error (queues (h_pb s)) i) as [q|] eqn:Nq; [|injection E as <- <-; exact New]. destruct (nth_error (h_built s) i) as [sn|] eqn:Ns; [|destruct q; injection E as <- <-; exact New].
    assert (Li : i < length (queues (h_pb s))) by (apply nth_error_Some; congruence).
    destruct q as [|e q].
    + injection E as <- <-. split; cbn; [exact Vf|exact V2|]. intros j q sn' N1 N2. apply (good_same s); [reflexivity|intros t; reflexivity|apply (V3 j q sn' N1 N2)].
    + destruct (rebuilds (e :: q)); [|discriminate]. injection E as <- <-. pose proof (step_inv b (setFin (h_pb s) true) (Process i) Vf I) as [Vn _]. split; [exact Vn|cbn; rewrite !setAt_len; exact V2|].
      cbn. intros j q' sn' N1 N2. rewrite setAt_nth in N1 by exact Li. rewrite setAt_nth in N2 by (rewrite V2; exact Li). destruct (j =? i).
      * injection N1 as <-. injection N2 as <-. apply (good_same s); [reflexivity|intros t; reflexivity|apply good_now].
      * apply (good_same s); [reflexivity|intros t; reflexivity|apply (V3 j q' sn' N1 N2)].
Qed.
Lemma quiet_run b : forall ops s, hinv s -> quiet b s ops -> exists s', hrun b s ops = Ok s' /\ hinv s'.
Proof.
  induction ops as [|o ops IH]; intros s V Q1; [exists s; split; [reflexivity|exact V]|]. cbn [quiet hrun] in *. destruct Q1 as [H Q1]. destruct (hstep b s o) as [s1 r|s1|] eqn:E; [|contradiction|].
  - apply (IH s1); [|exact Q1]. eapply quiet_step; eauto.
  - exfalso. destruct V as [Vi _ _]. destruct o as [t w|t|n u|rf|t x|t x|i]; cbn [hstep] in E.
    1: pose proof (step_inv b (h_pb s) (Add t) Vi H) as K. 2: pose proof (step_inv b (h_pb s) (Remove t) Vi I) as K. 3: pose proof (step_inv b (h_pb s) (AddSub n u) Vi I) as K.
    4: pose proof (step_inv b (h_pb s) (RemoveSub rf) Vi I) as K. 5: pose proof (step_inv b (h_pb s) (Weight t) Vi I) as K. 6: pose proof (step_inv b (h_pb s) (Aniso t) Vi I) as K.
    1-6: match type of K with match ?r with _ => _ end => destruct r; [discriminate|discriminate|exact K] end.
    unfold solve in E. repeat match type of E with match ?r with _ => _ end = _ => destruct r end; try discriminate.
Qed.
Lemma hinv_empty : hinv hempty.
Proof. split; [apply inv_empty|reflexivity|]. intros i q sn N. destruct i; discriminate. Qed.
