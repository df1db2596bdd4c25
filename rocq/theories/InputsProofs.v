From Coq Require Import List Bool Arith Lia.
Import ListNotations.
From Verif Require Import InputsModel InputsSpec.
Local Open Scope nat_scope.

Lemma upd_eq {A} (f : nat -> A) i a : upd f i a i = a.
Proof. unfold upd. rewrite Nat.eqb_refl. reflexivity. Qed.
Lemma upd_ne {A} (f : nat -> A) i j a : j <> i -> upd f i a j = f j.
Proof. intros H. unfold upd. apply Nat.eqb_neq in H. rewrite H. reflexivity. Qed.

Lemma sinsert_in i j l : In j (sinsert i l) <-> j = i \/ In j l.
Proof.
  induction l as [|k l IHl]; cbn [sinsert In].
  - intuition (subst; auto).
  - destruct (i <? k); [cbn; intuition (subst; auto)|]. destruct (i =? k) eqn:E.
    + apply Nat.eqb_eq in E. subst. cbn. intuition (subst; auto).
    + cbn. rewrite IHl. intuition (subst; auto).
Qed.
Lemma sofList_in j l : In j (sofList l) <-> In j l.
Proof. induction l as [|i l IHl]; cbn; [tauto|]. rewrite sinsert_in, IHl. intuition (subst; auto). Qed.
Lemma serase_in i j l : In j (serase i l) <-> j <> i /\ In j l.
Proof. unfold serase. rewrite filter_In. rewrite negb_true_iff, Nat.eqb_neq. tauto. Qed.
Lemma smem_in i l : smem i l = true <-> In i l.
Proof.
  unfold smem. rewrite existsb_exists. split.
  - intros [x [K E]]. apply Nat.eqb_eq in E. subst. exact K.
  - intros K. exists i. split; [exact K|apply Nat.eqb_refl].
Qed.

Inductive sorted : list nat -> Prop :=
| sorted_nil : sorted []
| sorted_cons i l : (forall j, In j l -> i < j) -> sorted l -> sorted (i :: l).
Lemma sinsert_sorted i l : sorted l -> sorted (sinsert i l).
Proof.
  induction 1 as [|k l B H IH]; cbn [sinsert].
  - constructor; [intros j []|constructor].
  - destruct (i <? k) eqn:E.
    + apply Nat.ltb_lt in E. constructor; [|constructor; assumption]. intros j [K|K]; [lia|]. apply B in K. lia.
    + destruct (i =? k) eqn:E2; [constructor; assumption|]. apply Nat.ltb_ge in E. apply Nat.eqb_neq in E2.
      constructor; [|exact IH]. intros j K. apply sinsert_in in K. destruct K as [K|K]; [lia|apply B; exact K].
Qed.
Lemma sofList_sorted l : sorted (sofList l).
Proof. induction l as [|i l IH]; cbn; [constructor|apply sinsert_sorted; exact IH]. Qed.

(* additions *)
Lemma addOne_spec en st s i st' : addOne en st s i = (st', false) ->
  en s i = true /\ (forall t j, holds st' t j <-> holds st t j \/ (t = s /\ j = i)) /\
  (forall t, owns st' t <-> owns st t) /\ (forall t, t <> s -> inputs st' t = inputs st t) /\ inputs st' s <> None.
Proof.
  unfold addOne, holds, owns, getInput. intros H. destruct (en s i); [|discriminate]. split; [reflexivity|].
  destruct (inputs st s) as [l|] eqn:L; injection H as <-; cbn; (split; [|split; [tauto|split; [intros t Nt; apply upd_ne; exact Nt|rewrite upd_eq; discriminate]]]);
    intros t j; destruct (Nat.eq_dec t s) as [->|N].
  - rewrite upd_eq, L. split.
    + intros [l0 [E K]]. injection E as <-. apply sinsert_in in K. destruct K as [->|K]; [right; split; reflexivity|left; exists l; split; [reflexivity|exact K]].
    + intros [[l0 [E K]]|[_ ->]]; (eexists; split; [reflexivity|]; apply sinsert_in); [right; congruence|left; reflexivity].
  - rewrite upd_ne by exact N. intuition.
  - rewrite upd_eq, L. split.
    + intros [l0 [E K]]. injection E as <-. destruct K as [K|[]]. subst. right. split; reflexivity.
    + intros [[l0 [E K]]|[_ ->]]; [discriminate|]. exists [i]. split; [reflexivity|left; reflexivity].
  - rewrite upd_ne by exact N. intuition.
Qed.

Lemma addRef_spec en s os : forall st st' b, addRef en st s os = (st', b) ->
  b = negb (forallb (en s) os) /\
  (forall t j, holds st' t j <-> holds st t j \/ (t = s /\ In j (before (en s) os))) /\
  (forall t, store st' t = store st t) /\ (forall t, t <> s -> inputs st' t = inputs st t) /\
  (before (en s) os = [] -> st' = st) /\ (inputs st s <> None \/ before (en s) os <> [] -> inputs st' s <> None).
Proof.
  induction os as [|i os IH]; intros st st' b H; cbn [addRef] in H.
  - injection H as <- <-. cbn. repeat split; auto; try tauto.
  - destruct (addOne en st s i) as [st1 b1] eqn:A. cbn [forallb before]. destruct b1.
    + assert (E : en s i = false /\ st1 = st).
      { unfold addOne in A. destruct (en s i); [destruct (inputs st s); discriminate|]. injection A as <-. split; reflexivity. }
      destruct E as [E ->]. injection H as <- <-. rewrite E. cbn. repeat split; auto; try tauto.
    + pose proof A as A'. unfold addOne in A'. destruct (addOne_spec _ _ _ _ _ A) as [E [HH [HO [HI HN]]]]. rewrite E.
      assert (St : store st1 = store st) by (rewrite E in A'; destruct (inputs st s); injection A' as <-; reflexivity).
      destruct (IH _ _ _ H) as [B [H1 [H2 [H3 [H4 H5]]]]]. cbn [andb]. split; [exact B|]. split; [|split; [|split; [|split]]].
      * intros t j. rewrite H1, HH. cbn [In]. intuition (subst; auto).
      * intros t. rewrite H2, St. reflexivity.
      * intros t N. rewrite H3, HI by exact N. reflexivity.
      * discriminate.
      * intros _. apply H5. left. exact HN.
Qed.

Lemma addShared_spec en s os st st' b : addShared en st s os = (st', b) ->
  b = negb (forallb (en s) os) /\
  (forall t j, holds st' t j <-> holds st t j \/ (t = s /\ In j (before (en s) os))) /\
  (forall t, owns st' t <-> owns st t \/ (t = s /\ b = false)) /\ (forall t, t <> s -> inputs st' t = inputs st t) /\
  (inputs st s <> None \/ before (en s) os <> [] -> inputs st' s <> None).
Proof.
  unfold addShared. intros H. destruct (addRef en st s os) as [st1 b1] eqn:A. destruct (addRef_spec _ _ _ _ _ _ A) as [B [H1 [H2 [H3 [_ H5]]]]].
  destruct b1; injection H as <- <-; (split; [exact B|]); (split; [exact H1|]); (split; [|split; [exact H3|exact H5]]); unfold owns; intros t.
  - rewrite H2. split; [tauto|]. intros [K|[_ K]]; [exact K|discriminate].
  - cbn. destruct (Nat.eq_dec t s) as [->|N]; [rewrite upd_eq; tauto|rewrite upd_ne by exact N; rewrite H2; tauto].
Qed.

Lemma before_all p os : forallb p os = true -> before p os = os.
Proof. induction os as [|i os IH]; cbn; [reflexivity|]. destruct (p i); [|discriminate]. cbn. intros H. rewrite IH by exact H. reflexivity. Qed.

(* removals *)
Lemma eraseLoop_spec v : forall l l' b, sorted v -> eraseLoop v l = (l', b) ->
  match b with
  | false => (forall i, In i v -> In i l) /\ (forall j, In j l' <-> In j l /\ ~ In j v)
  | true => exists i, In i v /\ ~ In i l /\ (forall j, In j v -> j < i -> In j l) /\ (forall j, In j l' <-> In j l /\ ~ (In j v /\ j < i))
  end.
Proof.
  induction v as [|i v IH]; intros l l' b S H; cbn [eraseLoop] in H.
  - injection H as <- <-. split; [intros i []|cbn; tauto].
  - assert (Sv : sorted v) by (inversion S; assumption).
    assert (Bv : forall j, In j v -> i < j) by (inversion S; assumption).
    destruct (smem i l) eqn:M.
    + apply smem_in in M. specialize (IH _ _ _ Sv H). destruct b.
      * destruct IH as [k [K1 [K2 [K3 K4]]]]. exists k. assert (i < k) by (apply Bv; exact K1). split; [right; exact K1|]. split; [|split].
        -- intros K. apply K2. apply serase_in. split; [lia|exact K].
        -- intros j [<-|J] L; [exact M|]. apply K3 in J; [|exact L]. apply serase_in in J. tauto.
        -- intros j. rewrite K4, serase_in. cbn [In]. split.
           ++ intros [[N J] K]. split; [exact J|]. intros [[Q|Q] L]; [congruence|apply K; split; assumption].
           ++ intros [J K]. split; [split; [|exact J]|]. { intros ->. apply K. split; [left; reflexivity|assumption]. }
              intros [Q L]. apply K. split; [right; exact Q|exact L].
      * destruct IH as [K1 K2]. split.
        -- intros j [<-|J]; [exact M|]. apply K1 in J. apply serase_in in J. tauto.
        -- intros j. rewrite K2, serase_in. cbn [In]. split; [intros [[N J] K]; split; [exact J|]; intros [Q|Q]; [congruence|exact (K Q)]|].
           intros [J K]. split; [split; [|exact J]|]; [intros ->; apply K; left; reflexivity|intros Q; apply K; right; exact Q].
    + injection H as <- <-. exists i. assert (Ni : ~ In i l) by (rewrite <- smem_in, M; discriminate).
      split; [left; reflexivity|]. split; [exact Ni|]. split.
      * intros j [<-|J] L; [lia|]. apply Bv in J. lia.
      * intros j. split; [intros J; split; [exact J|]|tauto]. intros [[<-|Q] L]; [lia|]. apply Bv in Q. lia.
Qed.

Lemma removeSome_ok st s os st' : removeSome st s os = (st', false) ->
  (forall i, In i os -> holds st s i) /\
  (forall t j, holds st' t j <-> holds st t j /\ ~ (t = s /\ In j os)) /\
  (forall t, owns st' t <-> owns st t /\ (t = s -> inputs st' s <> None)) /\
  (forall t, t <> s -> inputs st' t = inputs st t) /\
  (inputs st' s <> None <-> exists j, holds st' s j).
Proof.
  unfold removeSome, holds, owns, getInput. intros H. destruct (inputs st s) as [l|] eqn:L; [|discriminate].
  destruct (eraseLoop (sofList os) l) as [l' b] eqn:E. apply eraseLoop_spec in E; [|apply sofList_sorted]. destruct b; [discriminate|].
  destruct E as [E1 E2]. split.
  { intros i K. exists l. split; [reflexivity|]. apply E1. apply sofList_in. exact K. }
  assert (F : forall j, In j l' <-> In j l /\ ~ In j os) by (intros j; rewrite E2, sofList_in; tauto). clear E1 E2.
  destruct l' as [|x l'].
  - injection H as <-. cbn. split; [|split; [|split]].
    + intros t j. destruct (Nat.eq_dec t s) as [->|N].
      * rewrite upd_eq, L. split; [intros [l0 [E _]]; discriminate|]. intros [[l0 [E K]] Q]. injection E as <-. exfalso.
        destruct (in_dec Nat.eq_dec j os) as [J|J]; [apply Q; split; [reflexivity|exact J]|].
        apply (proj2 (F j)). split; assumption.
      * rewrite !upd_ne by exact N. tauto.
    + intros t. destruct (Nat.eq_dec t s) as [->|N]; [rewrite !upd_eq; split; [discriminate|]; intros [_ K]; exfalso; exact (K eq_refl eq_refl)|].
      rewrite upd_ne by exact N. split; [intros K; split; [exact K|congruence]|tauto].
    + intros t N. rewrite !upd_ne by exact N. reflexivity.
    + rewrite upd_eq. split; [congruence|]. intros [j [l0 [E _]]]. discriminate.
  - injection H as <-. cbn. split; [|split; [|split]].
    + intros t j. destruct (Nat.eq_dec t s) as [->|N].
      * rewrite upd_eq, L. split.
        -- intros [l0 [E K]]. injection E as <-. apply F in K. destruct K as [K1 K2]. split; [exists l; split; [reflexivity|exact K1]|tauto].
        -- intros [[l0 [E K]] Q]. injection E as <-. eexists. split; [reflexivity|]. apply F. split; [exact K|]. intros J. apply Q. split; [reflexivity|exact J].
      * rewrite upd_ne by exact N. tauto.
    + intros t. rewrite upd_eq. split; [intros K; split; [exact K|discriminate]|tauto].
    + intros t N. apply upd_ne. exact N.
    + rewrite upd_eq. split; [|discriminate]. intros _. exists x, (x :: l'). split; [reflexivity|left; reflexivity].
Qed.

Lemma removeSome_throw st s os st' : removeSome st s os = (st', true) ->
  (inputs st s = None /\ st' = st) \/
  (inputs st s <> None /\ exists i, In i os /\ ~ holds st s i /\ (forall j, In j os -> j < i -> holds st s j) /\
   (forall t j, holds st' t j <-> holds st t j /\ ~ (t = s /\ In j os /\ j < i)) /\ (forall t, owns st' t <-> owns st t) /\
   (forall t, inputs st' t = None <-> inputs st t = None)).
Proof.
  unfold removeSome, holds, owns, getInput. intros H. destruct (inputs st s) as [l|] eqn:L; [|left; injection H as <-; split; reflexivity].
  right. split; [discriminate|].
  destruct (eraseLoop (sofList os) l) as [l' b] eqn:E. apply eraseLoop_spec in E; [|apply sofList_sorted]. destruct b.
  2: { destruct l'; discriminate. }
  injection H as <-. destruct E as [i [E1 [E2 [E3 E4]]]]. exists i. split; [apply sofList_in; exact E1|]. split; [|split; [|split; [|split]]].
  - intros [l0 [Q K]]. injection Q as <-. exact (E2 K).
  - intros j J B. exists l. split; [reflexivity|]. apply E3; [apply sofList_in; exact J|exact B].
  - cbn. intros t j. destruct (Nat.eq_dec t s) as [->|N].
    + rewrite upd_eq, L. split.
      * intros [l0 [Q K]]. injection Q as <-. apply E4 in K. rewrite sofList_in in K. destruct K as [K1 K2]. split; [exists l; split; [reflexivity|exact K1]|tauto].
      * intros [[l0 [Q K]] J]. injection Q as <-. exists l'. split; [reflexivity|]. apply E4. rewrite sofList_in. tauto.
    + rewrite upd_ne by exact N. tauto.
  - cbn. tauto.
  - cbn. intros t. destruct (Nat.eq_dec t s) as [->|N]; [rewrite upd_eq, L; split; discriminate|rewrite upd_ne by exact N; tauto].
Qed.
