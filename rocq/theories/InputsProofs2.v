From Coq Require Import List Bool Arith Lia.
Import ListNotations.
From Verif Require Import InputsModel InputsSpec InputsProofs.
Local Open Scope nat_scope.

Lemma snoc_split {A} (h h1 h2 : list A) o o' : h ++ [o] = h1 ++ o' :: h2 ->
  (h2 = [] /\ h = h1 /\ o = o') \/ (exists h2', h2 = h2' ++ [o] /\ h = h1 ++ o' :: h2').
Proof.
  destruct h2 as [|x h2 _] using rev_ind; intros H.
  - left. apply app_inj_tail in H. tauto.
  - right. exists h2. change (h1 ++ o' :: h2 ++ [x]) with (h1 ++ (o' :: h2) ++ [x]) in H. rewrite app_assoc in H.
    apply app_inj_tail in H. destruct H as [H E]. subst x. split; [reflexivity|exact H].
Qed.

Lemma add_not_remove o s i : addsTo o s i -> ~ removesFrom o s i.
Proof. destruct o; cbn; tauto. Qed.

Lemma requested_snoc h o s i : requested (h ++ [o]) s i <-> addsTo o s i \/ (requested h s i /\ ~ removesFrom o s i).
Proof.
  split.
  - intros [h1 [o' [h2 [E [A R]]]]]. apply snoc_split in E. destruct E as [[-> [-> ->]]|[h3 [-> ->]]]; [left; exact A|].
    right. split.
    + exists h1, o', h3. split; [reflexivity|]. split; [exact A|]. intros r K. apply R. apply in_or_app. left. exact K.
    + apply R. apply in_or_app. right. left. reflexivity.
  - intros [A|[[h1 [o' [h2 [-> [A R]]]]] N]].
    + exists h, o, []. split; [reflexivity|]. split; [exact A|intros r []].
    + exists h1, o', (h2 ++ [o]). split; [rewrite <- app_assoc; reflexivity|]. split; [exact A|]. intros r K. apply in_app_iff in K.
      destruct K as [K|[<-|[]]]; [apply R; exact K|exact N].
Qed.

Lemma kept_snoc h o s : kept (h ++ [o]) s <-> used (h ++ [o]) s /\ (shares o s \/ kept h s).
Proof.
  split.
  - intros [h1 [o' [h2 [E [S U]]]]]. split; [rewrite E; apply (U h2 []); rewrite app_nil_r; reflexivity|].
    apply snoc_split in E. destruct E as [[-> [-> ->]]|[h3 [-> ->]]]; [left; exact S|]. right.
    exists h1, o', h3. split; [reflexivity|]. split; [exact S|]. intros h4 h5 ->. apply (U h4 (h5 ++ [o])). rewrite app_assoc. reflexivity.
  - intros [U [S|[h1 [o' [h2 [-> [S K]]]]]]].
    + exists h, o, []. split; [reflexivity|]. split; [exact S|]. intros h3 h4 E. symmetry in E. apply app_eq_nil in E. destruct E as [-> ->]. exact U.
    + exists h1, o', (h2 ++ [o]). split; [rewrite <- app_assoc; reflexivity|]. split; [exact S|]. intros h3 h4 E.
      destruct h4 as [|x h4 _] using rev_ind.
      * rewrite app_nil_r in E. subst h3. rewrite <- app_assoc in U. exact U.
      * rewrite app_assoc in E. apply app_inj_tail in E. destruct E as [E _]. apply (K h3 h4). exact E.
Qed.

Lemma reached_spec st h : reached st h ->
  (forall s i, holds st s i <-> requested h s i) /\ (forall s, owns st s <-> kept h s) /\ (forall s, getInput st s <> None <-> used h s).
Proof.
  induction 1 as [|st h o st' R [H1 [H2 H3]] NE E|st h o st' R [H1 [H2 H3]] E Sa].
  - split; [|split].
    + intros s i. split; [intros [l [E _]]; discriminate|]. intros [h1 [o [h2 [E _]]]]. destruct h1; discriminate.
    + intros s. split; [discriminate|]. intros [h1 [o [h2 [E _]]]]. destruct h1; discriminate.
    + intros s. split; [intros K; exfalso; apply K; reflexivity|]. intros [i [h1 [o [h2 [E _]]]]]. destruct h1; discriminate.
  - assert (G : (forall s i, holds st' s i <-> requested (h ++ [o]) s i) /\ (forall s, getInput st' s <> None <-> exists i, holds st' s i) /\
      (forall s, owns st' s <-> (exists i, holds st' s i) /\ (shares o s \/ owns st s))).
    { assert (U0 : forall s, getInput st s <> None <-> exists i, holds st s i).
      { intros s. rewrite H3. unfold used. split; intros [i K]; exists i; apply H1; exact K. }
      assert (O0 : forall s, owns st s -> exists i, holds st s i).
      { intros s Q. apply H2 in Q. destruct Q as [h1 [o' [h2 [Eh [_ U]]]]]. destruct (U h2 []) as [i K]; [rewrite app_nil_r; reflexivity|].
        exists i. apply H1. rewrite Eh. exact K. }
      assert (Hs : forall s i, (exists i, holds st' s i) -> holds st' s i -> True) by auto. clear Hs.
      unfold getInput in *. destruct o as [en s os|en s os|s|s os]; cbn [exec] in E.
      - destruct (addRef_spec _ _ _ _ _ _ E) as [B [A1 [A2 [A3 [_ A5]]]]]. symmetry in B. apply negb_false_iff in B.
        rewrite before_all in * by exact B. assert (A2' : forall t, owns st' t <-> owns st t) by (intros t; unfold owns; rewrite A2; tauto).
        split; [|split].
        + intros t j. rewrite requested_snoc, A1, H1. cbn. intuition.
        + intros t. destruct (Nat.eq_dec t s) as [->|N].
          * split; [|intros [i [l [Q _]]] Z; unfold getInput in Q; congruence]. intros _. inversion NE; subst. exists i. apply A1. right. split; [reflexivity|left; reflexivity].
          * rewrite A3 by exact N. rewrite U0. split; intros [i K]; exists i; [apply A1; left; exact K|]. apply A1 in K. destruct K as [K|[K _]]; [exact K|congruence].
        + intros t. rewrite A2'. cbn. split; [intros K; split; [|right; exact K]|tauto]. destruct (O0 t K) as [i Q]. exists i. apply A1. left. exact Q.
      - destruct (addShared_spec _ _ _ _ _ _ E) as [B [A1 [A2 [A3 A5]]]]. symmetry in B. apply negb_false_iff in B.
        rewrite before_all in * by exact B.
        split; [|split].
        + intros t j. rewrite requested_snoc, A1, H1. cbn. intuition.
        + intros t. destruct (Nat.eq_dec t s) as [->|N].
          * split; [|intros [i [l [Q _]]] Z; unfold getInput in Q; congruence]. intros _. inversion NE; subst. exists i. apply A1. right. split; [reflexivity|left; reflexivity].
          * rewrite A3 by exact N. rewrite U0. split; intros [i K]; exists i; [apply A1; left; exact K|]. apply A1 in K. destruct K as [K|[K _]]; [exact K|congruence].
        + intros t. rewrite A2. cbn. split.
          * intros [K|[-> _]].
            -- split; [|right; exact K]. destruct (O0 t K) as [i Q]. exists i. apply A1. left. exact Q.
            -- split; [|left; reflexivity]. inversion NE; subst. exists i. apply A1. right. split; [reflexivity|left; reflexivity].
          * intros [_ [K|K]]; [right; split; [congruence|reflexivity]|left; exact K].
      - unfold removeAll in E. destruct (inputs st s) as [l|] eqn:L; [|discriminate]. injection E as <-. unfold removeEntry, owns, holds, getInput. cbn.
        split; [|split].
        + intros t j. rewrite requested_snoc, <- H1. cbn. unfold holds, getInput. destruct (Nat.eq_dec t s) as [->|N].
          * rewrite upd_eq. split; [intros [l0 [Q _]]; discriminate|]. intros [[]|[_ Q]]. exfalso. apply Q. reflexivity.
          * rewrite upd_ne by exact N. intuition.
        + intros t. destruct (Nat.eq_dec t s) as [->|N].
          * rewrite upd_eq. split; [congruence|]. intros [i [l0 [Q _]]]. discriminate.
          * rewrite upd_ne by exact N. apply U0.
        + intros t. destruct (Nat.eq_dec t s) as [->|N].
          * rewrite !upd_eq. split; [discriminate|]. intros [[i [l0 [Q _]]] _]. discriminate.
          * rewrite !upd_ne by exact N. split; [intros K; split; [apply O0; exact K|right; exact K]|tauto].
      - destruct (removeSome_ok _ _ _ _ E) as [_ [A1 [A2 [A3 A4]]]]. split; [|split].
        + intros t j. rewrite requested_snoc, A1, H1. cbn. intuition.
        + intros t. destruct (Nat.eq_dec t s) as [->|N]; [exact A4|]. rewrite A3 by exact N. rewrite U0.
          split; intros [i K]; exists i; [apply A1; split; [exact K|tauto]|]. apply A1 in K. tauto.
        + intros t. rewrite A2. cbn. destruct (Nat.eq_dec t s) as [->|N].
          * rewrite A4. split; [intros [K1 K2]; split; [apply K2; reflexivity|right; exact K1]|]. intros [K [[]|Q]]. split; [exact Q|intros _; exact K].
          * split.
            -- intros [K _]. split; [|right; exact K]. destruct (O0 t K) as [i Q]. exists i. apply A1. split; [exact Q|tauto].
            -- intros [_ [[]|Q]]. split; [exact Q|congruence]. }
    destruct G as [G1 [G2 G3]].
    assert (GU : forall s, (exists i, holds st' s i) <-> used (h ++ [o]) s).
    { intros s. unfold used. split; intros [i K]; exists i; apply G1; exact K. }
    split; [exact G1|]. split.
    + intros s. rewrite G3, kept_snoc, H2, GU. tauto.
    + intros s. rewrite G2. apply GU.
  - unfold holds, owns in *. split; [|split]; intros s.
    + intros i. rewrite (proj1 (Sa s)). apply H1.
    + rewrite (proj2 (Sa s)). apply H2.
    + rewrite (proj1 (Sa s)). apply H3.
Qed.

(* A call that throws *)
Lemma throws_when st h o : reached st h -> nonempty o -> (snd (exec st o) = true <->
  match o with
  | AddRef en s os | AddShared en s os => exists i, In i os /\ en s i = false
  | RemoveAll s => ~ used h s
  | RemoveSome s os => exists i, In i os /\ ~ requested h s i
  end).
Proof.
  intros R NE. destruct (reached_spec st h R) as [H1 [H2 H3]]. unfold getInput in *. destruct o as [en s os|en s os|s|s os]; cbn [exec].
  - destruct (addRef en st s os) as [st' b] eqn:E. destruct (addRef_spec _ _ _ _ _ _ E) as [B _]. cbn [snd]. rewrite B, negb_true_iff. clear.
    induction os as [|i os IH]; cbn; [split; [discriminate|intros [i [[] _]]]|]. destruct (en s i) eqn:Ei; cbn.
    + rewrite IH. split; intros [j [K Q]]; exists j; [tauto|]. destruct K as [<-|K]; [congruence|tauto].
    + split; [|reflexivity]. intros _. exists i. tauto.
  - destruct (addShared en st s os) as [st' b] eqn:E. destruct (addShared_spec _ _ _ _ _ _ E) as [B _]. cbn [snd]. rewrite B, negb_true_iff. clear.
    induction os as [|i os IH]; cbn; [split; [discriminate|intros [i [[] _]]]|]. destruct (en s i) eqn:Ei; cbn.
    + rewrite IH. split; intros [j [K Q]]; exists j; [tauto|]. destruct K as [<-|K]; [congruence|tauto].
    + split; [|reflexivity]. intros _. exists i. tauto.
  - unfold removeAll. rewrite <- H3. destruct (inputs st s); cbn; split; intros K; try discriminate; try reflexivity.
    + exfalso. apply K. discriminate.
    + intros Q. apply Q. reflexivity.
  - destruct (removeSome st s os) as [st' b] eqn:E. cbn [snd]. destruct b.
    + split; [|reflexivity]. intros _. apply removeSome_throw in E. destruct E as [[E _]|[_ [i [I1 [I2 _]]]]].
      * inversion NE; subst. exists i. split; [left; reflexivity|]. rewrite <- H1. unfold holds, getInput. rewrite E. intros [l [Q _]]. discriminate.
      * exists i. split; [exact I1|]. rewrite <- H1. exact I2.
    + split; [discriminate|]. apply removeSome_ok in E. destruct E as [E _]. intros [i [K Q]]. exfalso. apply Q. apply H1. apply E. exact K.
Qed.

(* What a throwing call leaves *)
Lemma add_throw en sh s os st st' : exec st (if sh : bool then AddShared en s os else AddRef en s os) = (st', true) ->
  (forall t j, holds st' t j <-> holds st t j \/ (t = s /\ In j (before (en s) os))) /\ (forall t, owns st' t <-> owns st t).
Proof.
  destruct sh; cbn [exec]; intros E.
  - destruct (addShared_spec _ _ _ _ _ _ E) as [_ [A1 [A2 _]]]. split; [exact A1|]. intros t. rewrite A2. split; [intros [K|[_ K]]; [exact K|discriminate]|tauto].
  - destruct (addRef_spec _ _ _ _ _ _ E) as [_ [A1 [A2 _]]]. split; [exact A1|]. intros t. unfold owns. rewrite A2. tauto.
Qed.
Lemma removeAll_throw s st st' : exec st (RemoveAll s) = (st', true) -> st' = st.
Proof. cbn. unfold removeAll. destruct (inputs st s); [discriminate|]. intros H. injection H as <-. reflexivity. Qed.
Lemma removeSome_throws s os st st' : exec st (RemoveSome s os) = (st', true) -> getInput st s <> None ->
  exists i, In i os /\ ~ holds st s i /\
   (forall t j, holds st' t j <-> holds st t j /\ ~ (t = s /\ In j os /\ j < i)) /\ (forall t, owns st' t <-> owns st t).
Proof.
  cbn [exec]. intros E N. apply removeSome_throw in E. destruct E as [[E _]|[_ [i [I1 [I2 [_ [I3 [I4 _]]]]]]]]; [contradiction|].
  exists i. split; [exact I1|]. split; [exact I2|]. split; [exact I3|exact I4].
Qed.
Lemma one_output en sh s i st st' : exec st (if sh : bool then AddShared en s [i] else AddRef en s [i]) = (st', true) -> st' = st.
Proof.
  destruct sh; cbn; unfold addShared; cbn; unfold addOne; destruct (en s i); try (destruct (inputs st s); discriminate);
    intros H; injection H as <-; reflexivity.
Qed.
Lemma one_removal s i st st' : exec st (RemoveSome s [i]) = (st', true) ->
  same st st'.
Proof.
  cbn. unfold same, removeSome, getInput. destruct (inputs st s) as [l|] eqn:L; [|intros H; injection H as <-; split; reflexivity].
  cbn. destruct (smem i l) eqn:M.
  - cbn. destruct (serase i l); discriminate.
  - intros H. injection H as <-. intros t. cbn. split; [|reflexivity]. destruct (Nat.eq_dec t s) as [->|N]; [rewrite upd_eq; congruence|apply upd_ne; exact N].
Qed.
