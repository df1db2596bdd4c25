Require Import List Arith Lia Bool Relations Sorting Permutation.
Require Import Verif.Base Verif.GraphModel Verif.GraphSpec Verif.ListLemmas Verif.DisjointSetProofs Verif.GraphProofs.
Import ListNotations.

Lemma before_app l r a b : before l a b -> before (l ++ r) a b.
Proof. intros [l1 [l2 [l3 ->]]]. exists l1, l2, (l3 ++ r). repeat rewrite <- ?app_assoc, <- ?app_comm_cons. reflexivity. Qed.
Lemma before_snoc l a b : In a l -> before (l ++ [b]) a b.
Proof. intros H. apply in_split in H. destruct H as [l1 [l2 ->]]. exists l1, l2, []. rewrite <- app_assoc. reflexivity. Qed.
Lemma before_In l a b : before l a b -> In a l /\ In b l.
Proof. intros [l1 [l2 [l3 ->]]]. split; rewrite in_app_iff; simpl; [auto|]. rewrite in_app_iff. simpl. auto. Qed.

Definition pos (l : list nat) (a k : nat) : Prop := nth_error l k = Some a.
Lemma before_pos l a b : before l a b -> exists i j, pos l a i /\ pos l b j /\ i < j.
Proof.
  intros [l1 [l2 [l3 ->]]]. exists (length l1), (length l1 + S (length l2)). unfold pos. split; [|split].
  - rewrite nth_error_app2, Nat.sub_diag by lia. reflexivity.
  - rewrite nth_error_app2 by lia. replace (length l1 + S (length l2) - length l1) with (S (length l2)) by lia.
    simpl. rewrite nth_error_app2, Nat.sub_diag by lia. reflexivity.
  - lia.
Qed.
Lemma pos_inj l a i j : NoDup l -> pos l a i -> pos l a j -> i = j.
Proof.
  intros N I J. rewrite NoDup_nth_error in N. apply N.
  - apply nth_error_Some. unfold pos in I. congruence.
  - unfold pos in *. congruence.
Qed.
Lemma before_irrefl l a : NoDup l -> ~ before l a a.
Proof. intros N B. apply before_pos in B. destruct B as [i [j [I [J L]]]]. pose proof (pos_inj l a i j N I J). lia. Qed.
Lemma pos_before l a b i j : pos l a i -> pos l b j -> i < j -> before l a b.
Proof.
  intros I J L. apply nth_error_split in I. destruct I as [l1 [l2 [-> <-]]]. unfold pos in J.
  rewrite nth_error_app2 in J by lia. replace (j - length l1) with (S (j - length l1 - 1)) in J by lia. simpl in J.
  apply nth_error_split in J. destruct J as [m1 [m2 [-> _]]]. exists l1, m1, m2. reflexivity.
Qed.
Lemma before_trans l a b c : NoDup l -> before l a b -> before l b c -> before l a c.
Proof.
  intros N B C. apply before_pos in B, C. destruct B as [i [j [I [J L]]]]. destruct C as [j' [k [J' [K L']]]].
  pose proof (pos_inj l b j j' N J J'). subst. eapply pos_before; [exact I|exact K|lia].
Qed.

Section Order.
Variables (g : graph) (a : agraph).
Hypothesis W : gwf g a.
Notation n := (an a).
Notation E := (aE a).

Definition V (s : ost) (x : nat) : Prop := nth x (vis s) false = true.
Definition K (s : ost) (x : nat) : Prop := nth x (stk s) false = true.

Record oinv (s : ost) (us : list (nat * nat)) : Prop := {
  oi_lv : length (vis s) = n;
  oi_lk : length (stk s) = n;
  oi_ord : forall x, In x (ord s) <-> V s x /\ ~ K s x;
  oi_kv : forall x, K s x -> V s x;
  oi_nd : NoDup (ord s);
  oi_dep : dep_first E (ord s);
  oi_rep : represents n (comp s) us;
  oi_us : forall x y, In (x, y) us -> E x y;
  oi_all : forall x y, In x (ord s) -> E x y -> In (x, y) us }.

Definition whites (s : ost) : nat := length (filter (fun x => negb (nth x (vis s) false)) (seq 0 n)).
Lemma whites_mono s s' : (forall x, V s x -> V s' x) -> whites s' <= whites s.
Proof.
  intros H. apply filter_le. intros x. rewrite !negb_true_iff. intros X.
  destruct (nth x (vis s) false) eqn:Y; [|reflexivity]. specialize (H x Y). unfold V in H. congruence.
Qed.
Lemma whites_mark s s' v : v < n -> ~ V s v -> V s' v -> (forall x, V s x -> V s' x) -> whites s' < whites s.
Proof.
  intros L N Y H. apply filter_lt.
  - intros x. rewrite !negb_true_iff. intros X.
    destruct (nth x (vis s) false) eqn:Z; [|reflexivity]. specialize (H x Z). unfold V in H. congruence.
  - exists v. rewrite in_seq. split; [lia|]. rewrite negb_true_iff, negb_false_iff. split; [exact Y|].
    unfold V in N. destruct (nth v (vis s) false); [exfalso; tauto|reflexivity].
Qed.
Lemma whites_le s : whites s <= n.
Proof. unfold whites. rewrite <- (seq_length n 0) at 2. apply filter_len. Qed.

Definition cyc_from (v : nat) : Prop := exists c d, reach E v c /\ E c d /\ reach E d c.

(* what a visit of [v] achieves *)
Definition visited_ok (s : ost) (us : list (nat * nat)) (v : nat) (s' : ost) : Prop :=
  exists us', oinv s' us' /\ (forall x, K s' x <-> K s x) /\ (forall x, V s x -> V s' x) /\
    (forall x, V s' x -> V s x \/ reach E v x) /\ (forall p, In p us -> In p us').
Definition post (v : nat) (P : ost -> Prop) (r : res ost) : Prop :=
  match r with Ok s' => P s' | Throw => cyc_from v | UB => False end.

Lemma reach_step x y z : E x y -> reach E y z -> reach E x z.
Proof. intros A B. eapply rt_trans; [apply rt_step; exact A|exact B]. Qed.

Definition rec_ok (f : nat) : Prop := forall v s us, v < n -> oinv s us -> ~ V s v -> (forall x, K s x -> reach E x v) ->
  whites s < f -> post v (fun s' => visited_ok s us v s' /\ V s' v) (orderUtil f g v s).

Lemma loop_ok f v : rec_ok f -> v < n -> forall cs done s us, kids g v = done ++ cs -> oinv s us -> K s v ->
  (forall x, K s x -> reach E x v) -> whites s < f ->
  (forall y, In y done -> In y (ord s) /\ In (v, y) us) ->
  post v (fun s' => exists us', oinv s' us' /\ (forall x, K s' x <-> K s x) /\ (forall x, V s x -> V s' x) /\
      (forall x, V s' x -> V s x \/ reach E v x) /\ (forall p, In p us -> In p us') /\
      forall y, In y (kids g v) -> In y (ord s') /\ In (v, y) us')
    (orderLoop (orderUtil f g) v cs s).
Proof.
  intros R L. induction cs as [|i cs IH]; intros done s us KE OI KV KR WH DN; cbn [orderLoop].
  - rewrite app_nil_r in KE. simpl. exists us. rewrite KE. split; [exact OI|]. split; [tauto|]. split; [auto|]. split; [auto|]. split; [auto|exact DN].
  - assert (EI : E v i) by (apply (gw_kids _ _ W); rewrite KE, in_app_iff; simpl; auto).
    destruct (gw_range _ _ W v i EI) as [_ LI].
    destruct (represents_unify n (comp s) us v i (oi_rep _ _ OI) L LI) as [d [U RD]]. rewrite U. cbn [bind].
    set (s1 := mkO (ord s) (vis s) (stk s) d).
    assert (OI1 : oinv s1 (us ++ [(v, i)])).
    { constructor; try apply OI.
      - exact RD.
      - intros x y H. apply in_app_or in H. destruct H as [H|[H|[]]]; [apply (oi_us _ _ OI); exact H|].
        injection H as <- <-. exact EI.
      - intros x y H1 H2. apply in_or_app. left. apply (oi_all _ _ OI); assumption. }
    change (vis s1) with (vis s). rewrite (nthR_ok _ i false) by (rewrite (oi_lv _ _ OI); exact LI). cbn [bind].
    destruct (nth i (vis s) false) eqn:VI; cbn [negb].
    + change (stk s1) with (stk s). rewrite (nthR_ok _ i false) by (rewrite (oi_lk _ _ OI); exact LI). cbn [bind].
      destruct (nth i (stk s) false) eqn:KI.
      * simpl. exists v, i. split; [apply rt_refl|]. split; [exact EI|]. apply KR. exact KI.
      * cbn [bind]. assert (KE' : kids g v = (done ++ [i]) ++ cs) by (rewrite <- app_assoc; exact KE).
        specialize (IH (done ++ [i]) s1 (us ++ [(v, i)]) KE' OI1 KV KR WH).
        assert (DN' : forall y, In y (done ++ [i]) -> In y (ord s1) /\ In (v, y) (us ++ [(v, i)])).
        { intros y H. apply in_app_or in H. destruct H as [H|[H|[]]].
          - destruct (DN y H). split; [assumption|]. apply in_or_app. auto.
          - subst y. split; [|apply in_or_app; simpl; auto]. apply (oi_ord _ _ OI). split; [exact VI|].
            unfold K. rewrite KI. discriminate. }
        specialize (IH DN'). destruct (orderLoop (orderUtil f g) v cs s1) as [s'| |]; [|exact IH|exact IH].
        simpl in *. destruct IH as [us' [A1 [A2 [A3 [A4 [A5 A6]]]]]]. exists us'.
        split; [exact A1|]. split; [exact A2|]. split; [exact A3|]. split; [exact A4|]. split; [|exact A6].
        intros p P. apply A5. apply in_or_app. auto.
    + assert (NV : ~ V s1 i) by (unfold V; simpl; rewrite VI; discriminate).
      assert (KR1 : forall x, K s1 x -> reach E x i).
      { intros x X. eapply rt_trans; [apply KR; exact X|apply rt_step; exact EI]. }
      specialize (R i s1 (us ++ [(v, i)]) LI OI1 NV KR1 WH). unfold post in R.
      destruct (orderUtil f g i s1) as [s2| |]; cbn [bind]; [| |destruct R].
      * destruct R as [[us2 [B1 [B2 [B3 [B4 B5]]]]] VI2].
        assert (KE' : kids g v = (done ++ [i]) ++ cs) by (rewrite <- app_assoc; exact KE).
        assert (KV2 : K s2 v) by (apply B2; exact KV).
        assert (KR2 : forall x, K s2 x -> reach E x v) by (intros x X; apply KR; apply B2 in X; exact X).
        assert (WH2 : whites s2 < f) by (pose proof (whites_mono s1 s2 B3); change (whites s1) with (whites s) in *; lia).
        assert (DN' : forall y, In y (done ++ [i]) -> In y (ord s2) /\ In (v, y) us2).
        { intros y H. apply in_app_or in H. destruct H as [H|[H|[]]].
          - destruct (DN y H) as [D1 D2]. split; [|apply B5, in_or_app; auto].
            apply (oi_ord _ _ B1). apply (oi_ord _ _ OI) in D1. destruct D1 as [D1 D3]. split; [apply B3; exact D1|].
            intros C. apply D3. apply B2 in C. exact C.
          - subst y. split; [|apply B5, in_or_app; simpl; auto].
            apply (oi_ord _ _ B1). split; [exact VI2|]. intros C. apply B2 in C. apply NV. apply (oi_kv _ _ OI1). exact C. }
        specialize (IH (done ++ [i]) s2 us2 KE' B1 KV2 KR2 WH2 DN').
        destruct (orderLoop (orderUtil f g) v cs s2) as [s'| |]; [|exact IH|exact IH].
        simpl in *. destruct IH as [us' [A1 [A2 [A3 [A4 [A5 A6]]]]]]. exists us'.
        split; [exact A1|]. split; [intros x; rewrite A2; apply B2|]. split; [intros x X; apply A3, B3; exact X|].
        split; [|split; [|exact A6]].
        -- intros x X. destruct (A4 x X) as [Y|Y]; [|auto]. destruct (B4 x Y) as [Z|Z]; [auto|].
           right. apply (reach_step v i x EI Z).
        -- intros p P. apply A5, B5, in_or_app. auto.
      * simpl. destruct R as [c [d' [R1 [R2 R3]]]]. exists c, d'. split; [apply (reach_step v i c EI R1)|]. auto.
Qed.

Lemma orderUtil_ok f : rec_ok f.
Proof.
  induction f as [|f IH]; intros v s us L OI NV KR WH; [lia|].
  cbn [orderUtil]. rewrite (nthR_ok _ v false) by (rewrite (oi_lv _ _ OI); exact L). cbn [bind].
  assert (VV : nth v (vis s) false = false) by (unfold V in NV; destruct (nth v (vis s) false); [tauto|reflexivity]).
  rewrite VV. cbn [negb]. rewrite (nthR_ok _ v []) by (rewrite (gw_children _ _ W); exact L). cbn [bind].
  fold (kids g v). set (s1 := mkO (ord s) (setN (vis s) v true) (setN (stk s) v true) (comp s)).
  assert (V1 : forall x, V s1 x <-> V s x \/ x = v).
  { intros x. unfold V. simpl. rewrite nth_setN by (rewrite (oi_lv _ _ OI); exact L).
    destruct (Nat.eqb v x) eqn:Q; [apply Nat.eqb_eq in Q|apply Nat.eqb_neq in Q]; intuition congruence. }
  assert (K1 : forall x, K s1 x <-> K s x \/ x = v).
  { intros x. unfold K. simpl. rewrite nth_setN by (rewrite (oi_lk _ _ OI); exact L).
    destruct (Nat.eqb v x) eqn:Q; [apply Nat.eqb_eq in Q|apply Nat.eqb_neq in Q]; intuition congruence. }
  assert (OI1 : oinv s1 us).
  { constructor; try apply OI.
    - simpl. rewrite setN_length. apply OI.
    - simpl. rewrite setN_length. apply OI.
    - intros x. rewrite V1, K1. simpl. rewrite (oi_ord _ _ OI). split.
      + intros [H1 H2]. split; [auto|]. intros [H|H]; [auto|subst; auto].
      + intros [[H1|H1] H2]; [split; [exact H1|tauto]|tauto].
    - intros x. rewrite V1, K1. intros [H|H]; [left; apply (oi_kv _ _ OI); exact H|auto]. }
  assert (WH1 : whites s1 < f).
  { assert (whites s1 < whites s); [|lia]. apply (whites_mark s s1 v L NV).
    - apply V1. auto.
    - intros x X. apply V1. auto. }
  assert (KV1 : K s1 v) by (apply K1; auto).
  assert (KR1 : forall x, K s1 x -> reach E x v) by (intros x X; apply K1 in X; destruct X as [X|X]; [auto|subst; apply rt_refl]).
  pose proof (loop_ok f v IH L (kids g v) [] s1 us eq_refl OI1 KV1 KR1 WH1 (fun y H => match H with end)) as P.
  unfold post in P. destruct (orderLoop (orderUtil f g) v (kids g v) s1) as [s2| |]; cbn [bind]; [|exact P|exact P].
  destruct P as [us2 [A1 [A2 [A3 [A4 [A5 A6]]]]]]. simpl.
  set (s3 := mkO (ord s2 ++ [v]) (vis s2) (setN (stk s2) v false) (comp s2)).
  assert (VV2 : V s2 v) by (apply A3, V1; auto).
  assert (K3 : forall x, K s3 x <-> K s x).
  { intros x. unfold K at 1. simpl. rewrite nth_setN by (rewrite (oi_lk _ _ A1); exact L).
    destruct (Nat.eqb v x) eqn:Q.
    - apply Nat.eqb_eq in Q. subst x. split; [discriminate|]. intros H. exfalso. apply NV. apply (oi_kv _ _ OI). exact H.
    - apply Nat.eqb_neq in Q. fold (K s2 x). rewrite A2, K1. intuition congruence. }
  assert (NO : ~ In v (ord s2)).
  { intros H. apply (oi_ord _ _ A1) in H. apply (proj2 H). apply A2. exact KV1. }
  split; [|exact VV2]. exists us2. split; [|split; [exact K3|split; [|split; [|intros p Pp; exact (A5 p Pp)]]]].
  - constructor; try apply A1.
    + simpl. rewrite setN_length. apply A1.
    + intros x. cbn [ord s3]. rewrite in_app_iff, (oi_ord _ _ A1), K3, A2, K1. change (V s3 x) with (V s2 x). simpl. split.
      * intros [[H1 H2]|[H|[]]]; [tauto|]. subst x. split; [exact VV2|]. intros H. apply NV, (oi_kv _ _ OI), H.
      * intros [H1 H2]. destruct (Nat.eq_dec v x); [auto|]. left. split; [exact H1|]. intros [C|C]; [auto|congruence].
    + intros x X. apply K3 in X. apply A3, V1. left. apply (oi_kv _ _ OI). exact X.
    + cbn [ord s3]. apply NoDup_snoc; [apply A1|exact NO].
    + cbn [ord s3]. intros x y X Y. apply in_app_or in X. destruct X as [X|[X|[]]].
      * apply before_app. apply (oi_dep _ _ A1); assumption.
      * subst x. apply before_snoc. apply A6. apply (gw_kids _ _ W). exact Y.
    + cbn [ord s3]. intros x y X Y. apply in_app_or in X. destruct X as [X|[X|[]]].
      * apply (oi_all _ _ A1); assumption.
      * subst x. apply A6. apply (gw_kids _ _ W). exact Y.
  - intros x X. apply A3, V1. auto.
  - intros x X. destruct (A4 x X) as [Y|Y]; [|auto]. apply V1 in Y. destruct Y as [Y|Y]; [auto|]. subst x. right. apply rt_refl.
Qed.

Definition from_roots (bound : nat) (x : nat) : Prop := exists r, r < bound /\ is_root a r /\ reach E r x.
Definition s_init : ost := mkO [] (repeat false n) (repeat false n) (ds_init n).
Lemma init_oinv : oinv s_init [].
Proof.
  constructor; simpl; try (apply repeat_length).
  - intros x. unfold V, K. simpl. rewrite nth_repeat'. split; [tauto|]. intros [H _]. discriminate.
  - intros x. unfold K. simpl. rewrite nth_repeat'. discriminate.
  - constructor.
  - intros x y [].
  - apply represents_init.
  - tauto.
  - tauto.
Qed.

Lemma reach_into x y : reach E x y -> x = y \/ exists z, E z y.
Proof.
  intros H. apply clos_rt_rtn1 in H. inversion H; subst; [auto|eauto].
Qed.

Lemma roots_ok l : forall k s us, l = seq k (n - k) -> k <= n -> oinv s us -> (forall x, ~ K s x) ->
  (forall x, V s x <-> from_roots k x) ->
  match orderRoots (S n) g l s with
  | Ok s' => exists us', oinv s' us' /\ (forall x, ~ K s' x) /\ (forall x, V s' x <-> from_roots n x)
  | Throw => exists r, is_root a r /\ cyc_from r
  | UB => False
  end.
Proof.
  induction l as [|i l IH]; intros k s us LE LK OI NK VS; cbn [orderRoots].
  - assert (k = n) by (destruct (n - k) eqn:Q; [lia|discriminate LE]). subst k. exists us. auto.
  - destruct (n - k) as [|m] eqn:Q; [discriminate LE|]. simpl in LE. injection LE as -> LE.
    assert (LE' : l = seq (S k) (n - S k)) by (rewrite LE; f_equal; lia).
    rewrite (nthR_ok _ k false) by (rewrite (gw_roots _ _ W); lia). cbn [bind].
    destruct (nth k (roots_ g) false) eqn:R.
    + assert (RR : is_root a k) by (apply (gw_root _ _ W); exact R).
      assert (NV : ~ V s k).
      { intros H. apply VS in H. destruct H as [r [H1 [H2 H3]]]. apply reach_into in H3. destruct H3 as [H3|[z H3]]; [lia|].
        apply RR in H3. exact H3. }
      assert (P := orderUtil_ok (S n) k s us (proj1 RR) OI NV (fun x X => match NK x X with end) ltac:(pose proof (whites_le s); lia)).
      unfold post in P. destruct (orderUtil (S n) g k s) as [s'| |]; cbn [bind]; [| |exact P].
      * destruct P as [[us' [B1 [B2 [B3 [B4 B5]]]]] VK].
        apply (IH (S k) s' us' LE'); [lia|exact B1|intros x X; apply B2 in X; exact (NK x X)|].
        intros x. split.
        -- intros X. destruct (B4 x X) as [Y|Y].
           ++ apply VS in Y. destruct Y as [r [Y1 Y2]]. exists r. split; [lia|exact Y2].
           ++ exists k. split; [lia|]. split; [exact RR|exact Y].
        -- intros [r [X1 [X2 X3]]]. destruct (Nat.eq_dec r k) as [->|N].
           ++ (* all nodes reachable from a finished node are finished *)
              assert (C : forall y z, reach E y z -> In y (ord s') -> In z (ord s')).
              { intros y z H. unfold reach in H. induction H as [y z H|y|y u z H1 IH1 H2 IH2]; intros I1; auto.
                apply (proj1 (before_In _ _ _ (oi_dep _ _ B1 y z I1 H))). }
              apply (proj1 (oi_ord _ _ B1 x)). apply (C k x X3). apply (oi_ord _ _ B1). split; [exact VK|].
              intros Y. apply B2 in Y. exact (NK k Y).
           ++ apply B3, VS. exists r. split; [lia|auto].
      * exists k. auto.
    + cbn [bind]. apply (IH (S k) s us LE'); [lia|exact OI|exact NK|]. intros x. rewrite VS. split; intros [r [X1 [X2 X3]]].
      * exists r. split; [lia|auto].
      * exists r. split; [|auto]. destruct (Nat.eq_dec r k) as [->|N]; [|lia].
        apply (gw_root _ _ W) in X2. congruence.
Qed.

Definition reached (x : nat) : Prop := exists r, is_root a r /\ reach E r x.
Lemma from_roots_n x : from_roots n x <-> reached x.
Proof. split; intros [r H]; exists r; [tauto|]. split; [apply (proj1 H)|exact H]. Qed.

Lemma existsb_roots : existsb (fun b => b) (roots_ g) = true <-> exists r, is_root a r.
Proof.
  rewrite existsb_exists. split.
  - intros [b [H ->]]. apply (In_nth _ _ false) in H. destruct H as [r [_ H]]. exists r. apply (gw_root _ _ W). exact H.
  - intros [r H]. exists true. split; [|reflexivity]. apply (gw_root _ _ W) in H. rewrite <- H. apply nth_In.
    destruct (lt_dec r (length (roots_ g))); [assumption|]. rewrite nth_overflow in H by lia. discriminate.
Qed.

(* order_ in one statement *)
Lemma order__spec :
  match order_ g with
  | Ok (l, d) => exists us, NoDup l /\ dep_first E l /\ (forall x, In x l <-> reached x) /\
      represents n d us /\ (forall x y, In (x, y) us -> E x y) /\ (forall x y, In x l -> E x y -> In (x, y) us) /\
      (0 < n -> exists r, is_root a r)
  | Throw => (0 < n /\ forall r, ~ is_root a r) \/ exists r, is_root a r /\ cyc_from r
  | UB => False
  end.
Proof.
  unfold order_. rewrite (gw_roots _ _ W). fold s_init.
  pose proof (roots_ok (seq 0 n) 0 s_init [] ltac:(f_equal; lia) ltac:(lia) init_oinv
    ltac:(intros x; unfold K; simpl; rewrite nth_repeat'; discriminate)
    ltac:(intros x; unfold V; simpl; rewrite nth_repeat'; split; [discriminate|intros [r [H _]]; lia])) as P.
  destruct (orderRoots (S n) g (seq 0 n) s_init) as [s| |]; cbn [bind]; [|auto|exact P].
  destruct P as [us [OI [NK VS]]].
  destruct (negb (existsb (fun b => b) (roots_ g)) && negb (Nat.eqb n 0)) eqn:Q.
  - apply andb_true_iff in Q. rewrite !negb_true_iff, Nat.eqb_neq in Q. left. split; [lia|].
    intros r R. assert (existsb (fun b => b) (roots_ g) = true) by (apply existsb_roots; eauto). destruct Q. congruence.
  - exists us. split; [apply OI|]. split; [apply OI|]. split.
    { intros x. rewrite (oi_ord _ _ OI), VS, from_roots_n. split; [tauto|]. intros H. split; [exact H|apply NK]. }
    split; [apply OI|]. split; [apply OI|]. split; [apply OI|].
    intros LT. apply andb_false_iff in Q. rewrite !negb_false_iff, Nat.eqb_eq in Q.
    destruct Q as [Q|Q]; [|lia]. apply existsb_roots. exact Q.
Qed.

(* acyclic graphs *)
Lemma reach_range x y : reach E x y -> x < n -> y < n.
Proof. unfold reach. induction 1; auto. intros _. apply (gw_range _ _ W) in H. tauto. Qed.

(* going up from a node that no root reaches finds a cycle: pigeonhole on walks *)
Lemma walk_up x k : ~ reached x -> x < n -> exists l, length l = S k /\ (forall y, In y l -> ~ reached y /\ y < n) /\
  (forall i y z, nth_error l i = Some y -> nth_error l (S i) = Some z -> E y z) /\ (exists y0, hd_error l = Some y0).
Proof.
  intros NR L. induction k as [|k IH].
  - exists [x]. split; [reflexivity|]. split; [intros y [<-|[]]; auto|]. split; [|exists x; reflexivity].
    intros i y z _ H. destruct i; discriminate H.
  - destruct IH as [l [LL [IN [ED [y0 HD]]]]]. destruct l as [|h l]; [discriminate|]. simpl in HD. injection HD as ->.
    destruct (IN y0 (or_introl eq_refl)) as [NR0 L0].
    assert (EX : exists p, E p y0).
    { assert (NRt : nth y0 (roots_ g) false <> true).
      { intros H. apply (gw_root _ _ W) in H. apply NR0. exists y0. split; [exact H|apply rt_refl]. }
      assert (D : (exists p, In p (seq 0 n) /\ In (p, y0) (edges_ g)) \/ forall p, In p (seq 0 n) -> ~ In (p, y0) (edges_ g)).
      { clear. induction (seq 0 n) as [|p ps IH]; [right; simpl; tauto|].
        assert (DE : forall x y : nat * nat, {x = y} + {x <> y}) by (decide equality; apply Nat.eq_dec).
        destruct (in_dec DE (p, y0) (edges_ g)); [left; exists p; simpl; auto|].
        destruct IH as [[q [Q1 Q2]]|IH]; [left; exists q; simpl; auto|]. right. intros q [<-|Q]; auto. }
      destruct D as [[p [_ P]]|D]; [exists p; apply (gw_edges _ _ W); exact P|].
      exfalso. apply NRt. apply (gw_root _ _ W). split; [exact L0|]. intros b B.
      apply (D b); [apply in_seq; apply (gw_range _ _ W) in B; lia|apply (gw_edges _ _ W); exact B]. }
    destruct EX as [p P]. exists (p :: y0 :: l). split; [simpl in *; lia|]. split; [|split; [|exists p; reflexivity]].
    + intros y [<-|Y]; [|apply IN; exact Y]. split; [|apply (gw_range _ _ W) in P; tauto].
      intros [r [R1 R2]]. apply NR0. exists r. split; [exact R1|]. eapply rt_trans; [exact R2|apply rt_step; exact P].
    + intros [|i] y z; [|apply (ED i y z)]. simpl. intros H1 H2. injection H1 as <-. injection H2 as <-. exact P.
Qed.
Lemma walk_reach l : (forall i y z, nth_error l i = Some y -> nth_error l (S i) = Some z -> E y z) ->
  forall k i y z, nth_error l i = Some y -> nth_error l (i + k) = Some z -> reach E y z.
Proof.
  intros ED. induction k as [|k IH]; intros i y z H1 H2.
  - rewrite Nat.add_0_r in H2. rewrite H1 in H2. injection H2 as ->. apply rt_refl.
  - destruct (nth_error l (S i)) as [w|] eqn:Q.
    + eapply reach_step; [apply (ED i y w H1 Q)|]. apply (IH (S i) w z Q). rewrite <- H2. f_equal. lia.
    + apply nth_error_None in Q. assert (nth_error l (i + S k) = None) by (apply nth_error_None; lia). congruence.
Qed.
Lemma not_nodup l : ~ NoDup (A := nat) l -> exists i j y, i < j /\ nth_error l i = Some y /\ nth_error l j = Some y.
Proof.
  induction l as [|x l IH]; intros N; [exfalso; apply N; constructor|].
  destruct (in_dec Nat.eq_dec x l) as [H|H].
  - apply In_nth_error in H. destruct H as [j H]. exists 0, (S j), x. split; [lia|]. auto.
  - destruct IH as [i [j [y [L [A B]]]]]; [intros C; apply N; constructor; assumption|].
    exists (S i), (S j), y. split; [lia|]. auto.
Qed.
Lemma unreached_cycle x : x < n -> ~ reached x -> cyclic E.
Proof.
  intros L NR. destruct (walk_up x n NR L) as [l [LL [IN [ED _]]]].
  assert (ND : ~ NoDup l).
  { intros H. assert (incl l (seq 0 n)) by (intros y Y; apply in_seq; apply IN in Y; lia).
    pose proof (NoDup_incl_length H H0). rewrite seq_length in H1. lia. }
  apply not_nodup in ND. destruct ND as [i [j [y [LT [A B]]]]].
  destruct (nth_error l (S i)) as [w|] eqn:Q.
  - exists y, w. split; [apply (ED i); assumption|]. apply (walk_reach l ED (j - S i) (S i) w y Q). rewrite <- B. f_equal. lia.
  - apply nth_error_None in Q. assert (nth_error l j = None) by (apply nth_error_None; lia). congruence.
Qed.
Lemma reached_dec x : reached x \/ ~ reached x \/ order_ g = Throw.
Proof.
  pose proof order__spec as S. destruct (order_ g) as [[l d]| |]; [|auto|destruct S].
  destruct S as [us [_ [_ [H _]]]]. destruct (in_dec Nat.eq_dec x l) as [I|I]; rewrite H in I; auto.
Qed.

Lemma no_cycle_in_order l : NoDup l -> dep_first E l -> forall v, In v l -> ~ cyc_from v.
Proof.
  intros ND DF v I [c [d [R [EC RD]]]].
  assert (C : forall y z, reach E y z -> In y l -> In z l /\ (y = z \/ before l z y)).
  { intros y z H. unfold reach in H. induction H as [y z H|y|y u z H1 IH1 H2 IH2]; intros I1.
    - pose proof (DF y z I1 H) as B. split; [apply (proj1 (before_In _ _ _ B))|auto].
    - auto.
    - destruct (IH1 I1) as [I2 B1]. destruct (IH2 I2) as [I3 B2]. split; [exact I3|].
      destruct B1 as [->|B1]; [exact B2|]. destruct B2 as [->|B2]; [auto|]. right. eapply before_trans; eassumption. }
  destruct (C v c R I) as [IC _]. pose proof (DF c d IC EC) as B. destruct (before_In _ _ _ B) as [ID _].
  destruct (C d c RD ID) as [_ [->|B2]]; [exact (before_irrefl l c ND B)|].
  apply (before_irrefl l c ND). eapply before_trans; eassumption.
Qed.

(* C13 *)
Lemma order_spec :
  match order g with
  | Ok l => NoDup l /\ dep_first E l /\ (forall x, In x l <-> exists r, is_root a r /\ reach E r x)
  | Throw => cyclic E
  | UB => False
  end.
Proof.
  unfold order. pose proof order__spec as S. destruct (order_ g) as [[l d]| |]; simpl; [| |exact S].
  - destruct S as [us [A [B [C _]]]]. auto.
  - destruct S as [[L NR]|[r [_ [c [d [_ [H1 H2]]]]]]]; [|exists c, d; auto].
    apply (unreached_cycle 0 L). intros [r [R _]]. exact (NR r R).
Qed.
Lemma order_throws : order g = Throw <->
  (0 < n /\ forall r, ~ is_root a r) \/ exists r c d, is_root a r /\ reach E r c /\ E c d /\ reach E d c.
Proof.
  unfold order. pose proof order__spec as S. destruct (order_ g) as [[l d]| |]; simpl; [| |destruct S].
  - split; [discriminate|]. destruct S as [us [A [B [C [_ [_ [_ H]]]]]]]. intros [[L NR]|[r [c [d' [R1 R2]]]]]; exfalso.
    + destruct (H L) as [r R]. exact (NR r R).
    + apply (no_cycle_in_order l A B r); [apply C; exists r; split; [exact R1|apply rt_refl]|]. exists c, d'. exact R2.
  - split; [intros _|reflexivity]. destruct S as [S|[r [R [c [d H]]]]]; [auto|]. right. exists r, c, d. auto.
Qed.
Lemma order_acyclic : ~ cyclic E -> exists l, order g = Ok l /\ Permutation l (seq 0 n) /\ dep_first E l.
Proof.
  intros NC. pose proof order_spec as S. destruct (order g) as [l| |]; [|tauto|destruct S].
  exists l. destruct S as [A [B C]]. split; [reflexivity|]. split; [|exact B].
  apply NoDup_Permutation; [exact A|apply seq_NoDup|]. intros x. rewrite C, in_seq. split.
  - intros [r [R1 R2]]. pose proof (reach_range r x R2 (proj1 R1)). lia.
  - intros [_ L]. simpl in L. fold (reached x). pose proof order__spec as S.
    destruct (in_dec Nat.eq_dec x l) as [I|I]; [apply C in I; exact I|].
    exfalso. apply NC. apply (unreached_cycle x L). intros H. apply I, C. exact H.
Qed.

(* ---------- groupedOrder ---------- *)
Lemma groupMap_ok (d : ds) rt : dinv n d rt -> forall l k m c, l = seq k (n - k) -> k <= n -> length m = n ->
  exists m' c', groupMap d l m c = Ok (m', c') /\ length m' = n /\ c <= c' /\
    (forall i, i < k -> nth i m' 0 = nth i m 0) /\
    (forall i, k <= i -> i < n -> rt i = i -> c <= nth i m' 0 < c') /\
    (forall i j, k <= i -> i < n -> rt i = i -> k <= j -> j < n -> rt j = j -> nth i m' 0 = nth j m' 0 -> i = j) /\
    (forall q, c <= q -> q < c' -> exists i, k <= i < n /\ rt i = i /\ nth i m' 0 = q).
Proof.
  intros D. assert (IR : forall i, i < n -> ds_isRoot d i = Ok (Nat.eqb (rt i) i)).
  { intros i I. unfold ds_isRoot. rewrite (nthR_par n d rt i D I). cbn [bind]. f_equal.
    destruct (Nat.eqb_spec (par d i) i) as [Q|Q]; symmetry.
    - apply Nat.eqb_eq. apply (di_self _ _ _ D i I Q).
    - apply Nat.eqb_neq. intros F'. apply Q. rewrite <- F' at 1. rewrite (di_fix _ _ _ D i I). exact F'. }
  induction l as [|i l IH]; intros k m c LE LK LM; cbn [groupMap].
  - assert (k = n) by (destruct (n - k) eqn:Q; [lia|discriminate LE]). subst k. exists m, c.
    split; [reflexivity|]. split; [exact LM|]. split; [lia|]. split; [auto|]. split; [lia|]. split; [lia|]. intros; lia.
  - destruct (n - k) as [|p] eqn:Q; [discriminate LE|]. simpl in LE. injection LE as -> LE.
    assert (LE' : l = seq (S k) (n - S k)) by (rewrite LE; f_equal; lia).
    rewrite (IR k) by lia. cbn [bind]. destruct (Nat.eqb_spec (rt k) k) as [R|R].
    + destruct (IH (S k) (setN m k c) (S c) LE') as [m' [c' [G [L' [LC [OLD [RNG [INJ SUR]]]]]]]]; [lia|rewrite setN_length; exact LM|].
      assert (MK : nth k m' 0 = c) by (rewrite OLD by lia; apply setN_same; lia).
      exists m', c'. split; [exact G|]. split; [exact L'|]. split; [lia|]. split; [|split; [|split]].
      * intros i I. rewrite OLD by lia. apply setN_other. lia.
      * intros i I1 I2 I3. destruct (Nat.eq_dec i k) as [->|N]; [rewrite MK; lia|].
        pose proof (RNG i ltac:(lia) I2 I3). lia.
      * intros i j I1 I2 I3 J1 J2 J3 EQ. destruct (Nat.eq_dec i k) as [->|N]; destruct (Nat.eq_dec j k) as [->|N']; auto.
        -- rewrite MK in EQ. pose proof (RNG j ltac:(lia) J2 J3). lia.
        -- rewrite MK in EQ. pose proof (RNG i ltac:(lia) I2 I3). lia.
        -- apply INJ; auto; lia.
      * intros q Q1 Q2. destruct (Nat.eq_dec q c) as [->|N]; [exists k; split; [lia|]; auto|].
        destruct (SUR q ltac:(lia) Q2) as [i [I1 I2]]. exists i. split; [lia|exact I2].
    + destruct (IH (S k) m c LE') as [m' [c' [G [L' [LC [OLD [RNG [INJ SUR]]]]]]]]; [lia|exact LM|].
      exists m', c'. split; [exact G|]. split; [exact L'|]. split; [exact LC|]. split; [|split; [|split]].
      * intros i I. apply OLD. lia.
      * intros i I1 I2 I3. destruct (Nat.eq_dec i k) as [->|N]; [congruence|]. apply RNG; auto; lia.
      * intros i j I1 I2 I3 J1 J2 J3. destruct (Nat.eq_dec i k) as [->|N]; [congruence|].
        destruct (Nat.eq_dec j k) as [->|N']; [congruence|]. apply INJ; auto; lia.
      * intros q Q1 Q2. destruct (SUR q Q1 Q2) as [i [I1 I2]]. exists i. split; [lia|exact I2].
Qed.

Lemma fill_ok (d : ds) rt m c : dinv n d rt -> length m = n -> (forall i, i < n -> nth (rt i) m 0 < c) ->
  forall l gs, (forall x, In x l -> x < n) -> length gs = c ->
  exists gs', fillGroups d m l gs = Ok gs' /\ length gs' = c /\
    forall q, q < c -> nth q gs' [] = nth q gs [] ++ filter (fun x => Nat.eqb (nth (rt x) m 0) q) l.
Proof.
  intros D LM MB. induction l as [|x l IH]; intros gs IN LG; cbn [fillGroups].
  - exists gs. split; [reflexivity|]. split; [exact LG|]. intros q _. simpl. rewrite app_nil_r. reflexivity.
  - assert (X : x < n) by (apply IN; simpl; auto). rewrite (root_ok n d rt x D X). cbn [bind].
    pose proof (di_rt _ _ _ D x X) as RX. rewrite (nthR_ok m (rt x) 0) by lia. cbn [bind].
    pose proof (MB x X) as MX. rewrite (nthR_ok gs _ []) by lia. cbn [bind].
    destruct (IH (setN gs (nth (rt x) m 0) (nth (nth (rt x) m 0) gs [] ++ [x]))) as [gs' [F [L' H]]].
    { intros y Y. apply IN. simpl. auto. } { rewrite setN_length. exact LG. }
    exists gs'. split; [exact F|]. split; [exact L'|]. intros q Q. rewrite (H q Q), nth_setN by lia. cbn [filter].
    destruct (Nat.eqb_spec (nth (rt x) m 0) q) as [->|N]; [rewrite <- app_assoc|]; reflexivity.
Qed.

Lemma before_filter l p x y : before l x y -> p x = true -> p y = true -> before (filter p l) x y.
Proof.
  intros [l1 [l2 [l3 ->]]] X Y. exists (filter p l1), (filter p l2), (filter p l3).
  rewrite filter_app. cbn [filter]. rewrite X, filter_app. cbn [filter]. rewrite Y. reflexivity.
Qed.

Lemma linked_us us l x y : (forall u v, In (u, v) us -> E u v) -> (forall u v, In u l -> E u v -> In (u, v) us) ->
  (forall u, In u l <-> u < n) -> (pairs_linked us x y <-> linked E x y).
Proof.
  intros H1 H2 H3. unfold pairs_linked, linked. split; intros H; induction H.
  - apply rst_step. apply H1. assumption.
  - apply rst_refl.
  - apply rst_sym. assumption.
  - eapply rst_trans; eassumption.
  - apply rst_step. apply H2; [|assumption]. apply H3. apply (gw_range _ _ W) in H. tauto.
  - apply rst_refl.
  - apply rst_sym. assumption.
  - eapply rst_trans; eassumption.
Qed.

Lemma NoDup_filter' {A} (p : A -> bool) l : NoDup l -> NoDup (filter p l).
Proof.
  induction 1 as [|x l N H IH]; simpl; [constructor|]. destruct (p x); [|exact IH]. constructor; [|exact IH].
  rewrite filter_In. tauto.
Qed.

(* C14 *)
Lemma grouped_acyclic : ~ cyclic E -> exists gs, groupedOrder g = Ok gs /\
  (forall x, x < n -> exists grp, In grp gs /\ In x grp) /\
  (forall i j gi gj x y, nth_error gs i = Some gi -> nth_error gs j = Some gj -> In x gi -> In y gj ->
     x < n /\ y < n /\ (i = j <-> linked E x y)) /\
  (forall grp, In grp gs -> grp <> [] /\ NoDup grp /\ dep_first E grp).
Proof.
  intros NC. destruct (order_acyclic NC) as [l [OK [PM DF]]]. unfold groupedOrder. rewrite (gw_roots _ _ W).
  unfold order in OK. pose proof order__spec as S.
  destruct (order_ g) as [[l0 d]| |]; cbn [bind] in *; [|discriminate|discriminate].
  injection OK as ->. destruct S as [us [ND [_ [_ [[rt [D RL]] [US1 [US2 _]]]]]]].
  assert (IL : forall x, In x l <-> x < n).
  { intros x. split; intros H.
    - apply (Permutation_in _ PM) in H. apply in_seq in H. lia.
    - apply (Permutation_in _ (Permutation_sym PM)). apply in_seq. lia. }
  destruct (groupMap_ok d rt D (seq 0 n) 0 (repeat 0 n) 0) as [m [c [G [LM [_ [_ [RNG [INJ SUR]]]]]]]];
    [f_equal; lia|lia|apply repeat_length|].
  rewrite G. cbn [bind].
  assert (RB : forall i, i < n -> rt (rt i) = rt i) by (intros; apply (rt_idem n d rt i D); assumption).
  assert (RN : forall i, i < n -> rt i < n) by apply (di_rt _ _ _ D).
  assert (MB : forall i, i < n -> nth (rt i) m 0 < c).
  { intros i I. apply (RNG (rt i)); [lia|apply RN, I|apply RB, I]. }
  destruct (fill_ok d rt m c D LM MB l (repeat [] c)) as [gs [F [LG FI]]].
  { intros x X. apply IL. exact X. } { apply repeat_length. }
  exists gs. split; [exact F|].
  assert (FI' : forall q, q < c -> nth q gs [] = filter (fun x => Nat.eqb (nth (rt x) m 0) q) l).
  { intros q Q. rewrite (FI q Q). rewrite nth_repeat'. reflexivity. }
  assert (GE : forall q grp, nth_error gs q = Some grp -> q < c /\ grp = filter (fun x => Nat.eqb (nth (rt x) m 0) q) l).
  { intros q grp H. assert (Q : q < c) by (rewrite <- LG; apply nth_error_Some; congruence). split; [exact Q|].
    rewrite <- FI' by exact Q. symmetry. apply nth_error_nth. exact H. }
  split; [|split].
  - intros x X. exists (nth (nth (rt x) m 0) gs []). split; [apply nth_In; rewrite LG; apply MB, X|].
    rewrite FI' by (apply MB, X). apply filter_In. split; [apply IL, X|apply Nat.eqb_refl].
  - intros i j gi gj x y GI GJ XI YJ. destruct (GE i gi GI) as [IC ->]. destruct (GE j gj GJ) as [JC ->].
    apply filter_In in XI. apply filter_In in YJ. destruct XI as [X1 X2]. destruct YJ as [Y1 Y2].
    apply IL in X1, Y1. apply Nat.eqb_eq in X2, Y2. split; [exact X1|]. split; [exact Y1|].
    rewrite <- (linked_us us l x y US1 US2 IL), <- (RL x y X1 Y1). split.
    + intros ->. apply (INJ (rt x) (rt y)); auto; try lia.
    + intros H. rewrite <- X2, <- Y2, H. reflexivity.
  - intros grp H. apply In_nth_error in H. destruct H as [q H]. destruct (GE q grp H) as [QC ->]. split; [|split].
    + destruct (SUR q ltac:(lia) QC) as [i [I1 [I2 I3]]]. intros Z.
      assert (In i (filter (fun x => Nat.eqb (nth (rt x) m 0) q) l)); [|rewrite Z in *; auto].
      apply filter_In. split; [apply IL; lia|]. apply Nat.eqb_eq. rewrite I2. exact I3.
    + apply NoDup_filter'. exact ND.
    + intros x y X XY. apply filter_In in X. destruct X as [X1 X2].
      assert (LX : x < n /\ y < n) by apply (gw_range _ _ W x y XY).
      apply before_filter; [apply DF; assumption| |exact X2].
      apply Nat.eqb_eq in X2. apply Nat.eqb_eq. rewrite <- X2. f_equal.
      apply (RL y x); [tauto|tauto|]. apply rst_sym, rst_step. apply US2; assumption.
Qed.
End Order.
