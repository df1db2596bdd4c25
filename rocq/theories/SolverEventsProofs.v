From Coq Require Import List Bool Arith Lia.
Import ListNotations.
From Verif Require Import SolverEventsModel SolverEventsSpec.

Lemma mem_in c l : mem c l = true <-> In c l.
Proof. unfold mem. rewrite existsb_exists. split. { intros (x & I & E). apply Nat.eqb_eq in E. now subst. } exists c. rewrite Nat.eqb_refl. auto. Qed.
Lemma mem_nin c l : mem c l = false <-> ~ In c l.
Proof. rewrite <- mem_in. destruct (mem c l); intuition congruence. Qed.
Lemma erase_in c x l : NoDup l -> (In x (eraseFirst c l) <-> In x l /\ x <> c).
Proof.
  induction l as [|d l IH]; intros N; simpl; [tauto|]. inversion N; subst.
  destruct (Nat.eqb_spec c d) as [->|D]; simpl.
  - split; [intros I; split; [auto|intros ->; contradiction]|]. intros [[->|I] X]; [congruence|auto].
  - rewrite IH by auto. intuition congruence.
Qed.
Lemma erase_nodup c l : NoDup l -> NoDup (eraseFirst c l).
Proof.
  induction l as [|d l IH]; intros N; simpl; [auto|]. inversion N; subst.
  destruct (c =? d); [auto|]. constructor; [|auto]. rewrite erase_in by auto. tauto.
Qed.
Lemma without_in c x l : In x (without c l) <-> In x l /\ x <> c.
Proof. unfold without. rewrite filter_In, negb_true_iff, Nat.eqb_neq. intuition congruence. Qed.
Lemma nodup_snoc {A} (a : list A) x : NoDup a -> ~ In x a -> NoDup (a ++ [x]).
Proof.
  intros N I. induction a as [|y a IH]; simpl; [constructor; auto; constructor|].
  inversion N; subst. constructor.
  - rewrite in_app_iff. simpl. intros [H|[->|[]]]; [auto|]. apply I. now left.
  - apply IH; [auto|]. intros H. apply I. now right.
Qed.

Lemma dstep_add (old cur a r : list nat) c : difference old cur a r -> ~ In c cur ->
  let '(a', r', _) := addIfPair c a r in difference old (cur ++ [c]) a' r'.
Proof.
  intros (Na & Nr & A & R) I. unfold addIfPair. destruct (mem c r) eqn:M.
  - apply mem_in in M. pose proof (proj1 (R c) M) as [Mo _].
    split; [auto|]. split; [now apply erase_nodup|]. split; intros x; rewrite ?erase_in, ?in_app_iff by auto; simpl.
    + rewrite A. split; [tauto|]. intros [[H|[->|[]]] O]; tauto.
    + rewrite R. split; [intros [[H1 H2] H3]; split; [auto|intros [X|[->|[]]]; auto]|].
      intros [H1 H2]. split; [tauto|]. intros ->. apply H2. right. now left.
  - apply mem_nin in M. assert (Co : ~ In c old) by (intros O; apply M, R; auto).
    assert (Ca : ~ In c a) by (intros O; apply A in O; tauto).
    repeat split; auto using nodup_snoc; intros; try rewrite in_app_iff in *; simpl in *.
    + destruct H as [H|[->|[]]]; [apply A in H; tauto|auto].
    + destruct H as [H|[->|[]]]; [apply A in H; tauto|auto].
    + destruct H as [[H|[->|[]]] O]; [left; apply A; auto|auto].
    + apply R in H; tauto.
    + apply R in H. intros [X|[->|[]]]; tauto.
    + apply R; tauto.
Qed.
Lemma dstep_rem (old cur a r : list nat) c : difference old cur a r -> In c cur ->
  let '(r', a', _) := addIfPair c r a in difference old (without c cur) a' r'.
Proof.
  intros (Na & Nr & A & R) I. unfold addIfPair. destruct (mem c a) eqn:M.
  - apply mem_in in M. pose proof (proj1 (A c) M) as [_ Mo].
    repeat split; auto using erase_nodup; intros.
    + apply erase_in in H as [H1 H2]; [|auto]. apply A in H1. apply without_in. tauto.
    + apply erase_in in H as [H1 H2]; [|auto]. apply A in H1. tauto.
    + destruct H as [H1 H2]. apply without_in in H1. apply erase_in; [auto|]. split; [apply A; tauto|tauto].
    + apply R in H; tauto.
    + rewrite without_in. apply R in H. tauto.
    + destruct H as [H1 H2]. rewrite without_in in H2. apply R. split; [auto|]. intros X. apply H2. split; [auto|]. intros ->. contradiction.
  - apply mem_nin in M. assert (Co : In c old).
    { destruct (in_dec Nat.eq_dec c old); [auto|]. exfalso. apply M, A. auto. }
    assert (Cr : ~ In c r) by (intros O; apply R in O; tauto).
    repeat split; auto using nodup_snoc; intros; try rewrite in_app_iff in *; simpl in *.
    + apply A in H. apply without_in. split; [tauto|]. intros ->. tauto.
    + apply A in H. tauto.
    + destruct H as [H1 H2]. apply without_in in H1. apply A. tauto.
    + destruct H as [H|[->|[]]]; [apply R in H; tauto|auto].
    + rewrite without_in. destruct H as [H|[->|[]]]; [apply R in H; tauto|tauto].
    + destruct H as [H1 H2]. rewrite without_in in H2. destruct (Nat.eq_dec c x) as [->|D]; [auto|]. left. apply R. split; [auto|]. intros X. apply H2. auto.
Qed.

(* objectives *)
Lemma withoutO_in c x l : In x (withoutO c l) <-> In x l /\ o_c x <> c.
Proof. unfold withoutO. rewrite filter_In, negb_true_iff, Nat.eqb_neq. intuition congruence. Qed.
Lemma map_withoutO c l : map o_c (withoutO c l) = without c (map o_c l).
Proof. induction l as [|d l IH]; simpl; [auto|]. destruct (c =? o_c d); simpl; congruence. Qed.
Lemma eraseO_map c l : map o_c (eraseFirstO c l) = eraseFirst c (map o_c l).
Proof. induction l as [|d l IH]; simpl; [auto|]. rewrite (Nat.eqb_sym (o_c d)). destruct (c =? o_c d); simpl; congruence. Qed.
Lemma eraseO_in c x l : NoDup (map o_c l) -> (In x (eraseFirstO c l) <-> In x l /\ o_c x <> c).
Proof.
  induction l as [|d l IH]; intros N; simpl; [tauto|]. simpl in N; inversion N; subst.
  destruct (Nat.eqb_spec (o_c d) c) as [E|D]; simpl.
  - split; [intros I; split; [auto|]|].
    + intros X. apply H1. rewrite E, <- X. apply in_map, I.
    + intros [[->|I] X]; [congruence|auto].
  - rewrite IH by auto. split; [intros [->|[? ?]]; auto|intros [[->|?] ?]; auto].
Qed.
Lemma nodup_without c l : NoDup l -> NoDup (without c l).
Proof. apply NoDup_filter. Qed.

Record Inv (P0 P : problem) (s : se) : Prop := {
  iC : difference (pC P0) (pC P) (addedC s) (removedC s);
  iB : difference (pB P0) (pB P) (addedB s) (removedB s);
  iV : difference (pV P0) (pV P) (addedV s) (removedV s);
  iO : difference (map o_c (pO P0)) (map o_c (pO P)) (map o_c (addedO s)) (removedO s);
  iW : wfP P }.

Lemma diff_refl {A} (l : list A) : difference l l [] [].
Proof. split; [constructor|]. split; [constructor|]. split; intros x; simpl; tauto. Qed.

Lemma step P0 P s c : Inv P0 P s -> ok1 P c -> Inv P0 (apply1 P c) (run1 s c).
Proof.
  intros [C B V O [W1 W2 W3 W4]] K. destruct c; simpl in *.
  - pose proof (dstep_add _ _ _ _ _ C K) as D. unfold addConstraint. destruct (addIfPair _ _ _) as [[a r] f].
    constructor; simpl; auto. constructor; simpl; auto using nodup_snoc.
  - pose proof (dstep_rem _ _ _ _ _ C K) as D. unfold removeConstraint. destruct (addIfPair _ _ _) as [[a r] f].
    constructor; simpl; auto. constructor; simpl; auto using nodup_without.
  - pose proof (dstep_add _ _ _ _ _ B K) as D. unfold addBound. destruct (addIfPair _ _ _) as [[a r] f].
    constructor; simpl; auto. constructor; simpl; auto using nodup_snoc.
  - pose proof (dstep_rem _ _ _ _ _ B K) as D. unfold removeBound. destruct (addIfPair _ _ _) as [[a r] f].
    constructor; simpl; auto. constructor; simpl; auto using nodup_without.
  - pose proof (dstep_add _ _ _ _ _ O K) as D. unfold addIfPair in D. unfold addObjective.
    assert (WW : wfP (mkPb (pC P) (pB P) (pO P ++ [o]) (pV P))).
    { constructor; simpl; auto. rewrite map_app. now apply nodup_snoc. }
    destruct (mem (o_c o) (removedO s)); constructor; auto; simpl; rewrite ?map_app; exact D.
  - pose proof (dstep_rem _ _ _ _ _ O K) as D. unfold addIfPair in D. unfold removeObjective.
    assert (WW : wfP (mkPb (pC P) (pB P) (withoutO c (pO P)) (pV P))).
    { constructor; simpl; auto. rewrite map_withoutO. now apply nodup_without. }
    destruct (mem c (map o_c (addedO s))); constructor; auto; simpl; rewrite ?eraseO_map, ?map_withoutO; exact D.
  - pose proof (dstep_add _ _ _ _ _ V K) as D. unfold addVariable. destruct (addIfPair _ _ _) as [[a r] f].
    constructor; simpl; auto. constructor; simpl; auto using nodup_snoc.
  - pose proof (dstep_rem _ _ _ _ _ V K) as D. unfold removeVariable. destruct (addIfPair _ _ _) as [[a r] f].
    constructor; simpl; auto. constructor; simpl; auto using nodup_without.
  - constructor; auto. constructor; auto.
  - constructor; auto. constructor; auto.
Qed.
Lemma steps l : forall P0 P s, Inv P0 P s -> ok P l -> Inv P0 (apply P l) (fold_left run1 l s).
Proof.
  induction l as [|c l IH]; intros P0 P s I K; [exact I|]. destruct K as [K1 K2].
  apply IH; [now apply step|exact K2].
Qed.
Lemma net P l : wfP P -> ok P l -> Inv P (apply P l) (run l).
Proof. intros W K. apply steps; [|exact K]. constructor; auto; apply diff_refl. Qed.

Lemma net_sets P l : wfP P -> ok P l ->
  difference (pC P) (pC (apply P l)) (addedC (run l)) (removedC (run l)) /\
  difference (pB P) (pB (apply P l)) (addedB (run l)) (removedB (run l)) /\
  difference (pV P) (pV (apply P l)) (addedV (run l)) (removedV (run l)) /\
  difference (map o_c (pO P)) (map o_c (pO (apply P l))) (map o_c (addedO (run l))) (removedO (run l)).
Proof. intros W K. destruct (net P l W K). auto. Qed.

(* payloads of the objectives *)
Lemma payload_step P0 P s c : Inv P0 P s -> ok1 P c ->
  (forall o, In o (pO P) -> In o (addedO s) \/ In o (pO P0)) ->
  (forall o, In o (addedO s) -> In o (pO P)) ->
  (match c with AddO o' => forall o, In o (pO P0) -> o_c o = o_c o' -> o = o' | _ => True end) ->
  (forall o, In o (pO (apply1 P c)) -> In o (addedO (run1 s c)) \/ In o (pO P0)) /\
  (forall o, In o (addedO (run1 s c)) -> In o (pO (apply1 P c))).
Proof.
  intros IN K H1 H2 X. destruct c; simpl in *; unfold addConstraint, removeConstraint, addBound, removeBound, addVariable, removeVariable;
   try (destruct (addIfPair _ _ _) as [[a r] f]); auto.
  - unfold addObjective. destruct (mem (o_c o) (removedO s)) eqn:M; simpl.
    + split; intros o' I; rewrite ?in_app_iff in *; simpl in *.
      * destruct I as [I|[<-|[]]]; [auto|]. right. apply mem_in in M. apply (iO _ _ _ IN) in M as [M _].
        apply in_map_iff in M as (o2 & E & I2). rewrite <- (X o2); auto.
      * auto.
    + split; intros o' I; rewrite ?in_app_iff in *; simpl in *; [|].
      * destruct I as [I|[<-|[]]]; [destruct (H1 _ I); auto|auto].
      * destruct I as [I|[<-|[]]]; auto.
  - destruct (iO _ _ _ IN) as (NA & _). unfold removeObjective. destruct (mem c (map o_c (addedO s))) eqn:M; simpl.
    + split; intros o' I.
      * apply withoutO_in in I as [I Y]. destruct (H1 _ I); [left; apply eraseO_in; auto|auto].
      * apply eraseO_in in I as [I Y]; [|auto]. apply withoutO_in; auto.
    + split; intros o' I.
      * apply withoutO_in in I as [I Y]. auto.
      * apply withoutO_in. split; [auto|]. intros <-. apply mem_nin in M. apply M, in_map, I.
Qed.
Lemma payloads l : forall P0 P s, Inv P0 P s -> ok P l ->
  (forall o, In o (pO P) -> In o (addedO s) \/ In o (pO P0)) ->
  (forall o, In o (addedO s) -> In o (pO P)) ->
  same_data P0 l ->
  (forall o, In o (pO (apply P l)) -> In o (addedO (fold_left run1 l s)) \/ In o (pO P0)) /\
  (forall o, In o (addedO (fold_left run1 l s)) -> In o (pO (apply P l))).
Proof.
  induction l as [|c l IH]; intros P0 P s I K H1 H2 SD; [auto|]. destruct K as [K1 K2].
  destruct (payload_step P0 P s c) as [Q1 Q2]; auto.
  { destruct c; auto. intros o' I' E. apply (SD o' o); auto. now left. }
  apply IH; auto using step. intros a b Ia Ib. apply SD; auto. now right.
Qed.
Lemma nodup_keys_inj (l : list objective) a b : NoDup (map o_c l) -> In a l -> In b l -> o_c a = o_c b -> a = b.
Proof.
  induction l as [|d l IH]; simpl; intros N A B E; [tauto|]. inversion N; subst.
  destruct A as [->|A], B as [->|B]; auto.
  - exfalso. apply H1. rewrite E. now apply in_map.
  - exfalso. apply H1. rewrite <- E. now apply in_map.
Qed.
Lemma net_objectives P l : wfP P -> ok P l -> same_data P l ->
  forall o, In o (pO (apply P l)) <-> In o (addedO (run l)) \/ (In o (pO P) /\ ~ In (o_c o) (removedO (run l))).
Proof.
  intros W K SD o. pose proof (net P l W K) as I.
  destruct (payloads l P P empty) as [H1 H2]; auto.
  { constructor; auto; apply diff_refl. }
  { simpl. tauto. }
  change (fold_left run1 l empty) with (run l) in *.
  destruct (iO _ _ _ I) as (Na & Nr & A & R). split.
  - intros IO. destruct (in_dec Nat.eq_dec (o_c o) (map o_c (addedO (run l)))) as [X|X].
    + left. apply in_map_iff in X as (o2 & E & I2). rewrite <- (nodup_keys_inj (pO (apply P l)) o2 o); auto.
      apply (wfO _ (iW _ _ _ I)).
    + right. destruct (H1 _ IO) as [Y|Y]; [exfalso; apply X, in_map, Y|]. split; [auto|].
      intros Z. apply R in Z as [_ Z]. apply Z, in_map, IO.
  - intros [IO|[IO NR]]; [auto|].
    destruct (in_dec Nat.eq_dec (o_c o) (map o_c (pO (apply P l)))) as [X|X].
    + apply in_map_iff in X as (o2 & E & I2). destruct (H1 _ I2) as [Y|Y].
      * exfalso. assert (Q : In (o_c o2) (map o_c (addedO (run l)))) by now apply in_map.
        apply A in Q as [_ Q]. apply Q. rewrite E. now apply in_map.
      * rewrite <- (nodup_keys_inj (pO P) o2 o); auto. apply (wfO _ W).
    + exfalso. apply NR, R. split; [now apply in_map|auto].
Qed.

(* variables: any change is signalled *)
Lemma changed_mono l : forall s, hidden s = true -> hidden (fold_left run1 l s) = true.
Proof.
  induction l as [|c l IH]; intros s H; [auto|]. apply IH.
  destruct c; simpl; unfold addConstraint, removeConstraint, addBound, removeBound, addObjective, removeObjective, addVariable, removeVariable;
    try (destruct (addIfPair _ _ _) as [[a r] f]); simpl; auto;
    try (destruct (mem _ _); simpl; auto); destruct f; auto.
Qed.
Lemma changed_step s c : (addedV s <> [] \/ removedV s <> [] \/ hidden s = true) \/ isVar c = true ->
  addedV (run1 s c) <> [] \/ removedV (run1 s c) <> [] \/ hidden (run1 s c) = true.
Proof.
  intros H. destruct c; simpl in *; unfold addConstraint, removeConstraint, addBound, removeBound, addObjective, removeObjective;
    try (destruct (addIfPair _ _ _) as [[a r] f]); simpl; try (destruct (mem _ _); simpl); try (destruct H; [auto|discriminate]).
  - unfold addVariable, addIfPair. destruct (mem v (removedV s)); simpl; [auto|]. left. destruct (addedV s); discriminate.
  - unfold removeVariable, addIfPair. destruct (mem v (addedV s)); simpl; [auto|]. right. left. destruct (removedV s); discriminate.
Qed.
Lemma changed_iff s : variablesChanged s = true <-> addedV s <> [] \/ removedV s <> [] \/ hidden s = true.
Proof.
  unfold variablesChanged. destruct (removedV s), (addedV s); simpl; intuition (try discriminate; try congruence).
Qed.
Lemma quiet s c : isVar c = false -> addedV (run1 s c) = addedV s /\ removedV (run1 s c) = removedV s /\ hidden (run1 s c) = hidden s.
Proof.
  intros H. destruct c; simpl in *; try discriminate; unfold addConstraint, removeConstraint, addBound, removeBound, addObjective, removeObjective;
    try (destruct (addIfPair _ _ _) as [[a r] f]); simpl; try (destruct (mem _ _); simpl); auto.
Qed.
Lemma changed l : forall s, variablesChanged (fold_left run1 l s) = true <-> variablesChanged s = true \/ existsb isVar l = true.
Proof.
  induction l as [|c l IH]; intros s; simpl; [intuition discriminate|].
  rewrite IH, orb_true_iff. destruct (isVar c) eqn:V.
  - split; [auto|]. intros _. left. apply changed_iff, changed_step. auto.
  - unfold variablesChanged. destruct (quiet s c V) as (-> & -> & ->). intuition discriminate.
Qed.

(* weights *)
Definition wkeys (l : list wevent) := map w_c l.
Lemma touch_keys sc vc c l : forall x, In x (wkeys (touch sc vc c l)) <-> x = c \/ In x (wkeys l).
Proof.
  induction l as [|e l IH]; intros x; simpl; [intuition congruence|].
  destruct (Nat.eqb_spec (w_c e) c) as [->|D]; simpl; [intuition congruence|]. rewrite IH. intuition congruence.
Qed.
Lemma touch_nodup sc vc c l : NoDup (wkeys l) -> NoDup (wkeys (touch sc vc c l)).
Proof.
  induction l as [|e l IH]; intros N; simpl.
  - constructor; [tauto|constructor].
  - simpl in N. inversion N; subst. destruct (Nat.eqb_spec (w_c e) c) as [E|D]; simpl; [now rewrite <- E in *|].
    constructor; [|auto]. rewrite touch_keys. intros [?|?]; congruence.
Qed.
Lemma touch_in sc vc c l x f g : NoDup (wkeys l) ->
  (In (mkW x f g) (touch sc vc c l) <->
   (x <> c /\ In (mkW x f g) l) \/
   (x = c /\ ((exists f0 g0, In (mkW c f0 g0) l /\ f = sc || f0 /\ g = vc || g0) \/ (~ In c (wkeys l) /\ f = sc /\ g = vc)))).
Proof.
  induction l as [|e l IH]; intros N; simpl.
  - split.
    + intros [E|[]]. injection E as -> -> ->. right. split; [auto|]. right. auto.
    + intros [[_ []]|[-> [(f0 & g0 & [] & _)|(_ & -> & ->)]]]. auto.
  - simpl in N. inversion N; subst. destruct (Nat.eqb_spec (w_c e) c) as [E|D]; simpl.
    + subst c. destruct e as [y f1 g1]; simpl in *. split.
      * intros [X|X].
        -- injection X as -> <- <-. right. split; [auto|]. left. exists f1, g1. auto.
        -- left. split; [|auto]. intros ->. apply H1. apply (in_map w_c) in X. exact X.
      * intros [[X [Y|Y]]|[-> [(f0 & g0 & [Y|Y] & -> & ->)|(Y & _)]]].
        -- congruence.
        -- auto.
        -- left. congruence.
        -- exfalso. apply H1. apply (in_map w_c) in Y. exact Y.
        -- exfalso. apply Y. auto.
    + rewrite IH by auto. split.
      * intros [->|[[X Y]|[-> [(f0 & g0 & Y & Z)|(Y & Z)]]]].
        -- left. split; [simpl in D; congruence|auto].
        -- auto.
        -- right. split; [auto|]. left. exists f0, g0. auto.
        -- right. split; [auto|]. right. split; [intros [?|?]; congruence|auto].
      * intros [[X [Y|Y]]|[-> [(f0 & g0 & [Y|Y] & Z)|(Y & Z)]]].
        -- auto.
        -- auto.
        -- subst e. simpl in D. congruence.
        -- right. right. split; [auto|]. left. exists f0, g0. auto.
        -- right. right. split; [auto|]. right. split; [tauto|auto].
Qed.
Definition saysS (c : nat) (k : call) : bool := match k with ScalarW d => c =? d | _ => false end.
Definition saysV (c : nat) (k : call) : bool := match k with VectorW d => c =? d | _ => false end.
Lemma weight_quiet s c : (match c with ScalarW _ | VectorW _ => False | _ => True end) -> weightEvents (run1 s c) = weightEvents s.
Proof.
  intros H. destruct c; simpl in *; try contradiction; unfold addConstraint, removeConstraint, addBound, removeBound, addObjective, removeObjective, addVariable, removeVariable;
    try (destruct (addIfPair _ _ _) as [[a r] f]); simpl; try (destruct (mem _ _); simpl); auto.
Qed.
Definition WInv (l : list call) (w : list wevent) : Prop :=
  NoDup (wkeys w) /\ forall c f g, In (mkW c f g) w <->
    f = existsb (saysS c) l /\ g = existsb (saysV c) l /\ f || g = true.
Lemma weights_step l s k : WInv l (weightEvents s) -> WInv (l ++ [k]) (weightEvents (run1 s k)).
Proof.
  intros [N W].
  assert (KEY : forall c, In c (wkeys (weightEvents s)) <-> existsb (saysS c) l || existsb (saysV c) l = true).
  { intros c. split.
    - intros H. apply in_map_iff in H as ([c' f g] & E & I). simpl in E; subst c'. apply W in I as (-> & -> & Z). auto.
    - intros H. apply in_map_iff. exists (mkW c (existsb (saysS c) l) (existsb (saysV c) l)). split; [auto|]. apply W. auto. }
  destruct k; try (split; [rewrite weight_quiet by exact I; exact N|];
    intros c0 f0 g0; rewrite weight_quiet by exact I; rewrite W, !existsb_app; simpl; rewrite !orb_false_r; reflexivity).
  - simpl. split; [now apply touch_nodup|]. intros x f g. rewrite touch_in by auto. rewrite !existsb_app; simpl. rewrite !orb_false_r.
    split.
    + intros [[X Y]|[-> [(f0 & g0 & Y & -> & ->)|(Y & -> & ->)]]].
      * apply W in Y. destruct (Nat.eqb_spec x c); [congruence|]. now rewrite orb_false_r.
      * apply W in Y as (-> & -> & Z). rewrite Nat.eqb_refl, orb_true_r. simpl. auto.
      * rewrite Nat.eqb_refl, orb_true_r. destruct (existsb (saysV c) l) eqn:E; auto. exfalso. apply Y, KEY. rewrite E. apply orb_true_r.
    + intros (-> & -> & Z). destruct (Nat.eqb_spec x c) as [E0|D]; [rewrite E0 in *; clear E0 x|].
      * right. split; [auto|]. destruct (existsb (saysS c) l || existsb (saysV c) l) eqn:E.
        -- left. exists (existsb (saysS c) l), (existsb (saysV c) l). rewrite W, orb_true_r. auto.
        -- right. apply orb_false_iff in E as [E1 E2]. rewrite KEY, E1, E2. repeat split; auto; discriminate.
      * left. split; [auto|]. apply W. rewrite orb_false_r in *. auto.
  - simpl. split; [now apply touch_nodup|]. intros x f g. rewrite touch_in by auto. rewrite !existsb_app; simpl. rewrite !orb_false_r.
    split.
    + intros [[X Y]|[-> [(f0 & g0 & Y & -> & ->)|(Y & -> & ->)]]].
      * apply W in Y. destruct (Nat.eqb_spec x c); [congruence|]. now rewrite orb_false_r.
      * apply W in Y as (-> & -> & Z). rewrite Nat.eqb_refl, !orb_true_r. simpl. auto.
      * rewrite Nat.eqb_refl, !orb_true_r. destruct (existsb (saysS c) l) eqn:E; auto. exfalso. apply Y, KEY. rewrite E. reflexivity.
    + intros (-> & -> & Z). destruct (Nat.eqb_spec x c) as [E0|D]; [rewrite E0 in *; clear E0 x|].
      * right. split; [auto|]. destruct (existsb (saysS c) l || existsb (saysV c) l) eqn:E.
        -- left. exists (existsb (saysS c) l), (existsb (saysV c) l). rewrite W, !orb_true_r. auto.
        -- right. apply orb_false_iff in E as [E1 E2]. rewrite KEY, E1, E2. repeat split; auto; discriminate.
      * left. split; [auto|]. apply W. rewrite orb_false_r in *. auto.
Qed.
Lemma weights_all l : forall l0 s, WInv l0 (weightEvents s) -> WInv (l0 ++ l) (weightEvents (fold_left run1 l s)).
Proof.
  induction l as [|k l IH]; intros l0 s H; simpl; [now rewrite app_nil_r|].
  replace (l0 ++ k :: l) with ((l0 ++ [k]) ++ l) by (rewrite <- app_assoc; reflexivity).
  apply IH, weights_step, H.
Qed.
Lemma weights l : WInv l (weightEvents (run l)).
Proof.
  apply (weights_all l [] empty). split; [constructor|]. intros c f g; simpl. split; [tauto|].
  intros (-> & -> & H). discriminate.
Qed.
Lemma weights_in l : NoDup (map w_c (weightEvents (run l))) /\
  forall c f g, In (mkW c f g) (weightEvents (run l)) <->
    (f = true <-> In (ScalarW c) l) /\ (g = true <-> In (VectorW c) l) /\ (f = true \/ g = true).
Proof.
  destruct (weights l) as [N W]. split; [exact N|]. intros c f g. rewrite W.
  assert (S : existsb (saysS c) l = true <-> In (ScalarW c) l).
  { rewrite existsb_exists. split. { intros (k & I & E). destruct k; try discriminate. apply Nat.eqb_eq in E. now subst. }
    intros I. exists (ScalarW c). split; [auto|]. apply Nat.eqb_refl. }
  assert (V : existsb (saysV c) l = true <-> In (VectorW c) l).
  { rewrite existsb_exists. split. { intros (k & I & E). destruct k; try discriminate. apply Nat.eqb_eq in E. now subst. }
    intros I. exists (VectorW c). split; [auto|]. apply Nat.eqb_refl. }
  rewrite <- S, <- V, orb_true_iff.
  assert (BB : forall a b : bool, (a = true <-> b = true) <-> a = b).
  { intros [|] [|]; intuition congruence. }
  rewrite !BB. tauto.
Qed.
