(* Proofs for C75: sets, types, the drawings. *)
From Coq Require Import List Bool Arith String Ascii DecimalString Lia Sorting.Sorted.
Import ListNotations.
From Verif Require Import Base CallGraphModel NdModel NdProofs2 LgModel LgSpec LgProofs LgProofs2 DotModel DotSpec.
Local Open Scope nat_scope.
Local Open Scope list_scope.

(* ---- sets ---- *)
Lemma lex_irrefl a : lexLess a a = false.
Proof. induction a as [|x a IH]; [reflexivity|]. cbn [lexLess]. rewrite Nat.ltb_irrefl, IH, andb_false_r. reflexivity. Qed.
Lemma lex_trans : forall a b c, lexLess a b = true -> lexLess b c = true -> lexLess a c = true.
Proof.
  induction a as [|x a IH]; intros [|y b] [|z c] E1 E2; try discriminate. cbn [lexLess] in *. apply orb_true_iff in E1, E2. apply orb_true_iff.
  rewrite !andb_true_iff, !Nat.ltb_lt, !Nat.eqb_eq in *. destruct E1 as [E1|[E1 F1]], E2 as [E2|[E2 F2]]; try (left; lia). right. split; [lia|eauto].
Qed.
Lemma lex_total : forall a b, List.length a = List.length b -> lexLess a b = false -> lexLess b a = false -> a = b.
Proof.
  induction a as [|x a IH]; intros [|y b] E E1 E2; try discriminate; [reflexivity|]. cbn [lexLess] in *. cbn [List.length] in E.
  apply orb_false_iff in E1 as [E1 F1], E2 as [E2 F2]. apply Nat.ltb_ge in E1, E2. assert (x = y) by lia. subst y. rewrite Nat.eqb_refl in F1, F2. cbn [andb] in F1, F2.
  f_equal. apply IH; auto.
Qed.

Section Set_.
Context {A : Type} (key : A -> list nat) (w : nat).
Hypothesis len : forall x, List.length (key x) = w.
Hypothesis inj : forall x y, key x = key y -> x = y.
Definition lt_ (x y : A) : Prop := lexLess (key x) (key y) = true.
Lemma insert_In x l y : In y (insert key x l) <-> y = x \/ In y l.
Proof.
  induction l as [|z l IH]; [cbn; intuition congruence|]. cbn [insert]. destruct (lexLess (key x) (key z)) eqn:E1; [cbn; intuition congruence|].
  destruct (lexLess (key z) (key x)) eqn:E2; [cbn [In]; rewrite IH; tauto|]. assert (x = z) by (apply inj, lex_total; [rewrite !len; reflexivity|exact E1|exact E2]).
  subst z. cbn. intuition congruence.
Qed.
Lemma insert_sorted x l : StronglySorted lt_ l -> StronglySorted lt_ (insert key x l).
Proof.
  induction l as [|z l IH]; intros S; [repeat constructor|]. cbn [insert]. inversion S as [|? ? S1 S2]; subst. destruct (lexLess (key x) (key z)) eqn:E1.
  - constructor; [exact S|]. constructor; [exact E1|]. rewrite Forall_forall in *. intros y I. exact (lex_trans _ _ _ E1 (S2 y I)).
  - destruct (lexLess (key z) (key x)) eqn:E2; [|exact S]. constructor; [auto|]. rewrite Forall_forall in *. intros y I. apply insert_In in I as [->|I]; [exact E2|auto].
Qed.
Lemma setOf_acc l : forall s, StronglySorted lt_ s -> StronglySorted lt_ (fold_left (fun s x => insert key x s) l s) /\
  forall y, In y (fold_left (fun s x => insert key x s) l s) <-> In y l \/ In y s.
Proof.
  induction l as [|x l IH]; intros s S; [cbn; split; [exact S|tauto]|]. cbn [fold_left]. destruct (IH _ (insert_sorted x s S)) as [I1 I2]. split; [exact I1|].
  intros y. rewrite I2, insert_In. cbn. intuition congruence.
Qed.
Lemma setOf_In l y : In y (setOf key l) <-> In y l.
Proof. destruct (setOf_acc l [] (SSorted_nil _)) as [_ I]. unfold setOf. rewrite I. cbn. tauto. Qed.
Lemma setOf_sorted l : StronglySorted lt_ (setOf key l).
Proof. exact (proj1 (setOf_acc l [] (SSorted_nil _))). Qed.
Lemma sorted_NoDup l : StronglySorted lt_ l -> NoDup l.
Proof.
  induction 1 as [|x l S IH F]; constructor; [|exact IH]. intros I. rewrite Forall_forall in F. specialize (F x I). unfold lt_ in F. rewrite lex_irrefl in F. discriminate.
Qed.
Lemma setOf_NoDup l : NoDup (setOf key l).
Proof. apply sorted_NoDup, setOf_sorted. Qed.
(* find returns the least *)
Lemma find_least p l x : StronglySorted lt_ l -> find p l = Some x -> In x l /\ p x = true /\ forall y, In y l -> p y = true -> y = x \/ lt_ x y.
Proof.
  induction 1 as [|z l S IH F]; [discriminate|]. cbn [find]. destruct (p z) eqn:E.
  - intros E'. injection E' as <-. split; [left; reflexivity|]. split; [exact E|]. intros y [<-|I] _; [left; reflexivity|]. right. rewrite Forall_forall in F. exact (F y I).
  - intros E'. destruct (IH E') as (I1 & I2 & I3). split; [right; exact I1|]. split; [exact I2|]. intros y [<-|I] P; [congruence|auto].
Qed.
End Set_.
Lemma updKey_len u : List.length (updKey u) = 3. Proof. reflexivity. Qed.
Lemma updKey_inj u v : updKey u = updKey v -> u = v.
Proof. destruct u as [[a b] c], v as [[a' b'] c']. unfold updKey. cbn. congruence. Qed.
Lemma outKey_len o : List.length (outKey o) = 2. Proof. reflexivity. Qed.
Lemma outKey_inj u v : outKey u = outKey v -> u = v.
Proof. destruct u as [a b], v as [a' b']. unfold outKey. cbn. congruence. Qed.
Lemma inpKey_len o : List.length (inpKey o) = 3. Proof. reflexivity. Qed.
Lemma inpKey_inj u v : inpKey u = inpKey v -> u = v.
Proof. destruct u as [[a b] c], v as [[a' b'] c']. unfold inpKey. cbn. congruence. Qed.

(* ---- types ---- *)
Definition keysSorted (m : list (nat * list nat)) : Prop := StronglySorted lt (map fst m).
Lemma regType_keys v t m x : In x (map fst (regType v t m)) <-> x = v \/ In x (map fst m).
Proof.
  induction m as [|[v' ts] m IH]; [cbn; intuition congruence|]. cbn [regType]. destruct (Nat.eqb_spec v v'); [subst; cbn; intuition congruence|].
  destruct (v <? v'); [cbn; intuition congruence|]. cbn [map fst In]. rewrite IH. tauto.
Qed.
Lemma regType_sorted v t m : keysSorted m -> keysSorted (regType v t m).
Proof.
  unfold keysSorted. induction m as [|[v' ts] m IH]; intros S; [repeat constructor|]. cbn [map fst] in S. inversion S as [|? ? S1 S2]; subst. cbn [regType].
  destruct (Nat.eqb_spec v v'); [exact S|]. destruct (Nat.ltb_spec v v').
  - cbn [map fst]. constructor; [exact S|]. constructor; [assumption|]. rewrite Forall_forall in *. intros y I. specialize (S2 y I). lia.
  - cbn [map fst]. constructor; [auto|]. rewrite Forall_forall in *. intros y I. apply regType_keys in I as [->|I]; [lia|auto].
Qed.
Lemma assocN_None {A} v (m : list (nat * A)) : ~ In v (map fst m) -> assocN v m = None.
Proof. induction m as [|[v' a] m IH]; intros N; [reflexivity|]. cbn in *. destruct (Nat.eqb_spec v v'); [subst; tauto|]. apply IH. tauto. Qed.
Lemma regType_assoc v t m x : keysSorted m ->
  assocN x (regType v t m) = if x =? v then Some (match assocN v m with Some ts => if existsb (Nat.eqb t) ts then ts else ts ++ [t] | None => [t] end) else assocN x m.
Proof.
  unfold keysSorted. induction m as [|[v' ts] m IH]; intros S.
  - cbn. destruct (x =? v); reflexivity.
  - cbn [map fst] in S. inversion S as [|? ? S1 S2]; subst. cbn [regType assocN]. destruct (Nat.eqb_spec v v') as [->|N].
    + cbn [assocN]. destruct (x =? v'); reflexivity.
    + destruct (Nat.ltb_spec v v').
      * cbn [assocN]. rewrite (assocN_None v m); [reflexivity|]. intros I. rewrite Forall_forall in S2. specialize (S2 v I). lia.
      * cbn [assocN]. rewrite (IH S1). destruct (Nat.eqb_spec x v'); [|reflexivity]. subst x. destruct (Nat.eqb_spec v' v); [congruence|reflexivity].
Qed.
Definition regs (l : list (nat * nat)) : list (nat * list nat) := fold_left (fun m p => regType (fst p) (snd p) m) l [].
Lemma regs_snoc l v t : regs (l ++ [(v, t)]) = regType v t (regs l).
Proof. unfold regs. rewrite fold_left_app. reflexivity. Qed.
Lemma regs_sorted l : keysSorted (regs l).
Proof. induction l as [|[v t] l IH] using rev_ind; [constructor|]. rewrite regs_snoc. apply regType_sorted. exact IH. Qed.
Lemma types_regs evs : tl_types (tlogOf evs) = regs (allTold evs).
Proof.
  unfold tlogOf. assert (G : forall evs T, tl_types (fold_left tellT evs T) = fold_left (fun m p => regType (fst p) (snd p) m) (allTold evs) (tl_types T)).
  { induction evs0 as [|e evs0 IH]; intros T; [reflexivity|]. cbn [fold_left]. rewrite IH. unfold allTold. cbn [flat_map]. rewrite fold_left_app. f_equal.
    unfold tellT, DotSpec.told. destruct (te_ev e); reflexivity. }
  apply G.
Qed.
Lemma log_of evs : tl_log (tlogOf evs) = theLog evs.
Proof.
  unfold tlogOf, theLog. induction evs as [|e evs IH] using rev_ind; [reflexivity|]. rewrite map_app. cbn [map]. rewrite logOf_snoc, <- IH, fold_left_app. reflexivity.
Qed.
(* the types at an address, in the order they appeared *)
Definition lastNew (l : list (nat * nat)) (v t : nat) : Prop :=
  exists l1 l2, l = l1 ++ (v, t) :: l2 /\ ~ In (v, t) l1 /\ forall t', In (v, t') l2 -> In (v, t') (l1 ++ [(v, t)]).
Lemma existsb_In t ts : existsb (Nat.eqb t) ts = true <-> In t ts.
Proof. rewrite existsb_exists. split; [intros (x & I & E); apply Nat.eqb_eq in E; congruence|]. intros I. exists t. split; [exact I|apply Nat.eqb_refl]. Qed.
Lemma regs_spec l v :
  (assocN v (regs l) = None /\ forall t, ~ In (v, t) l) \/
  exists ts t, assocN v (regs l) = Some (ts ++ [t]) /\ (forall t', In t' (ts ++ [t]) <-> In (v, t') l) /\ lastNew l v t.
Proof.
  induction l as [|[w a] l IH] using rev_ind; [left; split; [reflexivity|intros t []]|].
  rewrite regs_snoc, regType_assoc by apply regs_sorted. destruct (Nat.eqb_spec v w) as [->|N].
  - right. destruct IH as [[E F]|(ts & t & E & F & G)]; rewrite E.
    + exists [], a. split; [reflexivity|]. split.
      * intros t'. cbn [app]. rewrite in_app_iff. cbn [In]. split; [intros [<-|[]]; auto|]. intros [I|[I|[]]]; [destruct (F _ I)|]. left. congruence.
      * exists l, []. split; [reflexivity|]. split; [apply F|intros t' []].
    + destruct (existsb (Nat.eqb a) (ts ++ [t])) eqn:X.
      * apply existsb_In in X. exists ts, t. split; [reflexivity|]. split.
        -- intros t'. rewrite F, in_app_iff. cbn. split; [auto|]. intros [I|[I|[]]]; [exact I|]. injection I as <-. apply F. exact X.
        -- destruct G as (l1 & l2 & -> & G1 & G2). exists l1, (l2 ++ [(w, a)]). split; [rewrite <- app_assoc; reflexivity|]. split; [exact G1|].
           intros t' I. apply in_app_iff in I as [I|[I|[]]]; [auto|]. injection I as <-. apply F in X. apply in_app_iff in X as [X|[X|X]].
           ++ apply in_app_iff. left. exact X.
           ++ apply in_app_iff. right. left. exact X.
           ++ auto.
      * exists (ts ++ [t]), a. split; [reflexivity|]. assert (NI : ~ In (w, a) l). { intros I. apply F in I. apply existsb_In in I. congruence. }
        split.
        -- intros t'. rewrite in_app_iff, F, in_app_iff. cbn. split; [intros [I|[<-|[]]]; auto|]. intros [I|[I|[]]]; [auto|]. right. left. congruence.
        -- exists l, []. split; [reflexivity|]. split; [exact NI|intros t' []].
  - destruct IH as [[E F]|(ts & t & E & F & G)].
    + left. split; [exact E|]. intros t I. apply in_app_iff in I as [I|[I|[]]]; [exact (F _ I)|congruence].
    + right. exists ts, t. split; [exact E|]. split.
      * intros t'. rewrite F, in_app_iff. cbn. split; [auto|]. intros [I|[I|[]]]; [exact I|congruence].
      * destruct G as (l1 & l2 & -> & G1 & G2). exists l1, (l2 ++ [(w, a)]). split; [rewrite <- app_assoc; reflexivity|]. split; [exact G1|].
        intros t' I. apply in_app_iff in I as [I|[I|[]]]; [auto|congruence].
Qed.
Lemma back_snoc ts t : back (ts ++ [t]) = Ok t.
Proof. unfold back. rewrite rev_app_distr. reflexivity. Qed.
Lemma typeAt_spec evs v : match typeAt (tl_types (tlogOf evs)) v with
  | Ok t => lastNewType evs v t | Throw => forall t, ~ In (v, t) (allTold evs) | UB => False end.
Proof.
  rewrite types_regs. unfold typeAt. destruct (regs_spec (allTold evs) v) as [[E F]|(ts & t & E & F & G)]; rewrite E; [exact F|]. rewrite back_snoc. exact G.
Qed.
Lemma lastNew_fun l v t t' : lastNew l v t -> lastNew l v t' -> t = t'.
Proof.
  intros (l1 & l2 & E & N & F) (k1 & k2 & E' & N' & F'). destruct (Nat.eq_dec t t') as [|D]; [assumption|exfalso]. rewrite E in E'.
  apply app_eq_app in E' as (z & [[-> E2]|[-> E2]]).
  - destruct z as [|p z]; cbn in E2; [injection E2 as E2 _; congruence|]. injection E2 as <- ->. 
    assert (I : In (v, t) (k1 ++ [(v, t')])) by (apply F'; apply in_app_iff; right; left; reflexivity).
    apply in_app_iff in I as [I|[I|[]]]; [|congruence]. apply N. apply in_app_iff. left. exact I.
  - destruct z as [|p z]; cbn in E2; [injection E2 as E2 _; congruence|]. injection E2 as <- ->.
    assert (I : In (v, t') (l1 ++ [(v, t)])) by (apply F; apply in_app_iff; right; left; reflexivity).
    apply in_app_iff in I as [I|[I|[]]]; [|congruence]. apply N'. apply in_app_iff. left. exact I.
Qed.

(* ---- the owners are known ---- *)
Lemma in_ev evs x : In x (map te_ev evs) -> exists e, In e evs /\ te_ev e = x.
Proof. intros I. apply in_map_iff in I as (e & E & I). eauto. Qed.
Definition known (evs : list tev) (v : nat) : Prop := exists t, In (v, t) (allTold evs).
Lemma told_known evs e p : In e evs -> In p (DotSpec.told e) -> known evs (fst p).
Proof. intros I J. exists (snd p). rewrite <- surjective_pairing. apply in_flat_map. eauto. Qed.
Lemma known_upd evs n u f : In (n, u, f) (lgUpd (theLog evs)) -> known evs n.
Proof. intros I. apply (proj1 (logOf_In _)) in I. apply in_ev in I as (e & I & E). apply (told_known evs e (n, te_node e) I). unfold DotSpec.told. rewrite E. left. reflexivity. Qed.
Lemma known_inp evs n s i : In (n, s, i) (lgInp (theLog evs)) -> known evs n /\ known evs s.
Proof.
  intros I. apply (proj1 (proj2 (logOf_In _))) in I. apply in_ev in I as (e & I & E). split.
  - apply (told_known evs e (n, te_node e) I). unfold DotSpec.told. rewrite E. left. reflexivity.
  - apply (told_known evs e (s, te_source e) I). unfold DotSpec.told. rewrite E. right. left. reflexivity.
Qed.
Lemma known_out evs n o : In (n, o) (lgOut (theLog evs)) -> known evs n.
Proof.
  unfold theLog. induction evs as [|e evs IH] using rev_ind; [intros []|]. rewrite map_app. cbn [map]. rewrite logOf_snoc. intros I.
  assert (K : known evs n -> known (evs ++ [e]) n). { intros [t J]. exists t. unfold allTold. rewrite flat_map_app. apply in_app_iff. left. exact J. }
  assert (K' : forall p, In p (DotSpec.told e) -> known (evs ++ [e]) (fst p)). { intros p J. apply (told_known _ e); [apply in_app_iff; right; left; reflexivity|exact J]. }
  unfold DotSpec.told in K'. destruct (te_ev e) as [n0 u f|n0 s i|n0 o0 u|n0 ud u|n0 u s i|n0 o0 s i|g n0]; cbn [tell lgOut] in I; auto; rewrite In_snoc in I; destruct I as [I|I]; auto.
  - injection I as -> ->. apply (K' (n0, te_node e)). left. reflexivity.
  - injection I as -> ->. apply (K' (n0, te_node e)). left. reflexivity.
Qed.
Lemma out_logged evs n o : (exists u, In (n, o, u) (lgOutDep (theLog evs))) \/ (exists s i, In (n, o, s, i) (lgDir (theLog evs))) <-> In (n, o) (lgOut (theLog evs)).
Proof.
  unfold theLog. induction evs as [|e evs IH] using rev_ind; [cbn; split; [intros [[u []]|[s [i []]]]|intros []]|]. rewrite map_app. cbn [map]. rewrite logOf_snoc.
  destruct (te_ev e) as [n0 u0 f|n0 s0 i0|n0 o0 u0|n0 ud u0|n0 u0 s0 i0|n0 o0 s0 i0|g n0]; cbn [tell lgOut lgOutDep lgDir]; try exact IH; rewrite In_snoc, <- IH.
  - split.
    + intros [[u I]|I]; [|tauto]. apply In_snoc in I as [I|I]; [left; left; eauto|]. right. congruence.
    + intros [[[u I]|I]|E]; [left; exists u; apply In_snoc; auto|tauto|]. injection E as -> ->. left. exists u0. apply In_snoc. auto.
  - split.
    + intros [I|(s & i & I)]; [tauto|]. apply In_snoc in I as [I|I]; [left; right; eauto|]. right. congruence.
    + intros [[I|(s & i & I)]|E]; [tauto|right; exists s, i; apply In_snoc; auto|]. injection E as -> ->. right. exists s0, i0. apply In_snoc. auto.
Qed.
Lemma known_ok evs v : known evs v -> exists t, typeAt (tl_types (tlogOf evs)) v = Ok t /\ lastNewType evs v t.
Proof. intros [t0 I]. pose proof (typeAt_spec evs v) as S. destruct (typeAt _ v) as [t| |]; [eauto|destruct (S t0 I)|destruct S]. Qed.
