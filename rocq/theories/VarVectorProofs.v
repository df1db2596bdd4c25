Require Import ZArith List Bool Lia.
Require Import Verif.RangeModel Verif.RangeCountingModel Verif.RangeCountingSpec Verif.RangeProps Verif.VarVectorModel Verif.VarVectorSpec.
Import ListNotations.
Local Open Scope Z_scope.
Local Arguments Z.add : simpl never.
Local Arguments Z.sub : simpl never.
Local Arguments Z.eqb : simpl never.

Section Vars.
Variable V : nat -> vslice.
Hypothesis pos : forall v, 0 < vsize (V v).

Notation scalar := (scalar V). Notation inside := (inside V). Notation same := (same V). Notation overlap := (overlap V).
Notation total := (total V). Notation disjoint := (disjoint V).

(* ---- slices ---- *)
Lemma first_scalar v : scalar v (sup (V v), start (rng (V v))).
Proof. pose proof (pos v). unfold vsize in *. split; simpl; auto. unfold In_range; lia. Qed.

Lemma contains_iff x v : s_contains (V x) (V v) = true <-> inside v x.
Proof.
  unfold s_contains. rewrite andb_true_iff, Nat.eqb_eq.
  destruct (containsR_spec (rng (V x)) (rng (V v))) as [H _]; [pose proof (pos v); unfold vsize in *; lia|].
  rewrite (H (pos v)). split.
  - intros [E K] [a i] [A B]. simpl in *. split; simpl; [congruence|auto].
  - intros K. split.
    + destruct (K _ (first_scalar v)) as [A _]. simpl in A. auto.
    + intros i Hi. destruct (K (sup (V v), i)) as [_ B]; [split; auto|]. auto.
Qed.
Lemma intersects_iff x v : s_intersects (V x) (V v) = true <-> overlap x v.
Proof.
  unfold s_intersects. rewrite andb_true_iff, Nat.eqb_eq, intersects_spec by apply pos. split.
  - intros [E (i & A & B)]. exists (sup (V x), i). split; split; simpl; auto.
  - intros ([a i] & [A B] & [C D]); simpl in *. split; [congruence|exists i; auto].
Qed.
Lemma contains_false x v : s_contains (V x) (V v) = false <-> ~ inside v x.
Proof. rewrite <- contains_iff. destruct (s_contains _ _); intuition congruence. Qed.
Lemma intersects_false x v : s_intersects (V x) (V v) = false <-> ~ overlap x v.
Proof. rewrite <- intersects_iff. destruct (s_intersects _ _); intuition congruence. Qed.
Lemma eq_iff x v : s_eq (V x) (V v) = true <-> same x v.
Proof.
  unfold s_eq. rewrite andb_true_iff, Nat.eqb_eq, req_spec. split.
  - intros [E K] c. unfold VarVectorSpec.scalar. rewrite E, K. tauto.
  - intros K.
    assert (A : inside v x) by (intros c; apply K). assert (B : inside x v) by (intros c; apply K).
    apply contains_iff in A. apply contains_iff in B. unfold s_contains, containsR, containsI, rend in *.
    rewrite !andb_true_iff, Nat.eqb_eq, !Z.leb_le, !Z.ltb_lt in A, B. split; [tauto|].
    destruct (rng (V x)), (rng (V v)); simpl in *. f_equal; lia.
Qed.
Lemma inside_overlap v x : inside v x -> overlap x v.
Proof. intros H. exists (sup (V v), start (rng (V v))). split; [apply H|]; apply first_scalar. Qed.
Lemma inside_refl v : inside v v.
Proof. intros c; auto. Qed.
Lemma overlap_sym a b : overlap a b -> overlap b a.
Proof. intros (c & H1 & H2). exists c; auto. Qed.

(* ---- lists ---- *)
Lemma total_app a b : total (a ++ b) = total a + total b.
Proof. induction a; simpl; auto. rewrite IHa. lia. Qed.
Lemma disjoint_app a b : disjoint (a ++ b) <-> disjoint a /\ disjoint b /\ forall x y, In x a -> In y b -> ~ overlap x y.
Proof.
  induction a as [|x a IH]; simpl.
  - split; [intros H; repeat split; auto; intros ? ? []|tauto].
  - rewrite IH. split.
    + intros (H1 & H2 & H3 & H4). repeat split; auto.
      * intros y Hy. apply H1. apply in_or_app; auto.
      * intros x0 y [->|Hx] Hy; auto. apply H1. apply in_or_app; auto.
    + intros ((H1 & H2) & H3 & H4). repeat split; auto.
      intros y Hy. apply in_app_or in Hy as [Hy|Hy]; auto.
Qed.
Lemma disjoint_NoDup l : disjoint l -> NoDup l.
Proof.
  induction l as [|x l IH]; simpl; constructor.
  - intros Hx. destruct H as [H _]. apply (H x Hx). apply inside_overlap, inside_refl.
  - tauto.
Qed.
Lemma disjoint_cut a x b : disjoint (a ++ x :: b) -> disjoint (a ++ b).
Proof.
  rewrite !disjoint_app. simpl. intros (H1 & (H2 & H3) & H4). repeat split; auto.
Qed.
Lemma NoDup_split_eq (a b a' b' : list nat) x : NoDup (a ++ x :: b) -> a ++ x :: b = a' ++ x :: b' -> a = a' /\ b = b'.
Proof.
  revert a'. induction a as [|y a IH]; intros a' N E; destruct a' as [|y' a']; simpl in *; inversion E; subst; auto.
  - exfalso. inversion N; subst. apply H1. apply in_or_app. right; left; auto.
  - exfalso. inversion N; subst. apply H1. apply in_or_app. right; left; auto.
  - inversion N; subst. destruct (IH a' H3 H1) as [-> ->]. auto.
Qed.

Lemma findI_some p l i j x : findI p l i = Some (j, x) ->
  exists a b, l = a ++ x :: b /\ (j = i + length a)%nat /\ p x = true /\ forall y, In y a -> p y = false.
Proof.
  revert i. induction l as [|y l IH]; simpl; intros i; [discriminate|].
  destruct (p y) eqn:E.
  - intros H; inversion H; subst. exists [], l. repeat split; simpl; auto; try lia; try (intros ? []).
  - intros H. destruct (IH _ H) as (a & b & -> & Hj & Hp & Ha). exists (y :: a), b. repeat split; simpl; auto; try lia.
    intros z [->|Hz]; auto.
Qed.
Lemma findI_none p l i : findI p l i = None <-> forall y, In y l -> p y = false.
Proof.
  revert i. induction l as [|y l IH]; simpl; intros i.
  - split; auto. intros _ ? [].
  - destruct (p y) eqn:E.
    + split; [discriminate|]. intros H. rewrite H in E by auto. discriminate.
    + rewrite IH. split; intros H; auto. intros z [->|Hz]; auto.
Qed.

Lemma setNth_nth {A} (l : list A) k x j : nth_error (setNth l k x) j = if Nat.eqb k j then (if Nat.ltb j (length l) then Some x else None) else nth_error l j.
Proof.
  revert k j. induction l as [|y l IH]; intros k j; simpl.
  - destruct j, (Nat.eqb k _); auto.
  - destruct k, j; simpl; auto. rewrite IH. destruct (Nat.eqb k j); auto.
Qed.
Lemma setNth_length {A} (l : list A) k x : length (setNth l k x) = length l.
Proof. revert k. induction l; intros [|k]; simpl; auto. Qed.

(* ---- the invariant ---- *)
Record vinv (f : nat -> Z -> option (Z * Z)) (ctr : Z) (c : vec) : Prop := {
  vi_dis : disjoint (elems c);
  vi_sz : size_ c = total (elems c);
  vi_st : 0 <= stamp c < ctr;
  vi_mem : forall l1 v l2, elems c = l1 ++ v :: l2 -> exists st, f v (vid c) = Some (total l1, st) /\ st < ctr;
  vi_out : forall v s st, f v (vid c) = Some (s, st) -> ~ In v (elems c) -> 0 <= st < ctr /\
     (st = stamp c -> exists l1 x l2, elems c = l1 ++ x :: l2 /\ inside v x /\ s = total l1 + (start (rng (V v)) - start (rng (V x))))
}.
Record winv (w : world) : Prop := {
  wi_ctr : 0 <= counter w;
  wi_nid : 0 <= nextId w;
  wi_ent : forall v i p, startIn w v i = Some p -> 0 <= i < nextId w;
  wi_vec : forall k c, getV w k = Some c -> (vid c = -1 /\ elems c = []) \/ (0 <= vid c < nextId w /\ vinv (startIn w) (counter w) c);
  wi_id : forall k k' c c', getV w k = Some c -> getV w k' = Some c' -> vid c <> -1 -> vid c = vid c' -> k = k'
}.

Lemma vinv_ext f f' ctr ctr' c : (forall v, f' v (vid c) = f v (vid c)) -> ctr <= ctr' -> vinv f ctr c -> vinv f' ctr' c.
Proof.
  intros E L [H1 H2 H3 H4 H5]. constructor; auto.
  - lia.
  - intros l1 v l2 Hl. destruct (H4 l1 v l2 Hl) as (st & A & B). exists st. rewrite E. split; auto. lia.
  - intros v s st Hf Hn. rewrite E in Hf. destruct (H5 v s st Hf Hn). split; auto. lia.
Qed.

Lemma getV_set f l nid ctr k x j : (k < length l)%nat ->
  getV (mkW f (setNth l k x) nid ctr) j = if Nat.eqb k j then x else getV (mkW f l nid ctr) j.
Proof.
  intros Hk. unfold getV; simpl. rewrite setNth_nth. destruct (Nat.eqb_spec k j); auto. subst j.
  destruct (Nat.ltb_spec k (length l)); auto. lia.
Qed.
Lemma getV_lt w k c : getV w k = Some c -> (k < length (vecs w))%nat.
Proof. unfold getV. intros H. apply nth_error_Some. destruct (nth_error _ _); congruence. Qed.
Lemma getV_same w f nid ctr j : getV (mkW f (vecs w) nid ctr) j = getV w j.
Proof. reflexivity. Qed.

(* modifying one vector *)
Lemma winv_mod w k c f' c' ctr' : winv w -> getV w k = Some c -> vid c <> -1 -> vid c' = vid c ->
  (forall v i, i <> vid c -> f' v i = startIn w v i) -> counter w <= ctr' -> vinv f' ctr' c' ->
  winv (mkW f' (setNth (vecs w) k (Some c')) (nextId w) ctr').
Proof.
  intros [W1 W2 W3 W4 W5] G Hid Hid' Hf L I. pose proof (getV_lt _ _ _ G) as Hk.
  assert (Hr : 0 <= vid c < nextId w) by (destruct (W4 k c G) as [[? _]|[? _]]; [contradiction|auto]).
  constructor; simpl; auto.
  - lia.
  - intros v i p Hp. destruct (Z.eq_dec i (vid c)) as [->|]; [auto|]. rewrite Hf in Hp by auto. eauto.
  - intros j d Gd. rewrite getV_set in Gd by auto. destruct (Nat.eqb_spec k j) as [->|].
    + inversion Gd; subst d. right. rewrite Hid'. auto.
    + rewrite getV_same in Gd. destruct (W4 j d Gd) as [?|[Hd Id]]; [auto|]. right. split; auto.
      eapply vinv_ext; [|exact L|exact Id]. intros v. apply Hf. intros E. apply n. apply (W5 k j c d); auto.
  - intros a b ca cb Ga Gb Ha E. rewrite getV_set in Ga, Gb by auto.
    destruct (Nat.eqb_spec k a) as [<-|], (Nat.eqb_spec k b) as [<-|]; auto.
    + inversion Ga; subst ca. rewrite getV_same in Gb. apply (W5 k b c cb); auto. congruence.
    + inversion Gb; subst cb. rewrite getV_same in Ga. apply (W5 a k ca c); auto. congruence.
    + rewrite getV_same in Ga, Gb. eapply W5; eauto.
Qed.

Lemma upd1_eq f v i x : upd1 f v i x v i = x.
Proof. unfold upd1. rewrite Nat.eqb_refl, Z.eqb_refl. auto. Qed.
Lemma upd1_id f v i x v' i' : i' <> i -> upd1 f v i x v' i' = f v' i'.
Proof. unfold upd1. intros H. destruct (Z.eqb_spec i i'); [congruence|]. now rewrite andb_false_r. Qed.
Lemma upd1_var f v i x v' i' : v' <> v -> upd1 f v i x v' i' = f v' i'.
Proof. unfold upd1. intros H. destruct (Nat.eqb_spec v v'); [congruence|]. auto. Qed.

Lemma usable_inv w k c : winv w -> getV w k = Some c -> vid c <> -1 -> 0 <= vid c < nextId w /\ vinv (startIn w) (counter w) c.
Proof. intros I G H. destruct (wi_vec _ I k c G) as [[? _]|?]; [contradiction|auto]. Qed.

Lemma app_snoc_split (l : list nat) v l1 y l2 : l ++ [v] = l1 ++ y :: l2 ->
  (l2 = [] /\ l1 = l /\ y = v) \/ exists l2', l2 = l2' ++ [v] /\ l = l1 ++ y :: l2'.
Proof.
  destruct (exists_last (l := y :: l2)) as (l2' & z & E); [discriminate|]. rewrite E. rewrite app_assoc. intros H.
  apply app_inj_tail in H as [-> ->]. destruct l2' as [|y' l2'].
  - simpl in E. inversion E; subst. left. rewrite app_nil_r. auto.
  - simpl in E. inversion E; subst. right. eauto.
Qed.

Lemma add__inv w k c v : winv w -> getV w k = Some c -> vid c <> -1 -> (forall x, In x (elems c) -> ~ overlap x v) ->
  winv (add_ V w k c v).
Proof.
  intros I G Hid D. destruct (usable_inv _ _ _ I G Hid) as [Hr [A1 A2 A3 A4 A5]].
  eapply winv_mod; eauto; simpl; auto; try lia.
  - intros u i Hi. now apply upd1_id.
  - assert (Hv : ~ In v (elems c)) by (intros Hv; apply (D v Hv); apply inside_overlap, inside_refl).
    pose proof (wi_ctr _ I).
    constructor; simpl; try lia.
    + apply disjoint_app. simpl. split; auto. split; [split; auto; intros ? []|]. intros x y Hx [<-|[]]. auto.
    + rewrite total_app. simpl. lia.
    + intros l1 y l2 E. apply app_snoc_split in E as [(-> & -> & ->)|(l2' & -> & E)].
      * exists (-1). rewrite upd1_eq, A2. split; auto. lia.
      * destruct (A4 l1 y l2' E) as (st & B1 & B2). exists st. split; [|lia]. rewrite upd1_var; auto.
        intros ->. apply Hv. rewrite E. apply in_or_app; right; left; auto.
    + intros u s st Hf Hn. rewrite upd1_var in Hf.
      * destruct (A5 u s st Hf) as [B1 B2]. { intros Hu. apply Hn, in_or_app; auto. } split; [lia|]. intros ->. lia.
      * intros ->. apply Hn, in_or_app. right; left; auto.
Qed.

Lemma addLoop_spec l v :
  (addLoop V l v = Some (RBool false) /\ exists x, In x l /\ inside v x) \/
  (addLoop V l v = Some RThrow /\ exists x, In x l /\ overlap x v /\ ~ inside v x) \/
  (addLoop V l v = None /\ forall x, In x l -> ~ overlap x v).
Proof.
  induction l as [|x l IH]; simpl.
  - right; right. split; auto.
  - destruct (s_contains (V x) (V v)) eqn:C.
    + left. split; auto. exists x. split; auto. now apply contains_iff.
    + destruct (s_intersects (V x) (V v)) eqn:O.
      * right; left. split; auto. exists x. apply contains_false in C. apply intersects_iff in O. auto.
      * apply intersects_false in O. destruct IH as [(E & y & H)|[(E & y & H)|(E & H)]].
        -- left. split; auto. exists y. tauto.
        -- right; left. split; auto. exists y. tauto.
        -- right; right. split; auto. intros y [<-|Hy]; auto.
Qed.
Lemma vv_contains_iff c v : vv_contains V c v = true <-> exists x, In x (elems c) /\ inside v x.
Proof.
  unfold vv_contains. rewrite existsb_exists. split; intros (x & A & B); exists x; split; auto; now apply contains_iff.
Qed.

(* the behaviour of add *)
Lemma add_spec w k v c : getV w k = Some c ->
  ((exists x, In x (elems c) /\ inside v x) /\ add V w k v = (w, RBool false)) \/
  ((forall x, In x (elems c) -> ~ inside v x) /\ (exists x, In x (elems c) /\ overlap x v) /\ add V w k v = (w, RThrow)) \/
  ((forall x, In x (elems c) -> ~ overlap x v) /\ add V w k v = (add_ V w k c v, RBool true)).
Proof.
  intros G. unfold add. rewrite G. destruct (vv_contains V c v) eqn:C.
  - left. split; auto. now apply vv_contains_iff.
  - right. assert (N : forall x, In x (elems c) -> ~ inside v x).
    { intros x Hx Hi. assert (vv_contains V c v = true) by (apply vv_contains_iff; eauto). congruence. }
    destruct (addLoop_spec (elems c) v) as [(E & y & H1 & H2)|[(E & y & H1 & H2 & H3)|(E & H)]].
    + exfalso. eapply N; eauto.
    + left. rewrite E. split; auto. split; eauto.
    + right. rewrite E. auto.
Qed.

Lemma getV_add_ w k c v j : getV w k = Some c ->
  getV (add_ V w k c v) j = if Nat.eqb k j then Some (mkVec (vid c) (counter w) (size_ c + vsize (V v)) (elems c ++ [v])) else getV w j.
Proof. intros G. unfold add_. rewrite getV_set by (eapply getV_lt; eauto). reflexivity. Qed.

Lemma add_inv w k v c : winv w -> getV w k = Some c -> vid c <> -1 ->
  winv (fst (add V w k v)) /\ (exists c', getV (fst (add V w k v)) k = Some c' /\ vid c' = vid c) /\
  (forall j, j <> k -> getV (fst (add V w k v)) j = getV w j) /\ snd (add V w k v) <> RUB.
Proof.
  intros I G H. destruct (add_spec w k v c G) as [(_ & E)|[(_ & _ & E)|(D & E)]]; rewrite E; simpl.
  - split; auto. split; [eauto|]. split; [auto|discriminate].
  - split; auto. split; [eauto|]. split; [auto|discriminate].
  - split; [eapply add__inv; eauto|]. split; [|split].
    + eexists. rewrite getV_add_ by auto. rewrite Nat.eqb_refl. split; reflexivity.
    + intros j Hj. rewrite getV_add_ by auto. destruct (Nat.eqb_spec k j); congruence.
    + discriminate.
Qed.

Lemma addL_inv l : forall w k c, winv w -> getV w k = Some c -> vid c <> -1 ->
  winv (fst (addL V w k l)) /\ (exists c', getV (fst (addL V w k l)) k = Some c' /\ vid c' = vid c) /\
  (forall j, j <> k -> getV (fst (addL V w k l)) j = getV w j) /\ snd (addL V w k l) <> RUB.
Proof.
  induction l as [|v l IH]; intros w k c I G H; simpl.
  - split; auto. split; [eauto|]. split; [auto|discriminate].
  - destruct (add_inv w k v c I G H) as (I1 & (c1 & G1 & H1) & F1 & U1). destruct (add V w k v) as [w1 o]. simpl in *.
    destruct (IH w1 k c1 I1 G1 ltac:(congruence)) as (I2 & (c2 & G2 & H2) & F2 & U2).
    assert (K : winv w1 /\ (exists c' : vec, getV w1 k = Some c' /\ vid c' = vid c) /\
      (forall j : nat, j <> k -> getV w1 j = getV w j)) by (split; auto; split; eauto).
    assert (K2 : winv (fst (addL V w1 k l)) /\ (exists c' : vec, getV (fst (addL V w1 k l)) k = Some c' /\ vid c' = vid c) /\
       (forall j : nat, j <> k -> getV (fst (addL V w1 k l)) j = getV w j) /\ snd (addL V w1 k l) <> RUB).
    { split; auto. split; [exists c2; split; congruence|]. split; auto. intros j Hj. rewrite F2; auto. }
    destruct o; auto; simpl; try (destruct K as (Ka & Kb & Kc); split; auto; split; auto; split; auto; congruence).
Qed.

(* adding a list of variables disjoint from each other and from the vector *)
Lemma addL_disjoint l : forall w k c, getV w k = Some c -> disjoint (elems c ++ l) ->
  snd (addL V w k l) = RUnit /\ exists c', getV (fst (addL V w k l)) k = Some c' /\ elems c' = elems c ++ l /\ vid c' = vid c.
Proof.
  induction l as [|v l IH]; intros w k c G D; simpl.
  - split; auto. exists c. rewrite app_nil_r. auto.
  - assert (D1 : forall x, In x (elems c) -> ~ overlap x v).
    { intros x Hx. apply disjoint_app in D as (_ & _ & D). apply D; auto. left; auto. }
    destruct (add_spec w k v c G) as [((x & Hx & Hi) & E)|[(_ & (x & Hx & Hi) & E)|(_ & E)]].
    + exfalso. apply (D1 x Hx). now apply inside_overlap.
    + exfalso. apply (D1 x Hx). auto.
    + rewrite E. set (c1 := mkVec (vid c) (counter w) (size_ c + vsize (V v)) (elems c ++ [v])).
      assert (G1 : getV (add_ V w k c v) k = Some c1) by (rewrite getV_add_ by auto; now rewrite Nat.eqb_refl).
      destruct (IH (add_ V w k c v) k c1 G1) as (E1 & c' & G' & El & Ei).
      * simpl. rewrite <- app_assoc. auto.
      * split; auto. exists c'. split; auto. simpl in El. rewrite <- app_assoc in El. auto.
Qed.

(* adding variables already contained *)
Lemma addL_contained l : forall w k c, getV w k = Some c -> (forall v, In v l -> exists x, In x (elems c) /\ inside v x) ->
  addL V w k l = (w, RUnit).
Proof.
  induction l as [|v l IH]; intros w k c G D; simpl; auto.
  destruct (add_spec w k v c G) as [(_ & E)|[(N & _ & _)|(N & _)]].
  - rewrite E. eapply IH; eauto. intros u Hu. apply D. right; auto.
  - exfalso. destruct (D v) as (x & A & B); [left; auto|]. eapply N; eauto.
  - exfalso. destruct (D v) as (x & A & B); [left; auto|]. eapply N; eauto. now apply inside_overlap.
Qed.

Lemma addL_adds l : forall w k c, getV w k = Some c ->
  exists c' b, getV (fst (addL V w k l)) k = Some c' /\ adds V (elems c) l (elems c') b /\
    snd (addL V w k l) = (if b then RThrow else RUnit) /\ forall j, j <> k -> getV (fst (addL V w k l)) j = getV w j.
Proof.
  induction l as [|v l IH]; intros w k c G; simpl.
  - exists c, false. repeat split; auto. constructor.
  - destruct (add_spec w k v c G) as [(A & E)|[(A & B & E)|(A & E)]]; rewrite E.
    + destruct (IH w k c G) as (c' & b & H1 & H2 & H3). exists c', b. split; auto. split; auto. apply adds_skip; auto.
    + exists c, true. simpl. repeat split; auto. apply adds_stop; auto.
    + pose proof (getV_add_ w k c v k G) as G1. rewrite Nat.eqb_refl in G1.
      destruct (IH _ k _ G1) as (c' & b & H1 & H2 & H3 & H4). exists c', b. split; auto. split; [apply adds_new; auto|].
      split; auto. intros j Hj. rewrite H4 by auto. rewrite getV_add_ by auto. destruct (Nat.eqb_spec k j); congruence.
Qed.

Lemma addVec_inv w k k' c c' : winv w -> getV w k = Some c -> vid c <> -1 -> getV w k' = Some c' ->
  winv (fst (addVec V w k k')) /\ snd (addVec V w k k') <> RUB.
Proof.
  intros I G H G'. unfold addVec. rewrite G'. destruct (Nat.eqb_spec k k') as [<-|N].
  - rewrite G in G'; inversion G'; subst c'.
    rewrite (addL_contained (elems c) w k c G) by (intros v Hv; exists v; split; auto; apply inside_refl).
    rewrite G. rewrite Nat.eqb_refl. simpl. split; auto. discriminate.
  - destruct (addL_inv (elems c') w k c I G H) as (I1 & _ & _ & U). destruct (addL V w k (elems c')). simpl in *. auto.
Qed.

Lemma addIdx_spec w k v b c : getV w k = Some c -> disjoint (elems c) ->
  (exists l1 x l2, elems c = l1 ++ x :: l2 /\ inside v x /\
     addAndGetIndex V w k v b = (w, RInt (if s_eq (V x) (V v) || b then Z.of_nat (length l1) else -1))) \/
  ((forall x, In x (elems c) -> ~ inside v x) /\ (exists x, In x (elems c) /\ overlap x v) /\ addAndGetIndex V w k v b = (w, RThrow)) \/
  ((forall x, In x (elems c) -> ~ overlap x v) /\ addAndGetIndex V w k v b = (add_ V w k c v, RInt (Z.of_nat (length (elems c))))).
Proof.
  intros G D. unfold addAndGetIndex. rewrite G.
  destruct (findI _ (elems c) 0) as [[i x]|] eqn:E.
  - apply findI_some in E as (l1 & l2 & El & Hi & Hp & Hn). simpl in Hi. subst i.
    destruct (s_eq (V x) (V v)) eqn:Eq.
    + left. exists l1, x, l2. rewrite Eq. apply eq_iff in Eq. split; [auto|split; [intros s; apply Eq|auto]].
    + destruct (s_contains (V x) (V v)) eqn:C.
      * left. exists l1, x, l2. rewrite Eq. apply contains_iff in C. split; auto.
      * simpl in Hp. right; left. apply contains_false in C. apply intersects_iff in Hp. split; [|split; auto].
        -- intros y Hy Hin. rewrite El in Hy. apply in_app_or in Hy as [Hy|[<-|Hy]]; auto.
           ++ specialize (Hn y Hy). apply orb_false_iff in Hn as [Hn _]. apply contains_false in Hn. auto.
           ++ destruct Hp as (s & Hs1 & Hs2). rewrite El in D. apply disjoint_app in D as (_ & [D _] & _).
              apply (D y Hy). exists s. split; auto.
        -- exists x. split; auto. rewrite El. apply in_or_app; right; left; auto.
  - right; right. split; auto. rewrite findI_none in E. intros x Hx. specialize (E x Hx). apply orb_false_iff in E as [_ E].
    now apply intersects_false.
Qed.

Lemma addIdx_inv w k v b c : winv w -> getV w k = Some c -> vid c <> -1 ->
  winv (fst (addAndGetIndex V w k v b)) /\ snd (addAndGetIndex V w k v b) <> RUB.
Proof.
  intros I G H. destruct (usable_inv _ _ _ I G H) as [_ Iv].
  destruct (addIdx_spec w k v b c G (vi_dis _ _ _ Iv)) as [(l1 & x & l2 & _ & _ & E)|[(_ & _ & E)|(D & E)]]; rewrite E; simpl.
  - split; auto. discriminate.
  - split; auto. discriminate.
  - split; [eapply add__inv; eauto|discriminate].
Qed.

(* ---- removal ---- *)
Lemma shiftAll_id f i si l v j : j <> i -> shiftAll f i si l v j = f v j.
Proof. revert f. induction l as [|x l IH]; intros f H; simpl; auto. rewrite IH by auto. now apply upd1_id. Qed.
Lemma shiftAll_out f i si l v j : ~ In v l -> shiftAll f i si l v j = f v j.
Proof.
  revert f. induction l as [|x l IH]; intros f H; simpl; auto. rewrite IH by (intros K; apply H; right; auto).
  apply upd1_var. intros ->. apply H; left; auto.
Qed.
Lemma shiftAll_in f i si l v : NoDup l -> In v l -> shiftAll f i si l v i =
  let e := match f v i with Some p => p | None => (0, 0) end in Some (fst e - si, snd e).
Proof.
  revert f. induction l as [|x l IH]; intros f N H; [destruct H|]. inversion N; subst. simpl. destruct H as [->|H].
  - rewrite shiftAll_out by auto. now rewrite upd1_eq.
  - rewrite IH by auto. rewrite upd1_var; auto. intros ->; contradiction.
Qed.

Lemma skipn_S_app (a : list nat) x b : skipn (S (length a)) (a ++ x :: b) = b.
Proof. induction a; simpl; auto. Qed.
Lemma firstn_app_len (a : list nat) b : firstn (length a) (a ++ b) = a.
Proof. rewrite firstn_app, firstn_all, Nat.sub_diag. simpl. apply app_nil_r. Qed.

Lemma in_app_split (a b l1 l2 : list nat) y : a ++ b = l1 ++ y :: l2 ->
  (exists a2, a = l1 ++ y :: a2 /\ l2 = a2 ++ b) \/ (exists b1, b = b1 ++ y :: l2 /\ l1 = a ++ b1).
Proof.
  revert l1. induction a as [|z a IH]; intros l1 E; simpl in E.
  - right. exists l1. auto.
  - destruct l1 as [|z' l1]; simpl in E; inversion E; subst.
    + left. exists a. auto.
    + destruct (IH l1 H1) as [(a2 & -> & ->)|(b1 & -> & ->)]; [left|right]; eexists; split; reflexivity.
Qed.

Lemma remove__inv w k c a x b : winv w -> getV w k = Some c -> vid c <> -1 -> elems c = a ++ x :: b ->
  winv (remove_ V w k c (length a) x) /\
  forall j, getV (remove_ V w k c (length a) x) j =
    if Nat.eqb k j then Some (mkVec (vid c) (counter w) (size_ c - vsize (V x)) (a ++ b)) else getV w j.
Proof.
  intros I G Hid El. destruct (usable_inv _ _ _ I G Hid) as [Hr [A1 A2 A3 A4 A5]].
  pose proof (disjoint_NoDup _ A1) as N. rewrite El in N.
  unfold remove_. rewrite El, skipn_S_app, firstn_app_len.
  assert (Hx : ~ In x (a ++ b)) by (apply NoDup_remove in N; tauto).
  assert (Nb : NoDup b) by (apply NoDup_remove_1 in N; clear - N; induction a; simpl in *; auto; inversion N; auto).
  split.
  - eapply winv_mod; eauto; simpl; auto; try lia.
    + intros v i Hi. rewrite upd1_id by auto. now apply shiftAll_id.
    + pose proof (wi_ctr _ I). constructor; simpl; try lia.
      * rewrite El in A1. eapply disjoint_cut; eauto.
      * rewrite A2, El, !total_app. simpl. lia.
      * intros l1 y l2 E. assert (Hy : y <> x) by (intros ->; apply Hx; rewrite E; apply in_or_app; right; left; auto).
        rewrite upd1_var by auto.
        apply in_app_split in E as [(a2 & Ea & ->)|(b1 & Eb & ->)].
        -- rewrite shiftAll_out. 2:{ intros Hb. rewrite Ea in N. rewrite <- app_assoc in N. simpl in N. apply NoDup_remove_2 in N. apply N.
             apply in_or_app; right. apply in_or_app; right; right; auto. }
           destruct (A4 l1 y (a2 ++ x :: b)) as (st & B1 & B2). { rewrite El, Ea, <- app_assoc. auto. } exists st. split; auto. lia.
        -- rewrite shiftAll_in; auto. 2:{ rewrite Eb. apply in_or_app; right; left; auto. }
           destruct (A4 (a ++ x :: b1) y l2) as (st & B1 & B2). { rewrite El, Eb, <- app_assoc. auto. }
           rewrite B1. simpl. exists st. split; [|lia]. rewrite !total_app. simpl. do 2 f_equal. lia.
      * intros v s st Hf Hn. destruct (Nat.eq_dec v x) as [->|Hv].
        { rewrite upd1_eq in Hf. discriminate. }
        rewrite upd1_var in Hf by auto. rewrite shiftAll_out in Hf by (intros K; apply Hn, in_or_app; auto).
        destruct (A5 v s st Hf) as [B1 B2].
        { rewrite El. intros K. apply in_app_or in K as [K|[K|K]]; [apply Hn, in_or_app; auto|congruence|apply Hn, in_or_app; auto]. }
        split; [lia|]. intros ->. lia.
  - intros j. rewrite getV_set by (eapply getV_lt; eauto). reflexivity.
Qed.

Lemma remove_spec w k v c : getV w k = Some c ->
  (exists a x b, elems c = a ++ x :: b /\ same x v /\ remove V w k v = (remove_ V w k c (length a) x, RBool true)) \/
  ((forall x, In x (elems c) -> ~ same x v) /\ remove V w k v = (w, RBool false)).
Proof.
  intros G. unfold remove. rewrite G. destruct (findI _ (elems c) 0) as [[i x]|] eqn:E.
  - apply findI_some in E as (a & b & El & Hi & Hp & _). simpl in Hi. subst i. left. exists a, x, b. apply eq_iff in Hp. auto.
  - right. rewrite findI_none in E. split; auto. intros x Hx Hs. apply eq_iff in Hs. rewrite (E x Hx) in Hs. discriminate.
Qed.

Lemma removeI_spec w k i c : getV w k = Some c ->
  (exists a x b, elems c = a ++ x :: b /\ i = Z.of_nat (length a) /\ removeI V w k i = (remove_ V w k c (length a) x, RUnit)) \/
  (~ (0 <= i < Z.of_nat (length (elems c))) /\ removeI V w k i = (w, RThrow)).
Proof.
  intros G. unfold removeI. rewrite G. destruct (Z.ltb_spec i 0), (Z.leb_spec (Z.of_nat (length (elems c))) i); simpl; try (right; split; auto; lia).
  left. destruct (nth_error (elems c) (Z.to_nat i)) as [x|] eqn:E.
  - destruct (nth_error_split _ _ E) as (a & b & El & La). exists a, x, b. rewrite La. repeat split; auto. lia.
  - apply nth_error_None in E. lia.
Qed.

(* ---- clear, construction, copies, moves ---- *)
Lemma eraseAll_id f i l v j : j <> i -> eraseAll f i l v j = f v j.
Proof. revert f. induction l as [|x l IH]; intros f H; simpl; auto. rewrite IH by auto. now apply upd1_id. Qed.
Lemma eraseAll_out f i l v j : ~ In v l -> eraseAll f i l v j = f v j.
Proof.
  revert f. induction l as [|x l IH]; intros f H; simpl; auto. rewrite IH by (intros K; apply H; right; auto).
  apply upd1_var. intros ->. apply H; left; auto.
Qed.
Lemma eraseAll_in f i l v : In v l -> eraseAll f i l v i = None.
Proof.
  revert f. induction l as [|x l IH]; intros f H; [destruct H|]. simpl. destruct (in_dec Nat.eq_dec v l) as [K|K]; auto.
  destruct H as [->|H]; [|contradiction]. rewrite eraseAll_out by auto. apply upd1_eq.
Qed.

Lemma clear__inv w k c : winv w -> getV w k = Some c -> vid c <> -1 ->
  winv (clear_ w k c) /\
  forall j, getV (clear_ w k c) j = if Nat.eqb k j then Some (mkVec (vid c) (counter w) 0 []) else getV w j.
Proof.
  intros I G Hid. destruct (usable_inv _ _ _ I G Hid) as [Hr [A1 A2 A3 A4 A5]]. pose proof (wi_ctr _ I). split.
  - eapply winv_mod; eauto; simpl; auto; try lia.
    + intros v i Hi. now apply eraseAll_id.
    + constructor; simpl; auto; try lia.
      * intros [|]; discriminate.
      * intros v s st Hf _. destruct (in_dec Nat.eq_dec v (elems c)) as [Hv|Hv].
        -- rewrite eraseAll_in in Hf by auto. discriminate.
        -- rewrite eraseAll_out in Hf by auto. destruct (A5 v s st Hf Hv) as [B1 B2]. split; [lia|]. intros ->; lia.
  - intros j. unfold clear_. rewrite getV_set by (eapply getV_lt; eauto). reflexivity.
Qed.

Lemma kill_inv w k : winv w -> winv (putV w k None).
Proof.
  intros I. unfold putV. destruct (Nat.lt_ge_cases k (length (vecs w))) as [Hk|Hk].
  2:{ assert (E : setNth (vecs w) k None = vecs w).
      { clear - Hk. revert k Hk. induction (vecs w) as [|y l IH]; intros [|k] Hk; simpl in *; auto; try lia. f_equal. apply IH. lia. }
      rewrite E. destruct w; auto. }
  destruct I as [W1 W2 W3 W4 W5]. constructor; simpl; auto.
  - intros j d Gd. rewrite getV_set in Gd by auto. destruct (Nat.eqb k j); [discriminate|]. apply (W4 j d Gd).
  - intros a b ca cb Ga Gb. rewrite getV_set in Ga, Gb by auto. destruct (Nat.eqb k a); [discriminate|]. destruct (Nat.eqb k b); [discriminate|].
    apply (W5 a b ca cb Ga Gb).
Qed.

(* clearing a moved-from vector changes nothing but its stamp *)
Lemma clear_moved w k c : winv w -> getV w k = Some c -> vid c = -1 -> winv (clear_ w k c) /\
  forall j, getV (clear_ w k c) j = if Nat.eqb k j then Some (mkVec (-1) (counter w) 0 []) else getV w j.
Proof.
  intros I G Hid. pose proof (getV_lt _ _ _ G) as Hk. destruct (wi_vec _ I k c G) as [[_ El]|[Hr _]]; [|lia].
  split.
  - unfold clear_. rewrite El, Hid. simpl. destruct I as [W1 W2 W3 W4 W5]. constructor; simpl; auto; try lia.
    + intros j d Gd. rewrite getV_set in Gd by auto. destruct (Nat.eqb k j).
      * inversion Gd; subst; simpl; auto.
      * destruct (W4 j d Gd) as [?|[? ?]]; auto. right. split; auto. eapply vinv_ext; [|  |exact H0]; auto. lia.
    + intros a b ca cb Ga Gb. rewrite getV_set in Ga, Gb by auto. destruct (Nat.eqb_spec k a), (Nat.eqb_spec k b); subst.
      * auto.
      * inversion Ga; subst; simpl. congruence.
      * inversion Gb; subst; simpl. congruence.
      * apply (W5 a b ca cb Ga Gb).
  - intros j. unfold clear_. rewrite getV_set by auto. rewrite Hid. reflexivity.
Qed.

Lemma destroy_inv w k c : winv w -> getV w k = Some c -> winv (fst (destroy w k)) /\
  (forall j, getV (fst (destroy w k)) j = if Nat.eqb k j then None else getV w j) /\ snd (destroy w k) = RUnit.
Proof.
  intros I G. unfold destroy. rewrite G. simpl.
  assert (winv (clear_ w k c) /\ forall j, k <> j -> getV (clear_ w k c) j = getV w j) as [I1 F].
  { destruct (Z.eq_dec (vid c) (-1)) as [E|E].
    - destruct (clear_moved w k c I G E) as [A B]. split; auto. intros j Hj. rewrite B. destruct (Nat.eqb_spec k j); congruence.
    - destruct (clear__inv w k c I G E) as [A B]. split; auto. intros j Hj. rewrite B. destruct (Nat.eqb_spec k j); congruence. }
  split; [now apply kill_inv|]. split; auto. intros j. unfold putV. simpl vecs. rewrite getV_set.
  - destruct (Nat.eqb_spec k j); auto.
  - simpl. rewrite setNth_length. eapply getV_lt; eauto.
Qed.

Lemma getV_app w f nid ctr x j : getV (mkW f (vecs w ++ [x]) nid ctr) j = if Nat.eqb j (length (vecs w)) then x else getV w j.
Proof.
  unfold getV; simpl. destruct (Nat.eqb_spec j (length (vecs w))) as [->|N].
  - rewrite nth_error_app2, Nat.sub_diag by lia. auto.
  - destruct (Nat.lt_ge_cases j (length (vecs w))).
    + now rewrite nth_error_app1.
    + rewrite (proj2 (nth_error_None (vecs w ++ [x]) j)) by (rewrite app_length; simpl; lia).
      rewrite (proj2 (nth_error_None (vecs w) j)); auto.
Qed.

Lemma newVec_inv w : winv w -> winv (fst (newVec w)) /\
  getV (fst (newVec w)) (snd (newVec w)) = Some (mkVec (nextId w) (counter w) 0 []) /\
  (forall j, j <> snd (newVec w) -> getV (fst (newVec w)) j = getV w j).
Proof.
  intros I. unfold newVec; simpl. destruct I as [W1 W2 W3 W4 W5]. split; [|split].
  - constructor; simpl; try lia.
    + intros v i p Hp. specialize (W3 v i p Hp). lia.
    + intros k c G. rewrite getV_app in G. destruct (Nat.eqb k (length (vecs w))).
      * inversion G; subst; simpl. right. split; [lia|]. constructor; simpl; auto; try lia.
        -- intros [|]; discriminate.
        -- intros v s st Hf. specialize (W3 _ _ _ Hf). lia.
      * destruct (W4 k c G) as [?|[? Iv]]; auto. right. split; [lia|]. eapply vinv_ext; [| |exact Iv]; auto. lia.
    + intros a b ca cb Ga Gb Ha E. rewrite getV_app in Ga, Gb.
      destruct (Nat.eqb_spec a (length (vecs w))) as [->|], (Nat.eqb_spec b (length (vecs w))) as [->|]; auto.
      * inversion Ga; subst; simpl in *. destruct (W4 b cb Gb) as [[? _]|[? _]]; lia.
      * inversion Gb; subst; simpl in *. destruct (W4 a ca Ga) as [[? _]|[? _]]; lia.
      * eapply W5; eauto.
  - rewrite getV_app, Nat.eqb_refl. auto.
  - intros j Hj. rewrite getV_app. destruct (Nat.eqb_spec j (length (vecs w))); congruence.
Qed.

Lemma addL_out l : forall w k, snd (addL V w k l) = RUnit \/ snd (addL V w k l) = RThrow \/ snd (addL V w k l) = RUB.
Proof.
  induction l as [|v l IH]; intros w k; simpl; auto. destruct (add V w k v) as [w1 o]. destruct o; simpl; auto.
Qed.

Lemma newList_inv w l : winv w -> winv (fst (newList V w l)) /\ snd (newList V w l) <> RUB.
Proof.
  intros I. unfold newList. destruct (newVec_inv w I) as (I1 & G1 & F1). destruct (newVec w) as [w1 k]. simpl in *.
  destruct (addL_inv l w1 k _ I1 G1) as (I2 & (c2 & G2 & _) & F2 & U2). { simpl. pose proof (wi_nid _ I). lia. }
  pose proof (addL_out l w1 k) as O. destruct (addL V w1 k l) as [w2 o]. simpl in *.
  assert (Hd : winv (fst (destroy w2 k))) by (eapply destroy_inv; eauto).
  destruct O as [-> | [-> | -> ]]; simpl; try congruence; split; auto; discriminate.
Qed.

Lemma newList_disjoint w l : winv w -> disjoint l -> exists w' k c, newList V w l = (w', RSlot k) /\ getV w' k = Some c /\ elems c = l /\
  (forall j, j <> k -> getV w' j = getV w j) /\ getV w k = None.
Proof.
  intros I D. unfold newList. destruct (newVec_inv w I) as (I1 & G1 & F1).
  assert (Ek : snd (newVec w) = length (vecs w)) by reflexivity.
  destruct (newVec w) as [w1 k]. simpl in *.
  destruct (addL_inv l w1 k _ I1 G1) as (I2 & _ & F2 & U2). { simpl. pose proof (wi_nid _ I). lia. }
  destruct (addL_disjoint l w1 k _ G1 D) as (E & c & G & El & _).
  destruct (addL V w1 k l) as [w2 o]. simpl in *. subst o. exists w2, k, c. repeat split; auto.
  - intros j Hj. rewrite F2, F1; auto.
  - subst k. unfold getV. rewrite (proj2 (nth_error_None _ _)); auto.
Qed.

Lemma assign_inv w k k' c c' : winv w -> getV w k = Some c -> vid c <> -1 -> getV w k' = Some c' -> k <> k' ->
  winv (fst (assign V w k k')) /\ snd (assign V w k k') = RUnit /\
  (exists c1, getV (fst (assign V w k k')) k = Some c1 /\ elems c1 = elems c') /\
  forall j, j <> k -> getV (fst (assign V w k k')) j = getV w j.
Proof.
  intros I G Hid G' N. unfold assign. rewrite G. destruct (clear__inv w k c I G Hid) as [I1 F1].
  assert (G1 : getV (clear_ w k c) k' = Some c') by (rewrite F1; destruct (Nat.eqb_spec k k'); congruence).
  rewrite G1. assert (G2 := F1 k). rewrite Nat.eqb_refl in G2.
  destruct (addL_inv (elems c') _ k _ I1 G2 Hid) as (I2 & _ & F2 & _).
  assert (D : disjoint (elems c')).
  { destruct (wi_vec _ I k' c' G') as [[_ ->]|[_ Iv]]; [simpl; auto|apply Iv]. }
  destruct (addL_disjoint (elems c') (clear_ w k c) k _ G2 D) as (E & c1 & G3 & El & _).
  split; auto. split; auto. split; [eauto|]. intros j Hj. rewrite F2, F1 by auto. destruct (Nat.eqb_spec k j); congruence.
Qed.

Lemma moveNew_inv w k c : winv w -> getV w k = Some c -> winv (fst (moveNew w k)).
Proof.
  intros I G. pose proof (getV_lt _ _ _ G) as Hk. unfold moveNew. rewrite G. simpl. destruct I as [W1 W2 W3 W4 W5].
  assert (L : forall j, getV (mkW (startIn w) (setNth (vecs w) k (Some (mkVec (-1) (stamp c) (size_ c) [])) ++ [Some c]) (nextId w) (counter w)) j
    = if Nat.eqb j (length (vecs w)) then Some c else if Nat.eqb k j then Some (mkVec (-1) (stamp c) (size_ c) []) else getV w j).
  { intros j. pose proof (getV_app (mkW (startIn w) (setNth (vecs w) k (Some (mkVec (-1) (stamp c) (size_ c) []))) (nextId w) (counter w)) (startIn w) (nextId w) (counter w) (Some c) j) as E.
    simpl vecs in E. rewrite E. rewrite setNth_length, getV_set by auto. reflexivity. }
  constructor; simpl; auto.
  - intros j d Gd. rewrite L in Gd. destruct (Nat.eqb j _).
    + inversion Gd; subst; eauto.
    + destruct (Nat.eqb k j); [inversion Gd; subst; simpl; auto|]. eauto.
  - intros a b ca cb Ga Gb Ha E. rewrite L in Ga, Gb.
    destruct (Nat.eqb_spec a (length (vecs w))) as [->|], (Nat.eqb_spec b (length (vecs w))) as [->|]; auto.
    + inversion Ga; subst ca. destruct (Nat.eqb_spec k b); [inversion Gb; subst; simpl in *; congruence|].
      exfalso. apply n0. apply (W5 k b c cb); auto.
    + inversion Gb; subst cb. destruct (Nat.eqb_spec k a); [inversion Ga; subst; simpl in *; congruence|].
      exfalso. apply n0. apply (W5 k a c ca); auto; congruence.
    + destruct (Nat.eqb_spec k a); [inversion Ga; subst; simpl in *; congruence|].
      destruct (Nat.eqb_spec k b); [inversion Gb; subst; simpl in *; congruence|]. eapply W5; eauto.
Qed.

Lemma moveAssign_get w k k' c c' : getV w k = Some c -> getV w k' = Some c' -> k <> k' -> forall j,
  getV (fst (moveAssign w k k')) j = if Nat.eqb k' j then Some (mkVec (-1) (stamp c') (size_ c') []) else if Nat.eqb k j then Some c' else getV w j.
Proof.
  intros G G' N j. unfold moveAssign. rewrite G, G'. simpl. unfold putV. simpl vecs.
  rewrite getV_set by (rewrite setNth_length; eapply getV_lt; eauto). simpl startIn.
  destruct (Nat.eqb k' j); auto. rewrite getV_set by (eapply getV_lt; eauto). reflexivity.
Qed.
Lemma moveAssign_inv w k k' c c' : winv w -> getV w k = Some c -> getV w k' = Some c' -> k <> k' -> winv (fst (moveAssign w k k')).
Proof.
  intros I G G' N. pose proof (moveAssign_get w k k' c c' G G' N) as L.
  assert (E : startIn (fst (moveAssign w k k')) = startIn w /\ nextId (fst (moveAssign w k k')) = nextId w /\ counter (fst (moveAssign w k k')) = counter w).
  { unfold moveAssign. rewrite G, G'. simpl. auto. }
  destruct E as (E1 & E2 & E3). destruct I as [W1 W2 W3 W4 W5]. constructor; rewrite ?E1, ?E2, ?E3; auto.
  - intros j d Gd. rewrite L in Gd. destruct (Nat.eqb k' j); [inversion Gd; subst; simpl; auto|].
    destruct (Nat.eqb k j); [inversion Gd; subst; eauto|eauto].
  - intros a b ca cb Ga Gb Ha E. rewrite L in Ga, Gb.
    destruct (Nat.eqb_spec k' a); [inversion Ga; subst; simpl in *; congruence|].
    destruct (Nat.eqb_spec k' b); [inversion Gb; subst; simpl in *; congruence|].
    destruct (Nat.eqb_spec k a) as [<-|], (Nat.eqb_spec k b) as [<-|]; auto.
    + inversion Ga; subst ca. exfalso. apply n0. eapply W5; eauto.
    + inversion Gb; subst cb. exfalso. apply n. eapply W5; eauto; congruence.
    + eapply W5; eauto.
Qed.

(* ---- mappings ---- *)
Lemma overlap_In l x y : disjoint l -> In x l -> In y l -> overlap x y -> x = y.
Proof.
  induction l as [|z l IH]; simpl; [tauto|]. intros [D1 D2] [->|Hx] [->|Hy] O; auto.
  - exfalso. eapply D1; eauto.
  - exfalso. eapply D1; eauto. now apply overlap_sym.
Qed.
Lemma position_unique l v r r' : disjoint l -> position V l v r -> position V l v r' -> r = r'.
Proof.
  intros D (a & x & b & E & Hi & ->) (a' & x' & b' & E' & Hi' & ->).
  assert (x = x').
  { apply (overlap_In l); auto.
    - rewrite E. apply in_or_app; right; left; auto.
    - rewrite E'. apply in_or_app; right; left; auto.
    - exists (sup (V v), start (rng (V v))). split; [apply Hi|apply Hi']; apply first_scalar. }
  subst x'. rewrite E in E'. destruct (NoDup_split_eq a b a' b' x) as [-> ->]; auto.
  rewrite <- E. now apply disjoint_NoDup.
Qed.

Lemma mapOf_spec w k v c : winv w -> getV w k = Some c -> vid c <> -1 ->
  winv (fst (getMappingOf V w k v)) /\ (forall j, getV (fst (getMappingOf V w k v)) j = getV w j) /\
  ((exists r, snd (getMappingOf V w k v) = RRange r /\ position V (elems c) v r) \/
   (snd (getMappingOf V w k v) = RThrow /\ forall x, In x (elems c) -> ~ inside v x)).
Proof.
  intros I G Hid. destruct (usable_inv _ _ _ I G Hid) as [Hr Iv]. pose proof Iv as [A1 A2 A3 A4 A5].
  unfold getMappingOf. rewrite G. destruct (findI _ (elems c) 0) as [[i x]|] eqn:E; simpl.
  2:{ split; auto. split; auto. right. split; auto. rewrite findI_none in E. intros x Hx. apply contains_false. auto. }
  apply findI_some in E as (a & b & El & _ & Hp & Hn). apply contains_iff in Hp.
  destruct (A4 a x b El) as (st & Es & Ls). rewrite Es. simpl.
  split; [|split; auto; left; eexists; split; [reflexivity|exists a, x, b; auto]].
  assert (Hself : forall l1 l2, elems c = l1 ++ v :: l2 -> v = x).
  { intros l1 l2 E'. apply (overlap_In (elems c)); auto.
    - rewrite E'. apply in_or_app; right; left; auto.
    - rewrite El. apply in_or_app; right; left; auto.
    - apply overlap_sym. now apply inside_overlap. }
  replace (mkW _ (vecs w) (nextId w) (counter w)) with
    (mkW (upd1 (upd1 (startIn w) x (vid c) (Some (total a, st))) v (vid c)
      (Some (total a + (start (rng (V v)) - start (rng (V x))), stamp c))) (vecs w) (nextId w) (counter w)) by reflexivity.
  assert (Es2 : setNth (vecs w) k (Some c) = vecs w).
  { clear - G. unfold getV in G. revert k G. induction (vecs w) as [|y l IH]; intros [|k] G; simpl in *; auto.
    - congruence.
    - f_equal; auto. }
  rewrite <- Es2 at 1. eapply (winv_mod w k c); eauto; try lia.
  - intros u i0 Hi. now rewrite !upd1_id.
  - constructor; auto.
    + intros l1 y l2 E'. unfold upd1. destruct (Nat.eqb_spec v y) as [->|].
      * rewrite Z.eqb_refl. simpl. specialize (Hself l1 l2 E'). subst y. exists (stamp c). split; [|lia].
        rewrite E' in El. destruct (NoDup_split_eq l1 l2 a b x) as [-> ->]; auto. { rewrite <- E'. now apply disjoint_NoDup. }
        do 2 f_equal. lia.
      * simpl. destruct (A4 l1 y l2 E') as (st' & B1 & B2). destruct (Nat.eqb_spec x y) as [->|]; simpl.
        -- rewrite Z.eqb_refl. exists st'. split; auto. congruence.
        -- exists st'. auto.
    + intros u s st' Hf Hu. unfold upd1 in Hf. rewrite Z.eqb_refl in Hf. destruct (Nat.eqb_spec v u) as [->|].
      * simpl in Hf. inversion Hf; subst. split; [lia|]. intros _. exists a, x, b. auto.
      * simpl in Hf. destruct (Nat.eqb_spec x u) as [->|]; simpl in Hf; auto.
        exfalso. apply Hu. rewrite El. apply in_or_app; right; left; auto.
Qed.

Lemma mapIn_spec w k v c : winv w -> getV w k = Some c -> vid c <> -1 ->
  winv (fst (getMappingIn V w v k)) /\ (forall j, getV (fst (getMappingIn V w v k)) j = getV w j) /\
  ((exists r, snd (getMappingIn V w v k) = RRange r /\ position V (elems c) v r) \/
   (snd (getMappingIn V w v k) = RThrow /\ forall x, In x (elems c) -> ~ inside v x)).
Proof.
  intros I G Hid. destruct (usable_inv _ _ _ I G Hid) as [Hr Iv]. pose proof Iv as [A1 A2 A3 A4 A5].
  pose proof (mapOf_spec w k v c I G Hid) as M.
  unfold getMappingIn. rewrite G. destruct (startIn w v (vid c)) as [[s st]|] eqn:E; auto.
  destruct (Z.eqb_spec st (-1)), (Z.eqb_spec st (stamp c)); simpl; auto.
  all: split; auto; split; auto; left; eexists; split; [reflexivity|].
  all: destruct (in_dec Nat.eq_dec v (elems c)) as [Hv|Hv].
  all: try (apply in_split in Hv as (l1 & l2 & El); destruct (A4 l1 v l2 El) as (st' & B1 & B2); rewrite E in B1; inversion B1; subst;
    exists l1, v, l2; split; [auto|split; [apply inside_refl|f_equal; lia]]).
  all: destruct (A5 v s st E Hv) as [B1 B2]; try lia.
  destruct (B2 e) as (l1 & x & l2 & El & Hi & ->). exists l1, x, l2. auto.
Qed.

Lemma step_inv w o : winv w -> valid_vvop w o -> winv (fst (vvstep V w o)) /\ snd (vvstep V w o) <> RUB.
Proof.
  intros I Vl. destruct o as [l|k|k|k k'|k k'|k|k v|k l|k k'|k v b|k v|k i|k|v k|k v]; simpl in *.
  - apply newList_inv; auto.
  - destruct Vl as [c G]. unfold copyNew. rewrite G. apply newList_inv; auto.
  - destruct Vl as [c G]. split; [eapply moveNew_inv; eauto|]. unfold moveNew. rewrite G. discriminate.
  - destruct Vl as ((c & G & H) & (c' & G') & N). destruct (assign_inv w k k' c c' I G H G' N) as (A & B & _). rewrite B. split; auto. discriminate.
  - destruct Vl as ((c & G) & (c' & G') & N). split; [eapply moveAssign_inv; eauto|]. unfold moveAssign. rewrite G, G'. discriminate.
  - destruct Vl as [c G]. destruct (destroy_inv w k c I G) as (A & _ & ->). split; auto. discriminate.
  - destruct Vl as (c & G & H). destruct (add_inv w k v c I G H) as (A & _ & _ & B). auto.
  - destruct Vl as (c & G & H). destruct (addL_inv l w k c I G H) as (A & _ & _ & B). auto.
  - destruct Vl as ((c & G & H) & (c' & G')). eapply addVec_inv; eauto.
  - destruct Vl as (c & G & H). eapply addIdx_inv; eauto.
  - destruct Vl as (c & G & H). destruct (remove_spec w k v c G) as [(a & x & b & El & _ & ->)|(_ & ->)]; simpl.
    + split; [|discriminate]. eapply remove__inv; eauto.
    + split; auto. discriminate.
  - destruct Vl as (c & G & H). destruct (removeI_spec w k i c G) as [(a & x & b & El & _ & ->)|(_ & ->)]; simpl.
    + split; [|discriminate]. eapply remove__inv; eauto.
    + split; auto. discriminate.
  - destruct Vl as (c & G & H). unfold clear. rewrite G. simpl. split; [|discriminate]. eapply clear__inv; eauto.
  - destruct Vl as (c & G & H). destruct (mapIn_spec w k v c I G H) as (A & _ & B). split; auto.
    destruct B as [(r & -> & _)|(-> & _)]; discriminate.
  - destruct Vl as (c & G & H). destruct (mapOf_spec w k v c I G H) as (A & _ & B). split; auto.
    destruct B as [(r & -> & _)|(-> & _)]; discriminate.
Qed.

Lemma empty_winv : winv empty_world.
Proof.
  constructor; simpl; try lia; try discriminate; unfold getV, empty_world; intros [|k]; simpl; discriminate.
Qed.
Lemma reach_winv w : reach V w -> winv w.
Proof. induction 1; [apply empty_winv|]. now apply step_inv. Qed.

(* ---- values ---- *)
Lemma seg_length m s : length (seg m s) = Z.to_nat (vsize s).
Proof. unfold seg. rewrite map_length, seq_length. auto. Qed.
Lemma seg_setSeg m s x : length x = Z.to_nat (vsize s) -> seg (setSeg m s x) s = x.
Proof.
  intros H. apply (nth_ext _ _ 0 0); rewrite seg_length; auto. intros n Hn.
  unfold seg. set (g := fun i => _). rewrite (nth_indep _ 0 (g O)) by (rewrite map_length, seq_length; auto).
  rewrite map_nth, seq_nth by auto. unfold g, setSeg. rewrite Nat.eqb_refl. simpl.
  assert (C : containsI (rng s) (start (rng s) + Z.of_nat n) = true) by (apply containsI_spec; unfold In_range, vsize in *; lia).
  rewrite C. f_equal. lia.
Qed.
Lemma seg_other m x v y : ~ overlap v y -> seg (setSeg m (V v) x) (V y) = seg m (V y).
Proof.
  intros H. unfold seg. apply map_ext_in. intros i Hi. apply in_seq in Hi. unfold setSeg.
  destruct (Nat.eqb_spec (sup (V y)) (sup (V v))) as [E|]; simpl; auto.
  destruct (containsI (rng (V v)) (start (rng (V y)) + Z.of_nat i)) eqn:C; auto. apply containsI_spec in C.
  exfalso. apply H. exists (sup (V v), start (rng (V y)) + Z.of_nat i). split; split; simpl; auto. unfold In_range, vsize in *. lia.
Qed.
Lemma value_other l : forall m x v, (forall y, In y l -> ~ overlap v y) -> vv_value V (setSeg m (V v) x) l = vv_value V m l.
Proof.
  induction l as [|y l IH]; intros m x v H; simpl; auto. rewrite IH by (intros; apply H; right; auto).
  rewrite seg_other; auto. apply H; left; auto.
Qed.
Lemma seg_set_other l : forall m x y, (forall v, In v l -> ~ overlap v y) -> seg (vv_set V m l x) (V y) = seg m (V y).
Proof.
  induction l as [|v l IH]; intros m x y H; simpl; auto. rewrite IH by (intros; apply H; right; auto).
  apply seg_other. apply H; left; auto.
Qed.
Lemma set_value l : forall m x, disjoint l -> Z.of_nat (length x) = total l -> vv_value V (vv_set V m l x) l = x.
Proof.
  induction l as [|v l IH]; intros m x D L; simpl in *.
  - destruct x; simpl in *; auto; lia.
  - destruct D as [D1 D2]. pose proof (pos v).
    rewrite seg_set_other. 2:{ intros y Hy O. apply (D1 y Hy). now apply overlap_sym. }
    assert (T : 0 <= total l) by (clear - pos; induction l; simpl; [lia|pose proof (pos a); lia]).
    rewrite seg_setSeg by (rewrite firstn_length; lia).
    rewrite IH; auto.
    + apply firstn_skipn.
    + rewrite skipn_length. lia.
Qed.
Lemma set_frame l : forall m x c, (forall v, In v l -> ~ scalar v c) -> vv_set V m l x (fst c) (snd c) = m (fst c) (snd c).
Proof.
  induction l as [|v l IH]; intros m x [a i] H; simpl; auto.
  pose proof (IH (setSeg m (V v) (firstn (Z.to_nat (vsize (V v))) x)) (skipn (Z.to_nat (vsize (V v))) x) (a, i)) as E. simpl in E.
  rewrite E by (intros; apply H; right; auto). unfold setSeg.
  destruct (Nat.eqb_spec a (sup (V v))); simpl; auto. destruct (containsI (rng (V v)) i) eqn:C; auto. apply containsI_spec in C.
  exfalso. apply (H v); [left; auto|]. split; auto.
Qed.

Lemma indexOf_spec c v : disjoint (elems c) ->
  (forall l1 x l2, elems c = l1 ++ x :: l2 -> same x v -> vv_indexOf V c v = Z.of_nat (length l1)) /\
  ((forall x, In x (elems c) -> ~ same x v) -> vv_indexOf V c v = -1).
Proof.
  intros D. unfold vv_indexOf. destruct (findI _ (elems c) 0) as [[i y]|] eqn:E.
  - apply findI_some in E as (a & b & El & Hi & Hp & _). simpl in Hi. subst i. apply contains_iff in Hp. split.
    + intros l1 x l2 E' S. assert (y = x).
      { apply (overlap_In (elems c)); auto.
        - rewrite El. apply in_or_app; right; left; auto.
        - rewrite E'. apply in_or_app; right; left; auto.
        - exists (sup (V v), start (rng (V v))). split; [apply Hp, first_scalar|apply S, first_scalar]. }
      subst y. rewrite E' in El. destruct (NoDup_split_eq l1 l2 a b x) as [-> ->]; auto.
      { rewrite <- E'. now apply disjoint_NoDup. }
      apply eq_iff in S. rewrite S. auto.
    + intros H. destruct (s_eq (V y) (V v)) eqn:Q; auto. apply eq_iff in Q. exfalso. apply (H y); auto.
      rewrite El. apply in_or_app; right; left; auto.
  - rewrite findI_none in E. split; auto. intros l1 x l2 E' S. exfalso.
    assert (Hx : In x (elems c)) by (rewrite E'; apply in_or_app; right; left; auto).
    specialize (E x Hx). apply contains_false in E. apply E. intros s; apply S.
Qed.
End Vars.
