From Coq Require Import List Arith Bool QArith Lia.
From Verif Require Import Base CawModel CawSpec.
Import ListNotations.
Local Open Scope nat_scope.

Lemma set_length {A} (l : list A) n a : length (caw_set l n a) = length l.
Proof. revert n; induction l; intros [|n]; simpl; auto. Qed.

Lemma set_same {A} (l : list A) n a : n < length l -> nth_error (caw_set l n a) n = Some a.
Proof. revert n; induction l; intros [|n]; simpl; intros; try lia; auto. apply IHl; lia. Qed.

Lemma set_other {A} (l : list A) n m a : n <> m -> nth_error (caw_set l n a) m = nth_error l m.
Proof. revert n m; induction l; intros [|n] [|m]; simpl; intros; try lia; auto. Qed.

Lemma nth_lt {A} (l : list A) n a : nth_error l n = Some a -> n < length l.
Proof. intro H; apply nth_error_Some; congruence. Qed.

Lemma snoc_nth {A} (l : list A) a n x :
  nth_error (l ++ [a]) n = Some x <-> nth_error l n = Some x \/ (n = length l /\ x = a).
Proof.
  destruct (Nat.lt_ge_cases n (length l)) as [L|L].
  - rewrite nth_error_app1 by auto. split; [tauto|]. intros [H|[-> _]]; [auto|lia].
  - rewrite nth_error_app2 by auto.
    assert (N : nth_error l n = None) by (apply nth_error_None; auto).
    destruct (n - length l) as [|k] eqn:E; simpl.
    + assert (n = length l) by lia. split; intro H0.
      * inversion H0; auto.
      * destruct H0 as [H0|[_ ->]]; congruence.
    + rewrite N. split; [destruct k; discriminate|]. intros [H|[-> _]]; [discriminate|lia].
Qed.

(* The wrapper for an allocation [p] of type [t]. *)
Definition mkw (p : option nat) (t : caw_type) : caw_wrap :=
  {| cww_ca := p; cww_del := Some t; cww_run := Some t;
     cww_fromd := if caw_is_const t then Some t else None;
     cww_fromm := if caw_is_const t then None else Some t;
     cww_to := Some t; cww_clone := Some t |}.

Definition rel1 (h : caw_heap) (ow : option caw_wrap) (v : caw_value) : Prop :=
  match v with
  | VGone => ow = None
  | VNull => ow = Some caw_default
  | VMoved t => ow = Some (mkw None t)
  | VHas o => exists a, ow = Some (mkw (Some a) (cwo_type o)) /\ nth_error h a = Some (CLive o)
  end.

Record rel (st : caw_state) (vs : list caw_value) : Prop := {
  r_len : length (cws_wraps st) = length vs;
  r_val : forall i ow v, nth_error (cws_wraps st) i = Some ow -> nth_error vs i = Some v ->
          rel1 (cws_heap st) ow v;
  r_inj : forall i j a, caw_owns st i a -> caw_owns st j a -> i = j;
  r_all : forall a, caw_alive st a -> exists i, caw_owns st i a }.

Lemma get_nth st i w : caw_get st i = Some w <-> nth_error (cws_wraps st) i = Some (Some w).
Proof.
  unfold caw_get. destruct (nth_error (cws_wraps st) i) as [[x|]|]; split; intro H; congruence.
Qed.

Lemma owns_nth st i a :
  caw_owns st i a <-> exists w, nth_error (cws_wraps st) i = Some (Some w) /\ cww_ca w = Some a.
Proof.
  unfold caw_owns. split; intros (w & H & E); exists w; split; auto; apply get_nth; auto.
Qed.

Lemma vget_nth vs i v : v <> VGone -> (caw_vget vs i = v <-> nth_error vs i = Some v).
Proof.
  intro N. unfold caw_vget. split; intro H.
  - destruct (nth_error vs i) as [x|] eqn:E.
    + rewrite (nth_error_nth vs i VGone E) in H. congruence.
    + rewrite nth_overflow in H; [congruence|]. apply nth_error_None; auto.
  - apply nth_error_nth; auto.
Qed.

Lemma rel_get st vs i : rel st vs ->
  match caw_vget vs i with
  | VGone => caw_get st i = None
  | v => exists w, caw_get st i = Some w /\ rel1 (cws_heap st) (Some w) v /\
                   nth_error (cws_wraps st) i = Some (Some w) /\ nth_error vs i = Some v
  end.
Proof.
  intros R. unfold caw_vget, caw_get.
  destruct (nth_error vs i) as [v|] eqn:E.
  - rewrite (nth_error_nth vs i VGone E).
    destruct (nth_error (cws_wraps st) i) as [ow|] eqn:F.
    2:{ apply nth_error_None in F. apply nth_lt in E. rewrite (r_len _ _ R) in F. lia. }
    pose proof (r_val _ _ R i ow v F E) as V.
    destruct v; simpl in V |- *; subst; auto.
    + exists caw_default. auto.
    + eexists. split; [reflexivity|]. auto.
    + destruct V as (a & -> & V). eexists. split; [reflexivity|]. split; [|auto]. exists a. auto.
  - rewrite nth_overflow by (apply nth_error_None; auto).
    destruct (nth_error (cws_wraps st) i) as [ow|] eqn:F; auto.
    apply nth_error_None in E. apply nth_lt in F. rewrite (r_len _ _ R) in F. lia.
Qed.

Lemma deref_mk h o a : nth_error h a = Some (CLive o) ->
  caw_deref h (cwo_type o) (Some a) = Some (a, o).
Proof.
  intro H. unfold caw_deref. rewrite H. destruct (caw_type_eq _ _); congruence.
Qed.

Lemma is_const_kind t : caw_is_const t = match cwt_f t with CawConstant => true | _ => false end.
Proof. reflexivity. Qed.

(* A new wrapper that owns nothing, or a new allocation. *)
Lemma rel_new st vs o : rel st vs ->
  rel {| cws_heap := cws_heap st ++ [CLive o];
         cws_wraps := cws_wraps st ++ [Some (mkw (Some (length (cws_heap st))) (cwo_type o))] |}
      (vs ++ [VHas o]).
Proof.
  intros R. constructor; simpl.
  - rewrite !app_length, (r_len _ _ R); auto.
  - intros i ow v H1 H2. apply snoc_nth in H1. apply snoc_nth in H2.
    destruct H1 as [H1|[-> ->]], H2 as [H2|[E2 ->]].
    + pose proof (r_val _ _ R _ _ _ H1 H2) as V. destruct v; simpl in *; auto.
      destruct V as (a & -> & V). exists a; split; auto. apply snoc_nth; auto.
    + apply nth_lt in H1. rewrite (r_len _ _ R) in H1. lia.
    + apply nth_lt in H2. rewrite (r_len _ _ R) in H2. lia.
    + simpl. eexists; split; eauto. apply snoc_nth; auto.
  - intros i j a Hi Hj. apply owns_nth in Hi as (w & Hi & Ei). apply owns_nth in Hj as (w' & Hj & Ej).
    simpl in *. apply snoc_nth in Hi. apply snoc_nth in Hj.
    assert (Old : forall k x, nth_error (cws_wraps st) k = Some (Some x) -> cww_ca x = Some a ->
                              a < length (cws_heap st)).
    { intros k x Hk Hx.
      destruct (nth_error vs k) as [v|] eqn:Ev.
      2:{ apply nth_error_None in Ev. apply nth_lt in Hk. rewrite (r_len _ _ R) in Hk. lia. }
      pose proof (r_val _ _ R _ _ _ Hk Ev) as V. destruct v; simpl in V; try discriminate.
      - injection V as ->. discriminate.
      - injection V as ->. discriminate.
      - destruct V as (b & Eb & V). injection Eb as ->. simpl in Hx. injection Hx as ->.
        apply nth_lt in V; auto. }
    destruct Hi as [Hi|[-> Xi]], Hj as [Hj|[-> Xj]]; auto.
    + apply (r_inj _ _ R i j a); apply owns_nth; eauto.
    + injection Xj as ->. simpl in Ej. injection Ej as <-. specialize (Old _ _ Hi Ei). lia.
    + injection Xi as ->. simpl in Ei. injection Ei as <-. specialize (Old _ _ Hj Ej). lia.
  - intros a (x & H). simpl in H. apply snoc_nth in H. destruct H as [H|[-> _]].
    + destruct (r_all _ _ R a) as (i & Hi); [exists x; auto|].
      exists i. apply owns_nth in Hi as (w & Hi & E). apply owns_nth. exists w. split; auto.
      simpl. apply snoc_nth; auto.
    + exists (length (cws_wraps st)). apply owns_nth. eexists. split; [simpl; apply snoc_nth; right; split; reflexivity|]. reflexivity.
Qed.

Lemma rel_null st vs : rel st vs ->
  rel {| cws_heap := cws_heap st; cws_wraps := cws_wraps st ++ [Some caw_default] |} (vs ++ [VNull]).
Proof.
  intros R.
  assert (Back : forall i a, caw_owns {| cws_heap := cws_heap st; cws_wraps := cws_wraps st ++ [Some caw_default] |} i a -> caw_owns st i a).
  { intros i a H. apply owns_nth in H as (w & H & E). simpl in H. apply snoc_nth in H.
    destruct H as [H|[_ H]]; [apply owns_nth; eauto|]. injection H as ->. discriminate. }
  constructor; simpl.
  - rewrite !app_length, (r_len _ _ R); auto.
  - intros i ow v H1 H2. apply snoc_nth in H1. apply snoc_nth in H2.
    destruct H1 as [H1|[-> ->]], H2 as [H2|[E2 ->]].
    + exact (r_val _ _ R _ _ _ H1 H2).
    + apply nth_lt in H1. rewrite (r_len _ _ R) in H1. lia.
    + apply nth_lt in H2. rewrite (r_len _ _ R) in H2. lia.
    + reflexivity.
  - intros i j a Hi Hj. apply (r_inj _ _ R i j a); auto.
  - intros a Ha. destruct (r_all _ _ R a Ha) as (i & Hi). exists i.
    apply owns_nth in Hi as (w & Hi & E). apply owns_nth. exists w. split; auto. simpl. apply snoc_nth; auto.
Qed.

(* A wrapper moved to a new one. *)
Lemma rel_move_new st vs j v w : rel st vs -> nth_error vs j = Some v -> v <> VGone ->
  nth_error (cws_wraps st) j = Some (Some w) ->
  rel {| cws_heap := cws_heap st;
         cws_wraps := caw_set (cws_wraps st) j (Some (caw_moved w)) ++ [Some w] |}
      (caw_set vs j (caw_left v) ++ [v]).
Proof.
  intros R Hv Nv Hw. pose proof (r_val _ _ R _ _ _ Hw Hv) as V.
  pose proof (nth_lt _ _ _ Hw) as Lw. pose proof (nth_lt _ _ _ Hv) as Lv.
  assert (Char : forall i x, nth_error (caw_set (cws_wraps st) j (Some (caw_moved w)) ++ [Some w]) i = Some (Some x) ->
     (i = length (cws_wraps st) /\ x = w) \/ (i = j /\ x = caw_moved w) \/
     (i <> j /\ i < length (cws_wraps st) /\ nth_error (cws_wraps st) i = Some (Some x))).
  { intros i x H. apply snoc_nth in H. rewrite set_length in H. destruct H as [H|[-> H]].
    - destruct (Nat.eq_dec i j) as [->|N].
      + rewrite set_same in H by auto. injection H as <-. auto.
      + rewrite set_other in H by auto. right; right. repeat split; auto. eapply nth_lt; eauto.
    - injection H as ->. auto. }
  constructor; simpl.
  - rewrite !app_length, !set_length, (r_len _ _ R); auto.
  - intros i ow x H1 H2. apply snoc_nth in H1. apply snoc_nth in H2. rewrite !set_length in *.
    destruct H1 as [H1|[-> ->]], H2 as [H2|[E2 ->]].
    + destruct (Nat.eq_dec i j) as [->|N].
      * rewrite set_same in H1 by auto; rewrite set_same in H2 by auto. injection H1 as <-. injection H2 as <-.
        destruct v; simpl in *; try (injection V as ->; reflexivity); [|congruence].
        destruct V as (a & Ea & V). injection Ea as ->. reflexivity.
      * rewrite set_other in H1 by auto; rewrite set_other in H2 by auto. exact (r_val _ _ R _ _ _ H1 H2).
    + apply nth_lt in H1. rewrite set_length, (r_len _ _ R) in H1. lia.
    + apply nth_lt in H2. rewrite set_length in H2. rewrite (r_len _ _ R) in H2. lia.
    + exact V.
  - intros i k a Hi Hk. apply owns_nth in Hi as (x & Hi & Ei). apply owns_nth in Hk as (y & Hk & Ek).
    simpl in Hi, Hk. apply Char in Hi. apply Char in Hk.
    assert (Own : forall l z, nth_error (cws_wraps st) l = Some (Some z) -> cww_ca z = Some a -> cww_ca w = Some a -> l = j).
    { intros l z Hl Ez Ew. apply (r_inj _ _ R l j a); apply owns_nth; eauto. }
    destruct Hi as [[-> ->]|[[-> ->]|(Ni & Li & Hi)]]; destruct Hk as [[-> ->]|[[-> ->]|(Nk & Lk & Hk)]]; auto; try discriminate.
    + exfalso. apply Nk. eapply Own; eauto.
    + exfalso. apply Ni. eapply Own; eauto.
    + apply (r_inj _ _ R i k a); apply owns_nth; eauto.
  - intros a Ha. destruct (r_all _ _ R a Ha) as (i & Hi). apply owns_nth in Hi as (x & Hi & E).
    destruct (Nat.eq_dec i j) as [->|N].
    + exists (length (cws_wraps st)). apply owns_nth. exists w. split; [|congruence].
      simpl. apply snoc_nth. right. rewrite set_length; auto.
    + exists i. apply owns_nth. exists x. split; auto. simpl. apply snoc_nth. left.
      rewrite set_other by auto. auto.
Qed.

(* A release of the allocation of wrapper [i], which then holds something that
   owns nothing. *)
Lemma rel_drop st vs i v w ow' v' : rel st vs -> nth_error vs i = Some v -> v <> VGone ->
  nth_error (cws_wraps st) i = Some (Some w) ->
  (forall x, ow' = Some x -> cww_ca x = None) -> (forall h, rel1 h ow' v') ->
  exists h, caw_release (cws_heap st) w = Some h /\
    length h = length (cws_heap st) /\
    rel {| cws_heap := h; cws_wraps := caw_set (cws_wraps st) i ow' |} (caw_set vs i v').
Proof.
  intros R Hv Nv Hw Own Rel. pose proof (r_val _ _ R _ _ _ Hw Hv) as V.
  pose proof (nth_lt _ _ _ Hw) as Lw. pose proof (nth_lt _ _ _ Hv) as Lv.
  assert (Ex : exists h, caw_release (cws_heap st) w = Some h /\ length h = length (cws_heap st) /\
     (forall b, cww_ca w = Some b -> nth_error h b = Some CDead) /\
     (forall b, cww_ca w <> Some b -> nth_error h b = nth_error (cws_heap st) b)).
  { destruct v; simpl in V; try (injection V as ->); try congruence.
    - exists (cws_heap st). repeat split; auto. discriminate.
    - exists (cws_heap st). repeat split; auto. discriminate.
    - destruct V as (a & E & V). injection E as ->.
      exists (caw_set (cws_heap st) a CDead). unfold caw_release, caw_sdelete. cbn [mkw cww_ca cww_del].
      rewrite (deref_mk _ _ _ V). split; [auto|]. split; [apply set_length|]. split.
      + intros b E. injection E as <-. apply set_same. eapply nth_lt; eauto.
      + intros b E. apply set_other. congruence. }
  destruct Ex as (h & Hr & Hl & Hd & Ho). exists h. split; auto. split; auto.
  assert (Back : forall k a, caw_owns {| cws_heap := h; cws_wraps := caw_set (cws_wraps st) i ow' |} k a ->
     k <> i /\ caw_owns st k a).
  { intros k a H. apply owns_nth in H as (x & H & E). simpl in H.
    destruct (Nat.eq_dec i k) as [->|N].
    - rewrite set_same in H by auto. injection H as ->. rewrite (Own x) in E; congruence.
    - rewrite set_other in H by auto. split; auto. apply owns_nth; eauto. }
  constructor; simpl.
  - rewrite !set_length. apply (r_len _ _ R).
  - intros k ow x H1 H2. destruct (Nat.eq_dec i k) as [->|N].
    + rewrite set_same in H1 by auto; rewrite set_same in H2 by auto. injection H1 as <-. injection H2 as <-. apply Rel.
    + rewrite set_other in H1 by auto; rewrite set_other in H2 by auto. pose proof (r_val _ _ R _ _ _ H1 H2) as V'.
      destruct x; simpl in *; auto. destruct V' as (a & -> & V'). exists a. split; auto.
      rewrite Ho; auto. intro E. apply N. apply (r_inj _ _ R i k a); apply owns_nth; eauto.
  - intros k l a Hk Hl'. apply (r_inj _ _ R k l a); [apply (Back k a)|apply (Back l a)]; auto.
  - intros a (x & Ha). simpl in Ha.
    assert (N : cww_ca w <> Some a). { intro E. rewrite (Hd a E) in Ha. discriminate. }
    rewrite (Ho a N) in Ha. destruct (r_all _ _ R a) as (k & Hk); [exists x; auto|].
    exists k. apply owns_nth in Hk as (y & Hk & E). apply owns_nth. exists y. split; auto. simpl.
    rewrite set_other; auto. intros ->. congruence.
Qed.

(* A change of the object held by wrapper [i]. *)
Lemma rel_change st vs i o o' a : rel st vs -> nth_error vs i = Some (VHas o) ->
  nth_error (cws_wraps st) i = Some (Some (mkw (Some a) (cwo_type o))) ->
  nth_error (cws_heap st) a = Some (CLive o) -> cwo_type o' = cwo_type o ->
  rel {| cws_heap := caw_set (cws_heap st) a (CLive o'); cws_wraps := cws_wraps st |}
      (caw_set vs i (VHas o')).
Proof.
  intros R Hv Hw Ha Et. pose proof (nth_lt _ _ _ Hv) as Lv. pose proof (nth_lt _ _ _ Ha) as La.
  constructor; simpl.
  - rewrite set_length. apply (r_len _ _ R).
  - intros k ow x H1 H2. destruct (Nat.eq_dec i k) as [->|N].
    + rewrite set_same in H2 by auto. injection H2 as <-. rewrite Hw in H1. injection H1 as <-.
      simpl. exists a. rewrite Et. split; auto. apply set_same; auto.
    + rewrite set_other in H2 by auto. pose proof (r_val _ _ R _ _ _ H1 H2) as V'.
      destruct x; simpl in *; auto. destruct V' as (b & -> & V'). exists b. split; auto.
      rewrite set_other; auto. intros ->. apply N.
      apply (r_inj _ _ R i k b); apply owns_nth; eexists; split; eauto.
  - intros k l b Hk Hl. apply (r_inj _ _ R k l b); auto.
  - intros b (x & Hb). simpl in Hb. apply (r_all _ _ R).
    destruct (Nat.eq_dec a b) as [->|N]; [exists o; auto|]. rewrite set_other in Hb by auto. exists x; auto.
Qed.

(* A new allocation given to a wrapper that owns nothing. *)
Lemma rel_give st vs i v o ow : rel st vs -> nth_error vs i = Some v ->
  nth_error (cws_wraps st) i = Some ow -> (forall x, ow = Some x -> cww_ca x = None) ->
  rel {| cws_heap := cws_heap st ++ [CLive o];
         cws_wraps := caw_set (cws_wraps st) i (Some (mkw (Some (length (cws_heap st))) (cwo_type o))) |}
      (caw_set vs i (VHas o)).
Proof.
  intros R Hv Hw Own. pose proof (nth_lt _ _ _ Hv) as Lv. pose proof (nth_lt _ _ _ Hw) as Lw.
  constructor; simpl.
  - rewrite !set_length. apply (r_len _ _ R).
  - intros k x y H1 H2. destruct (Nat.eq_dec i k) as [->|N].
    + rewrite set_same in H1 by auto; rewrite set_same in H2 by auto. injection H1 as <-. injection H2 as <-.
      simpl. eexists; split; eauto. apply snoc_nth; auto.
    + rewrite set_other in H1 by auto; rewrite set_other in H2 by auto. pose proof (r_val _ _ R _ _ _ H1 H2) as V'.
      destruct y; simpl in *; auto. destruct V' as (b & -> & V'). exists b. split; auto. apply snoc_nth; auto.
  - assert (Char : forall k b, caw_owns {| cws_heap := cws_heap st ++ [CLive o];
         cws_wraps := caw_set (cws_wraps st) i (Some (mkw (Some (length (cws_heap st))) (cwo_type o))) |} k b ->
       (k = i /\ b = length (cws_heap st)) \/ (caw_owns st k b /\ b < length (cws_heap st))).
    { intros k b H. apply owns_nth in H as (x & H & E). simpl in H.
      destruct (Nat.eq_dec i k) as [->|N].
      - rewrite set_same in H by auto. injection H as <-. simpl in E. injection E as <-. auto.
      - rewrite set_other in H by auto. right. split; [apply owns_nth; eauto|].
        destruct (nth_error vs k) as [u|] eqn:Eu.
        2:{ apply nth_error_None in Eu. apply nth_lt in H. rewrite (r_len _ _ R) in H. lia. }
        pose proof (r_val _ _ R _ _ _ H Eu) as V. destruct u; simpl in V; try discriminate.
        + injection V as ->. discriminate.
        + injection V as ->. discriminate.
        + destruct V as (c & Ec & V). injection Ec as ->. simpl in E. injection E as ->. eapply nth_lt; eauto. }
    intros k l b Hk Hl. destruct (Char _ _ Hk) as [[-> ->]|[Hk' L1]]; destruct (Char _ _ Hl) as [[-> E]|[Hl' L2]]; auto; try lia.
    apply (r_inj _ _ R k l b); auto.
  - intros b (x & Hb). simpl in Hb. apply snoc_nth in Hb. destruct Hb as [Hb|[-> _]].
    + destruct (r_all _ _ R b) as (k & Hk); [exists x; auto|]. exists k.
      apply owns_nth in Hk as (y & Hk & E). apply owns_nth. exists y. split; auto. simpl.
      rewrite set_other; auto. intros ->. rewrite Hw in Hk. injection Hk as ->.
      specialize (Own y eq_refl). congruence.
    + exists i. apply owns_nth. eexists. simpl. rewrite set_same by auto. split; eauto.
Qed.

Lemma set_set {A} (l : list A) n a b : caw_set (caw_set l n a) n b = caw_set l n b.
Proof. revert n; induction l; intros [|n]; simpl; auto. f_equal; auto. Qed.

Lemma set_comm {A} (l : list A) n m a b : n <> m ->
  caw_set (caw_set l n a) m b = caw_set (caw_set l m b) n a.
Proof.
  revert n m; induction l; intros [|n] [|m]; simpl; intros; auto; try lia.
  f_equal. apply IHl. lia.
Qed.

Lemma set_app {A} (l k : list A) n a : n < length l -> caw_set (l ++ k) n a = caw_set l n a ++ k.
Proof. revert n; induction l; intros [|n]; simpl; intros; try lia; auto. f_equal. apply IHl. lia. Qed.

Lemma release_app h w h' c : caw_release h w = Some h' -> caw_release (h ++ [c]) w = Some (h' ++ [c]).
Proof.
  unfold caw_release. destruct (cww_ca w) as [a|]; [|intro X; injection X as <-; reflexivity].
  destruct (cww_del w) as [t|]; [|congruence]. unfold caw_sdelete, caw_deref.
  destruct (nth_error h a) as [[o|]|] eqn:E; try congruence.
  pose proof (nth_lt _ _ _ E) as L. rewrite nth_error_app1, E by auto.
  destruct (caw_type_eq _ _); [|congruence]. intro X. injection X as <-. rewrite set_app; auto.
Qed.

(* A move to a wrapper that owns nothing. *)
Lemma rel_shift st vs i j v w oi vi : rel st vs -> i <> j -> nth_error vs j = Some v -> v <> VGone ->
  nth_error (cws_wraps st) j = Some (Some w) ->
  nth_error (cws_wraps st) i = Some oi -> nth_error vs i = Some vi ->
  (forall x, oi = Some x -> cww_ca x = None) ->
  rel {| cws_heap := cws_heap st;
         cws_wraps := caw_set (caw_set (cws_wraps st) j (Some (caw_moved w))) i (Some w) |}
      (caw_set (caw_set vs j (caw_left v)) i v).
Proof.
  intros R Nij Hv Nv Hw Hi Hvi Own. pose proof (r_val _ _ R _ _ _ Hw Hv) as V.
  pose proof (nth_lt _ _ _ Hw) as Lw. pose proof (nth_lt _ _ _ Hv) as Lv.
  pose proof (nth_lt _ _ _ Hi) as Li. pose proof (nth_lt _ _ _ Hvi) as Lvi.
  assert (Char : forall k x, nth_error (caw_set (caw_set (cws_wraps st) j (Some (caw_moved w))) i (Some w)) k = Some x ->
     (k = i /\ x = Some w) \/ (k = j /\ x = Some (caw_moved w)) \/
     (k <> i /\ k <> j /\ nth_error (cws_wraps st) k = Some x)).
  { intros k x H. destruct (Nat.eq_dec i k) as [->|N].
    - rewrite set_same in H by (rewrite set_length; auto). injection H as <-. auto.
    - rewrite set_other in H by auto. destruct (Nat.eq_dec j k) as [->|N'].
      + rewrite set_same in H by auto. injection H as <-. auto.
      + rewrite set_other in H by auto. auto. }
  constructor; simpl.
  - rewrite !set_length. apply (r_len _ _ R).
  - intros k ow x H1 H2. apply Char in H1. destruct H1 as [[-> ->]|[[-> ->]|(N1 & N2 & H1)]].
    + rewrite set_same in H2 by (rewrite set_length; auto). injection H2 as <-. exact V.
    + rewrite set_other in H2 by auto. rewrite set_same in H2 by auto. injection H2 as <-.
      destruct v; simpl in *; try (injection V as ->; reflexivity); [|congruence].
      destruct V as (a & Ea & V). injection Ea as ->. reflexivity.
    + rewrite set_other in H2 by auto. rewrite set_other in H2 by auto.
      exact (r_val _ _ R _ _ _ H1 H2).
  - intros k l a Hk Hl. apply owns_nth in Hk as (x & Hk & Ek). apply owns_nth in Hl as (y & Hl & El).
    simpl in Hk, Hl. apply Char in Hk. apply Char in Hl.
    assert (Old : forall m z, nth_error (cws_wraps st) m = Some (Some z) -> cww_ca z = Some a -> cww_ca w = Some a -> m = j).
    { intros m z Hm Ez Ew. apply (r_inj _ _ R m j a); apply owns_nth; eauto. }
    destruct Hk as [[-> Xk]|[[-> Xk]|(Nk & Nk' & Hk)]]; destruct Hl as [[-> Xl]|[[-> Xl]|(Nl & Nl' & Hl)]]; auto;
      try (injection Xk as ->); try (injection Xl as ->); try discriminate.
    + exfalso. apply Nl'. eapply Old; eauto.
    + exfalso. apply Nk'. eapply Old; eauto.
    + apply (r_inj _ _ R k l a); apply owns_nth; eauto.
  - intros a Ha. destruct (r_all _ _ R a Ha) as (k & Hk). apply owns_nth in Hk as (x & Hk & E).
    destruct (Nat.eq_dec k j) as [->|N].
    + exists i. apply owns_nth. exists w. split; [|congruence]. simpl.
      apply set_same. rewrite set_length; auto.
    + exists k. apply owns_nth. exists x. split; auto. simpl.
      assert (k <> i). { intros ->. rewrite Hi in Hk. injection Hk as ->. specialize (Own x eq_refl). congruence. }
      rewrite set_other by auto. rewrite set_other by auto. auto.
Qed.

Lemma obj_from_type o s : cwo_type (caw_obj_from o s) = cwo_type o.
Proof. unfold caw_obj_from. destruct (cwt_f (cwo_type o)); reflexivity. Qed.

Definition sim (x : caw_obs * caw_state) (y : caw_obs * list caw_value) : Prop :=
  fst x = fst y /\ rel (snd x) (snd y).

Ltac rget R i := let G := fresh "G" in pose proof (rel_get _ _ i R) as G;
  let E := fresh "E" in destruct (caw_vget _ i) eqn:E.

Theorem step_sim st vs op : rel st vs -> sim (caw_step st op) (caw_vstep vs op).
Proof.
  intros R. destruct op as [a w m to s rest mem| |j mem|j|i j mem|i j|i|i d|i m|i m|i]; simpl.
  - unfold caw_make. destruct mem; split; simpl; auto.
    set (o := {| cwo_type := _ |}).
    pose proof (rel_new st vs o R) as R'. unfold mkw, o in R'. simpl in R'.
    unfold caw_is_const in R'. simpl in R'. destruct s; simpl in *; exact R'.
  - split; [reflexivity|]. apply rel_null; auto.
  - unfold caw_with. pose proof (rel_get _ _ j R) as G. destruct (caw_vget vs j) as [|t|o|] eqn:E.
    + destruct G as (w & -> & G & _). injection G as ->. split; auto.
    + destruct G as (w & -> & G & _). injection G as ->. split; auto.
    + destruct G as (w & -> & (a & G & H) & _ & _). injection G as ->.
      unfold caw_copy_new, caw_call, caw_sclone. cbn [mkw cww_clone cww_ca]. rewrite (deref_mk _ _ _ H).
      destruct mem; split; simpl; auto. apply (rel_new st vs o R).
    + rewrite G. split; auto.
  - unfold caw_with. pose proof (rel_get _ _ j R) as G. destruct (caw_vget vs j) as [|t|o|] eqn:E.
    1-3: destruct G as (w & -> & G & Hw & Hv); split; [reflexivity|];
         apply (rel_move_new st vs j _ w R Hv); [discriminate|auto].
    rewrite G. split; auto.
  - unfold caw_with. pose proof (rel_get _ _ i R) as G.
    destruct (caw_vget vs i) as [|t|o|] eqn:E.
    4: rewrite G; split; auto.
    all: destruct G as (w & -> & G & Hw & Hv);
      pose proof (rel_get _ _ j R) as G';
      destruct (caw_vget vs j) as [|t'|o'|] eqn:E';
      [destruct G' as (w' & -> & G' & _); injection G' as ->; split; auto
      |destruct G' as (w' & -> & G' & _); injection G' as ->; split; auto
      |
      |rewrite G'; split; auto].
    all: destruct G' as (w' & -> & (a & G' & H') & Hw' & Hv'); injection G' as ->;
      unfold caw_copy, caw_call, caw_sclone; cbn [mkw cww_clone cww_ca]; rewrite (deref_mk _ _ _ H');
      destruct mem; [|split; auto];
      match type of Hv with nth_error _ _ = Some ?v =>
        destruct (rel_drop st vs i v w (Some caw_default) VNull R Hv) as (h & Hr & Hlen & R');
          [discriminate|auto|intros x X; injection X as <-; reflexivity|intro; reflexivity|]
      end;
      rewrite (release_app _ _ _ _ Hr); split; [reflexivity|]; simpl;
      pose proof (rel_give _ _ i VNull o' (Some caw_default) R') as R2; simpl in R2;
      rewrite !set_set, Hlen in R2; apply R2;
      [apply set_same; eapply nth_lt; eauto|apply set_same; eapply nth_lt; eauto
      |intros x X; injection X as <-; reflexivity].
  - unfold caw_with. pose proof (rel_get _ _ i R) as G.
    destruct (caw_vget vs i) as [|t|o|] eqn:E.
    4: rewrite G; split; auto.
    all: destruct G as (w & -> & G & Hw & Hv);
      pose proof (rel_get _ _ j R) as G';
      destruct (caw_vget vs j) as [|t'|o'|] eqn:E';
      [| | |rewrite G'; split; auto].
    all: destruct G' as (w' & -> & G' & Hw' & Hv'); unfold caw_move;
      destruct (Nat.eqb i j) eqn:Eij; [split; auto|]; apply Nat.eqb_neq in Eij;
      match type of Hv with nth_error _ _ = Some ?v =>
        destruct (rel_drop st vs i v w (Some caw_default) VNull R Hv) as (h & Hr & Hlen & R');
          [discriminate|auto|intros x X; injection X as <-; reflexivity|intro; reflexivity|]
      end;
      rewrite Hr; split; [reflexivity|]; simpl;
      match type of Hv' with nth_error _ _ = Some ?v' =>
        pose proof (rel_shift _ _ i j v' w' (Some caw_default) VNull R' Eij) as R2
      end; simpl in R2;
      rewrite (set_comm _ i j) in R2 by auto; rewrite set_set in R2;
      rewrite (set_comm _ i j) in R2 by auto; rewrite set_set in R2;
      apply R2;
      [rewrite set_other by auto; auto|discriminate|rewrite set_other by auto; auto
      |apply set_same; eapply nth_lt; eauto|apply set_same; eapply nth_lt; eauto
      |intros x X; injection X as <-; reflexivity].
  - unfold caw_with. pose proof (rel_get _ _ i R) as G. destruct (caw_vget vs i) as [|t|o|] eqn:E.
    + destruct G as (w & -> & G & _). injection G as ->. split; auto.
    + destruct G as (w & -> & G & _). injection G as ->. split; auto.
    + destruct G as (w & -> & (a & G & H) & _ & _). injection G as ->.
      unfold caw_run, caw_call, caw_srun. cbn [mkw cww_run cww_ca]. rewrite (deref_mk _ _ _ H). split; auto.
    + rewrite G. split; auto.
  - unfold caw_with. pose proof (rel_get _ _ i R) as G. destruct (caw_vget vs i) as [|t|o|] eqn:E.
    + destruct G as (w & -> & G & _). injection G as ->. split; auto.
    + destruct G as (w & -> & G & _). injection G as ->.
      unfold caw_fromd. cbn [mkw cww_fromd]. destruct (caw_is_const t); split; auto.
    + destruct G as (w & -> & (a & G & H) & Hw & Hv). injection G as ->.
      unfold caw_fromd. cbn [mkw cww_fromd cww_ca]. destruct (caw_is_const (cwo_type o)); [|split; auto].
      unfold caw_sfrom. rewrite (deref_mk _ _ _ H). split; [reflexivity|]. simpl.
      eapply rel_change; eauto. apply obj_from_type.
    + rewrite G. split; auto.
  - unfold caw_with. pose proof (rel_get _ _ i R) as G. destruct (caw_vget vs i) as [|t|o|] eqn:E.
    + destruct G as (w & -> & G & _). injection G as ->. split; auto.
    + destruct G as (w & -> & G & _). injection G as ->.
      unfold caw_fromm. cbn [mkw cww_fromm]. destruct (caw_is_const t); split; auto.
    + destruct G as (w & -> & (a & G & H) & Hw & Hv). injection G as ->.
      unfold caw_fromm. cbn [mkw cww_fromm cww_ca]. destruct (caw_is_const (cwo_type o)); [split; auto|].
      unfold caw_sfrom. rewrite (deref_mk _ _ _ H). split; [reflexivity|]. simpl.
      eapply rel_change; eauto. apply obj_from_type.
    + rewrite G. split; auto.
  - unfold caw_with. pose proof (rel_get _ _ i R) as G. destruct (caw_vget vs i) as [|t|o|] eqn:E.
    + destruct G as (w & -> & G & _). injection G as ->. split; auto.
    + destruct G as (w & -> & G & _). injection G as ->. split; auto.
    + destruct G as (w & -> & (a & G & H) & Hw & Hv). injection G as ->.
      unfold caw_to, caw_call. cbn [mkw cww_to cww_ca].
      unfold caw_sto. rewrite (deref_mk _ _ _ H). split; [reflexivity|]. simpl.
      eapply rel_change; eauto.
    + rewrite G. split; auto.
  - unfold caw_with. pose proof (rel_get _ _ i R) as G. destruct (caw_vget vs i) as [|t|o|] eqn:E.
    4: rewrite G; split; auto.
    all: destruct G as (w & -> & G & Hw & Hv); unfold caw_destroy;
      match type of Hv with nth_error _ _ = Some ?v =>
        destruct (rel_drop st vs i v w None VGone R Hv) as (h & Hr & Hlen & R');
          [discriminate|auto|discriminate|intro; reflexivity|]
      end; rewrite Hr; split; auto.
Qed.

Lemma rel_init : rel caw_init [].
Proof.
  constructor; simpl; auto.
  - intros [|i]; discriminate.
  - intros i j a (w & H & _). destruct i; discriminate.
  - intros a (o & H). destruct a; discriminate.
Qed.

Lemma exec_sim l : forall st vs, rel st vs ->
  fst (caw_exec st l) = fst (caw_vexec vs l) /\ rel (snd (caw_exec st l)) (snd (caw_vexec vs l)).
Proof.
  induction l as [|op l IH]; intros st vs R; simpl; auto.
  destruct (step_sim st vs op R) as [E R'].
  destruct (caw_step st op) as [b st']. destruct (caw_vstep vs op) as [b' vs']. simpl in E, R'. subst b'.
  specialize (IH st' vs' R').
  destruct b; simpl; auto;
    destruct (caw_exec st' l) as [bs st2]; destruct (caw_vexec vs' l) as [bs' vs2]; simpl in *;
    destruct IH as [-> IH]; auto.
Qed.

Theorem value_semantics l : fst (caw_exec caw_init l) = fst (caw_vexec [] l).
Proof. apply exec_sim. apply rel_init. Qed.

Lemma exec_rel l : rel (snd (caw_exec caw_init l)) (snd (caw_vexec [] l)).
Proof. apply exec_sim. apply rel_init. Qed.

(* Ownership, for every history. *)
Theorem owned_once l a :
  let st := snd (caw_exec caw_init l) in
  (caw_alive st a <-> exists i, caw_owns st i a) /\
  (forall i j, caw_owns st i a -> caw_owns st j a -> i = j).
Proof.
  simpl. pose proof (exec_rel l) as R. split; [split|].
  - apply (r_all _ _ R).
  - intros (i & H). apply owns_nth in H as (w & H & E).
    destruct (nth_error (snd (caw_vexec [] l)) i) as [v|] eqn:Ev.
    2:{ apply nth_error_None in Ev. apply nth_lt in H. rewrite (r_len _ _ R) in H. lia. }
    pose proof (r_val _ _ R _ _ _ H Ev) as V. destruct v as [|t|o|]; simpl in V; try discriminate.
    + injection V as ->. discriminate.
    + injection V as ->. discriminate.
    + destruct V as (b & Eb & V). injection Eb as ->. simpl in E. injection E as ->. exists o; auto.
  - intros i j. apply (r_inj _ _ R).
Qed.

(* Once every wrapper is destroyed nothing is left alive. *)
Theorem no_leak l : let st := snd (caw_exec caw_init l) in
  (forall i, caw_get st i = None) -> forall a, ~ caw_alive st a.
Proof.
  simpl. intros H a Ha. destruct (owned_once l a) as [[X _] _]. destruct (X Ha) as (i & w & G & _).
  rewrite H in G. discriminate.
Qed.

(* Definedness. *)
Lemma vstep_proper vs op : fst (caw_vstep vs op) <> CoUndef <-> caw_proper vs op.
Proof.
  destruct op as [a w m to s rest mem| |j mem|j|i j mem|i j|i|i d|i m|i m|i]; simpl;
    unfold caw_holds, caw_present.
  - destruct mem; simpl; split; auto; discriminate.
  - split; auto; discriminate.
  - destruct (caw_vget vs j); [| |destruct mem|]; simpl; split; intro H; try discriminate; try congruence; eauto;
      destruct H; discriminate.
  - destruct (caw_vget vs j); simpl; split; intro H; congruence.
  - destruct (caw_vget vs i); destruct (caw_vget vs j); try destruct mem; simpl; split; intro H;
      try discriminate; try congruence; try (split; [discriminate|eauto]; fail);
      try (destruct H as [H [o' X]]; congruence).
  - destruct (caw_vget vs i); destruct (caw_vget vs j); try destruct (Nat.eqb i j); simpl; split; intro H;
      try discriminate; try congruence; try (split; discriminate); destruct H; congruence.
  - destruct (caw_vget vs i); simpl; split; intro H; try discriminate; try congruence; eauto;
      destruct H; discriminate.
  - unfold caw_is_const. destruct (caw_vget vs i) as [|t|o|]; simpl.
    + split; intro H; [split|]; discriminate.
    + destruct (cwt_f t) eqn:Ef; simpl; split; intro H; try discriminate; try congruence;
        try (split; [discriminate|intros t' X; injection X as <-; congruence]).
      destruct H as [_ H]. exfalso. apply (H t); auto.
    + destruct (cwt_f (cwo_type o)); simpl; split; intro H; try discriminate; split; discriminate.
    + split; intro H; [congruence|]. destruct H; congruence.
  - unfold caw_is_const. destruct (caw_vget vs i) as [|t|o|]; simpl.
    + split; intro H; [split|]; discriminate.
    + destruct (cwt_f t) eqn:Ef; simpl; split; intro H; try discriminate; try congruence;
        try (split; [discriminate|intros t' X; injection X as <-; congruence]);
        destruct H as [_ H]; specialize (H t eq_refl); congruence.
    + destruct (cwt_f (cwo_type o)); simpl; split; intro H; try discriminate; split; discriminate.
    + split; intro H; [congruence|]. destruct H; congruence.
  - destruct (caw_vget vs i); simpl; split; intro H; try discriminate; try congruence; eauto;
      destruct H; discriminate.
  - destruct (caw_vget vs i); simpl; split; intro H; congruence.
Qed.

Fixpoint proper_all (vs : list caw_value) (l : list caw_op) : Prop :=
  match l with
  | [] => True
  | op :: r => caw_proper vs op /\ proper_all (snd (caw_vstep vs op)) r
  end.

Lemma vexec_cons vs op l : caw_vexec vs (op :: l) =
  match fst (caw_vstep vs op) with
  | CoUndef => ([CoUndef], snd (caw_vstep vs op))
  | b => (b :: fst (caw_vexec (snd (caw_vstep vs op)) l), snd (caw_vexec (snd (caw_vstep vs op)) l))
  end.
Proof.
  simpl. destruct (caw_vstep vs op) as [b vs']. simpl.
  destruct b; auto; destruct (caw_vexec vs' l); auto.
Qed.

Lemma vexec_app l1 : forall vs l2, ~ In CoUndef (fst (caw_vexec vs l1)) ->
  caw_vexec vs (l1 ++ l2) =
  (fst (caw_vexec vs l1) ++ fst (caw_vexec (snd (caw_vexec vs l1)) l2),
   snd (caw_vexec (snd (caw_vexec vs l1)) l2)).
Proof.
  induction l1 as [|op l1 IH]; intros vs l2 N.
  - simpl. destruct (caw_vexec vs l2); auto.
  - rewrite <- app_comm_cons. rewrite !vexec_cons in *.
    destruct (fst (caw_vstep vs op)) eqn:E; simpl in *;
      try (rewrite IH by tauto; reflexivity).
    exfalso. auto.
Qed.

(* The last call of a program whose earlier calls are defined. *)
Theorem defined_iff l op : ~ In CoUndef (fst (caw_exec caw_init l)) ->
  (In CoUndef (fst (caw_exec caw_init (l ++ [op]))) <-> ~ caw_proper (snd (caw_vexec [] l)) op).
Proof.
  rewrite !value_semantics. intro N. rewrite (vexec_app l [] [op] N). cbn [fst]. rewrite in_app_iff.
  rewrite vexec_cons. rewrite <- vstep_proper. split.
  - intros [H|H]; [contradiction|]. destruct (fst (caw_vstep _ op)); simpl in H; try tauto;
      destruct H as [H|[]]; discriminate.
  - intro H. right. destruct (fst (caw_vstep _ op)); try (exfalso; apply H; discriminate). simpl; auto.
Qed.

(* Calls that do not touch wrapper [i] leave its value. *)
Lemma vget_set vs i j v : i <> j -> caw_vget (caw_set vs i v) j = caw_vget vs j.
Proof.
  intro N. unfold caw_vget. revert i j N. induction vs; intros [|i] [|j] N; simpl; auto; try lia.
Qed.

Lemma vget_snoc vs i v : caw_vget vs i <> VGone -> caw_vget (vs ++ [v]) i = caw_vget vs i.
Proof.
  intro N. unfold caw_vget in *. destruct (Nat.lt_ge_cases i (length vs)) as [L|L].
  - apply app_nth1; auto.
  - rewrite nth_overflow in N by auto. congruence.
Qed.

Lemma vstep_other vs op i : caw_vget vs i <> VGone -> ~ caw_touches op i ->
  caw_vget (snd (caw_vstep vs op)) i = caw_vget vs i.
Proof.
  intros P N. destruct op as [a w m to s rest mem| |j mem|j|k j mem|k j|k|k d|k m|k m|k]; simpl in *.
  - destruct mem; simpl; auto. apply vget_snoc; auto.
  - apply vget_snoc; auto.
  - destruct (caw_vget vs j); try destruct mem; simpl; auto; apply vget_snoc; auto.
  - destruct (caw_vget vs j) eqn:E; simpl; auto;
      rewrite vget_snoc by (rewrite vget_set by auto; auto); apply vget_set; auto.
  - destruct (caw_vget vs k); destruct (caw_vget vs j); try destruct mem; simpl; auto; apply vget_set; auto.
  - destruct (caw_vget vs k); destruct (caw_vget vs j); try destruct (Nat.eqb k j); simpl; auto;
      rewrite vget_set by (intro; tauto || auto); apply vget_set; intro; apply N; auto.
  - destruct (caw_vget vs k); simpl; auto.
  - destruct (caw_vget vs k); try destruct (caw_is_const _); simpl; auto; apply vget_set; auto.
  - destruct (caw_vget vs k); try destruct (caw_is_const _); simpl; auto; apply vget_set; auto.
  - destruct (caw_vget vs k); simpl; auto; apply vget_set; auto.
  - destruct (caw_vget vs k); simpl; auto; apply vget_set; auto.
Qed.

Lemma vexec_other l : forall vs i, caw_vget vs i <> VGone -> Forall (fun op => ~ caw_touches op i) l ->
  caw_vget (snd (caw_vexec vs l)) i = caw_vget vs i.
Proof.
  induction l as [|op l IH]; intros vs i P F; [reflexivity|].
  inversion F as [|? ? F1 F2]; subst. rewrite vexec_cons.
  pose proof (vstep_other vs op i P F1) as E.
  destruct (fst (caw_vstep vs op)); simpl; auto; (rewrite IH; [auto|congruence|auto]).
Qed.

Lemma vget_set_same vs i v : i < length vs -> caw_vget (caw_set vs i v) i = v.
Proof. intro L. unfold caw_vget. apply nth_error_nth. apply set_same; auto. Qed.

(* A copy shows, for ever, the assignment copied: run it after any calls which
   do not touch it. *)
Theorem copy_independent l1 i j o l2 :
  fst (caw_exec caw_init (l1 ++ [CRun j])) = fst (caw_exec caw_init l1) ++ [CoRan o] ->
  ~ In CoUndef (fst (caw_exec caw_init (l1 ++ CCopy i j true :: l2))) ->
  Forall (fun op => ~ caw_touches op i) l2 ->
  fst (caw_exec caw_init (l1 ++ CCopy i j true :: l2 ++ [CRun i])) =
  fst (caw_exec caw_init (l1 ++ CCopy i j true :: l2)) ++ [CoRan o].
Proof.
  rewrite !value_semantics. intros H N F.
  assert (N1 : ~ In CoUndef (fst (caw_vexec [] l1))).
  { intro X. assert (Y : In CoUndef (fst (caw_vexec [] l1) ++ [CoRan o])) by (apply in_app_iff; auto).
    clear - X N. revert X N. generalize (@nil caw_value). induction l1 as [|op l IH]; intros vs X N; [destruct X|].
    rewrite <- app_comm_cons, vexec_cons in N. rewrite vexec_cons in X.
    destruct (fst (caw_vstep vs op)); simpl in *; try (apply N; auto; fail);
      apply (IH (snd (caw_vstep vs op))); tauto. }
  rewrite (vexec_app l1 [] [CRun j] N1) in H. cbn [fst] in H. apply app_inv_head in H.
  assert (Hj : caw_vget (snd (caw_vexec [] l1)) j = VHas o).
  { simpl in H. destruct (caw_vget (snd (caw_vexec [] l1)) j); simpl in H; congruence. }
  change (CCopy i j true :: l2 ++ [CRun i]) with ((CCopy i j true :: l2) ++ [CRun i]).
  rewrite app_assoc.
  rewrite (vexec_app (l1 ++ CCopy i j true :: l2) [] [CRun i] N). cbn [fst]. f_equal.
  set (vs := snd (caw_vexec [] l1)) in *.
  rewrite (vexec_app l1 [] _ N1) in N |- *. cbn [fst snd] in *. fold vs in N |- *.
  rewrite (vexec_cons vs (CCopy i j true) l2) in N |- *.
  assert (S1 : caw_vstep vs (CCopy i j true) = (CoUndef, vs) \/
               (caw_vstep vs (CCopy i j true) = (CoDone, caw_set vs i (VHas o)) /\ i < length vs)).
  { simpl. rewrite Hj. destruct (caw_vget vs i) eqn:E; auto; right; split; auto;
      (destruct (Nat.lt_ge_cases i (length vs)) as [L|L]; [auto|]);
      unfold caw_vget in E; rewrite nth_overflow in E by auto; discriminate. }
  destruct S1 as [S1|[S1 L]]; rewrite S1 in N |- *; cbn [fst snd] in *.
  - exfalso. apply N. apply in_app_iff. right. simpl; auto.
  - assert (V : caw_vget (snd (caw_vexec (caw_set vs i (VHas o)) l2)) i = VHas o).
    { rewrite vexec_other; auto; rewrite vget_set_same by auto; congruence. }
    simpl. rewrite V. reflexivity.
Qed.

(* A call that throws changes nothing at all. *)
Lemma step_throw st op : fst (caw_step st op) = CoThrew -> snd (caw_step st op) = st.
Proof.
  destruct op; simpl; unfold caw_make, caw_with, caw_copy_new, caw_move_new, caw_copy, caw_move, caw_run,
    caw_fromd, caw_fromm, caw_to, caw_destroy, caw_call, caw_with_heap;
  repeat match goal with
  | |- context [match ?x with _ => _ end] => destruct x; simpl
  end; intro H; try discriminate; reflexivity.
Qed.

Lemma exec_cons st op l : caw_exec st (op :: l) =
  match fst (caw_step st op) with
  | CoUndef => ([CoUndef], snd (caw_step st op))
  | b => (b :: fst (caw_exec (snd (caw_step st op)) l), snd (caw_exec (snd (caw_step st op)) l))
  end.
Proof.
  simpl. destruct (caw_step st op) as [b st']. simpl.
  destruct b; auto; destruct (caw_exec st' l); auto.
Qed.

Theorem throw_changes_nothing op : forall l st,
  fst (caw_exec st (l ++ [op])) = fst (caw_exec st l) ++ [CoThrew] ->
  snd (caw_exec st (l ++ [op])) = snd (caw_exec st l).
Proof.
  induction l as [|o l IH]; intros st H.
  - simpl app in *. rewrite exec_cons in *. simpl (fst (caw_exec st [])) in H.
    pose proof (step_throw st op) as T.
    destruct (fst (caw_step st op)); simpl in *; try discriminate. auto.
  - rewrite <- app_comm_cons in *. rewrite !exec_cons in *.
    destruct (fst (caw_step st o)); simpl in *; try (injection H as H); auto.
Qed.

(* What the modifiers show on a wrapper that holds [o]. *)
Lemma prefix_defined l i o :
  fst (caw_vexec [] (l ++ [CRun i])) = fst (caw_vexec [] l) ++ [CoRan o] ->
  ~ In CoUndef (fst (caw_vexec [] l)) /\ caw_vget (snd (caw_vexec [] l)) i = VHas o.
Proof.
  intro H.
  assert (N1 : ~ In CoUndef (fst (caw_vexec [] l))).
  { revert H. generalize (@nil caw_value). induction l as [|op l IH]; intros vs H; [intros []|].
    rewrite <- app_comm_cons in H. rewrite !vexec_cons in H. rewrite vexec_cons.
    destruct (fst (caw_vstep vs op)); simpl in *; try discriminate; injection H as H;
      intros [X|X]; try discriminate; exact (IH _ H X). }
  split; auto. rewrite (vexec_app l [] [CRun i] N1) in H. cbn [fst] in H. apply app_inv_head in H.
  simpl in H. destruct (caw_vget (snd (caw_vexec [] l)) i); simpl in H; congruence.
Qed.

Lemma holds_lt vs i o : caw_vget vs i = VHas o -> i < length vs.
Proof.
  intro E. destruct (Nat.lt_ge_cases i (length vs)) as [L|L]; [auto|].
  unfold caw_vget in E. rewrite nth_overflow in E by auto. discriminate.
Qed.

Theorem modifiers l i o d m :
  fst (caw_exec caw_init (l ++ [CRun i])) = fst (caw_exec caw_init l) ++ [CoRan o] ->
  fst (caw_exec caw_init (l ++ [CTo i m; CRun i])) =
    fst (caw_exec caw_init l) ++
    [CoDone; CoRan {| cwo_type := cwo_type o; cwo_to := m; cwo_from := cwo_from o; cwo_rest := cwo_rest o |}] /\
  fst (caw_exec caw_init (l ++ [CFromD i d; CRun i])) =
    fst (caw_exec caw_init l) ++
    match cwt_f (cwo_type o) with
    | CawConstant => [CoDone; CoRan {| cwo_type := cwo_type o; cwo_to := cwo_to o;
                                      cwo_from := CSConst d; cwo_rest := cwo_rest o |}]
    | _ => [CoThrew; CoRan o]
    end /\
  fst (caw_exec caw_init (l ++ [CFromM i m; CRun i])) =
    fst (caw_exec caw_init l) ++
    match cwt_f (cwo_type o) with
    | CawConstant => [CoThrew; CoRan o]
    | CawExternal => [CoDone; CoRan {| cwo_type := cwo_type o; cwo_to := cwo_to o;
                                      cwo_from := CSRef m; cwo_rest := cwo_rest o |}]
    | CawZero => [CoDone; CoRan o]
    end.
Proof.
  rewrite !value_semantics. intro H. destruct (prefix_defined _ _ _ H) as [N V].
  rewrite !(vexec_app l [] _ N). cbn [fst]. set (vs := snd (caw_vexec [] l)) in *.
  pose proof (holds_lt _ _ _ V) as L.
  split; [|split]; f_equal; cbn [caw_vexec caw_vstep]; rewrite V.
  - cbn. rewrite vget_set_same by auto. reflexivity.
  - unfold caw_is_const, caw_obj_from.
    destruct (cwt_f (cwo_type o)) eqn:Ef; cbn; rewrite ?vget_set_same by auto; try rewrite V; reflexivity.
  - unfold caw_is_const, caw_obj_from.
    destruct (cwt_f (cwo_type o)) eqn:Ef; cbn; rewrite ?vget_set_same by auto; try rewrite V; reflexivity.
Qed.

(* The object a wrapper holds is of the type the wrapper was made for: the kind
   of its source agrees with its type, for ever. *)
Definition wf_val (v : caw_value) : Prop :=
  match v with VHas o => caw_src_kind (cwo_from o) = cwt_f (cwo_type o) | _ => True end.

Lemma wf_get vs i : Forall wf_val vs -> wf_val (caw_vget vs i).
Proof.
  intro F. unfold caw_vget. destruct (nth_in_or_default i vs VGone) as [I|E].
  - rewrite Forall_forall in F. auto.
  - rewrite E. exact Logic.I.
Qed.

Lemma wf_set vs i v : Forall wf_val vs -> wf_val v -> Forall wf_val (caw_set vs i v).
Proof.
  intros F. revert i. induction F; intros [|i] V; simpl; constructor; auto.
Qed.

Lemma wf_snoc vs v : Forall wf_val vs -> wf_val v -> Forall wf_val (vs ++ [v]).
Proof. intros F V. apply Forall_app; split; auto. Qed.

Lemma wf_left v : wf_val (caw_left v).
Proof. destruct v; exact Logic.I. Qed.

Lemma wf_step vs op : Forall wf_val vs -> Forall wf_val (snd (caw_vstep vs op)).
Proof.
  intro F. destruct op as [a w m to s rest mem| |j mem|j|i j mem|i j|i|i d|i m|i m|i]; simpl.
  - destruct mem; simpl; auto. apply wf_snoc; simpl; auto.
  - apply wf_snoc; simpl; auto.
  - pose proof (wf_get vs j F) as W. destruct (caw_vget vs j); try destruct mem; simpl; auto. apply wf_snoc; auto.
  - pose proof (wf_get vs j F) as W. destruct (caw_vget vs j); simpl; auto; apply wf_snoc; auto; apply wf_set; auto; exact Logic.I.
  - pose proof (wf_get vs j F) as W. destruct (caw_vget vs i); destruct (caw_vget vs j); try destruct mem; simpl; auto; apply wf_set; auto.
  - pose proof (wf_get vs j F) as W. destruct (caw_vget vs i); destruct (caw_vget vs j); try destruct (Nat.eqb i j); simpl; auto;
      apply wf_set; auto; apply wf_set; auto; exact Logic.I.
  - destruct (caw_vget vs i); simpl; auto.
  - pose proof (wf_get vs i F) as W. destruct (caw_vget vs i) as [|t|o|]; simpl; auto.
    + destruct (caw_is_const t); simpl; auto.
    + unfold caw_is_const. destruct (cwt_f (cwo_type o)) eqn:E; simpl; auto. apply wf_set; auto.
      simpl. unfold caw_obj_from. rewrite E. simpl. auto.
  - pose proof (wf_get vs i F) as W. destruct (caw_vget vs i) as [|t|o|]; simpl; auto.
    + destruct (caw_is_const t); simpl; auto.
    + unfold caw_is_const. destruct (cwt_f (cwo_type o)) eqn:E; simpl; auto; apply wf_set; auto;
      simpl; unfold caw_obj_from; rewrite E; simpl; auto.
  - pose proof (wf_get vs i F) as W. destruct (caw_vget vs i) as [|t|o|]; simpl; auto. apply wf_set; auto.
  - destruct (caw_vget vs i); simpl; auto; apply wf_set; simpl; auto.
Qed.

Lemma ran_wf l : forall vs o, Forall wf_val vs -> In (CoRan o) (fst (caw_vexec vs l)) ->
  caw_src_kind (cwo_from o) = cwt_f (cwo_type o).
Proof.
  induction l as [|op l IH]; intros vs o F H; [destruct H|].
  rewrite vexec_cons in H. pose proof (wf_step vs op F) as F'.
  assert (Q : fst (caw_vstep vs op) = CoRan o -> caw_src_kind (cwo_from o) = cwt_f (cwo_type o)).
  { intro E. destruct op as [a w m to s rest mem| |j mem|j|i j mem|i j|i|i d|i m|i m|i]; simpl in E;
      repeat match type of E with context [match ?x with _ => _ end] =>
        let G := fresh in destruct x eqn:G; simpl in E end; try discriminate.
    injection E as ->. pose proof (wf_get vs i F) as W. rewrite H0 in W. exact W. }
  destruct (fst (caw_vstep vs op)); simpl in H;
    destruct H as [H|H]; try discriminate; try (eapply IH; eauto; fail); try contradiction.
  injection H as ->. auto.
Qed.

Theorem ran_source_kind l o : In (CoRan o) (fst (caw_exec caw_init l)) ->
  caw_src_kind (cwo_from o) = cwt_f (cwo_type o).
Proof. rewrite value_semantics. apply ran_wf. constructor. Qed.
