Require Import ZArith List Bool Lia.
Require Import Verif.Base Verif.RangeModel Verif.VarVectorModel Verif.FopModel Verif.FopSpec.
Import ListNotations.
Local Open Scope Z_scope.

Lemma bind_ok {A B} (e : res A) (f : A -> res B) r : bind e f = Ok r -> exists a, e = Ok a /\ f a = Ok r.
Proof. destruct e; cbn; intros H; try discriminate. eauto. Qed.
(* ---- maps ---- *)
Lemma mget_mset {B} (m : kmap B) k b k' : mget (mset m k b) k' = if Nat.eqb k k' then Some b else mget m k'.
Proof.
  induction m as [|[x c] m IH]; [reflexivity|]. cbn [mset mget]. destruct (Nat.ltb_spec k x).
  - cbn. reflexivity.
  - destruct (Nat.eqb_spec x k) as [->|E]; cbn.
    + destruct (Nat.eqb_spec k k'); reflexivity.
    + destruct (Nat.eqb_spec x k') as [->|E']; [destruct (Nat.eqb_spec k k'); [congruence|reflexivity]|exact IH].
Qed.
Lemma mget_merase {B} (m : kmap B) k k' : mget (merase m k) k' = if Nat.eqb k k' then None else mget m k'.
Proof.
  induction m as [|[x c] m IH]; cbn; [destruct (Nat.eqb k k'); reflexivity|]. destruct (Nat.eqb_spec x k) as [->|E]; cbn.
  - fold (merase m k). rewrite IH. destruct (Nat.eqb_spec k k'); reflexivity.
  - fold (merase m k). rewrite IH. destruct (Nat.eqb_spec x k') as [->|E']; [destruct (Nat.eqb_spec k k'); [congruence|reflexivity]|reflexivity].
Qed.
Lemma In_mset {B} (m : kmap B) k b p : (forall c, ~ In (k, c) m) -> (In p (mset m k b) <-> p = (k, b) \/ In p m).
Proof.
  induction m as [|[x c] m IH]; intros N; [cbn; firstorder congruence|]. cbn [mset]. destruct (Nat.ltb_spec k x); [cbn; firstorder congruence|].
  destruct (Nat.eqb_spec x k) as [->|E]; [exfalso; exact (N c (or_introl eq_refl))|]. cbn. rewrite IH; [firstorder congruence|]. intros d D. exact (N d (or_intror D)).
Qed.
Lemma In_merase {B} (m : kmap B) k p : In p (merase m k) <-> In p m /\ fst p <> k.
Proof. unfold merase. rewrite filter_In. destruct (Nat.eqb_spec (fst p) k); cbn; intuition congruence. Qed.
Lemma mget_In {B} (m : kmap B) k b : mget m k = Some b -> In (k, b) m.
Proof. induction m as [|[x c] m IH]; cbn; [discriminate|]. destruct (Nat.eqb_spec x k) as [->|E]; [intros [= ->]; auto|auto]. Qed.
Lemma mget_None {B} (m : kmap B) k : mget m k = None -> forall b, ~ In (k, b) m.
Proof. induction m as [|[x c] m IH]; cbn; [auto|]. destruct (Nat.eqb_spec x k) as [->|E]; [discriminate|]. intros H b [[= ? ?]|H']; [congruence|exact (IH H b H')]. Qed.

Section P.
Context {A P : Type}.
Variable p0 : P.
Variable V : nat -> vslice.
Variable ts : nat -> Z.
Variable dv : nat -> nat.
Hypothesis dv_inj : forall x y, dv x = dv y -> x = y.
Variable e : enabled.
Notation fn := (fn A P).
Notation mat := (mat A P).
Notation fop := (fop A P).
Notation step := (@fstep A P p0 V ts dv e).
Notation run := (@frun A P p0 V ts dv e).

(* ---- ranges ---- *)
Lemma common_spec v x : 0 < dim (rng (V v)) -> 0 < dim (rng (V x)) -> s_intersects (V x) (V v) = common V v x.
Proof.
  intros H1 H2. unfold s_intersects, common, intersects, containsI. rewrite <- andb_assoc. f_equal. unfold rend.
  destruct (Z.leb_spec (start (rng (V x))) (start (rng (V v)))), (Z.ltb_spec (start (rng (V v))) (start (rng (V x)) + dim (rng (V x)))),
    (Z.leb_spec (start (rng (V v))) (start (rng (V x)))), (Z.ltb_spec (start (rng (V x))) (start (rng (V v)) + dim (rng (V v)))); cbn; lia.
Qed.
Lemma part_spec v x : 0 < dim (rng (V v)) -> 0 < dim (rng (V x)) -> s_contains (V x) (V v) = part_of V v x.
Proof.
  intros H1 H2. unfold s_contains, part_of, containsR, containsI. rewrite <- !andb_assoc. f_equal. unfold rend.
  destruct (Z.leb_spec (start (rng (V x))) (start (rng (V v)))), (Z.ltb_spec (start (rng (V v))) (start (rng (V x)) + dim (rng (V x)))),
    (Z.leb_spec (start (rng (V v)) + dim (rng (V v))) (start (rng (V x)) + dim (rng (V x)))); cbn; lia.
Qed.
Lemma part_common v x : 0 < dim (rng (V v)) -> part_of V v x = true -> common V v x = true.
Proof. unfold part_of, common, rend. intros D H. rewrite !andb_true_iff in *. destruct H as ((H1 & H2) & H3). apply Z.leb_le in H2. apply Z.leb_le in H3. repeat split; auto; apply Z.ltb_lt; lia. Qed.
Lemma part_both v x y : 0 < dim (rng (V v)) -> part_of V v x = true -> part_of V v y = true -> common V x y = true.
Proof.
  unfold part_of, common, rend. intros D H K. rewrite !andb_true_iff in *. destruct H as ((H1 & H2) & H3). destruct K as ((K1 & K2) & K3).
  apply Nat.eqb_eq in H1. apply Nat.eqb_eq in K1. apply Z.leb_le in H2. apply Z.leb_le in H3. apply Z.leb_le in K2. apply Z.leb_le in K3.
  repeat split; [apply Nat.eqb_eq; congruence|apply Z.ltb_lt; lia|apply Z.ltb_lt; lia].
Qed.
Lemma common_self v : 0 < dim (rng (V v)) -> common V v v = true.
Proof. unfold common, rend. intros D. rewrite Nat.eqb_refl. cbn. apply andb_true_iff. split; apply Z.ltb_lt; lia. Qed.
Lemma common_sym v x : common V v x = common V x v.
Proof. unfold common. rewrite (Nat.eqb_sym (sup (V x))). destruct (Nat.eqb (sup (V v)) (sup (V x))); cbn; [apply andb_comm|reflexivity]. Qed.
Lemma s_eq_common v x : 0 < dim (rng (V v)) -> s_eq (V x) (V v) = true -> common V v x = true.
Proof.
  unfold s_eq, req, common, rend. intros D H. rewrite !andb_true_iff in *. destruct H as (H1 & H2 & H3). apply Z.eqb_eq in H2. apply Z.eqb_eq in H3. repeat split; auto; apply Z.ltb_lt; lia.
Qed.
Lemma s_eq_refl v : s_eq (V v) (V v) = true.
Proof. unfold s_eq, req. rewrite Nat.eqb_refl, !Z.eqb_refl. reflexivity. Qed.

(* ---- the invariant ---- *)
Definition sized (en : bool) (r : Z) (vs : list nat) (m : kmap mat) : Prop :=
  forall v, match mget m v with Some M => In v vs /\ m_cols M = ts v /\ (en = true -> m_rows M = r) | None => ~ In v vs end.
Record Inv (s : fn) (acc : list (nat * bool)) : Prop := mkInv {
  i_vars : f_vars s = map fst acc;
  i_nodup : NoDup (map fst acc);
  i_plain : Forall (plain V ts) (map fst acc);
  i_disj : forall x y, In x (map fst acc) -> In y (map fst acc) -> x <> y -> common V x y = false;
  i_vdot : f_vdot s = map dv (map fst acc);
  i_lin : forall p, In p (f_lin s) <-> In p acc;
  i_jac : sized (enJacobian e) (f_ts s) (map fst acc) (f_jac s);
  i_jdot : sized (enJDot e) (f_ts s) (map fst acc) (f_jdot s);
  i_ts : 0 <= f_ts s;
  i_value : enValue e = true -> f_value s = f_rs s;
  i_vel : enVelocity e = true -> f_velocity s = f_ts s;
  i_norm : enNormal e = true -> f_normal s = f_ts s }.

Lemma resizeAt_ok (m : kmap mat) r v : 0 <= r -> 0 <= ts v -> exists M, resizeAt p0 ts m r v = Ok (mset m v M) /\ m_rows M = r /\ m_cols M = ts v /\
  M = (let M0 := getOr0 p0 m v in if (m_rows M0 =? r) && (m_cols M0 =? ts v) then M0 else mkMat r (ts v) None (m_props M0)).
Proof.
  intros R T. unfold resizeAt, resizeMat. rewrite (proj2 (Z.leb_le 0 r) R), (proj2 (Z.leb_le 0 (ts v)) T). cbn [andb bind].
  eexists. split; [reflexivity|]. cbv zeta. destruct ((m_rows (getOr0 p0 m v) =? r) && (m_cols (getOr0 p0 m v) =? ts v)) eqn:E; [|auto].
  apply andb_true_iff in E. destruct E as (E1 & E2). apply Z.eqb_eq in E1. apply Z.eqb_eq in E2. auto.
Qed.
Lemma sized_add en r vs m v M : sized en r vs m -> m_rows M = r -> m_cols M = ts v -> sized en r (vs ++ [v]) (mset m v M).
Proof.
  intros H R C x. rewrite mget_mset. destruct (Nat.eqb_spec v x) as [<-|E].
  - split; [apply in_or_app; right; left; reflexivity|]. auto.
  - specialize (H x). destruct (mget m x); [destruct H as (H & H'); split; [apply in_or_app; auto|exact H']|].
    intros I. apply in_app_or in I. destruct I as [I|[I|[]]]; auto.
Qed.
Lemma sized_set en r vs m v M : sized en r vs m -> In v vs -> m_cols M = ts v -> (en = true -> m_rows M = r) -> sized en r vs (mset m v M).
Proof. intros H I C R x. rewrite mget_mset. destruct (Nat.eqb_spec v x) as [<-|E]; [auto|apply H]. Qed.
Lemma sized_erase en r vs m v : sized en r vs m -> sized en r (filter (fun x => negb (Nat.eqb x v)) vs) (merase m v).
Proof.
  intros H x. rewrite mget_merase. destruct (Nat.eqb_spec v x) as [<-|E].
  - rewrite filter_In, Nat.eqb_refl. intros [_ X]. discriminate.
  - specialize (H x). destruct (mget m x).
    + destruct H as (H & H'). split; [|exact H']. apply filter_In. split; [exact H|]. destruct (Nat.eqb_spec x v); [congruence|reflexivity].
    + rewrite filter_In. intros [X _]. contradiction.
Qed.
Lemma resizeAll_ok r vs : 0 <= r -> Forall (fun v => 0 <= ts v) vs -> forall m : kmap mat, exists m', resizeAll p0 ts m r vs = Ok m' /\
  forall x, (In x vs -> exists M, mget m' x = Some M /\ m_rows M = r /\ m_cols M = ts x /\ M = (let M0 := getOr0 p0 m x in if (m_rows M0 =? r) && (m_cols M0 =? ts x) then M0 else mkMat r (ts x) None (m_props M0))) /\
            (~ In x vs -> mget m' x = mget m x).
Proof.
  intros R F. induction F as [|v vs T F IH]; intros m; cbn [resizeAll].
  - eexists. split; [reflexivity|]. intros x. split; [intros []|reflexivity].
  - destruct (resizeAt_ok m r v R T) as (M & E & E1 & E2 & E3). rewrite E. cbn [bind]. destruct (IH (mset m v M)) as (m' & E' & H). exists m'. split; [exact E'|].
    intros x. destruct (H x) as (H1 & H2). split.
    + intros I. destruct (in_dec Nat.eq_dec x vs) as [J|J].
      * destruct (H1 J) as (M' & G & G1 & G2 & G3). exists M'. repeat (split; [assumption|]). rewrite G3. unfold getOr0. rewrite mget_mset. destruct (Nat.eqb_spec v x) as [<-|N]; [|reflexivity].
        cbv zeta. rewrite E1, E2, !Z.eqb_refl. cbn [andb]. rewrite E3. reflexivity.
      * destruct I as [<-|I]; [|contradiction]. exists M. rewrite (H2 J), mget_mset, Nat.eqb_refl. auto.
    + intros N. rewrite H2 by (intros X; apply N; right; exact X). rewrite mget_mset. destruct (Nat.eqb_spec v x) as [<-|_]; [exfalso; apply N; left; reflexivity|reflexivity].
Qed.
Lemma sized_resize en r r' vs m m' : sized en r vs m -> (forall x, (In x vs -> exists M, mget m' x = Some M /\ m_rows M = r' /\ m_cols M = ts x) /\ (~ In x vs -> mget m' x = mget m x)) -> sized en r' vs m'.
Proof.
  intros H K x. destruct (K x) as (K1 & K2). destruct (in_dec Nat.eq_dec x vs) as [I|I].
  - destruct (K1 I) as (M & -> & R & C). auto.
  - rewrite (K2 I). specialize (H x). destruct (mget m x); [|exact H]. destruct H as (H & _). contradiction.
Qed.

(* ---- adding ---- *)
Lemma addLoop_spec vs v : 0 < dim (rng (V v)) -> Forall (plain V ts) vs -> existsb (part_of V v) vs = false ->
  addLoop V vs v = if existsb (common V v) vs then Some RThrow else None.
Proof.
  intros D F. induction F as [|x vs (Dx & _) F IH]; [reflexivity|]. cbn [existsb addLoop]. rewrite (part_spec v x D Dx), (common_spec v x D Dx).
  intros H. apply orb_false_iff in H. destruct H as (H1 & H2). rewrite H1. destruct (common V v x); [reflexivity|]. cbn. apply IH, H2.
Qed.
Lemma existsb_contains vs v : 0 < dim (rng (V v)) -> Forall (plain V ts) vs -> existsb (fun x => s_contains (V x) (V v)) vs = existsb (part_of V v) vs.
Proof. intros D F. induction F as [|x vs (Dx & _) F IH]; [reflexivity|]. cbn. rewrite IH, part_spec; auto. Qed.
Lemma tryAdd_spec vs v : 0 < dim (rng (V v)) -> Forall (plain V ts) vs ->
  tryAdd V vs v = if existsb (part_of V v) vs then ANo else if existsb (common V v) vs then AThrow else AYes.
Proof.
  intros D F. unfold tryAdd. rewrite (existsb_contains _ _ D F). destruct (existsb (part_of V v) vs) eqn:E; [reflexivity|]. rewrite (addLoop_spec _ _ D F E).
  destruct (existsb (common V v) vs); reflexivity.
Qed.
Lemma existsb_map {X Y} (f : X -> Y) (p : Y -> bool) l : existsb p (map f l) = existsb (fun x => p (f x)) l.
Proof. induction l; cbn; [reflexivity|]. rewrite IHl. reflexivity. Qed.
Lemma existsb_part_common vs v : 0 < dim (rng (V v)) -> existsb (part_of V v) vs = true -> existsb (common V v) vs = true.
Proof. intros D H. apply existsb_exists in H. destruct H as (x & I & H). apply existsb_exists. exists x. split; [exact I|]. apply part_common; assumption. Qed.
Lemma add_inv s acc v b : Inv s acc -> plain V ts v -> exists s1 t, addVariable p0 V ts dv s v b = Ok (s1, t) /\ Inv s1 (declare V acc v b) /\
  t = existsb (common V v) (map fst acc) && negb (existsb (part_of V v) (map fst acc)) /\ (existsb (common V v) (map fst acc) = true -> s1 = s) /\ f_eu s1 = f_eu s /\ f_ts s1 = f_ts s /\ f_rs s1 = f_rs s.
Proof.
  intros I (D & T). unfold addVariable, declare. rewrite (i_vars _ _ I), (tryAdd_spec _ _ D (i_plain _ _ I)), <- (existsb_map fst (common V v)).
  destruct (existsb (part_of V v) (map fst acc)) eqn:EP.
  - rewrite (existsb_part_common _ _ D EP). exists s, false. auto 10.
  - destruct (existsb (common V v) (map fst acc)) eqn:EC; [exists s, true; auto 10|].
    destruct (resizeAt_ok (f_jac s) (f_ts s) v (i_ts _ _ I) T) as (MJ & -> & RJ & CJ & _). cbn [bind].
    destruct (resizeAt_ok (f_jdot s) (f_ts s) v (i_ts _ _ I) T) as (MD & -> & RD & CD & _). cbn [bind].
    eexists _, false. split; [reflexivity|]. split; [|cbn; auto 10; split; [reflexivity|split; [discriminate|auto]]].
    assert (NI : ~ In v (map fst acc)). { intros X. assert (Y : existsb (common V v) (map fst acc) = true) by (apply existsb_exists; exists v; split; [exact X|apply common_self, D]). congruence. }
    assert (NC : forall x, In x (map fst acc) -> common V v x = false). { intros x X. destruct (common V v x) eqn:Y; [|reflexivity]. assert (Z : existsb (common V v) (map fst acc) = true) by (apply existsb_exists; eauto). congruence. }
    constructor; cbn [f_vars f_vdot f_lin f_jac f_jdot f_ts f_rs f_value f_velocity f_normal]; rewrite ?map_app; cbn [map fst].
    + rewrite <- (i_vars _ _ I). reflexivity.
    + apply NoDup_remove_1 with (a := v) (l' := []) || idtac. rewrite <- (rev_involutive (map fst acc ++ [v])). apply NoDup_rev. rewrite rev_app_distr. cbn. constructor; [rewrite <- in_rev; exact NI|apply NoDup_rev, (i_nodup _ _ I)].
    + apply Forall_app. split; [apply (i_plain _ _ I)|]. constructor; [split; assumption|constructor].
    + intros x y X Y N. apply in_app_or in X. apply in_app_or in Y. destruct X as [X|[<-|[]]], Y as [Y|[<-|[]]].
      * apply (i_disj _ _ I); assumption.
      * rewrite common_sym. auto.
      * auto.
      * congruence.
    + rewrite (i_vdot _ _ I). reflexivity.
    + intros p. rewrite In_mset.
      * rewrite (i_lin _ _ I). rewrite in_app_iff. cbn. intuition.
      * intros c C. apply (i_lin _ _ I) in C. apply NI. apply in_map_iff. exists (v, c). auto.
    + apply sized_add; auto. apply (i_jac _ _ I).
    + apply sized_add; auto. apply (i_jdot _ _ I).
    + apply (i_ts _ _ I).
    + apply (i_value _ _ I).
    + apply (i_vel _ _ I).
    + apply (i_norm _ _ I).
Qed.
Lemma addAll_inv vs b : Forall (plain V ts) vs -> forall s acc, Inv s acc -> exists s1 t, addVariables p0 V ts dv s vs b = Ok (s1, t) /\ Inv s1 (declareAll V acc vs b) /\ f_eu s1 = f_eu s /\ f_ts s1 = f_ts s /\ f_rs s1 = f_rs s.
Proof.
  intros F. induction F as [|v vs Pv F IH]; intros s acc I; cbn [addVariables declareAll]; [exists s, false; auto|].
  destruct (add_inv s acc v b I Pv) as (s1 & t & E & I1 & Et & Es & Eu & Ets & Ers). rewrite E. cbn [bind].
  rewrite <- (existsb_map fst (common V v)), <- (existsb_map fst (part_of V v)), <- Et. destruct t.
  - exists s1, true. split; [reflexivity|]. assert (X : existsb (common V v) (map fst acc) = true) by (symmetry in Et; apply andb_true_iff in Et; apply Et). rewrite (Es X) in *. auto.
  - destruct (IH s1 _ I1) as (s2 & t2 & E2 & I2 & U1 & U2 & U3). exists s2, t2. split; [exact E2|]. split; [exact I2|]. repeat split; congruence.
Qed.

(* ---- removing ---- *)
Lemma removeFirst_filter (p : nat -> bool) (v : nat) l : NoDup l -> (forall x, In x l -> p x = true <-> x = v) -> removeFirst p l = filter (fun x => negb (Nat.eqb x v)) l.
Proof.
  intros N. induction N as [|x l NI N IH]; intros H; [reflexivity|]. cbn. destruct (p x) eqn:E.
  - apply (H x (or_introl eq_refl)) in E. subst x. rewrite Nat.eqb_refl. cbn. symmetry. clear - NI. induction l as [|y l IH]; [reflexivity|]. cbn. destruct (Nat.eqb_spec y v) as [->|E]; [exfalso; apply NI; left; reflexivity|].
    cbn. f_equal. apply IH. intros X. apply NI. right. exact X.
  - destruct (Nat.eqb_spec x v) as [->|Y]; [assert (Z : p v = true) by (apply (H v (or_introl eq_refl)); reflexivity); congruence|]. cbn. f_equal. apply IH. intros y Iy. apply H. right. exact Iy.
Qed.
Lemma removeFirst_map v l : NoDup l -> In v l -> removeFirst (Nat.eqb (dv v)) (map dv l) = map dv (filter (fun x => negb (Nat.eqb x v)) l).
Proof.
  intros N I. induction N as [|x l NI N IH]; [destruct I|]. cbn. destruct (Nat.eqb_spec (dv v) (dv x)) as [Y|Y].
  - apply dv_inj in Y. subst x. rewrite Nat.eqb_refl. cbn. f_equal. symmetry. clear - NI. induction l as [|y l IH]; [reflexivity|]. cbn. destruct (Nat.eqb_spec y v) as [->|E]; [exfalso; apply NI; left; reflexivity|].
    cbn. f_equal. apply IH. intros X. apply NI. right. exact X.
  - destruct (Nat.eqb_spec x v) as [->|Z]; [congruence|]. cbn. f_equal. apply IH. destruct I as [I|I]; [congruence|exact I].
Qed.
Lemma map_filter_fst (acc : list (nat * bool)) v : map fst (filter (fun p => negb (Nat.eqb (fst p) v)) acc) = filter (fun x => negb (Nat.eqb x v)) (map fst acc).
Proof. induction acc as [|[x b] acc IH]; [reflexivity|]. cbn. destruct (Nat.eqb x v); cbn; [exact IH|]. f_equal. exact IH. Qed.
Lemma remove_inv s acc v : Inv s acc -> In v (map fst acc) -> exists s1, removeVariable V dv s v = Ok s1 /\ Inv s1 (filter (fun p => negb (Nat.eqb (fst p) v)) acc) /\ f_eu s1 = f_eu s /\ f_ts s1 = f_ts s /\ f_rs s1 = f_rs s.
Proof.
  intros I IN. unfold removeVariable. assert (X : existsb (Nat.eqb (dv v)) (f_vdot s) = true) by (apply existsb_exists; exists (dv v); split; [rewrite (i_vdot _ _ I); apply in_map, IN|apply Nat.eqb_refl]).
  rewrite X. eexists. split; [reflexivity|]. split; [|auto].
  assert (PV : plain V ts v) by (pose proof (i_plain _ _ I) as F; rewrite Forall_forall in F; apply F, IN).
  constructor; cbn [f_vars f_vdot f_lin f_jac f_jdot f_ts f_rs f_value f_velocity f_normal]; rewrite ?map_filter_fst.
  - rewrite (i_vars _ _ I). apply removeFirst_filter; [apply (i_nodup _ _ I)|]. intros x Hx. split; [|intros ->; apply s_eq_refl]. intros S. destruct (Nat.eq_dec x v) as [Y|Y]; [exact Y|].
    pose proof (s_eq_common v x (proj1 PV) S) as C. rewrite (i_disj _ _ I v x IN Hx ltac:(congruence)) in C. discriminate.
  - apply NoDup_filter, (i_nodup _ _ I).
  - pose proof (i_plain _ _ I) as F. rewrite Forall_forall in *. intros x Hx. apply filter_In in Hx. apply F, Hx.
  - intros x y Hx Hy. apply filter_In in Hx. apply filter_In in Hy. apply (i_disj _ _ I); [apply Hx|apply Hy].
  - rewrite (i_vdot _ _ I). apply removeFirst_map; [apply (i_nodup _ _ I)|exact IN].
  - intros p. rewrite In_merase, (i_lin _ _ I), filter_In. destruct (Nat.eqb_spec (fst p) v); cbn; intuition congruence.
  - apply sized_erase, (i_jac _ _ I).
  - apply sized_erase, (i_jdot _ _ I).
  - apply (i_ts _ _ I).
  - apply (i_value _ _ I).
  - apply (i_vel _ _ I).
  - apply (i_norm _ _ I).
Qed.
Lemma remove_defined s acc v : Inv s acc -> (exists s1, removeVariable V dv s v = Ok s1) <-> In v (map fst acc).
Proof.
  intros I. split.
  - intros (s1 & E). unfold removeVariable in E. destruct (existsb (Nat.eqb (dv v)) (f_vdot s)) eqn:X; [|discriminate]. apply existsb_exists in X. destruct X as (y & Y & Z). apply Nat.eqb_eq in Z. subst y.
    rewrite (i_vdot _ _ I) in Y. apply in_map_iff in Y. destruct Y as (z & Z & W). apply dv_inj in Z. subst z. exact W.
  - intros H. destruct (remove_inv s acc v I H) as (s1 & E & _). eauto.
Qed.

(* ---- resizing, writing ---- *)
Lemma resize_inv s acc m : Inv s acc -> f_eu s = true -> 0 <= m -> exists s1, resize p0 ts e s m = Ok s1 /\ Inv s1 acc /\ f_eu s1 = true /\ f_ts s1 = m /\ f_rs s1 = m /\
  forall v, In v (map fst acc) -> enJacobian e = true -> exists M M', mget (f_jac s) v = Some M /\ mget (f_jac s1) v = Some M' /\ m_props M' = m_props M /\ m_data M' = if f_ts s =? m then m_data M else None.
Proof.
  intros I U G. unfold resize. rewrite U, (proj2 (Z.leb_le 0 m) G). cbn [andb].
  assert (F : Forall (fun v => 0 <= ts v) (f_vars s)). { rewrite (i_vars _ _ I). pose proof (i_plain _ _ I) as F. rewrite Forall_forall in *. intros x Hx. apply (F x Hx). }
  destruct (resizeAll_ok m (f_vars s) G F (f_jac s)) as (J & EJ & KJ). destruct (resizeAll_ok m (f_vars s) G F (f_jdot s)) as (D & ED & KD).
  assert (SJ : sized (enJacobian e) m (map fst acc) (if enJacobian e then J else f_jac s)).
  { destruct (enJacobian e) eqn:X.
    - apply (sized_resize true (f_ts s) _ _ (f_jac s)); [rewrite <- X; apply (i_jac _ _ I)|]. rewrite <- (i_vars _ _ I). intros x. destruct (KJ x) as (K1 & K2). split; [intros Hx; destruct (K1 Hx) as (M & ? & ? & ? & _); eauto|exact K2].
    - intros v. pose proof (i_jac _ _ I v) as Y. rewrite X in Y. destruct (mget (f_jac s) v); [|exact Y]. destruct Y as (? & ? & _). repeat split; auto; discriminate. }
  assert (SD : sized (enJDot e) m (map fst acc) (if enJDot e then D else f_jdot s)).
  { destruct (enJDot e) eqn:X.
    - apply (sized_resize true (f_ts s) _ _ (f_jdot s)); [rewrite <- X; apply (i_jdot _ _ I)|]. rewrite <- (i_vars _ _ I). intros x. destruct (KD x) as (K1 & K2). split; [intros Hx; destruct (K1 Hx) as (M & ? & ? & ? & _); eauto|exact K2].
    - intros v. pose proof (i_jdot _ _ I v) as Y. rewrite X in Y. destruct (mget (f_jdot s) v); [|exact Y]. destruct Y as (? & ? & _). repeat split; auto; discriminate. }
  exists (mkFn m m true (f_vars s) (if enJacobian e then J else f_jac s) (f_lin s) (if enValue e then m else f_value s) (if enVelocity e then m else f_velocity s) (if enNormal e then m else f_normal s) (if enJDot e then D else f_jdot s) (f_vdot s)).
  split; [destruct (enJacobian e), (enJDot e); rewrite ?EJ, ?ED; reflexivity|]. split; [|split; [reflexivity|split; [reflexivity|split; [reflexivity|]]]].
  - constructor; cbn [f_vars f_vdot f_lin f_jac f_jdot f_ts f_rs f_value f_velocity f_normal]; try (apply I); auto.
    + intros ->. reflexivity.
    + intros ->. reflexivity.
    + intros ->. reflexivity.
  - intros v Hv X. cbn [f_jac]. rewrite X. pose proof (i_jac _ _ I v) as Y. destruct (mget (f_jac s) v) as [M|] eqn:E; [|contradiction]. destruct Y as (_ & Yc & Yr). specialize (Yr X).
    destruct (KJ v) as (K1 & _). destruct (K1 ltac:(rewrite (i_vars _ _ I); exact Hv)) as (M' & E' & _ & _ & Q). exists M, M'. split; [reflexivity|]. split; [exact E'|].
    cbv zeta in Q. unfold getOr0 in Q. rewrite E, Yc, Yr, Z.eqb_refl, andb_true_r in Q. subst M'. destruct (f_ts s =? m); auto.
Qed.
Lemma split_sized en r vs rows keep vars : incl vars vs -> forall (m : kmap mat) J m', sized en r vs m -> splitJacobian p0 ts m rows J vars keep = Ok m' -> sized en r vs m'.
Proof.
  induction vars as [|v vars IH]; intros IC m J m' H E; [injection E as <-; exact H|]. cbn [splitJacobian] in E.
  destruct ((0 <=? ts v) && Nat.leb (Z.to_nat (ts v)) (length J) && (m_rows (getOr0 p0 m v) =? rows) && (m_cols (getOr0 p0 m v) =? ts v)) eqn:G; [|discriminate].
  apply IH in E; [exact E|intros x Hx; apply IC; right; exact Hx|]. apply sized_set; [exact H|apply IC; left; reflexivity|reflexivity|].
  intros X. cbn. rewrite !andb_true_iff in G. destruct G as ((_ & G) & _). apply Z.eqb_eq in G. rewrite <- G. pose proof (H v) as Y. unfold getOr0. destruct (mget m v); [apply Y, X|]. exfalso. apply Y, IC. left. reflexivity.
Qed.
Lemma withJac_inv s acc J : Inv s acc -> sized (enJacobian e) (f_ts s) (map fst acc) J -> Inv (withJac s J) acc.
Proof. intros I H. constructor; cbn; try apply I. exact H. Qed.
Lemma props_sized en r vs m v p : sized en r vs m -> In v vs -> sized en r vs (setProperties p0 m v p).
Proof.
  intros H I. unfold setProperties. pose proof (H v) as Y. unfold getOr0. destruct (mget m v); [|contradiction]. destruct Y as (_ & Y1 & Y2). apply sized_set; auto.
Qed.
Lemma step_inv s acc o s1 t : Inv s acc -> plain_op V ts o -> proper_op acc o -> step s o = Ok (s1, t) -> Inv s1 (declared1 V acc o) /\
  f_ts s1 = (match o with FResize m => m | _ => f_ts s end) /\ f_rs s1 = (match o with FResize m => m | _ => f_rs s end) /\ f_eu s1 = f_eu s.
Proof.
  intros I PL PR E. destruct o; cbn [fstep declared1 plain_op proper_op] in *.
  - destruct (add_inv s acc v linear I PL) as (s2 & t2 & E2 & I2 & _ & _ & ? & ? & ?). rewrite E2 in E. injection E as <- <-. auto.
  - destruct (addAll_inv vs linear PL s acc I) as (s2 & t2 & E2 & I2 & ? & ? & ?). rewrite E2 in E. injection E as <- <-. auto.
  - apply bind_ok in E. destruct E as (s2 & E & E'). injection E' as <- <-. assert (X : In v (map fst acc)) by (apply (remove_defined s acc v I); eauto).
    destruct (remove_inv s acc v I X) as (s3 & E3 & I3 & ? & ? & ?). rewrite E3 in E. injection E as <-. auto.
  - apply bind_ok in E. destruct E as (s2 & E & E'). injection E' as <- <-. assert (X : f_eu s = true /\ 0 <= m). { unfold resize in E. destruct (f_eu s && (0 <=? m)) eqn:Y; [|discriminate]. apply andb_true_iff in Y. destruct Y as (Y1 & Y2). apply Z.leb_le in Y2. auto. }
    destruct X as (X1 & X2). destruct (resize_inv s acc m I X1 X2) as (s3 & E3 & I3 & U & T & R & _). rewrite E3 in E. injection E as <-. split; [exact I3|]. split; [exact T|]. split; [exact R|]. congruence.
  - apply bind_ok in E. destruct E as (J1 & E & E'). injection E' as <- <-. split; [|auto]. apply withJac_inv; [exact I|]. eapply split_sized; [exact PR|apply (i_jac _ _ I)|exact E].
  - injection E as <- <-. split; [|auto]. apply withJac_inv; [exact I|]. apply props_sized; [apply (i_jac _ _ I)|exact PR].
Qed.
Lemma new_inv rs t eu : 0 <= t -> Inv (newFn rs t eu) [].
Proof. intros T. constructor; cbn; auto; try constructor; try (intros v [] || intros v X; exact X); try tauto. Qed.
Lemma run_inv ops : forall s acc s1, Inv s acc -> Forall (plain_op V ts) ops -> (forall a o b, ops = a ++ o :: b -> proper_op (fold_left (declared1 V) a acc) o) -> run s ops = Ok s1 ->
  Inv s1 (fold_left (declared1 V) ops acc) /\ f_ts s1 = size_after (f_ts s) ops /\ f_rs s1 = size_after (f_rs s) ops /\ f_eu s1 = f_eu s.
Proof.
  induction ops as [|o ops IH]; intros s acc s1 I PL PR E; [injection E as <-; auto|]. cbn [frun] in E. apply bind_ok in E. destruct E as ([s2 t] & E & E'). inversion PL; subst.
  destruct (step_inv s acc o s2 t I H1 (PR [] o ops eq_refl) E) as (I2 & T & R & U).
  destruct (IH s2 _ s1 I2 H2) as (I3 & T3 & R3 & U3); [|exact E'|].
  - intros a o' b Eq. exact (PR (o :: a) o' b ltac:(rewrite Eq; reflexivity)).
  - split; [exact I3|]. unfold size_after in *. cbn [fold_left]. rewrite T3, R3, T, R. split; [reflexivity|]. split; [reflexivity|congruence].
Qed.
Lemma reach_inv rs t eu ops s : 0 <= t -> Forall (plain_op V ts) ops -> proper V ops -> run (newFn rs t eu) ops = Ok s -> Inv s (declared V ops) /\ f_ts s = size_after t ops /\ f_rs s = size_after rs ops /\ f_eu s = eu.
Proof. intros T PL PR E. apply (run_inv ops (newFn rs t eu) [] s (new_inv rs t eu T) PL PR E). Qed.

(* ---- the theorems ---- *)
Lemma bookkeeping rs t eu ops s : 0 <= t -> Forall (plain_op V ts) ops -> proper V ops -> run (newFn rs t eu) ops = Ok s ->
  let vs := map fst (declared V ops) in
  f_vars s = vs /\ f_vdot s = map dv vs /\ NoDup vs /\ (forall v, In v vs <-> mget (f_jac s) v <> None) /\ (forall v, In v vs <-> mget (f_jdot s) v <> None) /\
  (forall v M, mget (f_jac s) v = Some M -> m_cols M = ts v /\ (enJacobian e = true -> m_rows M = size_after t ops)) /\
  (forall v M, mget (f_jdot s) v = Some M -> m_cols M = ts v /\ (enJDot e = true -> m_rows M = size_after t ops)) /\
  (enValue e = true -> f_value s = size_after rs ops) /\ (enVelocity e = true -> f_velocity s = size_after t ops) /\ (enNormal e = true -> f_normal s = size_after t ops).
Proof.
  intros T PL PR E vs. destruct (reach_inv _ _ _ _ _ T PL PR E) as (I & ET & ER & _). fold vs in I.
  split; [apply (i_vars _ _ I)|]. split; [apply (i_vdot _ _ I)|]. split; [apply (i_nodup _ _ I)|].
  split; [intros v; pose proof (i_jac _ _ I v) as Y; destruct (mget (f_jac s) v); [split; [discriminate|intros _; apply Y]|split; [contradiction|congruence]]|].
  split; [intros v; pose proof (i_jdot _ _ I v) as Y; destruct (mget (f_jdot s) v); [split; [discriminate|intros _; apply Y]|split; [contradiction|congruence]]|].
  split; [intros v M Y; pose proof (i_jac _ _ I v) as Z; rewrite Y in Z; rewrite <- ET; apply Z|].
  split; [intros v M Y; pose proof (i_jdot _ _ I v) as Z; rewrite Y in Z; rewrite <- ET; apply Z|].
  rewrite <- ET, <- ER. split; [apply (i_value _ _ I)|]. split; [apply (i_vel _ _ I)|apply (i_norm _ _ I)].
Qed.
Lemma find_first {X} (f : X -> bool) l x : In x l -> f x = true -> (forall y, In y l -> f y = true -> y = x) -> List.find f l = Some x.
Proof.
  intros I F U. destruct (List.find f l) as [y|] eqn:E.
  - apply find_some in E. f_equal. apply U; apply E.
  - pose proof (find_none _ _ E x I). congruence.
Qed.
Lemma linear_ok rs t eu ops s x : 0 <= t -> Forall (plain_op V ts) ops -> proper V ops -> run (newFn rs t eu) ops = Ok s -> 0 < dim (rng (V x)) ->
  (forall v b, In (v, b) (declared V ops) -> part_of V x v = true -> linearIn V s x = Ok b) /\
  ((forall v b, In (v, b) (declared V ops) -> part_of V x v = false) -> linearIn V s x = Throw).
Proof.
  intros T PL PR E D. destruct (reach_inv _ _ _ _ _ T PL PR E) as (I & _). set (acc := declared V ops) in *.
  assert (DP : forall v b, In (v, b) acc -> 0 < dim (rng (V v))). { intros v b H. pose proof (i_plain _ _ I) as F. rewrite Forall_forall in F. apply (F v). apply in_map_iff. exists (v, b). auto. }
  assert (PS : part_of V x x = true). { unfold part_of. rewrite Nat.eqb_refl, !Z.leb_refl. reflexivity. }
  assert (UQ : forall v b w c, In (v, b) acc -> In (w, c) acc -> part_of V x v = true -> part_of V x w = true -> (v, b) = (w, c)).
  { intros v b w c H K PV PW. assert (EQ : v = w). { destruct (Nat.eq_dec v w) as [Y|Y]; [exact Y|]. pose proof (part_both x v w D PV PW) as Z. rewrite (i_disj _ _ I v w) in Z; [discriminate| | |exact Y]; apply in_map_iff; [exists (v, b)|exists (w, c)]; auto. }
    subst w. f_equal. pose proof (i_nodup _ _ I) as N. clear - H K N. induction acc as [|[y d] acc IH]; [destruct H|]. cbn in N. inversion N; subst. destruct H as [H|H], K as [K|K]; try congruence.
    - injection H as -> ->. exfalso. apply H2. apply in_map_iff. exists (v, c). auto.
    - injection K as -> ->. exfalso. apply H2. apply in_map_iff. exists (v, b). auto.
    - apply IH; assumption. }
  split.
  - intros v b H PV. unfold linearIn. destruct (mget (f_lin s) x) as [b'|] eqn:G.
    + apply mget_In in G. apply (i_lin _ _ I) in G. pose proof (UQ _ _ _ _ G H PS PV) as Q. congruence.
    + rewrite (find_first _ _ (v, b)).
      * reflexivity.
      * apply (i_lin _ _ I), H.
      * cbn. rewrite part_spec; [exact PV|exact D|exact (DP _ _ H)].
      * intros [w c] K F. cbn in F. apply (i_lin _ _ I) in K. rewrite part_spec in F; [|exact D|exact (DP _ _ K)]. exact (UQ _ _ _ _ K H F PV).
  - intros H. unfold linearIn. destruct (mget (f_lin s) x) as [b'|] eqn:G.
    + apply mget_In in G. apply (i_lin _ _ I) in G. rewrite (H _ _ G) in PS. discriminate.
    + destruct (List.find _ (f_lin s)) as [[w c]|] eqn:F; [|reflexivity]. apply find_some in F. destruct F as (K & F). cbn in F. apply (i_lin _ _ I) in K. rewrite part_spec in F; [|exact D|exact (DP _ _ K)]. rewrite (H _ _ K) in F. discriminate.
Qed.
(* what is defined *)
Lemma defined_ok rs t eu ops s : 0 <= t -> Forall (plain_op V ts) ops -> proper V ops -> run (newFn rs t eu) ops = Ok s ->
  (forall v, (exists s1, step s (FRemove v) = Ok (s1, false)) <-> In v (map fst (declared V ops))) /\
  (forall v, step s (FRemove v) = UB <-> ~ In v (map fst (declared V ops))) /\
  (forall m, (exists s1, step s (FResize m) = Ok (s1, false)) <-> eu = true /\ 0 <= m) /\
  (forall v b, plain V ts v -> exists s1, step s (FAdd v b) = Ok (s1, existsb (common V v) (map fst (declared V ops)) && negb (existsb (part_of V v) (map fst (declared V ops)))) /\
     (existsb (common V v) (map fst (declared V ops)) = true -> s1 = s)).
Proof.
  intros T PL PR E. destruct (reach_inv _ _ _ _ _ T PL PR E) as (I & _ & _ & U). cbn [fstep].
  assert (RM : forall v, removeVariable V dv s v = UB <-> ~ In v (map fst (declared V ops))).
  { intros v. pose proof (remove_defined s _ v I) as Q. unfold removeVariable in *. destruct (existsb (Nat.eqb (dv v)) (f_vdot s)); split; try discriminate.
    - intros N. exfalso. apply N, Q. eauto.
    - intros _ N. apply Q in N. destruct N as (s1 & N). discriminate.
    - reflexivity. }
  split; [|split; [|split]].
  - intros v. rewrite <- (remove_defined s _ v I). split; intros (s1 & H).
    + apply bind_ok in H. destruct H as (s2 & H & _). eauto.
    + rewrite H. cbn. eauto.
  - intros v. rewrite <- RM. destruct (removeVariable V dv s v); cbn; split; congruence.
  - intros m. split.
    + intros (s1 & H). apply bind_ok in H. destruct H as (s2 & H & _). unfold resize in H. destruct (f_eu s && (0 <=? m)) eqn:Y; [|discriminate]. apply andb_true_iff in Y. destruct Y as (Y1 & Y2). apply Z.leb_le in Y2. split; [congruence|exact Y2].
    + intros (-> & G). destruct (resize_inv s _ m I U G) as (s1 & -> & _). cbn. eauto.
  - intros v b Pv. destruct (add_inv s _ v b I Pv) as (s1 & t1 & -> & _ & -> & S & _). eauto.
Qed.
Lemma resize_ok rs t ops s m : 0 <= t -> Forall (plain_op V ts) ops -> proper V ops -> run (newFn rs t true) ops = Ok s -> 0 <= m -> enJacobian e = true ->
  exists s1, step s (FResize m) = Ok (s1, false) /\ forall v, In v (map fst (declared V ops)) ->
    exists M M', mget (f_jac s) v = Some M /\ mget (f_jac s1) v = Some M' /\ m_props M' = m_props M /\ m_data M' = if size_after t ops =? m then m_data M else None.
Proof.
  intros T PL PR E G X. destruct (reach_inv _ _ _ _ _ T PL PR E) as (I & ET & _ & U). destruct (resize_inv s _ m I U G) as (s1 & E1 & _ & _ & _ & _ & H). exists s1. cbn [fstep]. rewrite E1. split; [reflexivity|].
  intros v Hv. rewrite <- ET. exact (H v Hv X).
Qed.
(* writing the Jacobian of several variables *)
Lemma split_other vars : forall (m : kmap mat) rows J keep m' x, splitJacobian p0 ts m rows J vars keep = Ok m' -> ~ In x vars -> mget m' x = mget m x.
Proof.
  induction vars as [|v vars IH]; intros m rows J keep m' x E N; [injection E as <-; reflexivity|]. cbn [splitJacobian] in E.
  destruct (_ && _); [|discriminate]. rewrite (IH _ _ _ _ _ _ E) by (intros X; apply N; right; exact X). rewrite mget_mset. destruct (Nat.eqb_spec v x) as [<-|_]; [exfalso; apply N; left; reflexivity|reflexivity].
Qed.
Lemma split_ok en r vs rows keep vars : NoDup vars -> incl vars vs -> Forall (fun v => 0 <= ts v) vars -> forall m J, sized en r vs m -> en = true -> rows = r -> total ts vars <= Z.of_nat (length J) ->
  exists m', splitJacobian p0 ts m rows J vars keep = Ok m' /\ (forall v B, In (v, B) (cut ts J vars) -> exists M M', mget m v = Some M /\ mget m' v = Some M' /\ m_data M' = Some B /\ m_rows M' = rows /\ m_cols M' = ts v /\ m_props M' = if keep then m_props M else p0) /\
    (forall x, ~ In x vars -> mget m' x = mget m x).
Proof.
  intros ND. induction ND as [|v vars NI ND IH]; intros IC F m J S EN R L; [eexists; split; [reflexivity|split; [intros v B []|reflexivity]]|].
  inversion F; subst. cbn [splitJacobian total fold_right] in *. fold (total ts vars) in L. pose proof (S v) as Y. unfold getOr0 in *. destruct (mget m v) as [M|] eqn:G; [|exfalso; apply Y, IC; left; reflexivity].
  destruct Y as (_ & Y1 & Y2). rewrite (Y2 eq_refl), Y1, !Z.eqb_refl, (proj2 (Z.leb_le _ _) H1). assert (TT : 0 <= total ts vars) by (clear - H2; induction H2; cbn; [lia|]; fold (total ts l); lia).
  rewrite (proj2 (Nat.leb_le _ _)) by lia. cbn [andb].
  destruct (IH (fun x Hx => IC x (or_intror Hx)) H2 (mset m v (mkMat r (ts v) (Some (firstn (Z.to_nat (ts v)) J)) (if keep then m_props M else p0))) (skipn (Z.to_nat (ts v)) J)) as (m' & E & K1 & K2).
  - apply sized_set; auto. apply IC. left. reflexivity.
  - reflexivity.
  - reflexivity.
  - rewrite skipn_length. lia.
  - exists m'. split; [exact E|]. split.
    + cbn [cut]. intros w B [Q|Q].
      * injection Q as <- <-. exists M. rewrite (K2 v NI), mget_mset, Nat.eqb_refl. eexists. split; [exact G|]. split; [reflexivity|]. cbn. auto.
      * assert (NW : w <> v). { intros ->. apply NI. clear - Q. revert Q. generalize (skipn (Z.to_nat (ts v)) J). induction vars as [|u vars IH]; cbn; intros l Q; [exact Q|]. destruct Q as [Q|Q]; [left; congruence|right; exact (IH _ Q)]. }
        destruct (K1 w B Q) as (M1 & M' & G1 & G2). rewrite mget_mset in G1. destruct (Nat.eqb_spec v w) as [X|_]; [congruence|]. eauto.
    + intros x Nx. rewrite K2 by (intros X; apply Nx; right; exact X). rewrite mget_mset. destruct (Nat.eqb_spec v x) as [X|_]; [exfalso; apply Nx; left; exact X|reflexivity].
Qed.
Lemma write_ok rs t eu ops s J vars keep : 0 <= t -> Forall (plain_op V ts) ops -> proper V ops -> run (newFn rs t eu) ops = Ok s -> enJacobian e = true ->
  NoDup vars -> incl vars (map fst (declared V ops)) -> total ts vars <= Z.of_nat (length J) ->
  exists s1, step s (FSplit (size_after t ops) J vars keep) = Ok (s1, false) /\
    (forall v B, In (v, B) (cut ts J vars) -> exists M M', mget (f_jac s) v = Some M /\ mget (f_jac s1) v = Some M' /\ m_data M' = Some B /\ m_rows M' = size_after t ops /\ m_cols M' = ts v /\ m_props M' = if keep then m_props M else p0) /\
    (forall x, ~ In x vars -> mget (f_jac s1) x = mget (f_jac s) x).
Proof.
  intros T PL PR E X ND IC L. destruct (reach_inv _ _ _ _ _ T PL PR E) as (I & ET & _).
  assert (F : Forall (fun v => 0 <= ts v) vars). { pose proof (i_plain _ _ I) as F. rewrite Forall_forall in *. intros v Hv. apply (F v (IC v Hv)). }
  destruct (split_ok (enJacobian e) (f_ts s) _ (size_after t ops) keep vars ND IC F (f_jac s) J (i_jac _ _ I) X (eq_sym ET) L) as (m' & E' & K). cbn [fstep]. rewrite E'. cbn [bind]. eexists. split; [reflexivity|]. exact K.
Qed.
End P.
