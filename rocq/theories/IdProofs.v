From Coq Require Import List Bool Arith ZArith Lia.
Import ListNotations.
From Verif Require Import IdModel IdSpec.
Local Open Scope Z_scope.

Lemma upd_eq {A} (f : nat -> A) i a : upd f i a i = a.
Proof. unfold upd. rewrite Nat.eqb_refl. reflexivity. Qed.
Lemma upd_ne {A} (f : nat -> A) i j a : j <> i -> upd f i a j = f j.
Proof. intros H. unfold upd. apply Nat.eqb_neq in H. rewrite H. reflexivity. Qed.
Lemma upd_cases {A} (f : nat -> A) i j a : (j = i /\ upd f i a j = a) \/ (j <> i /\ upd f i a j = f j).
Proof. destruct (Nat.eq_dec j i) as [->|H]; [left|right]; split; auto; [apply upd_eq|apply upd_ne; exact H]. Qed.

Definition crit (p : pc) : bool := match p with Locked _ | Loaded _ _ | Stored _ _ => true | _ => false end.
Definition pend (p : pc) : option Z := match p with Stored _ v | Unlocked _ v => Some v | _ => None end.

Record inv (s : state) (outs : list (nat * Z)) : Prop := {
  i_crit : forall t, crit (pcs s t) = true -> mutex s = Some t;
  i_mutex : forall t, mutex s = Some t -> crit (pcs s t) = true;
  i_load : forall t a v, pcs s t = Loaded a v -> v = idc s;
  i_idc : 0 <= idc s;
  i_pend : forall t v, pend (pcs s t) = Some v -> 0 <= v < idc s;
  i_pinj : forall t t' v, pend (pcs s t) = Some v -> pend (pcs s t') = Some v -> t = t';
  i_pout : forall t v, pend (pcs s t) = Some v -> ~ In v (map snd outs);
  i_nodup : NoDup (map snd outs);
  i_outs : forall v, In v (map snd outs) -> 0 <= v < idc s;
  i_live : forall a v, objs s a = Live v -> v = -1 \/ In v (map snd outs);
  i_inj : forall a b v, objs s a = Live v -> objs s b = Live v -> v <> -1 -> a = b
}.

Lemma inv_init : inv init [].
Proof.
  split; cbn; try discriminate; try (intros; discriminate); try lia; try constructor; try (intros; contradiction).
Qed.

Ltac updc H := match type of H with context [upd ?f ?i ?a ?j] =>
  let K := fresh in let E := fresh in destruct (upd_cases f i j a) as [[K E]|[K E]]; rewrite E in H; clear E end.
Ltac updg := match goal with |- context [upd ?f ?i ?a ?j] =>
  let K := fresh in let E := fresh in destruct (upd_cases f i j a) as [[K E]|[K E]]; rewrite E; clear E end.

Lemma snd_app (l l' : list (nat * Z)) : map snd (l ++ l') = map snd l ++ map snd l'.
Proof. apply map_app. Qed.

Lemma nodup_snoc (l : list Z) x : NoDup l -> ~ In x l -> NoDup (l ++ [x]).
Proof.
  intros N H. induction l as [|y l IH]; cbn.
  - constructor; [intros []|constructor].
  - inversion N as [|y0 l0 N1 N2 E]; subst. constructor.
    + rewrite in_app_iff. intros [K|[K|[]]]; [exact (N1 K)|subst; apply H; left; reflexivity].
    + apply IH; [exact N2|]. intros K. apply H. right. exact K.
Qed.

(* The objects after a move: each real id is still carried at most once. *)
Lemma live_move (f : nat -> cell) a b v x w : f b = Live v -> upd (upd f a (Live v)) b (Live (-1)) x = Live w -> w <> -1 ->
  (x = a /\ x <> b /\ w = v) \/ (x <> a /\ x <> b /\ f x = Live w).
Proof.
  intros Fb U N. updc U; [congruence|]. updc U.
  - left. repeat split; congruence.
  - right. repeat split; congruence.
Qed.

Lemma inv_move s outs a b v : inv s outs -> objs s b = Live v ->
  inv (mkS (mutex s) (idc s) (pcs s) (upd (upd (objs s) a (Live v)) b (Live (-1)))) outs.
Proof.
  intros [H1 H2 H3 H4 H5 H6 H7 H8 H9 H10 H11] Hb. split; cbn; auto.
  - intros x w U. destruct (Z.eq_dec w (-1)) as [E|N]; [left; exact E|].
    destruct (live_move _ _ _ _ _ _ Hb U N) as [[_ [_ E]]|[_ [_ E]]].
    + subst w. apply (H10 b). exact Hb.
    + apply (H10 x). exact E.
  - intros x y w U V N.
    destruct (live_move _ _ _ _ _ _ Hb U N) as [[X1 [X2 X3]]|[X1 [X2 X3]]];
    destruct (live_move _ _ _ _ _ _ Hb V N) as [[Y1 [Y2 Y3]]|[Y1 [Y2 Y3]]].
    + congruence.
    + exfalso. apply Y2. apply (H11 y b w); [exact Y3|congruence|exact N].
    + exfalso. apply X2. apply (H11 x b w); [exact X3|congruence|exact N].
    + apply (H11 x y w); assumption.
Qed.

Lemma step_inv s outs e s' o : inv s outs -> step s e = Next s' o -> inv s' (outs ++ o).
Proof.
  intros I St. pose proof I as [H1 H2 H3 H4 H5 H6 H7 H8 H9 H10 H11].
  destruct e as [t a|t|a b|a b|a]; cbn in St.
  - destruct (pcs s t) eqn:Pt; try discriminate. destruct (objs s a) eqn:Oa; try discriminate.
    injection St as <- <-. rewrite app_nil_r. split; cbn; auto.
    + intros x C. updc C; [discriminate|apply H1; exact C].
    + intros x M. updg; [|apply H2; exact M]. subst x. apply H2 in M. rewrite Pt in M. discriminate.
    + intros x c v P. updc P; [discriminate|apply (H3 x c); exact P].
    + intros x v P. updc P; [discriminate|apply (H5 x); exact P].
    + intros x y v P R. updc P; [discriminate|]. updc R; [discriminate|]. apply (H6 x y v); assumption.
    + intros x v P. updc P; [discriminate|apply (H7 x); exact P].
    + intros x v P. updc P; [discriminate|apply (H10 x); exact P].
    + intros x y v P R. updc P; [discriminate|]. updc R; [discriminate|]. apply (H11 x y v); assumption.
  - destruct (pcs s t) eqn:Pt; try discriminate.
    + destruct (mutex s) eqn:M0; [discriminate|]. injection St as <- <-. rewrite app_nil_r. split; cbn; auto.
      * intros x C. updc C; [congruence|]. apply H1 in C. discriminate.
      * intros x M. updg; [reflexivity|congruence].
      * intros x c v P. updc P; [discriminate|apply (H3 x c); exact P].
      * intros x v P. updc P; [discriminate|apply (H5 x); exact P].
      * intros x y v P R. updc P; [discriminate|]. updc R; [discriminate|]. apply (H6 x y v); assumption.
      * intros x v P. updc P; [discriminate|apply (H7 x); exact P].
    + injection St as <- <-. rewrite app_nil_r. assert (M : mutex s = Some t) by (apply H1; rewrite Pt; reflexivity).
      split; cbn; auto.
      * intros x C. updc C; [congruence|apply H1; exact C].
      * intros x Mx. updg; [reflexivity|congruence].
      * intros x c v P. updc P; [congruence|apply (H3 x c); exact P].
      * intros x v P. updc P; [discriminate|apply (H5 x); exact P].
      * intros x y v P R. updc P; [discriminate|]. updc R; [discriminate|]. apply (H6 x y v); assumption.
      * intros x v P. updc P; [discriminate|apply (H7 x); exact P].
    + destruct (v <? intMax); [|discriminate]. injection St as <- <-. rewrite app_nil_r.
      assert (M : mutex s = Some t) by (apply H1; rewrite Pt; reflexivity).
      assert (V : v = idc s) by (apply (H3 t a); exact Pt).
      split; cbn; auto.
      * intros x C. updc C; [congruence|apply H1; exact C].
      * intros x Mx. updg; [reflexivity|congruence].
      * intros x c w P. updc P; [discriminate|]. exfalso.
        assert (mutex s = Some x) by (apply H1; rewrite P; reflexivity). congruence.
      * lia.
      * intros x w P. updc P; [cbn in P; injection P as <-; lia|]. apply H5 in P. lia.
      * intros x y w P R. updc P; updc R; [congruence| | |apply (H6 x y w); assumption].
        -- cbn in P. injection P as <-. apply H5 in R. lia.
        -- cbn in R. injection R as <-. apply H5 in P. lia.
      * intros x w P K. updc P; [|apply (H7 x w); assumption]. cbn in P. injection P as <-. apply H9 in K. lia.
      * intros w K. apply H9 in K. lia.
    + injection St as <- <-. rewrite app_nil_r.
      assert (M : mutex s = Some t) by (apply H1; rewrite Pt; reflexivity).
      split; cbn; auto.
      * intros x C. updc C; [discriminate|]. apply H1 in C. congruence.
      * discriminate.
      * intros x c w P. updc P; [discriminate|apply (H3 x c); exact P].
      * intros x w P. updc P; [|apply (H5 x); exact P]. apply (H5 t). rewrite Pt. exact P.
      * intros x y w P R.
        assert (P' : pend (pcs s x) = Some w) by (updc P; [subst x; rewrite Pt; exact P|exact P]).
        assert (R' : pend (pcs s y) = Some w) by (updc R; [subst y; rewrite Pt; exact R|exact R]).
        apply (H6 x y w); assumption.
      * intros x w P. apply (H7 x). updc P; [subst x; rewrite Pt; exact P|exact P].
    + injection St as <- <-.
      assert (Pv : pend (pcs s t) = Some v) by (rewrite Pt; reflexivity).
      assert (Nv : ~ In v (map snd outs)) by (apply (H7 t); exact Pv).
      assert (Bv : 0 <= v < idc s) by (apply (H5 t); exact Pv).
      split; cbn; auto.
      * intros x C. updc C; [discriminate|apply H1; exact C].
      * intros x Mx. updg; [|apply H2; exact Mx]. subst x. apply H2 in Mx. rewrite Pt in Mx. discriminate.
      * intros x c w P. updc P; [discriminate|apply (H3 x c); exact P].
      * intros x w P. updc P; [discriminate|apply (H5 x); exact P].
      * intros x y w P R. updc P; [discriminate|]. updc R; [discriminate|]. apply (H6 x y w); assumption.
      * intros x w P. updc P; [discriminate|]. rewrite snd_app, in_app_iff. intros [K|[K|[]]].
        -- apply (H7 x w); assumption.
        -- cbn in K. subst w. apply H. apply (H6 x t v); assumption.
      * rewrite snd_app. apply nodup_snoc; assumption.
      * intros w. rewrite snd_app, in_app_iff. intros [K|[K|[]]]; [apply H9; exact K|cbn in K; lia].
      * intros x w P. rewrite snd_app, in_app_iff. updc P.
        -- injection P as <-. right. right. left. reflexivity.
        -- apply H10 in P. tauto.
      * assert (F : forall y w, y <> a -> objs s y = Live w -> w <> -1 -> w <> v).
        { intros y w Ny Ly Nw E. subst w. destruct (H10 y v Ly); [lia|contradiction]. }
        intros x y w P R N. updc P; updc R; [congruence| | |apply (H11 x y w); assumption].
        -- injection P as ->. exfalso. apply (F y w); auto.
        -- injection R as ->. exfalso. apply (F x w); auto.
  - destruct (objs s a); try discriminate. destruct (objs s b) eqn:Ob; try discriminate.
    injection St as <- <-. rewrite app_nil_r. apply inv_move; assumption.
  - destruct (objs s a); try discriminate. destruct (objs s b) eqn:Ob; try discriminate.
    injection St as <- <-. rewrite app_nil_r. apply inv_move; assumption.
  - destruct (objs s a) eqn:Oa; try discriminate. injection St as <- <-. rewrite app_nil_r.
    split; cbn; auto.
    + intros x w P. updc P; [discriminate|apply (H10 x); exact P].
    + intros x y w P R. updc P; [discriminate|]. updc R; [discriminate|]. apply (H11 x y w); assumption.
Qed.

Lemma run_inv es : forall s outs s' o, inv s outs -> run s es = Next s' o -> inv s' (outs ++ o).
Proof.
  induction es as [|e es IH]; intros s outs s' o I R; cbn in R.
  - injection R as <- <-. rewrite app_nil_r. exact I.
  - destruct (step s e) as [| |s1 o1] eqn:St; try discriminate.
    destruct (run s1 es) as [| |s2 o2] eqn:R1; try discriminate. injection R as <- <-.
    rewrite app_assoc. apply (IH s1); [|exact R1]. apply (step_inv s outs e); assumption.
Qed.

Lemma history_inv es s outs : history es s outs -> inv s outs.
Proof. intros H. apply (run_inv es init [] s outs inv_init H). Qed.

Lemma run_app es1 : forall s s1 o1 es2, run s es1 = Next s1 o1 ->
  run s (es1 ++ es2) = match run s1 es2 with Next s2 o2 => Next s2 (o1 ++ o2) | r => r end.
Proof.
  induction es1 as [|e es1 IH]; intros s s1 o1 es2 R; cbn in R |- *.
  - injection R as <- <-. destruct (run s es2); reflexivity.
  - destruct (step s e) as [| |s0 o0]; try discriminate.
    destruct (run s0 es1) as [| |s3 o3] eqn:R0; try discriminate. injection R as <- <-.
    rewrite (IH s0 s3 o3 es2 R0). destruct (run s3 es2); try reflexivity. rewrite app_assoc. reflexivity.
Qed.

Lemma unique es s outs : history es s outs ->
  NoDup (map snd outs) /\ (forall i, In i (map snd outs) -> 0 <= i) /\
  (forall a i, hasId s a i -> i = -1 \/ In i (map snd outs)) /\
  (forall a b i, hasId s a i -> hasId s b i -> i <> -1 -> a = b).
Proof.
  intros H. apply history_inv in H. destruct H as [H1 H2 H3 H4 H5 H6 H7 H8 H9 H10 H11].
  split; [exact H8|]. split; [|split; [exact H10|exact H11]]. intros i K. apply H9 in K. lia.
Qed.

(* Order of creation. *)
Lemma step_order s outs e s' o t B : inv s outs -> B <= idc s -> (forall v, pend (pcs s t) = Some v -> B <= v) -> step s e = Next s' o ->
  B <= idc s' /\ (forall v, pend (pcs s' t) = Some v -> B <= v) /\ (forall v, In (t, v) o -> B <= v).
Proof.
  intros I HB HP St. destruct e as [u a|u|a b|a b|a]; cbn in St.
  - destruct (pcs s u) eqn:Pu; try discriminate. destruct (objs s a) eqn:Oa; try discriminate. injection St as <- <-. cbn.
    split; [exact HB|]. split; [|intros v []]. intros v P. updc P; [discriminate|apply HP; exact P].
  - destruct (pcs s u) eqn:Pu; try discriminate.
    + destruct (mutex s); [discriminate|]. injection St as <- <-. cbn. split; [exact HB|]. split; [|intros v []].
      intros v P. updc P; [discriminate|apply HP; exact P].
    + injection St as <- <-. cbn. split; [exact HB|]. split; [|intros v []].
      intros v P. updc P; [discriminate|apply HP; exact P].
    + pose proof (i_load _ _ I u a v Pu) as V. destruct (v <? intMax); [|discriminate]. injection St as <- <-. cbn.
      split; [lia|]. split; [|intros w []]. intros w P. updc P; [cbn in P; injection P as <-; lia|apply HP; exact P].
    + injection St as <- <-. cbn. split; [exact HB|]. split; [|intros w []].
      intros w P. apply HP. updc P; [subst u; rewrite Pu; exact P|exact P].
    + injection St as <- <-. cbn. split; [exact HB|]. split.
      * intros w P. updc P; [discriminate|apply HP; exact P].
      * intros w [E|[]]. injection E as -> ->. apply HP. rewrite Pu. reflexivity.
  - destruct (objs s a); try discriminate. destruct (objs s b); try discriminate. injection St as <- <-. cbn. repeat split; auto. intros v [].
  - destruct (objs s a); try discriminate. destruct (objs s b); try discriminate. injection St as <- <-. cbn. repeat split; auto. intros v [].
  - destruct (objs s a); try discriminate. injection St as <- <-. cbn. repeat split; auto. intros v [].
Qed.

(* The address of a constructor under way is taken, by one thread. *)
Definition addr (p : pc) : option nat := match p with Idle => None | Entered a | Locked a | Loaded a _ | Stored a _ | Unlocked a _ => Some a end.
Definition ainv (s : state) : Prop :=
  (forall t a, addr (pcs s t) = Some a -> objs s a = Building) /\
  (forall t u a, addr (pcs s t) = Some a -> addr (pcs s u) = Some a -> t = u).

Lemma ainv_same s t p : ainv s -> addr p = addr (pcs s t) -> forall m c, ainv (mkS m c (upd (pcs s) t p) (objs s)).
Proof.
  intros [A1 A2] E m c. split; cbn.
  - intros x a P. updc P; [rewrite E in P; apply (A1 t)|apply (A1 x)]; exact P.
  - intros x y a P R.
    assert (P' : addr (pcs s x) = Some a) by (updc P; [subst x; rewrite <- E; exact P|exact P]).
    assert (R' : addr (pcs s y) = Some a) by (updc R; [subst y; rewrite <- E; exact R|exact R]).
    apply (A2 x y a); assumption.
Qed.

Lemma step_ainv s e s' o : ainv s -> step s e = Next s' o -> ainv s'.
Proof.
  intros I St. pose proof I as [A1 A2]. destruct e as [t a|t|a b|a b|a]; cbn in St.
  - destruct (pcs s t) eqn:Pt; try discriminate. destruct (objs s a) eqn:Oa; try discriminate. injection St as <- <-. split; cbn.
    + intros x c P. updc P; [cbn in P; injection P as <-; apply upd_eq|]. apply A1 in P. updg; [reflexivity|exact P].
    + intros x y c P R. updc P; updc R; [congruence| | |apply (A2 x y c); assumption].
      * cbn in P. injection P as <-. apply A1 in R. congruence.
      * cbn in R. injection R as <-. apply A1 in P. congruence.
  - destruct (pcs s t) eqn:Pt; try discriminate.
    + destruct (mutex s); [discriminate|]. injection St as <- <-. apply ainv_same; [exact I|rewrite Pt; reflexivity].
    + injection St as <- <-. apply ainv_same; [exact I|rewrite Pt; reflexivity].
    + destruct (v <? intMax); [|discriminate]. injection St as <- <-. apply ainv_same; [exact I|rewrite Pt; reflexivity].
    + injection St as <- <-. apply ainv_same; [exact I|rewrite Pt; reflexivity].
    + injection St as <- <-. split; cbn.
      * intros x c P. updc P; [discriminate|]. updg; [|apply (A1 x); exact P]. exfalso. subst c. apply H.
        apply (A2 x t a); [exact P|rewrite Pt; reflexivity].
      * intros x y c P R. updc P; [discriminate|]. updc R; [discriminate|]. apply (A2 x y c); assumption.
  - destruct (objs s a) eqn:Oa; try discriminate. destruct (objs s b) eqn:Ob; try discriminate. injection St as <- <-.
    split; cbn; [|exact A2]. intros x c P. apply A1 in P. rewrite upd_ne by congruence. rewrite upd_ne by congruence. exact P.
  - destruct (objs s a) eqn:Oa; try discriminate. destruct (objs s b) eqn:Ob; try discriminate. injection St as <- <-.
    split; cbn; [|exact A2]. intros x c P. apply A1 in P. rewrite upd_ne by congruence. rewrite upd_ne by congruence. exact P.
  - destruct (objs s a) eqn:Oa; try discriminate. injection St as <- <-.
    split; cbn; [|exact A2]. intros x c P. apply A1 in P. rewrite upd_ne by congruence. exact P.
Qed.

Lemma run_ainv es : forall s s' o, ainv s -> run s es = Next s' o -> ainv s'.
Proof.
  induction es as [|e es IH]; intros s s' o I R; cbn in R.
  - injection R as <- <-. exact I.
  - destruct (step s e) as [| |s1 o1] eqn:St; try discriminate.
    destruct (run s1 es) as [| |s2 o2] eqn:R1; try discriminate. injection R as <- <-.
    apply (IH s1 s2 o2); [|exact R1]. apply (step_ainv s e s1 o1); assumption.
Qed.
Lemma history_ainv es s outs : history es s outs -> ainv s.
Proof. apply run_ainv. split; cbn; discriminate. Qed.

Lemma run_order es : forall s outs s' o t B, inv s outs -> B <= idc s -> (forall v, pend (pcs s t) = Some v -> B <= v) ->
  run s es = Next s' o -> forall v, In (t, v) o -> B <= v.
Proof.
  induction es as [|e es IH]; intros s outs s' o t B I HB HP R v K; cbn in R.
  - injection R as <- <-. destruct K.
  - destruct (step s e) as [| |s1 o1] eqn:St; try discriminate.
    destruct (run s1 es) as [| |s2 o2] eqn:R1; try discriminate. injection R as <- <-.
    destruct (step_order _ _ _ _ _ t B I HB HP St) as [A1 [A2 A3]].
    apply in_app_iff in K. destruct K as [K|K]; [apply A3; exact K|].
    apply (IH s1 (outs ++ o1) s2 o2 t B); auto. apply (step_inv s outs e); assumption.
Qed.

Lemma order es1 es2 s1 o1 s2 o2 t i j : history es1 s1 o1 -> pcs s1 t = Idle -> run s1 es2 = Next s2 o2 ->
  In i (map snd o1) -> In (t, j) o2 -> i < j.
Proof.
  intros H P R Ki Kj. apply history_inv in H.
  assert (idc s1 <= j) by (apply (run_order es2 s1 o1 s2 o2 t (idc s1) H); [lia|rewrite P; discriminate|exact R|exact Kj]).
  apply (i_outs _ _ H) in Ki. lia.
Qed.

(* Progress. *)
Lemma progress es s outs t : history es s outs -> pcs s t <> Idle -> exists t', step s (Go t') <> Blocked.
Proof.
  intros H N. apply history_inv in H. destruct (mutex s) as [m|] eqn:M.
  - exists m. apply (i_mutex _ _ H) in M. cbn. destruct (pcs s m); try discriminate. destruct (v <? intMax); discriminate.
  - exists t. cbn. destruct (pcs s t); try discriminate; try contradiction; [rewrite M; discriminate|destruct (v <? intMax); discriminate].
Qed.

(* The ids follow the moves. *)
Lemma follows es s outs e s' o a i : history es s outs -> step s e = Next s' o -> hasId s a i -> i <> -1 ->
  forall b, hasId s' b i <-> follow e a = Some b.
Proof.
  intros H St A N b. pose proof (history_ainv _ _ _ H) as [B1 B2]. apply history_inv in H. unfold hasId in *.
  assert (Nx : forall x, objs s x = Live i -> x = a) by (intros x Hx; apply (i_inj _ _ H x a i); assumption).
  assert (In i (map snd outs)) as Ki by (destruct (i_live _ _ H a i A); [contradiction|assumption]).
  assert (Mv : forall x y w, objs s y = Live w -> (objs s x = Free \/ x <> a \/ x = y \/ True) ->
    (upd (upd (objs s) x (Live w)) y (Live (-1)) b = Live i <-> (if Nat.eqb y a then (if Nat.eqb x a then None else Some x) else if Nat.eqb x a then None else Some a) = Some b)).
  { intros x y w Oy _. split.
    - intros U. destruct (live_move _ _ _ _ _ _ Oy U N) as [[X1 [X2 X3]]|[X1 [X2 X3]]].
      + subst b w. apply Nx in Oy. subst y. rewrite Nat.eqb_refl. apply Nat.eqb_neq in X2. rewrite X2. reflexivity.
      + apply Nx in X3. subst b. apply not_eq_sym in X1, X2. apply Nat.eqb_neq in X1, X2. rewrite X1, X2. reflexivity.
    - destruct (Nat.eqb y a) eqn:Ey.
      + apply Nat.eqb_eq in Ey. subst y. destruct (Nat.eqb x a) eqn:Ex; [discriminate|]. intros E. injection E as <-.
        apply Nat.eqb_neq in Ex. rewrite upd_ne by exact Ex. rewrite upd_eq. congruence.
      + destruct (Nat.eqb x a) eqn:Ex; [discriminate|]. intros E. injection E as <-.
        apply Nat.eqb_neq in Ex, Ey. rewrite upd_ne by auto. rewrite upd_ne by auto. exact A. }
  destruct e as [t c|t|c d|c d|c]; cbn in St.
  - destruct (pcs s t); try discriminate. destruct (objs s c) eqn:Oc; try discriminate. injection St as <- <-. cbn.
    split; intros K.
    + updc K; [discriminate|]. apply Nx in K. congruence.
    + injection K as <-. rewrite upd_ne by congruence. exact A.
  - destruct (pcs s t) eqn:Pt; try discriminate.
    + destruct (mutex s); [discriminate|]. injection St as <- <-. cbn. split; [intros K; apply Nx in K; congruence|intros K; injection K as <-; exact A].
    + injection St as <- <-. cbn. split; [intros K; apply Nx in K; congruence|intros K; injection K as <-; exact A].
    + destruct (v <? intMax); [|discriminate]. injection St as <- <-. cbn. split; [intros K; apply Nx in K; congruence|intros K; injection K as <-; exact A].
    + injection St as <- <-. cbn. split; [intros K; apply Nx in K; congruence|intros K; injection K as <-; exact A].
    + injection St as <- <-. cbn.
      assert (Oc : objs s a0 = Building) by (apply (B1 t); rewrite Pt; reflexivity).
      assert (Nv : v <> i) by (intros ->; apply (i_pout _ _ H t i); [rewrite Pt; reflexivity|exact Ki]).
      split; intros K.
      * updc K; [congruence|]. apply Nx in K. congruence.
      * injection K as <-. rewrite upd_ne by congruence. exact A.
  - destruct (objs s c) eqn:Oc; try discriminate. destruct (objs s d) eqn:Od; try discriminate. injection St as <- <-. cbn [objs].
    rewrite (Mv c d id Od (or_introl Oc)). cbn. assert (c <> a) as Ne by congruence. apply Nat.eqb_neq in Ne. rewrite Ne.
    destruct (Nat.eqb d a); tauto.
  - destruct (objs s c) eqn:Oc; try discriminate. destruct (objs s d) eqn:Od; try discriminate. injection St as <- <-. cbn [objs].
    rewrite (Mv c d _ Od); [cbn; tauto|auto].
  - destruct (objs s c) eqn:Oc; try discriminate. injection St as <- <-. cbn. split.
    + intros K. updc K; [discriminate|]. apply Nx in K. subst b. apply not_eq_sym, Nat.eqb_neq in H0. rewrite H0. reflexivity.
    + destruct (Nat.eqb c a) eqn:E; [discriminate|]. intros K. injection K as <-. apply Nat.eqb_neq in E. rewrite upd_ne by auto. exact A.
Qed.

(* An id that no object carries any more is never carried again. *)
Lemma lost_step es s outs e s' o i : history es s outs -> In i (map snd outs) -> (forall a, ~ hasId s a i) ->
  step s e = Next s' o -> forall a, ~ hasId s' a i.
Proof.
  intros H Ki L St a K. apply history_inv in H.
  assert (Ni : i <> -1) by (apply (i_outs _ _ H) in Ki; lia).
  assert (Mv : forall x y w, objs s y = Live w -> upd (upd (objs s) x (Live w)) y (Live (-1)) a = Live i -> False).
  { intros x y w Oy U. destruct (live_move _ _ _ _ _ _ Oy U Ni) as [[_ [_ E]]|[_ [_ E]]]; [subst w; exact (L y Oy)|exact (L a E)]. }
  unfold hasId in K. destruct e as [t c|t|c d|c d|c]; cbn in St.
  - destruct (pcs s t); try discriminate. destruct (objs s c) eqn:Oc; try discriminate. injection St as <- <-. cbn in K.
    updc K; [discriminate|exact (L a K)].
  - destruct (pcs s t) eqn:Pt; try discriminate.
    + destruct (mutex s); [discriminate|]. injection St as <- <-. exact (L a K).
    + injection St as <- <-. exact (L a K).
    + destruct (v <? intMax); [|discriminate]. injection St as <- <-. exact (L a K).
    + injection St as <- <-. exact (L a K).
    + injection St as <- <-. cbn in K. updc K; [|exact (L a K)]. injection K as ->.
      apply (i_pout _ _ H t i); [rewrite Pt; reflexivity|exact Ki].
  - destruct (objs s c) eqn:Oc; try discriminate. destruct (objs s d) eqn:Od; try discriminate. injection St as <- <-.
    exact (Mv c d _ Od K).
  - destruct (objs s c) eqn:Oc; try discriminate. destruct (objs s d) eqn:Od; try discriminate. injection St as <- <-.
    exact (Mv c d _ Od K).
  - destruct (objs s c) eqn:Oc; try discriminate. injection St as <- <-. cbn in K. updc K; [discriminate|exact (L a K)].
Qed.

Lemma lost es2 : forall es1 s1 o1 s2 o2 i, history es1 s1 o1 -> In i (map snd o1) -> (forall a, ~ hasId s1 a i) ->
  run s1 es2 = Next s2 o2 -> forall a, ~ hasId s2 a i.
Proof.
  induction es2 as [|e es IH]; intros es1 s1 o1 s2 o2 i H Ki L R; cbn in R.
  - injection R as <- <-. exact L.
  - destruct (step s1 e) as [| |s3 o3] eqn:St; try discriminate.
    destruct (run s3 es) as [| |s4 o4] eqn:R1; try discriminate. injection R as <- <-.
    apply (IH (es1 ++ [e]) s3 (o1 ++ o3) s4 o4); [| | |exact R1].
    + unfold history. rewrite (run_app es1 init s1 o1 [e] H). cbn. rewrite St. rewrite app_nil_r. reflexivity.
    + rewrite snd_app. apply in_or_app. left. exact Ki.
    + apply (lost_step es1 s1 o1 e s3 o3); assumption.
Qed.

(* Overflow: only after 2^31 creations. *)
Definition pre (p : pc) : bool := match p with Entered _ | Locked _ | Loaded _ _ => true | _ => false end.
Definition cinv (s : state) (n : Z) : Prop :=
  exists l, NoDup l /\ (forall t, pre (pcs s t) = true <-> In t l) /\ idc s + Z.of_nat (length l) = n.

Lemma filter_len (l : list nat) t : NoDup l -> In t l -> Z.of_nat (length (filter (fun x => negb (Nat.eqb x t)) l)) + 1 = Z.of_nat (length l).
Proof.
  intros N. induction l as [|x l IH]; intros K; [destruct K|]. inversion N as [|y0 l0 N1 N2 E]; subst. cbn [filter].
  destruct (Nat.eqb x t) eqn:Ex; cbn [negb length].
  - apply Nat.eqb_eq in Ex. subst x.
    assert (Y : filter (fun x => negb (Nat.eqb x t)) l = l).
    { clear IH N N2 K. induction l as [|y l IH]; [reflexivity|]. cbn. destruct (Nat.eqb y t) eqn:Ey.
      - apply Nat.eqb_eq in Ey. subst y. exfalso. apply N1. left. reflexivity.
      - cbn. f_equal. apply IH. intros K. apply N1. right. exact K. }
    rewrite Y. lia.
  - destruct K as [K|K]; [subst; rewrite Nat.eqb_refl in Ex; discriminate|]. specialize (IH N2 K). lia.
Qed.

Lemma cinv_pc s n t p o m : cinv s n -> pre p = pre (pcs s t) -> cinv (mkS m (idc s) (upd (pcs s) t p) o) n.
Proof.
  intros [l [N [L E]]] HP. exists l. split; [exact N|]. split; [|exact E]. cbn. intros x. rewrite <- L.
  updg; [subst x; rewrite HP; tauto|tauto].
Qed.

Lemma creations_cons e es : creations (e :: es) = (if entered e then 1 else 0) + creations es.
Proof. unfold creations. cbn [filter]. destruct (entered e); cbn [length]; lia. Qed.

Lemma step_cinv s outs e n : inv s outs -> cinv s n ->
  match step s e with
  | Next s' _ => cinv s' ((if entered e then 1 else 0) + n)
  | Undefined => intMax < n
  | Blocked => True
  end.
Proof.
  intros I C. pose proof C as [l [N [L E]]]. destruct e as [t a|t|a b|a b|a]; cbn [step entered]; rewrite ?Z.add_0_l.
  - destruct (pcs s t) eqn:Pt; try exact Logic.I. destruct (objs s a) eqn:Oa; try exact Logic.I.
    assert (Kt : ~ In t l) by (rewrite <- L, Pt; discriminate).
    exists (t :: l). split; [constructor; assumption|]. split; [|cbn [length idc]; lia]. cbn. intros x. updg.
    + subst x. tauto.
    + rewrite L. split; [tauto|]. intros [K|K]; [congruence|exact K].
  - destruct (pcs s t) eqn:Pt; try exact Logic.I.
    + destruct (mutex s); [exact Logic.I|]. apply cinv_pc; [exact C|rewrite Pt; reflexivity].
    + apply cinv_pc; [exact C|rewrite Pt; reflexivity].
    + pose proof (i_load _ _ I t a v Pt) as V. assert (Kt : In t l) by (apply L; rewrite Pt; reflexivity).
      pose proof (filter_len l t N Kt) as FL. destruct (v <? intMax) eqn:B.
      * exists (filter (fun x => negb (Nat.eqb x t)) l). cbn. split; [apply NoDup_filter; exact N|]. split; [|lia].
        intros x. rewrite filter_In, <- L. updg.
        -- subst x. rewrite Nat.eqb_refl. cbn. split; [discriminate|intros [_ K]; discriminate].
        -- apply Nat.eqb_neq in H. rewrite H. cbn. tauto.
      * apply Z.ltb_ge in B. lia.
    + apply cinv_pc; [exact C|rewrite Pt; reflexivity].
    + apply cinv_pc; [exact C|rewrite Pt; reflexivity].
  - destruct (objs s a); try exact Logic.I. destruct (objs s b); try exact Logic.I. exact C.
  - destruct (objs s a); try exact Logic.I. destruct (objs s b); try exact Logic.I. exact C.
  - destruct (objs s a); try exact Logic.I. exact C.
Qed.

Lemma run_cinv es : forall s outs n, inv s outs -> cinv s n -> run s es = Undefined -> intMax < n + creations es.
Proof.
  induction es as [|e es IH]; intros s outs n I C R; cbn in R; [discriminate|].
  rewrite creations_cons. pose proof (step_cinv s outs e n I C) as St.
  assert (0 <= creations es) by (unfold creations; lia).
  destruct (step s e) as [| |s1 o1] eqn:E; try discriminate.
  - destruct (entered e); lia.
  - destruct (run s1 es) eqn:R1; try discriminate.
    specialize (IH s1 (outs ++ o1) _ (step_inv _ _ _ _ _ I E) St R1). lia.
Qed.
Lemma cinv_init : cinv init 0.
Proof. exists []. split; [constructor|]. split; [|reflexivity]. cbn. intros t. split; [discriminate|intros []]. Qed.
Lemma no_overflow es : creations es <= intMax -> run init es <> Undefined.
Proof. intros B R. apply (run_cinv es init [] 0 inv_init cinv_init) in R. lia. Qed.

(* One thread creating objects one after the other. *)
Definition create (a : nat) : list event := [Start 0 a; Go 0; Go 0; Go 0; Go 0; Go 0].
Definition rest (s : state) (n : nat) : Prop :=
  mutex s = None /\ idc s = Z.of_nat n /\ (forall t, pcs s t = Idle) /\ (forall a, (n <= a)%nat -> objs s a = Free).
Lemma create_ok s n : rest s n -> Z.of_nat n < intMax -> exists s', run s (create n) = Next s' [(0%nat, Z.of_nat n)] /\ rest s' (Datatypes.S n).
Proof.
  intros [M [C [P F]]] B. unfold create. eexists. split.
  - cbn [run step]. rewrite P, (F n) by lia. cbn [pcs objs mutex idc]. rewrite upd_eq, M. cbn [pcs objs mutex idc]. rewrite upd_eq.
    cbn [pcs objs mutex idc]. rewrite upd_eq, C. apply Z.ltb_lt in B. rewrite B. cbn [pcs objs mutex idc]. rewrite upd_eq.
    cbn [pcs objs mutex idc]. rewrite upd_eq. cbn [app]. reflexivity.
  - repeat split; cbn.
    + lia.
    + intros t. updg; [reflexivity|]. rewrite !upd_ne by assumption. apply P.
    + intros a Ha. rewrite !upd_ne by lia. apply F. lia.
Qed.
Definition createAll (n : nat) : list event := flat_map create (seq 0 n).
Lemma createAll_S n : createAll (Datatypes.S n) = createAll n ++ create n.
Proof. unfold createAll. rewrite seq_S, flat_map_app. cbn [flat_map plus]. rewrite app_nil_r. reflexivity. Qed.
Lemma createAll_ok n : Z.of_nat n <= intMax -> exists s o, run init (createAll n) = Next s o /\ rest s n /\ map snd o = map Z.of_nat (seq 0 n).
Proof.
  induction n as [|n IH]; intros B.
  - exists init, []. repeat split; reflexivity.
  - destruct IH as [s [o [R [Rs O]]]]; [lia|]. destruct (create_ok s n Rs) as [s' [R' Rs']]; [lia|].
    exists s', (o ++ [(0%nat, Z.of_nat n)]). split; [|split; [exact Rs'|]].
    + rewrite createAll_S, (run_app _ _ s o _ R), R'. reflexivity.
    + rewrite snd_app, O, seq_S, map_app. reflexivity.
Qed.
Lemma createAll_count n : creations (createAll n) = Z.of_nat n.
Proof.
  induction n as [|n IH]; [reflexivity|]. rewrite createAll_S. unfold creations in *. rewrite filter_app, app_length, Nat2Z.inj_add, IH. cbn [filter entered create length]. lia.
Qed.
Lemma overflow : exists es, creations es = intMax + 1 /\ run init es = Undefined.
Proof.
  assert (B0 : 0 <= intMax) by (unfold intMax; lia).
  set (n := Z.to_nat intMax). assert (Zn : Z.of_nat n = intMax) by (apply Z2Nat.id; exact B0). clearbody n.
  exists (createAll (Datatypes.S n)). split.
  - rewrite createAll_count. lia.
  - destruct (createAll_ok n) as [s [o [R [[M [C [P F]]] _]]]]; [lia|].
    rewrite createAll_S, (run_app _ _ s o _ R). unfold create. cbn [run step]. rewrite P, (F n) by lia.
    cbn [pcs objs mutex idc]. rewrite upd_eq, M. cbn [pcs objs mutex idc]. rewrite upd_eq.
    cbn [pcs objs mutex idc]. rewrite upd_eq, C, Zn, Z.ltb_irrefl. reflexivity.
Qed.

(* Comparisons by id. *)
Lemma compare_ids es s outs a b i j : history es s outs -> hasId s a i -> hasId s b j -> i <> -1 -> j <> -1 ->
  (idEqual (Some i) (Some j) = true <-> a = b) /\
  (idLess (Some i) (Some j) = true \/ a = b \/ idLess (Some j) (Some i) = true) /\
  ~ (idLess (Some i) (Some j) = true /\ idLess (Some j) (Some i) = true).
Proof.
  intros H A B Ni Nj. apply history_inv in H. unfold hasId in *. cbn. rewrite Z.eqb_eq, !Z.ltb_lt.
  assert (E : i = j <-> a = b).
  { split; [intros ->; apply (i_inj _ _ H a b j); assumption|intros ->; congruence]. }
  repeat split; try tauto; try lia.
Qed.
Lemma idLess_trans i j k : idLess (Some i) (Some j) = true -> idLess (Some j) (Some k) = true -> idLess (Some i) (Some k) = true.
Proof. cbn. rewrite !Z.ltb_lt. lia. Qed.
Lemma idLess_null : exists x y z, idLess x y = false /\ idLess y x = false /\ idLess y z = false /\ idLess z y = false /\ idLess x z = true.
Proof. exists (Some 0), None, (Some 1). repeat split. Qed.

(* Clock. *)
Lemma advances_S n x : advances (Datatypes.S n) x = advance (advances n x).
Proof. revert x. induction n as [|n IH]; intros x; [reflexivity|]. cbn [advances] in *. rewrite <- IH. reflexivity. Qed.
Lemma advances_mod n : forall x, 0 <= x < two64 -> advances n x = (x + Z.of_nat n) mod two64.
Proof.
  induction n as [|n IH]; intros x B.
  - cbn [advances]. rewrite Z.add_0_r, Z.mod_small by exact B. reflexivity.
  - rewrite advances_S, IH by exact B. unfold advance. rewrite Zplus_mod_idemp_l. f_equal. lia.
Qed.
Lemma clock n : advances n ticks0 = Z.of_nat n mod two64.
Proof. rewrite advances_mod; [reflexivity|unfold ticks0, two64; lia]. Qed.
Lemma clock_step n : Z.of_nat n + 1 < two64 -> advances n ticks0 = Z.of_nat n /\ advances (Datatypes.S n) ticks0 = advances n ticks0 + 1.
Proof. intros B. rewrite !clock, !Z.mod_small by lia. lia. Qed.
Lemma clock_wrap : exists n, advances (Datatypes.S n) ticks0 < advances n ticks0.
Proof.
  assert (B0 : 0 <= two64 - 1) by (unfold two64; lia).
  set (n := Z.to_nat (two64 - 1)). assert (Zn : Z.of_nat n = two64 - 1) by (apply Z2Nat.id; exact B0). clearbody n.
  exists n. rewrite !clock. rewrite Nat2Z.inj_succ, Zn. rewrite (Z.mod_small (two64 - 1)) by lia.
  replace (Z.succ (two64 - 1)) with two64 by lia. rewrite Z.mod_same by (unfold two64; lia). unfold two64; lia.
Qed.

Lemma frun_advances n : forall f, frun f (repeat Advance n) = mkF (advances n (now f)) (last f) (done f).
Proof.
  induction n as [|n IH]; intros f; [destruct f; reflexivity|]. cbn [repeat frun fold_left]. fold (frun (fstep f Advance) (repeat Advance n)).
  rewrite IH. reflexivity.
Qed.
Lemma frun_app f h h' : frun f (h ++ h') = frun (frun f h) h'.
Proof. apply fold_left_app. Qed.
Lemma gap_one x d n : 0 <= x < two64 -> Z.of_nat n < two64 ->
  exists y, 0 <= y < two64 /\ frun (mkF x x d) (gap n) = mkF y y ((if Nat.eqb n 0 then 0 else 1) + d)%nat.
Proof.
  intros Bx Bn. exists (advances n x). unfold gap. rewrite frun_app, frun_advances. cbn [now last done]. rewrite advances_mod by exact Bx.
  assert (T : 0 < two64) by (unfold two64; lia).
  split; [apply Z.mod_pos_bound; exact T|]. cbn [frun fold_left fstep now last done].
  destruct (Nat.eqb n 0) eqn:En.
  - apply Nat.eqb_eq in En. subst n. rewrite Z.add_0_r, Z.mod_small by exact Bx. rewrite Z.eqb_refl. reflexivity.
  - apply Nat.eqb_neq in En. destruct (x =? _) eqn:Ex; [|reflexivity]. exfalso. apply Z.eqb_eq in Ex.
    destruct (Z_lt_ge_dec (x + Z.of_nat n) two64) as [L|L].
    + rewrite Z.mod_small in Ex by lia. lia.
    + assert (Y : (x + Z.of_nat n) mod two64 = x + Z.of_nat n - two64).
      { symmetry. apply (Z.mod_unique _ _ 1); lia. }
      lia.
Qed.
Lemma follower_due gaps : forall x, 0 <= x < two64 -> Forall (fun n => Z.of_nat n < two64) gaps ->
  done (frun (attach x) (flat_map gap gaps)) = due gaps.
Proof.
  intros x Bx F. unfold attach.
  enough (G : forall d, done (frun (mkF x x d) (flat_map gap gaps)) = (due gaps + d)%nat) by (rewrite G; lia).
  revert x Bx. induction gaps as [|n gaps IH]; intros x Bx d; [reflexivity|].
  apply Forall_cons_iff in F. destruct F as [Fn F]. cbn [flat_map]. rewrite frun_app.
  destruct (gap_one x d n Bx Fn) as [y [By E]]. rewrite E, (IH F y By). unfold due. cbn [filter]. destruct (Nat.eqb n 0); cbn [negb length]; lia.
Qed.
Lemma follower_late x : 0 <= x < two64 -> exists n, n <> 0%nat /\ done (frun (attach x) (gap n)) = 0%nat.
Proof.
  intros Bx. assert (B0 : 0 < two64) by (unfold two64; lia).
  set (n := Z.to_nat two64). assert (Zn : Z.of_nat n = two64) by (apply Z2Nat.id; lia). clearbody n.
  exists n. split; [lia|]. unfold gap, attach. rewrite frun_app, frun_advances. cbn [now last done]. rewrite advances_mod by exact Bx. cbn [now last done frun fold_left fstep].
  rewrite Zn. replace (x + two64) with (x + 1 * two64) by lia. rewrite Z_mod_plus_full, Z.mod_small, Z.eqb_refl by exact Bx. reflexivity.
Qed.
