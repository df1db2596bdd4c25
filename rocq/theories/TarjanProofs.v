Require Import ZArith List Arith Lia Bool Relations Sorting Permutation.
Require Import Verif.Base Verif.GraphModel Verif.GraphSpec Verif.ListLemmas Verif.DisjointSetProofs Verif.GraphProofs.
Import ListNotations.
Local Open Scope Z_scope.

Lemma SS_app {A} (R : A -> A -> Prop) l1 l2 : StronglySorted R (l1 ++ l2) ->
  StronglySorted R l1 /\ StronglySorted R l2 /\ forall x y, In x l1 -> In y l2 -> R x y.
Proof.
  induction l1 as [|x l1 IH]; simpl; intros S; [split; [constructor|split; [exact S|intros ? ? []]]|].
  inversion S as [|? ? S' F]; subst. destruct (IH S') as [A1 [A2 A3]]. rewrite Forall_forall in F.
  split; [|split; [exact A2|]].
  - constructor; [exact A1|]. apply Forall_forall. intros y Y. apply F. apply in_or_app. auto.
  - intros u v [<-|U] V; [apply F; apply in_or_app; auto|auto].
Qed.
Lemma concat_snoc {A} (l : list (list A)) c : concat (l ++ [c]) = concat l ++ c.
Proof. rewrite concat_app. simpl. rewrite app_nil_r. reflexivity. Qed.

Lemma NoDup_app_intro {A} (l r : list A) : NoDup l -> NoDup r -> (forall x, In x l -> ~ In x r) -> NoDup (l ++ r).
Proof.
  induction 1 as [|x l N H IH]; simpl; intros R Dj; [exact R|]. constructor.
  - rewrite in_app_iff. intros [C|C]; [tauto|]. apply (Dj x); auto.
  - apply IH; [exact R|]. intros y Y. apply Dj. auto.
Qed.

Section Tarjan.
Variables (g : graph) (a : agraph).
Hypothesis W : gwf g a.
Notation n := (an a).
Notation E := (aE a).

Definition D (s : tst) (x : nat) : Z := nth x (disc s) (-1).
Definition Lw (s : tst) (x : nat) : Z := nth x (low s) (-1).

Record tinv (s : tst) (G : list nat) : Prop := {
  ti_ld : length (disc s) = n;
  ti_ll : length (low s) = n;
  ti_lm : length (tmem s) = n;
  ti_time : 0 <= time s;
  ti_disc : forall x, D s x <> -1 -> 1 <= D s x <= time s;
  ti_vis : forall x, D s x <> -1 <-> In x (tstk s) \/ In x (concat (ret s));
  ti_disj : forall x, In x (tstk s) -> ~ In x (concat (ret s));
  ti_nd : NoDup (concat (ret s));
  ti_mem : forall x, nth x (tmem s) false = true <-> In x (tstk s);
  ti_sort : StronglySorted (fun x y => D s y < D s x) (tstk s);
  ti_G : forall x, In x G -> In x (tstk s);
  ti_closed : forall l1 c l2 x y, ret s = l1 ++ c :: l2 -> In x c -> E x y -> In y (concat (l1 ++ [c]));
  ti_black : forall x y, In x (tstk s) -> ~ In x G -> E x y -> D s y <> -1;
  ti_ne : forall c, In c (ret s) -> c <> [];
  ti_scc : forall c x y, In c (ret s) -> In x c -> (In y c <-> scc E x y);
  ti_old : forall x y, In x (tstk s) -> In y (tstk s) -> D s x <= D s y -> reach E x y;
  ti_gray : forall y, In y (tstk s) -> exists z, In z G /\ D s z <= D s y /\ reach E y z }.

Definition whites (s : tst) : nat := length (filter (fun x => D s x =? -1) (seq 0 n)).
Lemma whites_mono s s' : (forall x, D s x <> -1 -> D s' x <> -1) -> (whites s' <= whites s)%nat.
Proof.
  intros H. apply filter_le. intros x. rewrite !Z.eqb_eq. intros X.
  destruct (Z.eq_dec (D s x) (-1)) as [Y|Y]; [exact Y|]. exfalso. exact (H x Y X).
Qed.
Lemma whites_mark s s' v : (v < n)%nat -> D s v = -1 -> D s' v <> -1 -> (forall x, D s x <> -1 -> D s' x <> -1) ->
  (whites s' < whites s)%nat.
Proof.
  intros L N Y H. apply filter_lt.
  - intros x. rewrite !Z.eqb_eq. intros X. destruct (Z.eq_dec (D s x) (-1)) as [Z|Z]; [exact Z|]. exfalso. exact (H x Z X).
  - exists v. rewrite in_seq. split; [lia|]. rewrite Z.eqb_eq, Z.eqb_neq. auto.
Qed.
Lemma whites_le s : (whites s <= n)%nat.
Proof. unfold whites. rewrite <- (seq_length n 0) at 2. apply filter_len. Qed.

Lemma D_range s G x : tinv s G -> D s x <> -1 -> (x < n)%nat.
Proof.
  intros T H. destruct (lt_dec x n) as [L|L]; [exact L|]. exfalso. apply H. unfold D. apply nth_overflow.
  rewrite (ti_ld _ _ T). lia.
Qed.

Definition spost (s : tst) (G : list nat) (u : nat) (s' : tst) : Prop :=
  tinv s' G /\
  (exists new, tstk s' = new ++ tstk s /\
     forall x y, In x new -> E x y -> In y (tstk s) -> Lw s' u <= D s y) /\
  (forall x, D s x <> -1 -> D s' x = D s x /\ Lw s' x = Lw s x) /\
  time s < D s' u /\ time s <= time s' /\
  Lw s' u <= D s' u /\
  (Lw s' u = D s' u \/ exists y, In y (tstk s') /\ D s' y = Lw s' u /\ reach E u y).

Definition rec_ok (f : nat) : Prop := forall u s G, (u < n)%nat -> tinv s G -> D s u = -1 ->
  (forall x, In x (tstk s) -> reach E x u) -> (whites s < f)%nat ->
  exists s', SCCUtil f g u s = Ok s' /\ spost s G u s'.

Lemma reach_step x y z : E x y -> reach E y z -> reach E x z.
Proof. intros A B. eapply rt_trans; [apply rt_step; exact A|exact B]. Qed.

Definition setLow (s : tst) (u : nat) (z : Z) : tst := mkT (disc s) (setN (low s) u z) (tmem s) (tstk s) (time s) (ret s).
Lemma tinv_setLow s G u z : tinv s G -> tinv (setLow s u z) G.
Proof. intros T. constructor; try apply T. simpl. rewrite setN_length. apply T. Qed.
Lemma Lw_setLow s G u z x : tinv s G -> (u < n)%nat -> Lw (setLow s u z) x = if Nat.eqb u x then z else Lw s x.
Proof. intros T L. unfold Lw. simpl. apply nth_setN. rewrite (ti_ll _ _ T). exact L. Qed.

(* the state while the children of [u] are visited: [st0] is the stack before [u],
   [b] the state in which [u] was pushed *)
Record linv (b : tst) (G st0 : list nat) (u : nat) (done : list nat) (s : tst) : Prop := {
  li_t : tinv s (u :: G);
  li_new : exists new, tstk s = new ++ u :: st0 /\
     forall x y, In x new -> E x y -> In y st0 -> Lw s u <= D s y;
  li_D : forall x, D b x <> -1 -> D s x = D b x;
  li_L : forall x, D b x <> -1 -> x <> u -> Lw s x = Lw b x;
  li_time : time b <= time s;
  li_done : forall y, In y done -> D s y <> -1;
  li_low1 : forall y, In y done -> In y st0 -> Lw s u <= D s y;
  li_low2 : Lw s u <= D s u;
  li_low3 : exists y, In y (tstk s) /\ D s y = Lw s u /\ reach E u y }.

Lemma loop_ok f u b G st0 : rec_ok f -> (u < n)%nat -> D b u <> -1 -> (forall x, In x G -> In x st0) ->
  forall cs done s, kids g u = done ++ cs -> linv b G st0 u done s -> (whites s < f)%nat ->
  exists s', sccLoop (SCCUtil f g) u cs s = Ok s' /\ linv b G st0 u (kids g u) s'.
Proof.
  intros R L BU GS. induction cs as [|v cs IH]; intros done s KE LI WH; cbn [sccLoop].
  - exists s. rewrite app_nil_r in KE. rewrite KE. auto.
  - assert (EV : E u v) by (apply (gw_kids _ _ W); rewrite KE, in_app_iff; simpl; auto).
    destruct (gw_range _ _ W u v EV) as [_ LV]. assert (KE' : kids g u = (done ++ [v]) ++ cs) by (rewrite <- app_assoc; exact KE).
    pose proof (li_t _ _ _ _ _ _ LI) as T. destruct (li_new _ _ _ _ _ _ LI) as [new [ST NEW]].
    assert (SU : In u (tstk s)) by (rewrite ST; apply in_or_app; simpl; auto).
    assert (S0 : forall x, In x st0 -> In x (tstk s)) by (intros x X; rewrite ST; apply in_or_app; simpl; auto).
    assert (DU0 : forall x, In x st0 -> D s x < D s u).
    { intros x X. pose proof (ti_sort _ _ T) as SS. rewrite ST in SS. apply SS_app in SS. destruct SS as [_ [SS _]].
      inversion SS as [|? ? _ F]; subst. rewrite Forall_forall in F. apply F. exact X. }
    assert (RU : forall x, In x (tstk s) -> reach E x u).
    { intros x X. destruct (ti_gray _ _ T x X) as [z [Z1 [Z2 Z3]]]. eapply rt_trans; [exact Z3|].
      destruct Z1 as [<-|Z1]; [apply rt_refl|]. apply (ti_old _ _ T); [apply S0, GS, Z1|exact SU|].
      pose proof (DU0 z (GS z Z1)). lia. }
    rewrite (nthR_ok (disc s) v (-1)) by (rewrite (ti_ld _ _ T); exact LV). cbn [bind]. fold (D s v).
    destruct (Z.eqb_spec (D s v) (-1)) as [DV|DV].
    + destruct (R v s (u :: G) LV T DV) as [s' [CALL [T' [[new' [ST' NEW']] [PRES [TV [TT [LV1 LV2]]]]]]]].
      { intros x X. eapply rt_trans; [apply RU, X|apply rt_step, EV]. } { exact WH. }
      rewrite CALL. cbn [bind]. rewrite (nthR_ok (low s') u (-1)) by (rewrite (ti_ll _ _ T'); exact L).
      rewrite (nthR_ok (low s') v (-1)) by (rewrite (ti_ll _ _ T'); exact LV). cbn [bind].
      fold (Lw s' u) (Lw s' v). fold (setLow s' u (Z.min (Lw s' u) (Lw s' v))).
      set (s1 := setLow s' u (Z.min (Lw s' u) (Lw s' v))).
      assert (DUs : D s u <> -1) by (apply (ti_vis _ _ T); auto).
      destruct (PRES u DUs) as [DU' LU']. assert (DUt : 1 <= D s u <= time s) by (apply (ti_disc _ _ T), DUs).
      assert (L1 : forall x, Lw s1 x = if Nat.eqb u x then Z.min (Lw s u) (Lw s' v) else Lw s' x).
      { intros x. unfold s1. rewrite (Lw_setLow s' (u :: G)) by assumption. rewrite LU'. reflexivity. }
      assert (LU1 : Lw s1 u = Z.min (Lw s u) (Lw s' v)) by (rewrite L1, Nat.eqb_refl; reflexivity).
      assert (NV : ~ In v (tstk s)) by (intros C; apply (proj2 (ti_vis _ _ T v)); auto).
      apply (IH (done ++ [v]) s1 KE').
      * constructor.
        -- apply tinv_setLow. exact T'.
        -- exists (new' ++ new). split; [cbn [tstk s1 setLow]; rewrite ST', ST, app_assoc; reflexivity|].
           intros x y X XY Y. rewrite LU1. change (D s1 y) with (D s' y).
           assert (DY : D s' y = D s y) by (apply PRES, (ti_vis _ _ T); auto). rewrite DY.
           apply in_app_or in X. destruct X as [X|X].
           ++ pose proof (NEW' x y X XY (S0 y Y)). lia.
           ++ pose proof (NEW x y X XY Y). lia.
        -- intros x X. change (D s1 x) with (D s' x). rewrite <- (li_D _ _ _ _ _ _ LI x X). apply PRES.
           rewrite (li_D _ _ _ _ _ _ LI x X). exact X.
        -- intros x X NX. rewrite L1. destruct (Nat.eqb_spec u x); [congruence|].
           rewrite <- (li_L _ _ _ _ _ _ LI x X NX). apply PRES. rewrite (li_D _ _ _ _ _ _ LI x X). exact X.
        -- simpl. pose proof (li_time _ _ _ _ _ _ LI). lia.
        -- intros y Y. change (D s1 y) with (D s' y). apply in_app_or in Y. destruct Y as [Y|[<-|[]]].
           ++ pose proof (li_done _ _ _ _ _ _ LI y Y) as H. rewrite (proj1 (PRES y H)). exact H.
           ++ pose proof (ti_time _ _ T). lia.
        -- intros y Y Y0. rewrite LU1. change (D s1 y) with (D s' y).
           assert (DY : D s' y = D s y) by (apply PRES, (ti_vis _ _ T); auto). rewrite DY.
           apply in_app_or in Y. destruct Y as [Y|[<-|[]]]; [|exfalso; apply NV, S0, Y0].
           pose proof (li_low1 _ _ _ _ _ _ LI y Y Y0). lia.
        -- rewrite LU1. change (D s1 u) with (D s' u). rewrite DU'. pose proof (li_low2 _ _ _ _ _ _ LI). lia.
        -- change (tstk s1) with (tstk s'). change (D s1) with (D s'). rewrite LU1.
           destruct (Z.min_spec (Lw s u) (Lw s' v)) as [[M1 M2]|[M1 M2]]; rewrite M2.
           ++ destruct (li_low3 _ _ _ _ _ _ LI) as [y [Y1 [Y2 Y3]]]. exists y.
              split; [rewrite ST'; apply in_or_app; auto|]. split; [|exact Y3].
              rewrite <- Y2. apply PRES, (ti_vis _ _ T). auto.
           ++ destruct LV2 as [LV2|[y [Y1 [Y2 Y3]]]].
              ** exfalso. pose proof (li_low2 _ _ _ _ _ _ LI). lia.
              ** exists y. split; [exact Y1|]. split; [exact Y2|]. apply (reach_step u v y EV Y3).
      * assert (whites s1 <= whites s)%nat; [|lia]. apply whites_mono. intros x X. change (D s1 x) with (D s' x).
        rewrite (proj1 (PRES x X)). exact X.
    + rewrite (nthR_ok (tmem s) v false) by (rewrite (ti_lm _ _ T); exact LV). cbn [bind].
      assert (DUs : D s u <> -1) by (apply (ti_vis _ _ T); auto).
      destruct (nth v (tmem s) false) eqn:MV.
      * apply (ti_mem _ _ T) in MV. rewrite (nthR_ok (low s) u (-1)) by (rewrite (ti_ll _ _ T); exact L). cbn [bind].
        fold (Lw s u). fold (setLow s u (Z.min (Lw s u) (D s v))). set (s1 := setLow s u (Z.min (Lw s u) (D s v))).
        assert (L1 : forall x, Lw s1 x = if Nat.eqb u x then Z.min (Lw s u) (D s v) else Lw s x).
        { intros x. apply (Lw_setLow s (u :: G)); assumption. }
        assert (LU1 : Lw s1 u = Z.min (Lw s u) (D s v)) by (rewrite L1, Nat.eqb_refl; reflexivity).
        apply (IH (done ++ [v]) s1 KE'); [|exact WH]. constructor.
        -- apply tinv_setLow. exact T.
        -- exists new. split; [exact ST|]. intros x y X XY Y. rewrite LU1. pose proof (NEW x y X XY Y).
           change (D s1 y) with (D s y). lia.
        -- apply LI.
        -- intros x X NX. rewrite L1. destruct (Nat.eqb_spec u x); [congruence|]. exact (li_L _ _ _ _ _ _ LI x X NX).
        -- apply LI.
        -- intros y Y. apply in_app_or in Y. destruct Y as [Y|[<-|[]]]; [exact (li_done _ _ _ _ _ _ LI y Y)|exact DV].
        -- intros y Y Y0. rewrite LU1. change (D s1 y) with (D s y). apply in_app_or in Y. destruct Y as [Y|[<-|[]]]; [|lia].
           pose proof (li_low1 _ _ _ _ _ _ LI y Y Y0). lia.
        -- rewrite LU1. change (D s1 u) with (D s u). pose proof (li_low2 _ _ _ _ _ _ LI). lia.
        -- change (tstk s1) with (tstk s). change (D s1) with (D s). rewrite LU1.
           destruct (Z.min_spec (Lw s u) (D s v)) as [[M1 M2]|[M1 M2]]; rewrite M2.
           ++ apply (li_low3 _ _ _ _ _ _ LI).
           ++ exists v. split; [exact MV|]. split; [reflexivity|apply rt_step; exact EV].
      * cbn [bind]. apply (IH (done ++ [v]) s KE'); [|exact WH]. constructor.
        -- exact T.
        -- exists new. split; [exact ST|exact NEW].
        -- exact (li_D _ _ _ _ _ _ LI).
        -- exact (li_L _ _ _ _ _ _ LI).
        -- exact (li_time _ _ _ _ _ _ LI).
        -- intros y Y. apply in_app_or in Y. destruct Y as [Y|[<-|[]]]; [exact (li_done _ _ _ _ _ _ LI y Y)|exact DV].
        -- intros y Y Y0. apply in_app_or in Y. destruct Y as [Y|[<-|[]]]; [exact (li_low1 _ _ _ _ _ _ LI y Y Y0)|].
           apply S0, (ti_mem _ _ T) in Y0. congruence.
        -- exact (li_low2 _ _ _ _ _ _ LI).
        -- exact (li_low3 _ _ _ _ _ _ LI).
Qed.

Lemma popTo_ok u st0 new : ~ In u new -> forall m, (forall x, In x (new ++ [u]) -> (x < length m)%nat) ->
  exists m', popTo u (new ++ u :: st0) m = Ok (new ++ [u], st0, m') /\ length m' = length m /\
    forall x, nth x m' false = if in_dec Nat.eq_dec x (new ++ [u]) then false else nth x m false.
Proof.
  induction new as [|y new IH]; simpl; intros N m LM.
  - rewrite Nat.eqb_refl. exists (setN m u false). split; [reflexivity|]. split; [apply setN_length|].
    intros x. rewrite nth_setN by (apply LM; auto). destruct (Nat.eqb_spec u x) as [->|H].
    + destruct (Nat.eq_dec x x); [reflexivity|congruence].
    + destruct (Nat.eq_dec u x); [congruence|reflexivity].
  - destruct (Nat.eqb_spec y u) as [->|YU]; [exfalso; apply N; auto|].
    destruct (IH ltac:(tauto) (setN m y false)) as [m' [P [L' H]]].
    { intros x X. rewrite setN_length. apply LM. auto. }
    rewrite P. cbn [bind]. exists m'. split; [reflexivity|]. split; [rewrite L'; apply setN_length|].
    intros x. rewrite H. rewrite nth_setN by (apply LM; auto).
    destruct (in_dec Nat.eq_dec x (new ++ [u])) as [I|I]; destruct (Nat.eq_dec y x) as [Q|Q]; try reflexivity.
    + subst. rewrite Nat.eqb_refl. reflexivity.
    + destruct (Nat.eqb_spec y x); [congruence|reflexivity].
Qed.

Lemma SCC_ok f : rec_ok f.
Proof.
  induction f as [|f IH]; intros u s G L T DU RU WH; [lia|]. cbn [SCCUtil].
  destruct (Z.ltb_spec (time s) 0) as [C|_]; [pose proof (ti_time _ _ T); lia|].
  rewrite (nthR_ok (disc s) u (-1)) by (rewrite (ti_ld _ _ T); exact L).
  rewrite (nthR_ok (low s) u (-1)) by (rewrite (ti_ll _ _ T); exact L).
  rewrite (nthR_ok (tmem s) u false) by (rewrite (ti_lm _ _ T); exact L).
  rewrite (nthR_ok (children_ g) u []) by (rewrite (gw_children _ _ W); exact L). cbn [bind]. fold (kids g u).
  set (t := time s + 1).
  set (s0 := mkT (setN (disc s) u t) (setN (low s) u t) (setN (tmem s) u true) (u :: tstk s) t (ret s)).
  assert (TM := ti_time _ _ T).
  assert (D0 : forall x, D s0 x = if Nat.eqb u x then t else D s x).
  { intros x. unfold D. cbn [disc s0]. apply nth_setN. rewrite (ti_ld _ _ T). exact L. }
  assert (L0 : forall x, Lw s0 x = if Nat.eqb u x then t else Lw s x).
  { intros x. unfold Lw. cbn [low s0]. apply nth_setN. rewrite (ti_ll _ _ T). exact L. }
  assert (DUt : D s0 u = t) by (rewrite D0, Nat.eqb_refl; reflexivity).
  assert (NU : ~ In u (tstk s)) by (intros C; apply (proj2 (ti_vis _ _ T u)); auto).
  assert (NUr : ~ In u (concat (ret s))) by (intros C; apply (proj2 (ti_vis _ _ T u)); auto).
  assert (Dold : forall x, In x (tstk s) -> D s0 x = D s x).
  { intros x X. rewrite D0. destruct (Nat.eqb_spec u x); [subst; tauto|reflexivity]. }
  assert (Dlt : forall x, In x (tstk s) -> D s0 x < t).
  { intros x X. rewrite (Dold x X). assert (V : D s x <> -1) by (apply (ti_vis _ _ T); auto).
    pose proof (ti_disc _ _ T x V). unfold t. lia. }
  assert (T0 : tinv s0 (u :: G)).
  { constructor; cbn [disc low tmem tstk time ret s0].
    - rewrite setN_length. apply T.
    - rewrite setN_length. apply T.
    - rewrite setN_length. apply T.
    - unfold t. lia.
    - intros x. rewrite D0. destruct (Nat.eqb u x); [unfold t; lia|]. intros X. pose proof (ti_disc _ _ T x X). unfold t. lia.
    - intros x. rewrite D0. destruct (Nat.eqb_spec u x) as [<-|N].
      + split; [simpl; auto|unfold t; lia].
      + rewrite (ti_vis _ _ T). simpl. intuition congruence.
    - intros x [<-|X]; [exact NUr|apply (ti_disj _ _ T); exact X].
    - apply T.
    - intros x. rewrite nth_setN by (rewrite (ti_lm _ _ T); exact L). simpl. destruct (Nat.eqb_spec u x) as [->|N].
      + split; auto.
      + rewrite (ti_mem _ _ T). intuition congruence.
    - constructor.
      + pose proof (ti_sort _ _ T) as SS. revert SS Dold. clear. induction 1 as [|x l S IH F]; intros DO; [constructor|].
        constructor; [apply IH; intros y Y; apply DO; simpl; auto|]. rewrite Forall_forall in *. intros y Y.
        rewrite (DO x (or_introl eq_refl)), (DO y (or_intror Y)). apply F. exact Y.
      + apply Forall_forall. intros x X. rewrite DUt. apply Dlt. exact X.
    - intros x [<-|X]; [simpl; auto|]. right. apply (ti_G _ _ T). exact X.
    - apply T.
    - intros x y [<-|X] NG XY; [exfalso; apply NG; simpl; auto|].
      assert (V : D s y <> -1) by (apply (ti_black _ _ T x y X); [intros C; apply NG; simpl; auto|exact XY]).
      rewrite D0. destruct (Nat.eqb u y); [unfold t; lia|exact V].
    - apply T.
    - apply T.
    - intros x y [<-|X] [<-|Y] LE.
      + apply rt_refl.
      + pose proof (Dlt y Y). rewrite DUt in LE. lia.
      + apply RU. exact X.
      + rewrite (Dold x X), (Dold y Y) in LE. apply (ti_old _ _ T); assumption.
    - intros y [<-|Y]; [exists u; split; [simpl; auto|]; split; [lia|apply rt_refl]|].
      destruct (ti_gray _ _ T y Y) as [z [Z1 [Z2 Z3]]]. exists z. split; [simpl; auto|]. split; [|exact Z3].
      rewrite (Dold y Y), (Dold z (ti_G _ _ T z Z1)). exact Z2. }
  assert (LI0 : linv s0 G (tstk s) u [] s0).
  { constructor.
    - exact T0.
    - exists []. split; [reflexivity|]. intros x y [].
    - auto.
    - auto.
    - lia.
    - intros y [].
    - intros y [].
    - rewrite DUt, L0, Nat.eqb_refl. lia.
    - exists u. split; [simpl; auto|]. split; [rewrite DUt, L0, Nat.eqb_refl; reflexivity|apply rt_refl]. }
  assert (WH0 : (whites s0 < f)%nat).
  { assert (whites s0 < whites s)%nat; [|lia]. apply (whites_mark s s0 u L DU).
    - rewrite DUt. unfold t. lia.
    - intros x X. rewrite D0. destruct (Nat.eqb u x); [unfold t; lia|exact X]. }
  destruct (loop_ok f u s0 G (tstk s) IH L ltac:(rewrite DUt; unfold t; lia) (ti_G _ _ T) (kids g u) [] s0 eq_refl LI0 WH0)
    as [s1 [LP LI]].
  rewrite LP. cbn [bind]. pose proof (li_t _ _ _ _ _ _ LI) as T1. destruct (li_new _ _ _ _ _ _ LI) as [new [ST NEW]].
  rewrite (nthR_ok (low s1) u (-1)) by (rewrite (ti_ll _ _ T1); exact L).
  rewrite (nthR_ok (disc s1) u (-1)) by (rewrite (ti_ld _ _ T1); exact L). cbn [bind]. fold (Lw s1 u) (D s1 u).
  assert (D1u : D s1 u = t) by (rewrite (li_D _ _ _ _ _ _ LI u); [exact DUt|rewrite DUt; unfold t; lia]).
  assert (D1 : forall x, D s x <> -1 -> D s1 x = D s x /\ Lw s1 x = Lw s x).
  { intros x X. assert (NX : x <> u) by (intros ->; tauto). assert (B : Nat.eqb u x = false) by (apply Nat.eqb_neq; congruence).
    assert (X0 : D s0 x <> -1) by (rewrite D0, B; exact X). split.
    - rewrite (li_D _ _ _ _ _ _ LI x X0), D0, B. reflexivity.
    - rewrite (li_L _ _ _ _ _ _ LI x X0 NX), L0, B. reflexivity. }
  assert (T1t : t <= time s1) by (pose proof (li_time _ _ _ _ _ _ LI); exact H).
  (* facts on the order of the stack *)
  pose proof (ti_sort _ _ T1) as SS. rewrite ST in SS. apply SS_app in SS. destruct SS as [_ [SS2 SS3]].
  assert (S0lt : forall x, In x (tstk s) -> D s1 x < D s1 u).
  { inversion SS2 as [|? ? _ F]; subst. rewrite Forall_forall in F. exact F. }
  assert (Ngt : forall x, In x new -> D s1 u < D s1 x) by (intros x X; apply (SS3 x u X); simpl; auto).
  assert (NUn : ~ In u new) by (intros C; pose proof (Ngt u C); lia).
  assert (Nst : forall x, In x new -> ~ In x (tstk s)) by (intros x X C; pose proof (Ngt x X); pose proof (S0lt x C); lia).
  assert (STI : forall x, In x (tstk s1) <-> In x new \/ x = u \/ In x (tstk s)).
  { intros x. rewrite ST, in_app_iff. simpl. intuition. }
  assert (SU : In u (tstk s1)) by (apply STI; auto).
  assert (KU : forall y, E u y -> D s1 y <> -1) by (intros y Y; apply (li_done _ _ _ _ _ _ LI), (gw_kids _ _ W), Y).
  destruct (Z.eqb_spec (Lw s1 u) (D s1 u)) as [EQ|NE].
  - destruct (popTo_ok u (tstk s) new NUn (tmem s1)) as [m' [PP [Lm MM]]].
    { intros x X. rewrite (ti_lm _ _ T1). apply (D_range s1 _ x T1). apply (ti_vis _ _ T1). left. apply STI.
      apply in_app_or in X. destruct X as [X|[<-|[]]]; auto. }
    rewrite ST, PP. cbn [bind]. eexists. split; [reflexivity|].
    set (C := new ++ [u]) in *. set (s2 := mkT (disc s1) (low s1) m' (tstk s) (time s1) (ret s1 ++ [C])).
    assert (CI : forall x, In x C <-> In x new \/ x = u) by (intros x; unfold C; rewrite in_app_iff; simpl; intuition).
    assert (CS : forall x, In x C -> In x (tstk s1)) by (intros x X; apply STI; apply CI in X; tauto).
    assert (Cst : forall x, In x C -> ~ In x (tstk s)).
    { intros x X. apply CI in X. destruct X as [X| ->]; [apply Nst, X|exact NU]. }
    (* edges out of C *)
    assert (CE : forall x y, In x C -> E x y -> In y C \/ In y (concat (ret s1))).
    { intros x y X XY. assert (V : D s1 y <> -1).
      { apply CI in X. destruct X as [X| ->]; [|apply KU, XY].
        apply (ti_black _ _ T1 x y); [apply STI; auto| |exact XY]. intros [->|Gx]; [tauto|].
        apply (Nst x X). apply (ti_G _ _ T). exact Gx. }
      apply (ti_vis _ _ T1) in V. destruct V as [V|V]; [|auto]. apply STI in V.
      destruct V as [V|[->|V]]; [left; apply CI; auto|left; apply CI; auto|]. exfalso.
      assert (Lw s1 u <= D s1 y).
      { apply CI in X. destruct X as [X| ->]; [apply (NEW x y X XY V)|].
        apply (li_low1 _ _ _ _ _ _ LI); [apply (gw_kids _ _ W), XY|exact V]. }
      pose proof (S0lt y V). lia. }
    assert (CR : forall x y, reach E x y -> In x (concat (ret s1)) -> In y (concat (ret s1))).
    { intros x y H. unfold reach in H. induction H as [x y H|x|x z y H1 IH1 H2 IH2]; auto. intros X.
      apply in_concat in X. destruct X as [c [X1 X2]]. apply in_split in X1. destruct X1 as [l1 [l2 X1]].
      pose proof (ti_closed _ _ T1 l1 c l2 x y X1 X2 H) as Y. rewrite X1. apply in_concat in Y. destruct Y as [c' [Y1 Y2]].
      apply in_concat. exists c'. split; [|exact Y2]. apply in_app_or in Y1. apply in_or_app. simpl.
      destruct Y1 as [Y1|[Y1|[]]]; auto. }
    assert (CC : forall x y, reach E x y -> In x C \/ In x (concat (ret s1)) -> In y C \/ In y (concat (ret s1))).
    { intros x y H. unfold reach in H. induction H as [x y H|x|x z y H1 IH1 H2 IH2]; auto. intros [X|X].
      - apply (CE x y X H).
      - right. apply (CR x y); [apply rt_step; exact H|exact X]. }
    assert (RCu : forall x, In x C -> reach E x u).
    { intros x X. destruct (ti_gray _ _ T1 x (CS x X)) as [z [Z1 [Z2 Z3]]]. eapply rt_trans; [exact Z3|].
      destruct Z1 as [<-|Z1]; [apply rt_refl|]. apply (ti_old _ _ T1); [apply STI; right; right; apply (ti_G _ _ T), Z1|exact SU|].
      pose proof (S0lt z (ti_G _ _ T z Z1)). lia. }
    assert (RuC : forall x, In x C -> reach E u x).
    { intros x X. apply (ti_old _ _ T1); [exact SU|apply CS, X|]. apply CI in X. destruct X as [X| ->]; [|lia].
      pose proof (Ngt x X). lia. }
    assert (NC : NoDup C).
    { unfold C. apply NoDup_snoc; [|exact NUn]. pose proof (ti_sort _ _ T1) as SS. rewrite ST in SS. apply SS_app in SS.
      destruct SS as [SS _]. revert SS. clear. induction 1 as [|x l S IH F]; constructor; [|exact IH].
      intros X. rewrite Forall_forall in F. pose proof (F x X). lia. }
    assert (RI : forall x, In x (concat (ret s2)) <-> In x (concat (ret s1)) \/ In x C).
    { intros x. cbn [ret s2]. rewrite concat_snoc, in_app_iff. tauto. }
    assert (Dsame : forall x, In x (tstk s) -> D s1 x = D s x) by (intros x X; apply D1, (ti_vis _ _ T); auto).
    split; [|split; [|split; [|split; [|split; [|split]]]]].
    + constructor; cbn [disc low tmem tstk time s2].
      * apply T1.
      * apply T1.
      * rewrite Lm. apply T1.
      * apply T1.
      * apply T1.
      * intros x. rewrite RI. change (D s2 x) with (D s1 x). rewrite (ti_vis _ _ T1), STI, CI. tauto.
      * intros x X. rewrite RI. intros [Y|Y]; [|exact (Cst x Y X)].
        apply (ti_disj _ _ T1 x); [apply STI; auto|exact Y].
      * cbn [ret s2]. rewrite concat_snoc. apply NoDup_app_intro.
        -- apply T1.
        -- exact NC.
        -- intros x X Y. apply (ti_disj _ _ T1 x (CS x Y) X).
      * intros x. rewrite MM. destruct (in_dec Nat.eq_dec x C) as [X|X].
        -- split; [discriminate|]. intros Y. exfalso. exact (Cst x X Y).
        -- rewrite (ti_mem _ _ T1), STI. rewrite CI in X. tauto.
      * change (D s2) with (D s1). inversion SS2; assumption.
      * apply (ti_G _ _ T).
      * intros l1 c l2 x y R X XY. cbn [ret s2] in R. destruct l2 as [|c2 l2] using rev_ind.
        -- apply app_inj_tail in R. destruct R as [<- <-]. rewrite concat_snoc, in_app_iff.
           destruct (CE x y X XY); auto.
        -- clear IHl2. rewrite app_comm_cons, app_assoc in R. apply app_inj_tail in R. destruct R as [R _].
           apply (ti_closed _ _ T1 l1 c l2 x y R X XY).
      * intros x y X NG XY. change (D s2 y) with (D s1 y). apply (ti_black _ _ T1 x y); [apply STI; auto| |exact XY].
        intros [<-|Gx]; tauto.
      * intros c H. cbn [ret s2] in H. apply in_app_or in H. destruct H as [H|[<-|[]]]; [apply (ti_ne _ _ T1), H|].
        unfold C. destruct new; discriminate.
      * intros c x y H X. cbn [ret s2] in H. apply in_app_or in H. destruct H as [H|[<-|[]]]; [apply (ti_scc _ _ T1); assumption|].
        split.
        -- intros Y. split; [eapply rt_trans; [apply RCu, X|apply RuC, Y]|eapply rt_trans; [apply RCu, Y|apply RuC, X]].
        -- intros [H1 H2]. destruct (CC x y H1 (or_introl X)) as [Y|Y]; [exact Y|]. exfalso.
           apply (ti_disj _ _ T1 x (CS x X)). apply (CR y x H2 Y).
      * change (D s2) with (D s1). intros x y X Y LE. apply (ti_old _ _ T1); [apply STI; auto|apply STI; auto|exact LE].
      * intros y Y. change (D s2) with (D s1). destruct (ti_gray _ _ T y Y) as [z [Z1 [Z2 Z3]]]. exists z. split; [exact Z1|].
        split; [|exact Z3]. rewrite (Dsame y Y), (Dsame z (ti_G _ _ T z Z1)). exact Z2.
    + exists []. split; [reflexivity|]. intros x y [].
    + intros x X. exact (D1 x X).
    + change (D s2 u) with (D s1 u). rewrite D1u. unfold t. lia.
    + simpl. unfold t in T1t. lia.
    + change (D s2 u) with (D s1 u). change (Lw s2 u) with (Lw s1 u). lia.
    + left. exact EQ.
  - eexists. split; [reflexivity|]. pose proof (li_low2 _ _ _ _ _ _ LI) as LO2.
    destruct (li_low3 _ _ _ _ _ _ LI) as [y0 [Y1 [Y2 Y3]]].
    assert (Y0 : In y0 (tstk s)).
    { apply STI in Y1. destruct Y1 as [Y1|[->|Y1]]; [pose proof (Ngt y0 Y1); lia|lia|exact Y1]. }
    assert (GU : exists z, In z G /\ D s1 z < D s1 u /\ reach E u z).
    { destruct (ti_gray _ _ T1 y0 Y1) as [z [Z1 [Z2 Z3]]]. pose proof (S0lt y0 Y0). exists z. split.
      - destruct Z1 as [<-|Z1]; [lia|exact Z1].
      - split; [lia|]. eapply rt_trans; [exact Y3|exact Z3]. }
    assert (NGr : forall x, In x new -> ~ In x G) by (intros x X Gx; apply (Nst x X), (ti_G _ _ T), Gx).
    split; [|split; [|split; [|split; [|split; [|split]]]]].
    + constructor; try apply T1.
      * intros x X. apply STI. right. right. apply (ti_G _ _ T), X.
      * intros x y X NG XY. destruct (Nat.eq_dec x u) as [->|NX]; [apply KU, XY|].
        apply (ti_black _ _ T1 x y X); [|exact XY]. intros [->|Gx]; tauto.
      * intros y Y. destruct (ti_gray _ _ T1 y Y) as [z [Z1 [Z2 Z3]]]. destruct Z1 as [<-|Z1]; [|exists z; auto].
        destruct GU as [z' [G1 [G2 G3]]]. exists z'. split; [exact G1|]. split; [lia|]. eapply rt_trans; [exact Z3|exact G3].
    + exists (new ++ [u]). split; [rewrite ST, <- app_assoc; reflexivity|]. intros x y X XY Y.
      assert (DY : D s1 y = D s y) by (apply D1, (ti_vis _ _ T); auto). rewrite <- DY.
      apply in_app_or in X. destruct X as [X|[<-|[]]]; [apply (NEW x y X XY Y)|].
      apply (li_low1 _ _ _ _ _ _ LI); [apply (gw_kids _ _ W), XY|exact Y].
    + exact D1.
    + rewrite D1u. unfold t. lia.
    + unfold t in T1t. lia.
    + exact LO2.
    + right. exists y0. auto.
Qed.

Lemma stack_empty s : tinv s [] -> tstk s = [].
Proof.
  intros T. destruct (tstk s) as [|x l] eqn:Q; [reflexivity|].
  destruct (ti_gray _ _ T x) as [z [[] _]]. rewrite Q. simpl. auto.
Qed.
Lemma sccAll_ok l : forall k s, l = seq k (n - k) -> (k <= n)%nat -> tinv s [] -> (forall x, (x < k)%nat -> D s x <> -1) ->
  exists s', sccAll (S n) g l s = Ok s' /\ tinv s' [] /\ forall x, (x < n)%nat -> D s' x <> -1.
Proof.
  induction l as [|i l IH]; intros k s LE LK T VS; cbn [sccAll].
  - assert (k = n) by (destruct (n - k)%nat eqn:Q; [lia|discriminate LE]). subst k. exists s. auto.
  - destruct (n - k)%nat as [|m] eqn:Q; [discriminate LE|]. simpl in LE. injection LE as -> LE.
    assert (LE' : l = seq (S k) (n - S k)) by (rewrite LE; f_equal; lia).
    rewrite (nthR_ok _ k (-1)) by (rewrite (ti_ld _ _ T); lia). cbn [bind]. fold (D s k).
    destruct (Z.eqb_spec (D s k) (-1)) as [DK|DK].
    + destruct (SCC_ok (S n) k s [] ltac:(lia) T DK) as [s' [CALL [T' [_ [PR [TV _]]]]]].
      { rewrite (stack_empty s T). intros x []. } { pose proof (whites_le s). lia. }
      rewrite CALL. cbn [bind]. apply (IH (S k) s' LE'); [lia|exact T'|].
      intros x X. destruct (Nat.eq_dec x k) as [->|N].
      * pose proof (ti_time _ _ T). lia.
      * assert (VX : D s x <> -1) by (apply VS; lia). rewrite (proj1 (PR x VX)). exact VX.
    + cbn [bind]. apply (IH (S k) s LE'); [lia|exact T|]. intros x X. destruct (Nat.eq_dec x k) as [->|N]; [exact DK|].
      apply VS. lia.
Qed.
Definition t_init : tst := mkT (repeat (-1) n) (repeat (-1) n) (repeat false n) [] 0 [].
Lemma D_init x : D t_init x = -1.
Proof. unfold D. simpl. apply nth_repeat'. Qed.
Lemma init_tinv : tinv t_init [].
Proof.
  constructor; simpl; try (apply repeat_length).
  - lia.
  - intros x. rewrite D_init. congruence.
  - intros x. rewrite D_init. tauto.
  - tauto.
  - constructor.
  - intros x. rewrite nth_repeat'. split; [discriminate|tauto].
  - constructor.
  - tauto.
  - intros l1 c l2 x y H. destruct l1; discriminate H.
  - tauto.
  - tauto.
  - tauto.
  - tauto.
  - tauto.
Qed.

(* the reduced graph *)
Definition is_comp (cs : list (list nat)) (i x : nat) : Prop := exists c, nth_error cs i = Some c /\ In x c.

Lemma writeAll_ok l i : forall m, (forall x, In x l -> (x < length m)%nat) ->
  exists m', writeAll m l i = Ok m' /\ length m' = length m /\
    forall x, nth x m' O = if in_dec Nat.eq_dec x l then i else nth x m O.
Proof.
  induction l as [|j l IH]; intros m B; cbn [writeAll].
  - exists m. split; [reflexivity|]. split; [reflexivity|]. intros x. reflexivity.
  - assert (J : (j < length m)%nat) by (apply B; simpl; auto). rewrite (nthR_ok m j O J). cbn [bind].
    destruct (IH (setN m j i)) as [m' [P [LM H]]]; [intros x X; rewrite setN_length; apply B; simpl; auto|].
    exists m'. split; [exact P|]. split; [rewrite LM; apply setN_length|]. intros x. rewrite H, nth_setN by exact J. simpl.
    destruct (in_dec Nat.eq_dec x l); destruct (Nat.eq_dec j x) as [->|N]; rewrite ?Nat.eqb_refl; auto.
    destruct (Nat.eqb_spec j x); [congruence|reflexivity].
Qed.
Lemma grun_app h1 : forall g0 h2, grun g0 (h1 ++ h2) = do g1 <- grun g0 h1; grun g1 h2.
Proof.
  induction h1 as [|o h1 IH]; intros g0 h2; simpl; [reflexivity|]. destruct (gstep g0 o); simpl; auto.
Qed.
Lemma vertMap_ok cs : forall m i g0, NoDup (concat cs) -> (forall x, In x (concat cs) -> (x < length m)%nat) ->
  exists m' g', vertMap m i cs g0 = Ok (m', g') /\ length m' = length m /\ grun g0 (repeat GNode (length cs)) = Ok g' /\
    (forall x, ~ In x (concat cs) -> nth x m' O = nth x m O) /\
    (forall k x, is_comp cs k x -> nth x m' O = (i + k)%nat).
Proof.
  induction cs as [|c cs IH]; intros m i g0 ND B; cbn [vertMap].
  - exists m, g0. split; [reflexivity|]. split; [reflexivity|]. split; [reflexivity|]. split; [auto|].
    intros k x [c [H _]]. destruct k; discriminate H.
  - simpl in ND, B. destruct (writeAll_ok c i m) as [m1 [P [LM H]]]; [intros x X; apply B, in_or_app; auto|].
    rewrite P. cbn [bind]. assert (ND2 : NoDup (concat cs)) by (revert ND; clear; induction c; simpl; intros H; [exact H|inversion H; auto]).
    assert (DJ : forall x, In x c -> ~ In x (concat cs)).
    { revert ND; clear; induction c as [|y c IHc]; simpl; intros N x []; inversion N as [|? ? N1 N2]; subst.
      - intros C. apply N1, in_or_app. auto.
      - apply IHc; auto. }
    destruct (IH m1 (S i) (fst (addNode g0)) ND2) as [m' [g' [Q [LM' [GR [OLD CMP]]]]]].
    { intros x X. rewrite LM. apply B, in_or_app. auto. }
    exists m', g'. split; [exact Q|]. split; [lia|]. split; [exact GR|]. split.
    + intros x X. rewrite OLD by (intros C; apply X; simpl; apply in_or_app; auto). rewrite H.
      destruct (in_dec Nat.eq_dec x c) as [C|C]; [|reflexivity]. exfalso. apply X. simpl. apply in_or_app. auto.
    + intros [|k] x [c' [K X]]; simpl in K.
      * injection K as <-. rewrite OLD by (apply DJ, X). rewrite H.
        destruct (in_dec Nat.eq_dec x c) as [C|C]; [lia|tauto].
      * rewrite (CMP k x); [lia|]. exists c'. auto.
Qed.
Fixpoint edge_ops (m : list nat) (es : list (nat * nat)) : list gop :=
  match es with
  | [] => []
  | e :: es' => (if Nat.eqb (nth (fst e) m O) (nth (snd e) m O) then [] else [GEdge (nth (fst e) m O) (nth (snd e) m O)])
                ++ edge_ops m es'
  end.
Lemma edgesAll_ok m es : (forall e, In e es -> (fst e < length m)%nat /\ (snd e < length m)%nat) -> forall g0,
  edgesAll m es g0 = grun g0 (edge_ops m es).
Proof.
  induction es as [|e es IH]; intros B g0; cbn [edgesAll edge_ops]; [reflexivity|].
  destruct (B e (or_introl eq_refl)) as [B1 B2]. rewrite (nthR_ok m _ O B1), (nthR_ok m _ O B2). cbn [bind].
  assert (IH' := IH (fun e' H => B e' (or_intror H))).
  destruct (Nat.eqb (nth (fst e) m O) (nth (snd e) m O)); cbn [negb app bind].
  - apply IH'.
  - cbn [grun gstep]. destruct (addEdge g0 _ _) as [[g1 b]| |]; cbn [bind]; auto.
Qed.
Lemma edge_ops_spec m es : forall A, (forall e, In e es -> (nth (fst e) m O < an A)%nat /\ (nth (snd e) m O < an A)%nat) ->
  valid A (edge_ops m es) /\ an (aruns A (edge_ops m es)) = an A /\
  forall i j, aE (aruns A (edge_ops m es)) i j <->
    aE A i j \/ (i <> j /\ exists e, In e es /\ nth (fst e) m O = i /\ nth (snd e) m O = j).
Proof.
  induction es as [|e es IH]; intros A B; cbn [edge_ops].
  - simpl. split; [exact I|]. split; [reflexivity|]. intros i j. split; [auto|]. intros [H|[_ [e [[] _]]]]. exact H.
  - destruct (Nat.eqb_spec (nth (fst e) m O) (nth (snd e) m O)) as [Q|Q]; cbn [app].
    + destruct (IH A) as [V [N H]]; [intros e' X; apply B; simpl; auto|]. split; [exact V|]. split; [exact N|].
      intros i j. rewrite H. split; intros [K|[K1 [e' [K2 K3]]]]; auto; right; (split; [exact K1|]).
      * exists e'. simpl. auto.
      * destruct K2 as [<-|K2]; [|exists e'; auto]. destruct K3. congruence.
    + cbn [aruns valid]. destruct (IH (astep A (GEdge (nth (fst e) m O) (nth (snd e) m O)))) as [V [N H]].
      { intros e' X. cbn [an astep]. apply B. simpl. auto. }
      split; [split; [apply B; simpl; auto|exact V]|]. split; [rewrite N; reflexivity|].
      intros i j. rewrite H. cbn [aE astep]. split.
      * intros [[K|[-> ->]]|[K1 [e' [K2 K3]]]]; auto; right.
        -- split; [exact Q|]. exists e. simpl. auto.
        -- split; [exact K1|]. exists e'. simpl. auto.
      * intros [K|[K1 [e' [[<-|K2] [K3 K4]]]]]; auto. right. split; [exact K1|]. exists e'. auto.
Qed.

Lemma nodes_spec k : forall A, valid A (repeat GNode k) /\ an (aruns A (repeat GNode k)) = (an A + k)%nat /\
  forall i j, aE (aruns A (repeat GNode k)) i j <-> aE A i j.
Proof.
  induction k as [|k IH]; intros A; simpl.
  - split; [exact I|]. split; [lia|tauto].
  - destruct (IH (mkA (S (an A)) (aE A))) as [V [N H]]. split; [split; [exact I|exact V]|]. split; [rewrite N; simpl; lia|].
    intros i j. rewrite H. simpl. tauto.
Qed.
Lemma aruns_app h1 : forall A h2, aruns A (h1 ++ h2) = aruns (aruns A h1) h2.
Proof. induction h1; intros; simpl; auto. Qed.
Lemma valid_app h1 : forall A h2, valid A (h1 ++ h2) <-> valid A h1 /\ valid (aruns A h1) h2.
Proof. induction h1 as [|o h1 IH]; intros A h2; simpl; [tauto|]. rewrite IH. tauto. Qed.

Lemma comp_In cs i x : is_comp cs i x -> In x (concat cs) /\ (i < length cs)%nat.
Proof.
  intros [c [H X]]. split; [apply in_concat; exists c; split; [eapply nth_error_In; exact H|exact X]|].
  apply nth_error_Some. congruence.
Qed.
Lemma In_comp cs x : In x (concat cs) -> exists i, is_comp cs i x.
Proof.
  intros H. apply in_concat in H. destruct H as [c [H X]]. apply In_nth_error in H. destruct H as [i H]. exists i, c. auto.
Qed.

(* C15 *)
Lemma reduce_ok : exists cs g' h', reduce g = Ok (cs, g') /\
  Permutation (concat cs) (seq 0 n) /\
  (forall c, In c cs -> c <> [] /\ forall x y, In x c -> (In y c <-> scc E x y)) /\
  valid aempty h' /\ grun empty_graph h' = Ok g' /\ an (agraph_of h') = length cs /\
  (forall i j, aE (agraph_of h') i j <-> i <> j /\ exists x y, is_comp cs i x /\ is_comp cs j y /\ E x y) /\
  (forall i j, aE (agraph_of h') i j -> (j < i)%nat).
Proof.
  unfold reduce. rewrite (gw_roots _ _ W). fold t_init.
  destruct (sccAll_ok (seq 0 n) 0 t_init ltac:(f_equal; lia) ltac:(lia) init_tinv ltac:(intros; lia)) as [s [R [T ALL]]].
  rewrite R. cbn [bind]. set (cs := ret s).
  assert (IN : forall x, In x (concat cs) <-> (x < n)%nat).
  { intros x. split.
    - intros X. apply (D_range s [] x T). apply (ti_vis _ _ T). auto.
    - intros X. apply ALL, (ti_vis _ _ T) in X. rewrite (stack_empty s T) in X. destruct X as [[]|X]; exact X. }
  destruct (vertMap_ok cs (repeat O n) 0 empty_graph (ti_nd _ _ T)) as [m [g0 [VM [LM [GR [_ CMP]]]]]].
  { intros x X. rewrite repeat_length. apply IN, X. }
  rewrite VM. cbn [bind]. rewrite repeat_length in LM.
  assert (EB : forall e, In e (edges_ g) -> E (fst e) (snd e)) by (intros [x y] H; apply (gw_edges _ _ W); exact H).
  rewrite edgesAll_ok by (intros e H; rewrite LM; apply (gw_range _ _ W), EB, H).
  set (h' := repeat GNode (length cs) ++ edge_ops m (edges_ g)).
  destruct (nodes_spec (length cs) aempty) as [V1 [N1 H1]]. simpl in N1.
  assert (MC : forall x, (x < n)%nat -> exists i, is_comp cs i x /\ nth x m O = i).
  { intros x X. apply IN in X. apply In_comp in X. destruct X as [i X]. exists i. split; [exact X|]. rewrite (CMP i x X). lia. }
  destruct (edge_ops_spec m (edges_ g) (aruns aempty (repeat GNode (length cs)))) as [V2 [N2 H2]].
  { intros e X. rewrite N1. destruct (gw_range _ _ W _ _ (EB e X)) as [X1 X2].
    destruct (MC _ X1) as [i [I1 ->]]. destruct (MC _ X2) as [j [J1 ->]]. split; eapply comp_In; eassumption. }
  assert (VV : valid aempty h') by (unfold h'; apply valid_app; auto).
  destruct (grun_ok h' empty_graph aempty gwf_empty VV) as [g1 [GR1 _]].
  assert (GR1' := GR1). unfold h' in GR1'. rewrite grun_app, GR in GR1'. cbn [bind] in GR1'. rewrite GR1'. cbn [bind].
  exists cs, g1, h'. split; [reflexivity|]. split; [|split; [|split; [exact VV|split; [exact GR1|]]]].
  - apply NoDup_Permutation; [apply T|apply seq_NoDup|]. intros x. rewrite IN, in_seq. lia.
  - intros c C. split; [apply (ti_ne _ _ T), C|]. intros x y X. apply (ti_scc _ _ T); assumption.
  - assert (AE : forall i j, aE (agraph_of h') i j <-> i <> j /\ exists x y, is_comp cs i x /\ is_comp cs j y /\ E x y).
    { intros i j. unfold agraph_of, h'. rewrite aruns_app, H2, H1. cbn [aE aempty]. split.
      - intros [[]|[NE [e [X [EI EJ]]]]]. split; [exact NE|]. exists (fst e), (snd e). pose proof (EB e X) as EE.
        destruct (gw_range _ _ W _ _ EE) as [X1 X2]. destruct (MC _ X1) as [i' [I1 I2]]. destruct (MC _ X2) as [j' [J1 J2]].
        assert (i' = i) by congruence. assert (j' = j) by congruence. subst. auto.
      - intros [NE [x [y [X [Y XY]]]]]. right. split; [exact NE|]. exists (x, y). simpl.
        split; [apply (gw_edges _ _ W); exact XY|]. rewrite (CMP i x X), (CMP j y Y). lia. }
    split; [unfold agraph_of, h'; rewrite aruns_app, N2, N1; reflexivity|]. split; [exact AE|].
    intros i j H. apply AE in H. destruct H as [NE [x [y [[c [C X]] [[c' [C' Y]] XY]]]]].
    apply nth_error_split in C. destruct C as [l1 [l2 [RS LL]]].
    pose proof (ti_closed _ _ T l1 c l2 x y RS X XY) as YI.
    apply In_comp in YI. destruct YI as [j' YC]. destruct (comp_In _ _ _ YC) as [_ LJ]. rewrite app_length in LJ. simpl in LJ.
    assert (YC2 : is_comp cs j' y).
    { destruct YC as [c2 [Q1 Q2]]. exists c2. split; [|exact Q2]. rewrite RS.
      replace (l1 ++ c :: l2) with ((l1 ++ [c]) ++ l2) by (rewrite <- app_assoc; reflexivity).
      rewrite nth_error_app1; [exact Q1|apply nth_error_Some; congruence]. }
    assert (J1 := CMP j y (ex_intro _ c' (conj C' Y))). assert (J2 := CMP j' y YC2). lia.
Qed.
End Tarjan.
