(* The invariant of VariableCountingVector over histories. *)
Require Import ZArith List Bool Sorting Lia Arith.
Require Import Verif.Base Verif.RangeModel Verif.RangeCountingModel Verif.RangeCountingSpec.
Require Import Verif.RangeCountingProofs Verif.RangeCountingProofs2 Verif.RangeCountingProofs3.
Require Import Verif.RangeCountingProofs4 Verif.RangeCountingProofs5 Verif.RangeCountingProofs6.
Require Import Verif.SpaceModel Verif.VarCountingModel Verif.VarCountingSpec Verif.VarCountingProofs.
Require Import Verif.VarCountingProofs2 Verif.VarCountingProofs3.
Import ListNotations.
Local Open Scope Z_scope.
Local Arguments Z.add : simpl never.
Local Arguments Z.sub : simpl never.
Local Arguments Z.opp : simpl never.
Local Arguments Z.leb : simpl never.
Local Arguments Z.ltb : simpl never.
Local Arguments Z.eqb : simpl never.
Local Arguments Z.of_nat : simpl never.

Section Atoms.
Variables (L : layout) (spOf : nat -> space) (base : nat -> bool).
Hypothesis G : good L spOf.

Definition shown (s : vc) (c : nat -> Z -> Z) (vs : list cvar) (ps : list (nat * Range)) : Prop :=
  listed L vs ps /\
  (forall k, pieces (of_sup k ps) (fun x => 0 < c k x) /\
             (split_ s = false -> canonical (of_sup k ps) (fun x => 0 < c k x))).

Record vinv (s : vc) (c : nat -> Z -> Z) : Prop := {
  v_key : keyed (count_ s);
  v_ent : forall k t n, lookup k (count_ s) = Some (t, n) -> ent L k t (c k);
  v_none : forall k, lookup k (count_ s) = None -> forall x, c k x = 0;
  v_in : forall k x, 0 < c k x -> 0 <= x < natoms L k;
  v_pos : forall k x, 0 <= c k x;
  v_up : upToDate_ s = true -> exists ps, shown s c (variables_ s) ps /\
         simple_ s = map (flag (count_ s) ps) ps }.

Lemma vinv_init split : vinv (vc_init split) (fun _ _ => 0).
Proof.
  constructor; simpl.
  - constructor.
  - discriminate.
  - auto.
  - intros; lia.
  - intros; lia.
  - discriminate.
Qed.

Lemma ent_pos k t c x : ent L k t c -> 0 <= c x.
Proof. intros (a & b & d & _ & [W _] & _ & _ & _ & _ & Hc). rewrite <- Hc. apply W. Qed.

Lemma of_sup_In k q ps : In q (of_sup k ps) <-> In (k, q) ps.
Proof.
  unfold of_sup. rewrite in_map_iff. split.
  - intros ([j r] & E & H). simpl in E. subst. apply filter_In in H as [H E]. simpl in E. apply Nat.eqb_eq in E. subst. auto.
  - intros H. exists (k, q). split; [auto|]. apply filter_In. split; [auto|]. simpl. apply Nat.eqb_refl.
Qed.

Lemma update_ok s c : vinv s c ->
  exists s', update spOf base s = Ok s' /\ vinv s' c /\ upToDate_ s' = true /\ split_ s' = split_ s /\
    (forall k, number k (count_ s') = number k (count_ s)) /\
    (upToDate_ s = false -> split_ s = true -> exists ps, shown s' c (variables_ s') ps /\
       (forall k, constant (c k) (of_sup k ps)) /\
       (forall k t n, lookup k (count_ s) = Some (t, n) -> unmarked L k t (of_sup k ps))).
Proof.
  intros V. unfold update. destruct (upToDate_ s) eqn:U.
  - exists s. split; [auto|]. split; [auto|]. split; [auto|]. split; [auto|]. split; [auto|discriminate].
  - destruct (updLoop_ok L spOf base G (split_ s) c (count_ s) (v_key _ _ V)) as
      (es & vs & ss & ps & -> & K & Hn & He & Hl & Ho & Hp & _ & _ & -> & Hum).
    { intros k t n Hk. split; [eapply v_ent; eauto|apply V]. }
    cbn [bind].
    assert (Hout : forall k, outcome (split_ s) (of_sup k ps) (c k)).
    { intros k. destruct (lookup k (count_ s)) as [p|] eqn:Ek; [apply Ho; congruence|].
      assert (of_sup k ps = []) as ->.
      { apply of_sup_none. intros p Hip E. apply Hp in Hip. congruence. }
      assert (Z := v_none _ _ V k Ek). split; [|split].
      - split; [constructor|split; [constructor|]]. intros x. rewrite Z. split; [lia|intros (r & [] & _)].
      - intros _. split; [constructor|split; [constructor|]]. intros x. rewrite Z. split; [lia|intros (r & [] & _)].
      - intros _ r []. }
    assert (Hsh : forall s', split_ s' = split_ s -> shown s' c vs ps).
    { intros s' E. split; [auto|]. intros k. destruct (Hout k) as (O1 & O2 & _). rewrite E. auto. }
    eexists. split; [reflexivity|]. split; [|split; [auto|split; [auto|split; [exact Hn|]]]].
    + constructor; cbn [count_ upToDate_ variables_ simple_]; try apply V; auto.
      * intros k Hk. apply (v_none _ _ V). specialize (Hn k). unfold number in Hn. rewrite Hk in Hn.
        destruct (lookup k (count_ s)); [discriminate|auto].
      * intros _. exists ps. split; [apply Hsh; auto|]. apply map_ext. intros p. unfold flag. rewrite Hn. auto.
    + intros _ E. exists ps. split; [apply Hsh; auto|]. split; [intros k; destruct (Hout k) as (_ & _ & O3); auto|].
      intros k t n Hk. eapply Hum; eauto.
Qed.

Lemma upd_same c k f : upd c k f k = f.
Proof. unfold upd. rewrite Nat.eqb_refl. auto. Qed.
Lemma upd_other c k j f : j <> k -> upd c k f j = c j.
Proof. intros H. unfold upd. destruct (Nat.eqb_spec j k); [contradiction|auto]. Qed.

Lemma flag_eq l l' ps : (forall k, number k l' = number k l) -> map (flag l' ps) ps = map (flag l ps) ps.
Proof. intros H. apply map_ext. intros p. unfold flag. rewrite H. auto. Qed.

Lemma shown_ext s s' c c' vs ps : split_ s' = split_ s -> (forall k x, 0 < c' k x <-> 0 < c k x) ->
  shown s c vs ps -> shown s' c' vs ps.
Proof.
  intros Es Ec [H1 H2]. split; [auto|]. intros k. destruct (H2 k) as [A B]. rewrite Es.
  split; [eapply pieces_ext; [|exact A]|intros E; eapply canonical_ext; [|exact (B E)]]; intros x; simpl; rewrite Ec; tauto.
Qed.

Lemma number_store k t n l j : number j (store k (t, n) l) = if Nat.eqb j k then Some n else number j l.
Proof.
  unfold number. destruct (Nat.eqb_spec j k).
  - subst. rewrite lookup_store_same. auto.
  - rewrite lookup_store_other by auto. auto.
Qed.

Lemma vinv_ext s c c' : (forall k x, c' k x = c k x) -> vinv s c -> vinv s c'.
Proof.
  intros E [V1 V2 V3 V4 V5 V6]. constructor; auto.
  - intros k t n Hk. destruct (V2 k t n Hk) as (a & b & d & H1 & H2 & H3 & H4 & H5 & H6 & H7).
    exists a, b, d. split; [auto|]. split; [auto|]. split; [auto|]. split; [auto|]. split; [auto|]. split; [auto|].
    intros x. rewrite H7, E. auto.
  - intros k Hk x. rewrite E. auto.
  - intros k x. rewrite E. auto.
  - intros k x. rewrite E. auto.
  - intros U. destruct (V6 U) as (ps & H1 & H2). exists ps. split; [|auto].
    eapply shown_ext; [| |exact H1]; [auto|]. intros k x. rewrite E. tauto.
Qed.

Lemma add_spec s c v q : vinv s c -> made_of L v q ->
  exists s' b, vc_add s v = Ok (s', b) /\
    vinv s' (aspec_step c (AAdd (c_sup v) q)) /\ split_ s' = split_ s /\
    (b = true <-> exists x, In_range q x /\ c (c_sup v) x = 0) /\
    upToDate_ s' = upToDate_ s && negb b /\
    (forall k, number k (count_ s') = if Nat.eqb k (c_sup v) then
        Some (match number k (count_ s) with Some n => n | None => 0 end + if b then 1 else 0)
      else number k (count_ s)).
Proof.
  intros V M. unfold vc_add.
  set (p := match lookup (c_sup v) (count_ s) with Some p => p | None => (src_init, 0) end).
  assert (He : ent L (c_sup v) (fst p) (c (c_sup v))).
  { unfold p. destruct (lookup (c_sup v) (count_ s)) as [[t n]|] eqn:E; simpl.
    - eapply v_ent; eauto.
    - destruct (ent_init L (c_sup v)) as (a & b & d & H1 & H2 & H3 & H4 & H5 & H6 & H7).
      exists a, b, d. split; [auto|]. split; [auto|]. split; [auto|]. split; [auto|]. split; [auto|]. split; [auto|].
      intros x. rewrite H7. symmetry. apply (v_none _ _ V); auto. }
  destruct p as [t n] eqn:Ep. simpl in He. cbn [fst].
  destruct (src_add_ent L spOf G v q t _ He M) as (t' & ch & -> & He' & Hch). cbn [bind].
  eexists _, ch. split; [reflexivity|]. cbn [aspec_step].
  assert (Hnum : forall k, number k (store (c_sup v) (t', if ch then n + 1 else n) (count_ s)) =
     if Nat.eqb k (c_sup v) then Some (match number k (count_ s) with Some n => n | None => 0 end + if ch then 1 else 0)
     else number k (count_ s)).
  { intros k. rewrite number_store. destruct (Nat.eqb_spec k (c_sup v)); [|auto]. subst k.
    unfold number. unfold p in Ep. destruct (lookup (c_sup v) (count_ s)) as [[t0 n0]|]; simpl; inversion Ep; subst;
    f_equal; destruct ch; lia. }
  split; [|split; [auto|split; [exact Hch|split; [auto|exact Hnum]]]].
  assert (Hq : forall x, In_range q x -> 0 <= x < natoms L (c_sup v)).
  { intros x Hx. destruct M as (M1 & M2 & M3 & _). unfold In_range, rend in *. lia. }
  assert (Hp := v_pos _ _ V). 
  constructor; cbn [count_ upToDate_ variables_ simple_ split_].
  - apply store_keyed, V.
  - intros k t0 n0 Hk. destruct (Nat.eq_dec k (c_sup v)) as [->|N].
    + rewrite lookup_store_same in Hk. inversion Hk; subst. rewrite upd_same. auto.
    + rewrite lookup_store_other in Hk by auto. rewrite upd_other by auto. eapply v_ent; eauto.
  - intros k Hk. destruct (Nat.eq_dec k (c_sup v)) as [->|N].
    + rewrite lookup_store_same in Hk. discriminate.
    + rewrite lookup_store_other in Hk by auto. rewrite upd_other by auto. eapply v_none; eauto.
  - intros k x. destruct (Nat.eq_dec k (c_sup v)) as [->|N]; [rewrite upd_same|rewrite upd_other by auto; apply V].
    intros H. specialize (Hp (c_sup v) x). assert (0 < c (c_sup v) x \/ 0 < ind q x) as [K|K] by lia; [apply (v_in _ _ V); auto|].
    apply Hq. unfold ind in K. unfold In_range. destruct (_ && _) eqn:E; lia.
  - intros k x. destruct (Nat.eq_dec k (c_sup v)) as [->|N]; [rewrite upd_same|rewrite upd_other by auto; apply V].
    specialize (Hp (c_sup v) x). assert (I := ind_nonneg q x). lia.
  - intros U. apply andb_prop in U as [U Hc]. destruct ch; [discriminate|].
    destruct (v_up _ _ V U) as (ps & Hs & E). exists ps. split.
    + eapply shown_ext; [| |exact Hs]; [auto|]. intros k x.
      destruct (Nat.eq_dec k (c_sup v)) as [->|N]; [rewrite upd_same|rewrite upd_other by auto; tauto].
      specialize (Hp (c_sup v) x). assert (I := ind_nonneg q x). split; [|lia]. intros H.
      destruct (Z.eq_dec (c (c_sup v) x) 0) as [Z|Z]; [|lia]. exfalso.
      assert (false = true); [|discriminate]. apply Hch. exists x. split; [|auto].
      destruct (Z.eq_dec (ind q x) 0) as [Z'|Z']; [lia|]. unfold ind in Z'. unfold In_range. destruct (_ && _) eqn:E'; lia.
    + rewrite E. symmetry. apply map_ext_in. intros p0 Hp0. unfold flag. rewrite Hnum.
      destruct (Nat.eqb_spec (fst p0) (c_sup v)); [|auto].
      destruct (number (fst p0) (count_ s)) as [m|] eqn:Em; [rewrite Z.add_0_r; auto|].
      (* an entry shown has a counter *)
      exfalso. destruct Hs as [_ Hs]. destruct (Hs (fst p0)) as [(P1 & _ & P3) _].
      assert (In (snd p0) (of_sup (fst p0) ps)) by (apply of_sup_In; destruct p0; auto).
      rewrite Forall_forall in P1. assert (D := P1 _ H). assert (0 < c (fst p0) (start (snd p0))).
      { apply P3. exists (snd p0). split; [auto|]. unfold In_range. lia. }
      rewrite (v_none _ _ V) in H0; [lia|]. unfold number in Em. destruct (lookup (fst p0) (count_ s)); [discriminate|auto].
Qed.

Lemma remove_spec s c v q : vinv s c -> made_of L v q ->
  exists s' o, vc_remove s v = Ok (s', o) /\
    vinv s' (aspec_step c (ARemove (c_sup v) q)) /\ split_ s' = split_ s /\
    (o = None -> forall k x, aspec_step c (ARemove (c_sup v) q) k x = c k x) /\
    (forall b, o = Some b -> effective (c (c_sup v)) q = true /\
       (b = true <-> exists x, In_range q x /\ c (c_sup v) x = 1)) /\
    (o = None -> effective (c (c_sup v)) q = false \/ (dim q = 0 /\ forall x, c (c_sup v) x = 0)).
Proof.
  intros V M. unfold vc_remove. cbn [aspec_step].
  destruct (lookup (c_sup v) (count_ s)) as [[t n]|] eqn:El.
  - assert (He := v_ent _ _ V _ _ _ El).
    destruct (src_remove_ent L spOf G v q t _ He M) as (t' & o & -> & H). cbn [bind].
    destruct (effective (c (c_sup v)) q) eqn:Ef.
    + destruct H as (ch & -> & He' & Hch).
      eexists _, _. split; [reflexivity|].
      set (n' := if ch then if src_empty t' then 0 else n + 10 else n).
      assert (Hnum : forall k, ch = false -> number k (store (c_sup v) (t', n') (count_ s)) = number k (count_ s)).
      { intros k ->. rewrite number_store. destruct (Nat.eqb_spec k (c_sup v)); [|auto]. subst k.
        unfold number. rewrite El. auto. }
      assert (Eff := proj1 (effective_spec _ _) Ef).
      split; [|split; [auto|split; [discriminate|split; [|discriminate]]]].
      2:{ intros b E. inversion E; subst. auto. }
      assert (Hp := v_pos _ _ V).
      assert (I := ind_nonneg q).
      assert (Hge : forall x, 0 <= c (c_sup v) x - ind q x).
      { intros x. specialize (Hp (c_sup v) x). specialize (I x). destruct (Z.eq_dec (ind q x) 0) as [E0|E0]; [lia|].
        assert (In_range q x). { unfold ind in E0. unfold In_range. destruct (_ && _) eqn:E'; lia. }
        apply Eff in H. lia. }
      constructor; cbn [count_ upToDate_ variables_ simple_ split_].
      * apply store_keyed, V.
      * intros k t0 n0 Hk. destruct (Nat.eq_dec k (c_sup v)) as [->|N].
        -- rewrite lookup_store_same in Hk. inversion Hk; subst. rewrite upd_same. auto.
        -- rewrite lookup_store_other in Hk by auto. rewrite upd_other by auto. eapply v_ent; eauto.
      * intros k Hk. destruct (Nat.eq_dec k (c_sup v)) as [->|N].
        -- rewrite lookup_store_same in Hk. discriminate.
        -- rewrite lookup_store_other in Hk by auto. rewrite upd_other by auto. eapply v_none; eauto.
      * intros k x. destruct (Nat.eq_dec k (c_sup v)) as [->|N]; [rewrite upd_same|rewrite upd_other by auto; apply V].
        intros H. apply (v_in _ _ V). specialize (I x). lia.
      * intros k x. destruct (Nat.eq_dec k (c_sup v)) as [->|N]; [rewrite upd_same|rewrite upd_other by auto; apply V]. auto.
      * intros U. apply andb_prop in U as [U Hc]. destruct ch; [discriminate|].
        destruct (v_up _ _ V U) as (ps & Hs & E). exists ps. split.
        -- eapply shown_ext; [| |exact Hs]; [auto|]. intros k x.
           destruct (Nat.eq_dec k (c_sup v)) as [->|N]; [rewrite upd_same|rewrite upd_other by auto; tauto].
           specialize (Hp (c_sup v) x). specialize (I x). specialize (Hge x). split; [lia|]. intros H.
           destruct (Z.eq_dec (c (c_sup v) x) 1) as [Z|Z]; [|lia].
           destruct (Z.eq_dec (ind q x) 0) as [Z'|Z']; [lia|]. exfalso.
           assert (false = true); [|discriminate]. apply Hch. exists x. split; [|auto].
           unfold ind in Z'. unfold In_range. destruct (_ && _) eqn:E'; lia.
        -- rewrite E. symmetry. apply flag_eq. intros k. apply Hnum; auto.
    + destruct H as (-> & He'). eexists _, _. split; [reflexivity|].
      split; [|split; [auto|split; [auto|split; [discriminate|auto]]]].
      constructor; cbn [count_ upToDate_ variables_ simple_ split_]; try apply V.
      * apply store_keyed, V.
      * intros k t0 n0 Hk. destruct (Nat.eq_dec k (c_sup v)) as [->|N].
        -- rewrite lookup_store_same in Hk. inversion Hk; subst. auto.
        -- rewrite lookup_store_other in Hk by auto. eapply v_ent; eauto.
      * intros k Hk. destruct (Nat.eq_dec k (c_sup v)) as [->|N].
        -- rewrite lookup_store_same in Hk. discriminate.
        -- rewrite lookup_store_other in Hk by auto. eapply v_none; eauto.
      * intros U. destruct (v_up _ _ V U) as (ps & Hs & E). exists ps. split; [exact Hs|]. rewrite E.
        symmetry. apply flag_eq. intros k. rewrite number_store. destruct (Nat.eqb_spec k (c_sup v)); [|auto].
        subst k. unfold number. rewrite El. auto.
  - assert (Z := v_none _ _ V _ El). eexists _, _. split; [reflexivity|].
    destruct (effective (c (c_sup v)) q) eqn:Ef.
    + assert (D : dim q = 0).
      { assert (H := proj1 (effective_spec _ _) Ef (start q)). rewrite Z in H. destruct M as (_ & M & _).
        destruct (Z.eq_dec (dim q) 0); [auto|]. exfalso. assert (In_range q (start q)) by (unfold In_range; lia).
        apply H in H0. lia. }
      assert (Ez : forall x, ind q x = 0). { intros x. apply ind_0. unfold In_range. lia. }
      assert (Hext : forall k x, upd c (c_sup v) (fun x => c (c_sup v) x - ind q x) k x = c k x).
      { intros k x. destruct (Nat.eq_dec k (c_sup v)) as [->|N]; [rewrite upd_same, Ez; lia|rewrite upd_other; auto]. }
      split; [eapply vinv_ext; [exact Hext|exact V]|]. split; [auto|]. split; [auto|]. split; [discriminate|auto].
    + split; [auto|]. split; [auto|]. split; [auto|]. split; [discriminate|auto].
Qed.

Lemma clear_spec s c : vinv s c -> vinv (vc_clear s) (fun _ _ => 0).
Proof.
  intros V. constructor; simpl.
  - constructor.
  - discriminate.
  - auto.
  - intros; lia.
  - intros; lia.
  - discriminate.
Qed.

Lemma aspec_step_ext c c' a : (forall k x, c' k x = c k x) -> forall k x, aspec_step c' a k x = aspec_step c a k x.
Proof.
  intros E k x. destruct a as [j q|j q| |]; cbn [aspec_step]; auto.
  - unfold upd. destruct (Nat.eqb_spec k j); [rewrite E; auto|auto].
  - rewrite (effective_ext _ _ q (E j)). destruct (effective (c j) q); [|auto].
    unfold upd. destruct (Nat.eqb_spec k j); [rewrite E; auto|auto].
Qed.

Lemma step_spec s c o a : vinv s c -> denotes L o a ->
  exists s' x, vcstep spOf base s o = Ok (s', x) /\ vinv s' (aspec_step c a) /\ split_ s' = split_ s.
Proof.
  intros V D. destruct o as [v|v| |], a as [k q|k q| |]; try destruct D as [<- M]; try contradiction; cbn [vcstep].
  - destruct (add_spec s c v q V M) as (s' & b & -> & V' & Es & _). cbn [bind]. eauto.
  - destruct (remove_spec s c v q V M) as (s' & o & -> & V' & Es & _). cbn [bind]. eauto.
  - eexists _, _. split; [reflexivity|]. split; [eapply clear_spec; eauto|auto].
  - unfold variables. destruct (update_ok s c V) as (s' & -> & V' & _ & Es & _). cbn [bind]. eauto.
Qed.

Lemma run_spec : forall h ah s c, vinv s c -> Forall2 (denotes L) h ah ->
  exists s' outs, vcrun spOf base s h = Ok (s', outs) /\ vinv s' (aspec_from c ah) /\ split_ s' = split_ s.
Proof.
  induction h as [|o h IH]; intros ah s c V F; inversion F as [|? a ? ah' D F']; subst; cbn [vcrun aspec_from].
  - eauto.
  - destruct (step_spec s c o a V D) as (s1 & x & -> & V1 & E1). cbn [bind].
    destruct (IH ah' s1 _ V1 F') as (s2 & xs & -> & V2 & E2). cbn [bind]. eexists _, _. split; [reflexivity|].
    split; [auto|congruence].
Qed.

Lemma reached h ah split s outs : Forall2 (denotes L) h ah -> vcrun spOf base (vc_init split) h = Ok (s, outs) ->
  vinv s (aspec ah) /\ split_ s = split.
Proof.
  intros F E. destruct (run_spec h ah _ _ (vinv_init split) F) as (s' & o & E' & V & Es).
  rewrite E in E'. inversion E'; subst. auto.
Qed.

Lemma c11_variables h ah split : Forall2 (denotes L) h ah ->
  exists s outs s' vs ps, vcrun spOf base (vc_init split) h = Ok (s, outs) /\
    variables spOf base s = Ok (s', vs) /\ listed L vs ps /\
    forall k, pieces (of_sup k ps) (fun x => 0 < aspec ah k x) /\
      (split = false -> canonical (of_sup k ps) (fun x => 0 < aspec ah k x)).
Proof.
  intros F. destruct (run_spec h ah _ _ (vinv_init split) F) as (s & outs & E & V & Es).
  destruct (update_ok s _ V) as (s' & U & V' & Ut & Es' & _).
  destruct (v_up _ _ V' Ut) as (ps & [H1 H2] & _).
  exists s, outs, s', (variables_ s'), ps. split; [auto|]. split; [unfold variables; rewrite U; auto|].
  split; [auto|]. intros k. destruct (H2 k) as [A B]. split; [exact A|]. intros K. apply B. rewrite Es', Es. auto.
Qed.

Lemma c11_add h ah split s outs v q : Forall2 (denotes L) h ah ->
  vcrun spOf base (vc_init split) h = Ok (s, outs) -> made_of L v q ->
  exists s' b, vc_add s v = Ok (s', b) /\
    (b = true <-> exists x, In_range q x /\ aspec ah (c_sup v) x = 0).
Proof.
  intros F E M. destruct (reached _ _ _ _ _ F E) as [V _].
  destruct (add_spec s _ v q V M) as (s' & b & H & _ & _ & Hb & _). eauto.
Qed.

Lemma c11_remove h ah split s outs v q : Forall2 (denotes L) h ah ->
  vcrun spOf base (vc_init split) h = Ok (s, outs) -> made_of L v q -> 0 < dim q ->
  exists s' o, vc_remove s v = Ok (s', o) /\
    (o = None <-> exists x, In_range q x /\ aspec ah (c_sup v) x = 0) /\
    (o = Some true <-> (forall x, In_range q x -> 1 <= aspec ah (c_sup v) x) /\
                       exists x, In_range q x /\ aspec ah (c_sup v) x = 1).
Proof.
  intros F E M D. destruct (reached _ _ _ _ _ F E) as [V _].
  destruct (remove_spec s _ v q V M) as (s' & o & H & _ & _ & _ & Hs & Hn).
  exists s', o. split; [auto|]. assert (P := v_pos _ _ V (c_sup v)). destruct o as [b|].
  - destruct (Hs b eq_refl) as [Ef Hb]. assert (Ef' := proj1 (effective_spec _ _) Ef). split; [split; [discriminate|]|].
    + intros (x & Hx & Z). apply Ef' in Hx. lia.
    + split; [intros X; inversion X; subst; split; [auto|apply Hb; auto]|]. intros [_ X]. f_equal. apply Hb. auto.
  - destruct (Hn eq_refl) as [Ef|[D0 _]]; [|lia]. apply effective_false in Ef as (x & Hx & Z). specialize (P x). split.
    + split; [|auto]. intros _. exists x. split; [auto|lia].
    + split; [discriminate|]. intros [X _]. apply X in Hx. lia.
Qed.

Lemma c11_disjoint h ah split s outs : Forall2 (denotes L) h ah ->
  vcrun spOf base (vc_init split) h = Ok (s, outs) ->
  (isDisjointUnion s = true <-> forall k x, aspec ah k x <= 1).
Proof.
  intros F E. destruct (reached _ _ _ _ _ F E) as [V _]. unfold isDisjointUnion. rewrite forallb_forall. split.
  - intros H k x. destruct (lookup k (count_ s)) as [[t n]|] eqn:El.
    + assert (In (k, (t, n)) (count_ s)).
      { clear - El. induction (count_ s) as [|[j w] l IH]; simpl in *; [discriminate|].
        destruct (Nat.eqb_spec j k); [inversion El; subst; auto|auto]. }
      apply H in H0. cbn [fst snd] in H0. apply (ent_max L k t _ (v_ent _ _ V _ _ _ El)).
      destruct (Z.ltb_spec 1 (src_max t)); [discriminate|lia].
    + rewrite (v_none _ _ V _ El). lia.
  - intros H [k [t n]] Hin. cbn [fst snd].
    assert (El : lookup k (count_ s) = Some (t, n)).
    { generalize (v_key _ _ V). clear - Hin. induction (count_ s) as [|[j w] l IH]; intros K; simpl in *; [contradiction|].
      inversion K as [|? ? K1 K2]; subst. destruct Hin as [X|X].
      - inversion X; subst. rewrite Nat.eqb_refl. auto.
      - rewrite Forall_forall in K2. assert (Y := K2 _ X). simpl in Y. destruct (Nat.eqb_spec j k); [lia|auto]. }
    apply (ent_max L k t _ (v_ent _ _ V _ _ _ El)) in H as H'. 
    destruct (Z.ltb_spec 1 (src_max t)); [lia|auto].
Qed.

(* split mode: right at the first call *)
Lemma notup : forall h s s' outs, (forall o, In o h -> o <> CVariables) -> upToDate_ s = false ->
  vcrun spOf base s h = Ok (s', outs) -> upToDate_ s' = false.
Proof.
  induction h as [|o h IH]; intros s s' outs H U E; cbn [vcrun] in E; [inversion E; subst; auto|].
  destruct (vcstep spOf base s o) as [[s1 x]| |] eqn:E1; cbn [bind] in E; try discriminate.
  destruct (vcrun spOf base s1 h) as [[s2 xs]| |] eqn:E2; cbn [bind] in E; try discriminate. inversion E; subst.
  eapply IH; [| |exact E2]; [intros o' Ho; apply H; right; auto|].
  assert (N := H o (or_introl eq_refl)). destruct o; cbn [vcstep] in E1; [| | |congruence].
  - unfold vc_add in E1. destruct (match lookup _ _ with Some p => p | None => _ end) as [c n].
    destruct (src_add _ _ _) as [[c' ch]| |]; cbn [bind] in E1; inversion E1; subst. simpl. rewrite U. auto.
  - unfold vc_remove in E1. destruct (lookup _ _) as [[c n]|]; cbn [bind] in E1; [|inversion E1; subst; auto].
    destruct (src_remove _ _ _) as [[c' [ch|]]| |]; cbn [bind] in E1; inversion E1; subst; simpl; rewrite ?U; auto.
  - inversion E1; subst. auto.
Qed.

Lemma c11_split_first h ah : Forall2 (denotes L) h ah -> (forall o, In o h -> o <> CVariables) ->
  exists s outs s' vs ps, vcrun spOf base (vc_init true) h = Ok (s, outs) /\
    variables spOf base s = Ok (s', vs) /\ listed L vs ps /\
    (forall k, pieces (of_sup k ps) (fun x => 0 < aspec ah k x)) /\
    (forall k q, In (k, q) ps -> forall x y, In_range q x -> In_range q y -> aspec ah k x = aspec ah k y).
Proof.
  intros F N. destruct (run_spec h ah _ _ (vinv_init true) F) as (s & outs & E & V & Es).
  assert (U0 : upToDate_ s = false) by (eapply notup; [| |exact E]; auto).
  destruct (update_ok s _ V) as (s' & U & V' & Ut & Es' & _ & K).
  destruct (K U0 Es) as (ps & [H1 H2] & H3 & _).
  exists s, outs, s', (variables_ s'), ps. split; [auto|]. split; [unfold variables; rewrite U; auto|].
  split; [auto|]. split; [intros k; apply (H2 k)|]. intros k q Hq. apply (H3 k). apply of_sup_In. auto.
Qed.

(* ---------- with adds only, the pieces refine every added part ---------- *)
Definition marked (s : vc) (k : nat) (i : Z) : Prop :=
  exists t n, lookup k (count_ s) = Some (t, n) /\ posn (limits (mC t)) (om L k i).

Lemma add_marked s c v q s' b : vinv s c -> made_of L v q -> vc_add s v = Ok (s', b) ->
  (forall k i, marked s k i -> marked s' k i) /\
  (0 < dim q -> marked s' (c_sup v) (start q) /\ marked s' (c_sup v) (rend q)).
Proof.
  intros V M. unfold vc_add.
  set (p := match lookup (c_sup v) (count_ s) with Some p => p | None => (src_init, 0) end).
  assert (He : ent L (c_sup v) (fst p) (c (c_sup v))).
  { unfold p. destruct (lookup (c_sup v) (count_ s)) as [[t n]|] eqn:E; simpl.
    - eapply v_ent; eauto.
    - destruct (ent_init L (c_sup v)) as (a & e & d & H1 & H2 & H3 & H4 & H5 & H6 & H7).
      exists a, e, d. split; [auto|]. split; [auto|]. split; [auto|]. split; [auto|]. split; [auto|]. split; [auto|].
      intros x. rewrite H7. symmetry. apply (v_none _ _ V); auto. }
  destruct He as (a & e & d & Ep & Ia & _ & _ & _ & _ & _).
  destruct p as [t n] eqn:Ept. simpl in Ep.
  assert (Hmc : mC t = frc (om L (c_sup v)) a) by (rewrite Ep; auto).
  destruct (src_add t (c_shift v) (c_space v)) as [[t' ch]| |] eqn:Ea; cbn [bind]; try discriminate.
  intros E. inversion E; subst s' b. clear E. cbn [count_].
  unfold src_add in Ea. destruct (add (rC t) _) as [[r' ?]| |]; cbn [bind] in Ea; try discriminate.
  destruct (add (tC t) _) as [[x' ?]| |]; cbn [bind] in Ea; try discriminate.
  destruct (made_ranges L v q M) as (E1 & _). rewrite Hmc, E1, add_fl in Ea by (intros; eapply om_mono; eauto).
  destruct (add a q) as [[a' ch']| |] eqn:Eaq; cbn [bind rmap] in Ea; try discriminate. inversion Ea; subst t' ch. clear Ea.
  assert (P : forall j, posn (limits a) j \/ (0 < dim q /\ (j = start q \/ j = rend q)) -> posn (limits a') j).
  { intros j Hj. destruct (Z.eq_dec (dim q) 0) as [D|D].
    - unfold add in Eaq. rewrite D in Eaq. simpl in Eaq. inversion Eaq; subst. destruct Hj as [?|[? _]]; [auto|lia].
    - assert (0 < dim q) by (destruct M as (_ & M & _); lia). eapply (add_posn a q a' ch'); eauto; [apply Ia|]. tauto. }
  assert (W : forall j, posn (limits a') j -> marked (mkVC (split_ s) (store (c_sup v) (mkSrc (frc (om L (c_sup v)) a') r' x', if ch' then n + 1 else n) (count_ s)) (upToDate_ s && negb ch') (variables_ s) (simple_ s)) (c_sup v) j).
  { intros j Hj. eexists _, _. cbn [count_]. split; [apply lookup_store_same|]. cbn [mC frc limits].
    rewrite (posn_fl L spOf G). auto. }
  split.
  - intros k i (t0 & n0 & Hk & Hi). destruct (Nat.eq_dec k (c_sup v)) as [->|N].
    + apply W, P. left. unfold p in Ept. rewrite Hk in Ept. inversion Ept; subst t0 n0. rewrite Hmc in Hi. cbn [frc limits] in Hi.
      rewrite (posn_fl L spOf G) in Hi. auto.
    + exists t0, n0. cbn [count_]. split; [rewrite lookup_store_other; auto|auto].
  - intros D. split; apply W, P; right; auto.
Qed.

Lemma adds_marked : forall h ah s c s' outs, vinv s c -> Forall2 (denotes L) h ah ->
  (forall o, In o h -> exists v, o = CAdd v) -> vcrun spOf base s h = Ok (s', outs) ->
  (forall k i, marked s k i -> marked s' k i) /\
  (forall k q, In (AAdd k q) ah -> 0 < dim q -> marked s' k (start q) /\ marked s' k (rend q)).
Proof.
  induction h as [|o h IH]; intros ah s c s' outs V F H E; inversion F as [|? a ? ah' D F']; subst; cbn [vcrun] in E.
  - inversion E; subst. split; [auto|]. intros k q [].
  - destruct (H o (or_introl eq_refl)) as [v ->]. destruct a as [k q|k q| |]; try contradiction. destruct D as [<- M].
    cbn [vcstep] in E. destruct (add_spec s c v q V M) as (s1 & b & Ea & V1 & _). rewrite Ea in E. cbn [bind] in E.
    destruct (vcrun spOf base s1 h) as [[s2 xs]| |] eqn:E2; cbn [bind] in E; try discriminate. inversion E; subst.
    destruct (IH ah' s1 _ s' xs V1 F' ltac:(intros; apply H; right; auto) E2) as [I1 I2].
    destruct (add_marked s c v q s1 b V M Ea) as [A1 A2]. split; [auto|].
    intros k r [X|X] Hd; [inversion X; subst; destruct (A2 Hd); auto|auto].
Qed.

Lemma c11_split_refines h ah : Forall2 (denotes L) h ah -> (forall o, In o h -> exists v, o = CAdd v) ->
  exists s outs s' vs ps, vcrun spOf base (vc_init true) h = Ok (s, outs) /\
    variables spOf base s = Ok (s', vs) /\ listed L vs ps /\
    (forall k, pieces (of_sup k ps) (fun x => 0 < aspec ah k x)) /\
    (forall k q p, In (AAdd k q) ah -> In (k, p) ps ->
       (forall x, In_range p x -> In_range q x) \/ (forall x, In_range p x -> ~ In_range q x)).
Proof.
  intros F N. destruct (run_spec h ah _ _ (vinv_init true) F) as (s & outs & E & V & Es).
  assert (U0 : upToDate_ s = false).
  { eapply notup; [| |exact E]; [|auto]. intros o Ho. destruct (N o Ho) as [v ->]. discriminate. }
  destruct (update_ok s _ V) as (s' & U & V' & Ut & Es' & _ & K).
  destruct (K U0 Es) as (ps & [H1 H2] & _ & H3).
  exists s, outs, s', (variables_ s'), ps. split; [auto|]. split; [unfold variables; rewrite U; auto|].
  split; [auto|]. split; [intros k; apply (H2 k)|]. intros k q p Hq Hp.
  destruct (Z_lt_le_dec 0 (dim q)) as [D|D].
  2:{ right. intros x _. unfold In_range. lia. }
  destruct (adds_marked h ah _ _ s outs (vinv_init true) F N E) as [_ A]. destruct (A k q Hq D) as [(t & n & L1 & M1) (t2 & n2 & L2 & M2)].
  rewrite L1 in L2. inversion L2; subst t2 n2. apply of_sup_In in Hp. assert (Ip := proj1 (Forall_forall _ _) (proj1 (proj1 (H2 k))) p Hp). simpl in Ip.
  assert (X1 := H3 k t n L1 p Hp _ M1). assert (X2 := H3 k t n L1 p Hp _ M2). unfold rend in *.
  destruct (Z_le_gt_dec (start q) (start p)), (Z_le_gt_dec (start p + dim p) (start q + dim q)).
  - left. intros x. unfold In_range. lia.
  - right. intros x. unfold In_range. lia.
  - right. intros x. unfold In_range. lia.
  - right. intros x. unfold In_range. lia.
Qed.
End Atoms.
