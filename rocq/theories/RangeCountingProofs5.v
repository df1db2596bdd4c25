Require Import ZArith List Bool Sorting Lia.
Require Import Verif.Base Verif.RangeModel Verif.RangeCountingModel Verif.RangeCountingSpec.
Require Import Verif.RangeCountingProofs Verif.RangeCountingProofs2 Verif.RangeCountingProofs3 Verif.RangeCountingProofs4.
Import ListNotations.
Local Open Scope Z_scope.

(* ---------- canonical lists are unique ---------- *)
Lemma canonical_ext l P Q : (forall x, P x <-> Q x) -> canonical l P -> canonical l Q.
Proof. intros H (A & B & C). repeat split; auto; intros; [apply C, H|apply H, C]; auto. Qed.

Lemma canonical_tail r l P : canonical (r :: l) P -> canonical l (fun x => P x /\ rend r < x) /\
  (forall x, P x -> ~ In_range r x -> rend r < x) /\ (forall x, P x -> start r <= x).
Proof.
  intros (A & B & C). inversion A as [|? ? A1 A2]; subst. inversion B as [|? ? B1 B2]; subst.
  rewrite Forall_forall in B2.
  assert (K : forall x q, In q l -> In_range q x -> rend r < x).
  { intros x q Hq Hx. apply B2 in Hq. unfold In_range in Hx. lia. }
  split; [split; [auto|split; [auto|]]|split].
  - intros x. split.
    + intros [Hx Hr]. apply C in Hx as (q & [<-|Hq] & Hx); [unfold In_range, rend in *; lia|eauto].
    + intros (q & Hq & Hx). split; [apply C; exists q; simpl; auto|eauto].
  - intros x Hx Hn. apply C in Hx as (q & [<-|Hq] & Hx); [tauto|eauto].
  - intros x Hx. apply C in Hx as (q & [<-|Hq] & Hx); [unfold In_range in Hx; lia|].
    specialize (K x q Hq Hx). unfold rend in K. lia.
Qed.

Lemma range_ext a b : start a = start b -> dim a = dim b -> a = b.
Proof. destruct a, b; simpl; intros; subst; auto. Qed.

Lemma canonical_unique : forall l l' P, canonical l P -> canonical l' P -> l = l'.
Proof.
  induction l as [|r l IH]; intros [|r' l'] P C C'; auto.
  - destruct C as (_ & _ & C). destruct C' as (A' & _ & C'). inversion A'; subst.
    assert (P (start r')) by (apply C'; exists r'; split; [left; auto|unfold In_range; lia]).
    apply C in H as (q & [] & _).
  - destruct C' as (_ & _ & C'). destruct C as (A & _ & C). inversion A; subst.
    assert (P (start r)) by (apply C; exists r; split; [left; auto|unfold In_range; lia]).
    apply C' in H as (q & [] & _).
  - destruct (canonical_tail _ _ _ C) as (T & Tn & Ts). destruct (canonical_tail _ _ _ C') as (T' & Tn' & Ts').
    destruct C as (A & B & C). destruct C' as (A' & B' & C').
    inversion A; subst. inversion A'; subst.
    assert (In1 : forall x, In_range r x -> P x) by (intros x Hx; apply C; exists r; split; [left|]; auto).
    assert (In2 : forall x, In_range r' x -> P x) by (intros x Hx; apply C'; exists r'; split; [left|]; auto).
    assert (S : start r = start r').
    { assert (P (start r)) by (apply In1; unfold In_range; lia).
      assert (P (start r')) by (apply In2; unfold In_range; lia).
      apply Ts in H0. apply Ts' in H. lia. }
    assert (D : forall u v, start u = start v -> 0 < dim u -> 0 < dim v ->
      (forall x, In_range u x -> P x) -> (forall x, P x -> ~ In_range v x -> rend v < x) ->
      dim u <= dim v).
    { intros u v E Hu Hv Hin Ht. assert (dim u <= dim v \/ dim v < dim u) as [|Hlt] by lia; auto.
      assert (P (rend v)) by (apply Hin; unfold In_range, rend; lia).
      apply Ht in H; [lia|]. unfold In_range, rend; lia. }
    assert (Hd : dim r = dim r').
    { apply Z.le_antisymm; [apply (D r r')|apply (D r' r)]; auto. }
    assert (r = r') by (apply range_ext; auto). subst r'. f_equal. eapply IH; eauto.
Qed.

(* ---------- histories ---------- *)
Definition inv (st : rc) : Prop := wf (limits st) /\ fresh st.

Lemma inv_init : inv rc_init.
Proof. split; [apply wf_nil|]. intros _ _. auto. Qed.

Lemma add_inv st r : inv st -> 0 <= dim r ->
  exists st' b, add st r = Ok (st', b) /\ inv st' /\
    (forall x, cnt (limits st') x = cnt (limits st) x + ind r x) /\
    (b = true <-> exists x, In_range r x /\ cnt (limits st) x = 0).
Proof.
  intros [W F] Hd. destruct (add_ok st r W Hd) as (st' & b & E & W' & Hc & Hb & Hn & Hz).
  exists st', b. split; [auto|]. split; [split; [auto|]|auto].
  destruct (Z.eq_dec (dim r) 0) as [E0|E0]; [rewrite Hz by auto; auto|].
  intros _ H. rewrite Hn in H by auto. discriminate.
Qed.

Lemma remove_inv st r : inv st -> 0 <= dim r -> effective (cnt (limits st)) r = true ->
  exists st' b, remove st r = Ok (st', b) /\ inv st' /\
    (forall x, cnt (limits st') x = cnt (limits st) x - ind r x) /\
    (b = true <-> exists x, In_range r x /\ cnt (limits st) x = 1).
Proof.
  intros [W F] Hd He. destruct (proj2 (remove_ok st r W Hd) He) as (st' & b & E & W' & Hc & Hb & Hn & Hz).
  exists st', b. split; [auto|]. split; [split; [auto|]|auto].
  destruct (Z.eq_dec (dim r) 0) as [E0|E0]; [rewrite Hz by auto; auto|].
  intros _ H. rewrite Hn in H by auto. discriminate.
Qed.

Lemma removeFail_inv st r : inv st -> inv (removeFail st r) /\ limits (removeFail st r) = limits st.
Proof.
  intros I. unfold removeFail. destruct (limits st) as [|f l] eqn:E; [auto|].
  destruct (_ || _); [auto|]. rewrite <- E. clear E f l. destruct I as [W F].
  split; [split; [exact W|]|reflexivity]. intros _ H. discriminate.
Qed.

Lemma effective_ext c c' r : (forall x, c x = c' x) -> effective c r = effective c' r.
Proof. intros H. unfold effective. induction (ints r) as [|y l IH]; simpl; [auto|]. rewrite H, IH. auto. Qed.

Lemma step_ok st o c : inv st -> valid_op o -> (forall x, cnt (limits st) x = c x) ->
  exists st' x, step st o = Ok (st', x) /\ inv st' /\ (forall x, cnt (limits st') x = spec_step c o x).
Proof.
  intros I V Hc. destruct o as [r|r|b|]; simpl in *.
  - destruct (add_inv st r I V) as (st' & b & -> & I' & H & _). simpl. eexists _, _. split; [reflexivity|].
    split; [auto|]. intros x. rewrite H, Hc. auto.
  - rewrite <- (effective_ext _ _ r Hc). destruct (effective (cnt (limits st)) r) eqn:E.
    + destruct (remove_inv st r I V E) as (st' & b & -> & I' & H & _). eexists _, _. split; [reflexivity|].
      split; [auto|]. intros x. rewrite H, Hc. auto.
    + rewrite (proj1 (remove_ok st r (proj1 I) V) E). destruct (removeFail_inv st r I) as [I' L].
      eexists _, _. split; [reflexivity|]. split; [auto|]. intros x. rewrite L. auto.
  - destruct b.
    + destruct (ranges_true_ok st (proj1 I) (proj2 I)) as (st' & out & -> & L & F & _). simpl.
      eexists _, _. split; [reflexivity|]. split; [split; [rewrite L; apply I|auto]|]. intros; rewrite L; auto.
    + destruct (ranges_false_ok st (proj1 I) (proj2 I)) as (st' & out & -> & L & F & _). simpl.
      eexists _, _. split; [reflexivity|]. split; [split; [rewrite L; apply I|auto]|]. intros; rewrite L; auto.
  - eexists _, _. split; [reflexivity|]. split; auto.
Qed.

Lemma run_from : forall h st c, inv st -> Forall valid_op h -> (forall x, cnt (limits st) x = c x) ->
  exists st' outs, run st h = Ok (st', outs) /\ inv st' /\ (forall x, cnt (limits st') x = spec_from c h x).
Proof.
  induction h as [|o h IH]; intros st c I V Hc; simpl.
  - eexists _, _. split; [reflexivity|]. auto.
  - inversion V; subst. destruct (step_ok st o c I H1 Hc) as (st' & x & -> & I' & Hc'). simpl.
    destruct (IH st' _ I' H2 Hc') as (st2 & outs & -> & I2 & Hc2). simpl.
    eexists _, _. split; [reflexivity|]. auto.
Qed.

Lemma run_total h : Forall valid_op h ->
  exists st outs, run rc_init h = Ok (st, outs) /\ inv st /\ (forall x, cnt (limits st) x = spec_count h x).
Proof. intros V. apply run_from; auto using inv_init. Qed.

Lemma reach_inv h st outs : Forall valid_op h -> run rc_init h = Ok (st, outs) ->
  inv st /\ (forall x, cnt (limits st) x = spec_count h x).
Proof. intros V E. destruct (run_total h V) as (st' & o' & E' & I & Hc). rewrite E in E'. inversion E'; subst. auto. Qed.

(* ---------- the properties ---------- *)
Lemma c01 h : Forall valid_op h ->
  exists st outs st' l, run rc_init h = Ok (st, outs) /\ ranges st false = Ok (st', l) /\
    canonical l (fun x => 0 < spec_count h x).
Proof.
  intros V. destruct (run_total h V) as (st & outs & E & I & Hc).
  destruct (ranges_false_ok st (proj1 I) (proj2 I)) as (st' & out & E' & L & F & C).
  exists st, outs, st', out. split; [auto|]. split; [auto|].
  eapply canonical_ext; [|exact C]. intros x. simpl. rewrite Hc. tauto.
Qed.

Lemma c02_add h st outs r : Forall valid_op h -> run rc_init h = Ok (st, outs) -> 0 <= dim r ->
  exists st' b s1 l1 s2 l2, add st r = Ok (st', b) /\
    ranges st false = Ok (s1, l1) /\ ranges st' false = Ok (s2, l2) /\ (b = true <-> l1 <> l2).
Proof.
  intros V E Hd. destruct (reach_inv _ _ _ V E) as [I Hc].
  destruct (add_inv st r I Hd) as (st' & b & Ea & I' & Hc' & Hb).
  destruct (ranges_false_ok st (proj1 I) (proj2 I)) as (s1 & l1 & E1 & _ & _ & C1).
  destruct (ranges_false_ok st' (proj1 I') (proj2 I')) as (s2 & l2 & E2 & _ & _ & C2).
  exists st', b, s1, l1, s2, l2. split; [auto|]. split; [auto|]. split; [auto|].
  pose proof (wf_pos _ (proj1 I)) as HP.
  rewrite Hb. split.
  - intros (x & Hx & H0) ->. destruct C1 as (_ & _ & C1). destruct C2 as (_ & _ & C2).
    assert (0 < cnt (limits st') x) by (rewrite Hc', ind_1 by auto; lia).
    apply C2, C1 in H. lia.
  - intros Hne. destruct (effective (cnt (limits st)) r) eqn:Ef.
    + exfalso. apply Hne. eapply canonical_unique; [exact C1|]. eapply canonical_ext; [|exact C2].
      intros x. simpl. rewrite Hc'. rewrite effective_spec in Ef.
      assert (In_range r x \/ ~ In_range r x) as [Hx|Hx] by (unfold In_range; lia).
      * specialize (Ef x Hx). rewrite ind_1 by auto. lia.
      * rewrite ind_0 by auto. lia.
    + apply effective_false in Ef as (x & Hx & H0). exists x. split; auto. specialize (HP x). lia.
Qed.

Lemma c02_remove h st outs r st' b : Forall valid_op h -> run rc_init h = Ok (st, outs) -> 0 <= dim r ->
  remove st r = Ok (st', b) ->
  exists s1 l1 s2 l2,
    ranges st false = Ok (s1, l1) /\ ranges st' false = Ok (s2, l2) /\ (b = true <-> l1 <> l2).
Proof.
  intros V E Hd Er. destruct (reach_inv _ _ _ V E) as [I Hc].
  destruct (effective (cnt (limits st)) r) eqn:Ef.
  2:{ rewrite (proj1 (remove_ok st r (proj1 I) Hd) Ef) in Er. discriminate. }
  destruct (remove_inv st r I Hd Ef) as (st2 & b2 & Ea & I' & Hc' & Hb). rewrite Er in Ea. inversion Ea; subst st2 b2.
  destruct (ranges_false_ok st (proj1 I) (proj2 I)) as (s1 & l1 & E1 & _ & _ & C1).
  destruct (ranges_false_ok st' (proj1 I') (proj2 I')) as (s2 & l2 & E2 & _ & _ & C2).
  exists s1, l1, s2, l2. split; [auto|]. split; [auto|].
  rewrite effective_spec in Ef. rewrite Hb. split.
  - intros (x & Hx & H0) ->. destruct C1 as (_ & _ & C1). destruct C2 as (_ & _ & C2).
    assert (0 < cnt (limits st) x) by lia.
    apply C1, C2 in H. rewrite Hc', ind_1 in H by auto. lia.
  - intros Hne. destruct (existsb (fun x => cnt (limits st) x =? 1) (ints r)) eqn:Ex.
    + apply existsb_exists in Ex as (x & Hx & H0). apply Z.eqb_eq in H0. apply in_ints in Hx. eauto.
    + exfalso. apply Hne. eapply canonical_unique; [exact C1|]. eapply canonical_ext; [|exact C2].
      intros x. simpl. rewrite Hc'.
      assert (In_range r x \/ ~ In_range r x) as [Hx|Hx] by (unfold In_range; lia).
      * pose proof (Ef x Hx). rewrite ind_1 by auto.
        assert (cnt (limits st) x <> 1); [|lia]. intros H1. apply not_true_iff_false in Ex. apply Ex.
        apply existsb_exists. exists x. split; [apply in_ints; auto|apply Z.eqb_eq; auto].
      * rewrite ind_0 by auto. lia.
Qed.

Lemma ranges_det a b split : fresh a -> fresh b -> limits a = limits b ->
  forall s l, ranges a split = Ok (s, l) -> exists s', ranges b split = Ok (s', l).
Proof.
  intros Fa Fb L s l. unfold ranges.
  destruct (limits a) as [|x q] eqn:E.
  - assert (Ha : forall s l, (if negb (recompute_ a) && negb (recomputeSplit_ a) then Ok (a, intervals_ a) else Ok (mkRC [] false false [], [])) = Ok (s, l) -> l = []).
    { intros s0 l0. destruct (recompute_ a) eqn:E1, (recomputeSplit_ a) eqn:E2; simpl; intros H; inversion H; auto.
      subst s0. now apply Fa. }
    intros H. apply Ha in H. subst l. rewrite <- L.
    destruct (recompute_ b) eqn:E1, (recomputeSplit_ b) eqn:E2; simpl; eauto.
    destruct (Fb E1 E2) as [_ ->]. eauto.
  - rewrite <- L.
    assert (Ha : negb (recompute_ a) && negb (recomputeSplit_ a) = false).
    { destruct (recompute_ a) eqn:E1, (recomputeSplit_ a) eqn:E2; auto. destruct (Fa E1 E2). congruence. }
    assert (Hb : negb (recompute_ b) && negb (recomputeSplit_ b) = false).
    { destruct (recompute_ b) eqn:E1, (recomputeSplit_ b) eqn:E2; auto. destruct (Fb E1 E2). congruence. }
    rewrite Ha, Hb. intros ->. eauto.
Qed.

Lemma c03 h st outs r : Forall valid_op h -> run rc_init h = Ok (st, outs) -> 0 <= dim r ->
  ((exists st' b, remove st r = Ok (st', b)) <-> (forall x, In_range r x -> 1 <= spec_count h x)) /\
  (~ (forall x, In_range r x -> 1 <= spec_count h x) ->
    exists stf, step st (ORemove r) = Ok (stf, OutThrow) /\
      limits stf = limits st /\ maxCount stf = maxCount st /\
      forall split s l, ranges st split = Ok (s, l) -> exists s', ranges stf split = Ok (s', l)).
Proof.
  intros V E Hd. destruct (reach_inv _ _ _ V E) as [I Hc].
  assert (He : effective (cnt (limits st)) r = true <-> (forall x, In_range r x -> 1 <= spec_count h x)).
  { rewrite effective_spec. split; intros H x Hx; [rewrite <- Hc|rewrite Hc]; auto. }
  split.
  - rewrite <- He. split.
    + intros (st' & b & Er). destruct (effective (cnt (limits st)) r) eqn:Ef; auto.
      rewrite (proj1 (remove_ok st r (proj1 I) Hd) Ef) in Er. discriminate.
    + intros Ef. destruct (remove_inv st r I Hd Ef) as (st' & b & Er & _). eauto.
  - rewrite <- He. intros Hn. apply not_true_is_false in Hn.
    exists (removeFail st r). destruct (removeFail_inv st r I) as [I' L].
    simpl. rewrite (proj1 (remove_ok st r (proj1 I) Hd) Hn).
    split; [reflexivity|]. split; [auto|]. split; [unfold maxCount; rewrite L; auto|].
    intros split s l. apply ranges_det; [apply I|apply I'|auto].
Qed.

Lemma c04 h : Forall valid_op h ->
  exists st outs st' l, run rc_init h = Ok (st, outs) /\ ranges st true = Ok (st', l) /\
    pieces l (fun x => 0 < spec_count h x) /\
    (forall r, In r l -> forall x y, In_range r x -> In_range r y -> spec_count h x = spec_count h y).
Proof.
  intros V. destruct (run_total h V) as (st & outs & E & I & Hc).
  destruct (ranges_true_ok st (proj1 I) (proj2 I)) as (st' & out & E' & L & F & (C1 & C2 & C3) & K).
  exists st, outs, st', out. split; [auto|]. split; [auto|]. split.
  - split; [auto|]. split; [auto|]. intros x. rewrite <- Hc. auto.
  - intros r Hr x y Hx Hy. rewrite <- !Hc. eapply K; eauto.
Qed.

Lemma c04_cache h1 h2 st1 st2 o1 o2 : Forall valid_op h1 -> Forall valid_op h2 ->
  run rc_init h1 = Ok (st1, o1) -> run rc_init h2 = Ok (st2, o2) -> limits st1 = limits st2 ->
  forall split s l, ranges st1 split = Ok (s, l) -> exists s', ranges st2 split = Ok (s', l).
Proof.
  intros V1 V2 E1 E2 L split s l. destruct (reach_inv _ _ _ V1 E1) as [I1 _]. destruct (reach_inv _ _ _ V2 E2) as [I2 _].
  apply ranges_det; [apply I1|apply I2|auto].
Qed.

Lemma c05 h : Forall valid_op h ->
  exists st outs, run rc_init h = Ok (st, outs) /\
    (forall x, spec_count h x <= maxCount st) /\ (exists x, spec_count h x = maxCount st) /\ isValid st = true.
Proof.
  intros V. destruct (run_total h V) as (st & outs & E & I & Hc).
  destruct (maxCount_ok st (proj1 I)) as [H1 [x H2]].
  exists st, outs. split; [auto|]. split; [intros y; rewrite <- Hc; auto|]. split; [exists x; rewrite <- Hc; auto|].
  apply isValid_ok, I.
Qed.

Lemma run_app : forall h1 h2 st,
  run st (h1 ++ h2) = match run st h1 with
                      | Ok (s, o) => match run s h2 with Ok (s', o') => Ok (s', o ++ o') | Throw => Throw | UB => UB end
                      | Throw => Throw | UB => UB end.
Proof.
  induction h1 as [|x h1 IH]; intros h2 st; simpl.
  - destruct (run st h2) as [[s o]| |]; auto.
  - destruct (step st x) as [[s o]| |]; simpl; auto. rewrite IH.
    destruct (run s h1) as [[s1 o1]| |]; simpl; auto.
    destruct (run s1 h2) as [[s2 o2]| |]; simpl; auto.
Qed.
