(* simple(), with adds only: the first added part meeting a part flagged simple is that part. *)
Require Import ZArith List Bool Sorting Lia Arith.
Require Import Verif.Base Verif.RangeModel Verif.RangeCountingModel Verif.RangeCountingSpec.
Require Import Verif.RangeCountingProofs2 Verif.RangeCountingProofs5.
Require Import Verif.SpaceModel Verif.VarCountingModel Verif.VarCountingSpec Verif.VarCountingProofs.
Require Import Verif.VarCountingProofs2 Verif.VarCountingProofs3 Verif.VarCountingProofs4 Verif.VarCountingProofs5.
Import ListNotations.
Local Open Scope Z_scope.
Local Arguments Z.add : simpl never.
Local Arguments Z.sub : simpl never.
Local Arguments Z.of_nat : simpl never.

(* parts added so far *)
Definition adds (ps : list (nat * Range)) : list aop := map (fun p => AAdd (fst p) (snd p)) ps.
Lemma sorted_nodup l : Forall (fun r => 0 < dim r) l -> StronglySorted (fun a b => rend a < start b) l -> NoDup l.
Proof.
  induction l as [|r l IH]; intros F S; constructor; inversion F; subst; inversion S; subst; auto. intros H. rewrite Forall_forall in H4. specialize (H4 r H). unfold rend in H4. lia.
Qed.
Lemma aspec_app a b c : aspec_from c (a ++ b) = aspec_from (aspec_from c a) b.
Proof. revert c. induction a as [|x a IH]; intros c; simpl; auto. Qed.

Section Atoms.
Variables (L : layout) (spOf : nat -> space) (base : nat -> bool).
Hypothesis G : good L spOf.

(* counts of parts *)
Lemma aspec_adds k x : forall ps c, (forall k x, 0 <= c k x) -> (0 < aspec_from c (adds ps) k x <-> 0 < c k x \/ exists q, In (k, q) ps /\ In_range q x).
Proof.
  induction ps as [|[j r] ps IH]; intros c Hc; simpl; [split; [auto|intros [H|(q & [] & _)]; exact H]|].
  assert (Hc' : forall k x, 0 <= aspec_step c (AAdd j r) k x).
  { intros i y. simpl. unfold upd. destruct (Nat.eqb_spec i j); [pose proof (ind_nonneg r y); specialize (Hc j y); lia|auto]. }
  rewrite (IH _ Hc'). simpl. unfold upd. split.
  - intros [H|(q & H1 & H2)]; [|right; eauto]. destruct (Nat.eqb_spec k j) as [->|]; [|left; exact H]. destruct (Z.eq_dec (ind r x) 0); [left; lia|]. right. exists r. split; [left; reflexivity|].
    unfold ind in n. unfold In_range. destruct (_ && _) eqn:E; lia.
  - intros [H|(q & [[= -> ->]|H1] & H2)]; [left|left|right; eauto].
    + destruct (Nat.eqb_spec k j) as [->|]; [pose proof (ind_nonneg r x); lia|exact H].
    + rewrite Nat.eqb_refl, ind_1 by exact H2. specialize (Hc k x). lia.
Qed.

Lemma first_run : forall vs ps s c Q s' outs, vinv L s c -> ainv s c Q -> Forall2 (fun v p => c_sup v = fst p /\ made_of L v (snd p)) vs ps ->
  vcrun spOf base s (map CAdd vs) = Ok (s', outs) ->
  exists Q', vinv L s' (aspec_from c (adds ps)) /\ ainv s' (aspec_from c (adds ps)) Q' /\ (forall k, incl (Q k) (Q' k)) /\
    forall a k q b, ps = a ++ (k, q) :: b -> (exists x, In_range q x /\ aspec_from c (adds a) k x = 0) -> In q (Q' k).
Proof.
  induction vs as [|v vs IH]; intros ps s c Q s' outs V A F E; inversion F as [|? p ? ps' D F']; subst; cbn [map vcrun adds aspec_from] in *.
  - inversion E; subst. exists Q. split; [exact V|]. split; [exact A|]. split; [intros k; apply incl_refl|]. intros a k q b H. destruct a; discriminate.
  - destruct p as [k q]. destruct D as [D M]. simpl in D, M. subst k. cbn [vcstep] in E.
    destruct (add_spec L spOf base G s c v q V M) as (s1 & b & Ea & V1 & _ & Hb & _ & Hnum). 
    rewrite Ea in E. cbn [bind] in E.
    destruct (vcrun spOf base s1 (map CAdd vs)) as [[s2 xs]| |] eqn:E2; cbn [bind] in E; try discriminate. inversion E; subst.
    set (Q1 := if b then (fun k => if Nat.eqb k (c_sup v) then q :: Q k else Q k) else Q).
    assert (Hp := v_pos _ _ _ V).
    assert (A1 : ainv s1 (aspec_step c (AAdd (c_sup v) q)) Q1).
    { constructor.
      - intros k. rewrite Hnum. assert (N := a_num _ _ _ A k). unfold Q1. destruct b.
        + destruct (Nat.eqb_spec k (c_sup v)); [|auto].
          destruct (number k (count_ s)); simpl length; [lia|rewrite N; simpl; lia].
        + destruct (Nat.eqb_spec k (c_sup v)); [|auto].
          destruct (number k (count_ s)); [lia|rewrite N; simpl; lia].
      - intros k r Hr. cbn [aspec_step].
        assert (K : In r (Q k) -> 0 < dim r /\ forall x, In_range r x -> 0 < upd c (c_sup v) (fun x => c (c_sup v) x + ind q x) k x).
        { intros Hi. destruct (a_in _ _ _ A k r Hi) as [D R]. split; [auto|]. intros x Hx. apply R in Hx.
          unfold upd. destruct (Nat.eqb_spec k (c_sup v)); [subst; assert (I := ind_nonneg q x); lia|auto]. }
        unfold Q1 in Hr. destruct b; [|auto]. destruct (Nat.eqb_spec k (c_sup v)); [|auto].
        destruct Hr as [<-|Hr]; [|auto]. destruct (proj1 Hb eq_refl) as (y & Hy & _). split; [unfold In_range in Hy; lia|].
        intros x Hx. subst k. rewrite upd_same. rewrite ind_1 by auto. specialize (Hp (c_sup v) x). lia.
      - intros k x. cbn [aspec_step]. unfold upd. destruct (Nat.eqb_spec k (c_sup v)) as [->|N].
        + intros Hx. destruct (Z.eq_dec (c (c_sup v) x) 0) as [Z|Z].
          * assert (In_range q x). { destruct (Z.eq_dec (ind q x) 0); [lia|]. unfold ind in *. unfold In_range. destruct (_ && _) eqn:E'; lia. }
            assert (b = true) as -> by (apply Hb; eauto). exists q. split; [|auto]. unfold Q1. rewrite Nat.eqb_refl. left; auto.
          * destruct (a_cov _ _ _ A (c_sup v) x) as (r & Hr & Hi); [specialize (Hp (c_sup v) x); lia|].
            exists r. split; [|auto]. unfold Q1. destruct b; [rewrite Nat.eqb_refl; right; auto|auto].
        + intros Hx. destruct (a_cov _ _ _ A k x Hx) as (r & Hr & Hi). exists r. split; [|auto]. unfold Q1.
          destruct b; [destruct (Nat.eqb_spec k (c_sup v)); [contradiction|auto]|auto]. }
    destruct (IH ps' s1 _ Q1 s' xs V1 A1 F' E2) as (Q' & V' & A' & I' & HQ).
    exists Q'. split; [exact V'|]. split; [exact A'|]. split.
    + intros k r Hr. apply I'. unfold Q1. destruct b; [destruct (Nat.eqb k (c_sup v)); [right; exact Hr|exact Hr]|exact Hr].
    + intros a k r l Hl (x & Hx & Cx). destruct a as [|[k1 q1] a]; simpl in Hl; inversion Hl; subst.
      * simpl in Cx. apply I'. unfold Q1. assert (b = true) as -> by (apply Hb; exists x; auto). rewrite Nat.eqb_refl. left. reflexivity.
      * eapply HQ; [reflexivity|]. exists x. split; [exact Hx|exact Cx].
Qed.

Lemma simple_first vs qs : Forall2 (fun v p => c_sup v = fst p /\ made_of L v (snd p)) vs qs ->
  exists s outs s1 ws s2 fl ps, vcrun spOf base (vc_init false) (map CAdd vs) = Ok (s, outs) /\
    variables spOf base s = Ok (s1, ws) /\ simple spOf base s1 = Ok (s2, fl) /\ length fl = length ws /\ listed L ws ps /\
    (forall k, canonical (of_sup k ps) (fun x => exists q, In (k, q) qs /\ In_range q x)) /\
    forall i p, nth_error ps i = Some p -> nth_error fl i = Some true ->
      forall a q b, qs = a ++ (fst p, q) :: b -> (exists x, In_range q x /\ In_range (snd p) x) -> q = snd p \/ In p a.
Proof.
  intros F.
  assert (F' : Forall2 (denotes L) (map CAdd vs) (adds qs)). { clear -F. induction F; simpl; constructor; auto. }
  destruct (run_spec L spOf base G _ _ _ _ (vinv_init L false) F') as (s & outs & E & V & Es).
  destruct (first_run vs qs _ _ (fun _ => []) s outs (vinv_init L false)) as (Q & _ & A & _ & HQ); auto.
  { constructor; simpl; auto; [intros k q []|intros; lia]. }
  destruct (update_ok L spOf base G s _ V) as (s' & U & V' & Ut & Es' & Hn & _).
  destruct (v_up _ _ _ V' Ut) as (ps & [[H1 H0] H2] & H3).
  exists s, outs, s', (variables_ s'), s', (simple_ s'), ps. split; [auto|]. split; [unfold variables; rewrite U; auto|].
  split; [unfold simple; rewrite Es', Es; unfold update; rewrite Ut; reflexivity|].
  assert (Len : length (simple_ s') = length (variables_ s')).
  { rewrite H3, map_length. clear - H1. induction H1; simpl; auto. }
  split; [auto|]. split; [split; auto|].
  assert (Cn : forall k, canonical (of_sup k ps) (fun x => exists q, In (k, q) qs /\ In_range q x)).
  { intros k. destruct (H2 k) as [_ C]. rewrite Es' in C. specialize (C Es). eapply canonical_ext; [|exact C]. intros x. simpl. rewrite aspec_adds by (intros; lia). split; [intros [H|H]; [lia|exact H]|auto]. }
  split; [exact Cn|].
  intros i p Hp Hf. rewrite H3 in Hf. rewrite (map_nth_error _ _ _ Hp) in Hf. inversion Hf as [Hfl]. clear Hf.
  unfold flag in Hfl. rewrite Hn in Hfl.
  assert (An := a_num _ _ _ A (fst p)). destruct (number (fst p) (count_ s)) as [n|]; [|discriminate].
  apply Z.eqb_eq in Hfl. destruct (H2 (fst p)) as [_ C]. rewrite Es' in C. specialize (C Es).
  destruct (pig _ _ (Q (fst p)) C) as [_ K]; [apply A|apply A|].
  assert (Hlen : length (Q (fst p)) = length (of_sup (fst p) ps)) by (apply Nat2Z.inj; congruence).
  specialize (K Hlen).
  assert (Inc : incl (Q (fst p)) (of_sup (fst p) ps)).
  { apply NoDup_length_incl; [|lia|exact K]. destruct C as (C1 & C2 & _). apply sorted_nodup; auto. }
  intros a. induction a as [a IH] using (well_founded_induction (Wf_nat.well_founded_ltof _ (@length _))).
  intros q b Hq (x & Xq & Xp).
  destruct (Z_lt_le_dec 0 (aspec_from (fun _ _ => 0) (adds a) (fst p) x)) as [Hc|Hc].
  - apply aspec_adds in Hc; [|intros; lia]. destruct Hc as [Hc|(q' & Hq' & Xq')]; [lia|].
    apply in_split in Hq'. destruct Hq' as (a1 & a2 & ->). right.
    destruct (IH a1) with (q := q') (b := a2 ++ (fst p, q) :: b) as [Hr|Hr].
    + unfold Wf_nat.ltof. rewrite app_length. simpl. lia.
    + rewrite Hq, <- app_assoc. reflexivity.
    + eauto.
    + subst q'. apply in_or_app. right. left. destruct p; reflexivity.
    + apply in_or_app. left. exact Hr.
  - assert (Iq : In q (Q (fst p))).
    { eapply HQ; [exact Hq|]. exists x. split; [exact Xq|]. assert (0 <= aspec_from (fun _ _ => 0) (adds a) (fst p) x); [|lia].
      clear. assert (W : forall k y, 0 <= (fun (_ : nat) (_ : Z) => 0) k y) by (intros; lia). revert W. generalize (fun (_ : nat) (_ : Z) => 0). induction a as [|[j r] a IH]; intros c W; simpl; [auto|]. apply IH.
      intros k y. unfold upd. destruct (Nat.eqb_spec k j); [pose proof (ind_nonneg r y); specialize (W j y); lia|auto]. }
    left. apply Inc in Iq. assert (Ip : In (snd p) (of_sup (fst p) ps)) by (apply of_sup_In; apply nth_error_In in Hp; destruct p; auto).
    destruct C as (_ & C2 & _). clear -C2 Iq Ip Xq Xp. induction C2 as [|r l S IHl Fo]; [destruct Iq|]. rewrite Forall_forall in Fo.
    destruct Iq as [<-|Iq], Ip as [Ip|Ip]; auto.
    + specialize (Fo _ Ip). unfold In_range, rend in *. lia.
    + subst r. specialize (Fo _ Iq). unfold In_range, rend in *. lia.
Qed.
End Atoms.
