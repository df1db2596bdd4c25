(* simple(): with adds only, a part flagged simple is one of the added parts. *)
Require Import ZArith List Bool Sorting Lia Arith.
Require Import Verif.Base Verif.RangeModel Verif.RangeCountingModel Verif.RangeCountingSpec.
Require Import Verif.RangeCountingProofs2 Verif.RangeCountingProofs5.
Require Import Verif.SpaceModel Verif.VarCountingModel Verif.VarCountingSpec Verif.VarCountingProofs.
Require Import Verif.VarCountingProofs2 Verif.VarCountingProofs3 Verif.VarCountingProofs4.
Import ListNotations.
Local Open Scope Z_scope.
Local Arguments Z.add : simpl never.
Local Arguments Z.sub : simpl never.
Local Arguments Z.opp : simpl never.
Local Arguments Z.leb : simpl never.
Local Arguments Z.ltb : simpl never.
Local Arguments Z.eqb : simpl never.
Local Arguments Z.of_nat : simpl never.

Definition insideb (r q : Range) : bool := (start r <=? start q) && (rend q <=? rend r).

Lemma filter_count {A} (f : A -> bool) : forall l, (length (filter f l) + length (filter (fun x => negb (f x)) l) = length l)%nat.
Proof. induction l as [|x l IH]; simpl; [auto|]. destruct (f x); simpl; lia. Qed.

Lemma pig : forall l P Q, canonical l P ->
  (forall q, In q Q -> 0 < dim q /\ forall x, In_range q x -> P x) ->
  (forall x, P x -> exists q, In q Q /\ In_range q x) ->
  (length l <= length Q)%nat /\ (length Q = length l -> forall r, In r l -> In r Q).
Proof.
  induction l as [|r l IH]; intros P Q C HQ HP; [simpl; split; [lia|contradiction]|].
  destruct (canonical_tail _ _ _ C) as (T & Tn & Ts).
  assert (Dr : 0 < dim r) by (destruct C as (A & _ & _); inversion A; auto).
  assert (Pr : forall x, In_range r x -> P x) by (intros x Hx; apply C; exists r; simpl; auto).
  set (Q1 := filter (insideb r) Q). set (Q2 := filter (fun q => negb (insideb r q)) Q).
  assert (H2 : forall q, In q Q2 -> rend r < start q).
  { intros q Hq. apply filter_In in Hq as [Hq Hn]. destruct (HQ q Hq) as [Dq Pq].
    assert (Ps : P (start q)) by (apply Pq; unfold In_range; lia).
    destruct (Z_lt_le_dec (rend r) (start q)) as [|Hle]; [auto|exfalso].
    assert (Hr : In_range r (start q)).
    { apply Ts in Ps as Ps1. destruct (Z_lt_le_dec (start q) (rend r)); [unfold In_range, rend in *; lia|].
      assert (rend r < start q); [|lia]. apply Tn; [auto|]. unfold In_range, rend in *. lia. }
    assert (Hin : rend r < rend q).
    { unfold insideb in Hn. unfold In_range, rend in *. destruct (Z.leb_spec (start r) (start q)), (Z.leb_spec (start q + dim q) (start r + dim r)); simpl in Hn; try discriminate; lia. }
    assert (P (rend r)) by (apply Pq; unfold In_range, rend in *; lia).
    apply Tn in H; [lia|]. unfold In_range, rend. lia. }
  assert (HQ2 : forall q, In q Q2 -> 0 < dim q /\ forall x, In_range q x -> P x /\ rend r < x).
  { intros q Hq. assert (Hs := H2 q Hq). apply filter_In in Hq as [Hq _]. destruct (HQ q Hq) as [Dq Pq].
    split; [auto|]. intros x Hx. split; [auto|]. unfold In_range in Hx. lia. }
  assert (HP2 : forall x, P x /\ rend r < x -> exists q, In q Q2 /\ In_range q x).
  { intros x [Hx Hr]. destruct (HP x Hx) as (q & Hq & Hi). exists q. split; [|auto]. apply filter_In. split; [auto|].
    unfold insideb. unfold In_range in Hi. unfold rend in *.
    destruct (Z.leb_spec (start r) (start q)), (Z.leb_spec (start q + dim q) (start r + dim r)); auto; lia. }
  destruct (IH _ Q2 T HQ2 HP2) as [I1 I2].
  assert (Cov : forall x, In_range r x -> exists q, In q Q1 /\ In_range q x).
  { intros x Hx. destruct (HP x (Pr x Hx)) as (q & Hq & Hi). exists q. split; [|auto]. apply filter_In. split; [auto|].
    destruct (insideb r q) eqn:Eb; [auto|exfalso].
    assert (In q Q2) by (apply filter_In; rewrite Eb; auto). apply H2 in H. unfold In_range, rend in *. lia. }
  assert (N1 : (1 <= length Q1)%nat).
  { destruct (Cov (start r)) as (q & Hq & _); [unfold In_range; lia|]. destruct Q1; [destruct Hq|simpl; lia]. }
  assert (N := filter_count (insideb r) Q). fold Q1 Q2 in N. split; [simpl; lia|].
  intros E r' [<-|Hr'].
  - simpl in E. destruct Q1 as [|q [|q' t]] eqn:E1; simpl in *; try lia.
    assert (In q Q1) by (rewrite E1; simpl; auto). apply filter_In in H as [Hq Hi].
    destruct (Cov (start r)) as (z & [<-|[]] & Z1); [unfold In_range; lia|].
    destruct (Cov (rend r - 1)) as (z & [<-|[]] & Z2); [unfold In_range, rend; lia|].
    assert (r = q) as ->; [|auto]. unfold insideb in Hi. apply andb_prop in Hi as [Hi1 Hi2].
    unfold In_range, rend in *. apply range_ext; lia.
  - assert (In r' Q2) by (apply I2; [simpl in E; lia|auto]). apply filter_In in H. tauto.
Qed.

Section Atoms.
Variables (L : layout) (spOf : nat -> space) (base : nat -> bool).
Hypothesis G : good L spOf.

Record ainv (s : vc) (c : nat -> Z -> Z) (Q : nat -> list Range) : Prop := {
  a_num : forall k, match number k (count_ s) with Some n => n = Z.of_nat (length (Q k)) | None => Q k = [] end;
  a_in : forall k q, In q (Q k) -> 0 < dim q /\ forall x, In_range q x -> 0 < c k x;
  a_cov : forall k x, 0 < c k x -> exists q, In q (Q k) /\ In_range q x }.

Lemma ainv_run : forall h ah s c Q s' outs, vinv L s c -> ainv s c Q -> Forall2 (denotes L) h ah ->
  (forall o, In o h -> (exists v, o = CAdd v) \/ o = CVariables) -> vcrun spOf base s h = Ok (s', outs) ->
  exists Q', vinv L s' (aspec_from c ah) /\ ainv s' (aspec_from c ah) Q' /\
    forall k q, In q (Q' k) -> In q (Q k) \/ In (AAdd k q) ah.
Proof.
  induction h as [|o h IH]; intros ah s c Q s' outs V A F H E; inversion F as [|? a ? ah' D F']; subst;
    cbn [vcrun aspec_from] in *.
  - inversion E; subst. exists Q. auto.
  - destruct (H o (or_introl eq_refl)) as [[v ->] | ->].
    + destruct a as [k q|k q| |]; try contradiction. destruct D as [<- M]. cbn [vcstep] in E.
      destruct (add_spec L spOf base G s c v q V M) as (s1 & b & Ea & V1 & _ & Hb & _ & Hnum). rewrite Ea in E. cbn [bind] in E.
      destruct (vcrun spOf base s1 h) as [[s2 xs]| |] eqn:E2; cbn [bind] in E; try discriminate. inversion E; subst.
      set (Q1 := if b then (fun k => if Nat.eqb k (c_sup v) then q :: Q k else Q k) else Q).
      assert (Hp := v_pos _ _ _ V).
      assert (A1 : ainv s1 (aspec_step c (AAdd (c_sup v) q)) Q1).
      { constructor.
        - intros k. rewrite Hnum. assert (N := a_num _ _ _ A k). unfold Q1. destruct b.
          + destruct (Nat.eqb_spec k (c_sup v)); [|auto].
            destruct (number k (count_ s)); simpl length; [lia|rewrite N; simpl; lia].
          + destruct (Nat.eqb_spec k (c_sup v)); [|auto].
            destruct (number k (count_ s)); [lia|rewrite N; simpl; lia].
        - intros k r Hr. cbn [aspec_step].
          assert (K : In r (Q k) -> 0 < dim r /\ forall x, In_range r x -> 0 < upd c (c_sup v) (fun x => c (c_sup v) x + ind q x) k x).
          { intros Hi. destruct (a_in _ _ _ A k r Hi) as [D R]. split; [auto|]. intros x Hx. apply R in Hx.
            unfold upd. destruct (Nat.eqb_spec k (c_sup v)); [subst; assert (I := ind_nonneg q x); lia|auto]. }
          unfold Q1 in Hr. destruct b; [|auto]. destruct (Nat.eqb_spec k (c_sup v)); [|auto].
          destruct Hr as [<-|Hr]; [|auto]. destruct (proj1 Hb eq_refl) as (y & Hy & _). split; [unfold In_range in Hy; lia|].
          intros x Hx. subst k. rewrite upd_same. rewrite ind_1 by auto. specialize (Hp (c_sup v) x). lia.
        - intros k x. cbn [aspec_step]. unfold upd. destruct (Nat.eqb_spec k (c_sup v)) as [->|N].
          + intros Hx. destruct (Z.eq_dec (c (c_sup v) x) 0) as [Z|Z].
            * assert (In_range q x). { destruct (Z.eq_dec (ind q x) 0); [lia|]. unfold ind in *. unfold In_range. destruct (_ && _) eqn:E'; lia. }
              assert (b = true) as -> by (apply Hb; eauto). exists q. split; [|auto]. unfold Q1. rewrite Nat.eqb_refl. left; auto.
            * destruct (a_cov _ _ _ A (c_sup v) x) as (r & Hr & Hi); [specialize (Hp (c_sup v) x); lia|].
              exists r. split; [|auto]. unfold Q1. destruct b; [rewrite Nat.eqb_refl; right; auto|auto].
          + intros Hx. destruct (a_cov _ _ _ A k x Hx) as (r & Hr & Hi). exists r. split; [|auto]. unfold Q1.
            destruct b; [destruct (Nat.eqb_spec k (c_sup v)); [contradiction|auto]|auto]. }
      destruct (IH ah' s1 _ Q1 s' xs V1 A1 F' ltac:(intros; apply H; right; auto) E2) as (Q' & V' & A' & HQ).
      exists Q'. split; [auto|]. split; [auto|]. intros k r Hr. apply HQ in Hr as [Hr|Hr]; [|right; right; auto].
      unfold Q1 in Hr. destruct b; [|auto]. destruct (Nat.eqb_spec k (c_sup v)); [|auto]. destruct Hr as [<-|Hr]; [|auto].
      right. left. subst. auto.
    + destruct a as [k q|k q| |]; try contradiction. cbn [vcstep] in E. unfold variables in E.
      destruct (update_ok L spOf base G s c V) as (s1 & Eu & V1 & _ & _ & Hn & _). rewrite Eu in E. cbn [bind] in E.
      destruct (vcrun spOf base s1 h) as [[s2 xs]| |] eqn:E2; cbn [bind] in E; try discriminate. inversion E; subst.
      assert (A1 : ainv s1 (aspec_step c AVars) Q).
      { constructor; [|apply A|apply A]. intros k. rewrite Hn. apply A. }
      destruct (IH ah' s1 _ Q s' xs V1 A1 F' ltac:(intros; apply H; right; auto) E2) as (Q' & V' & A' & HQ).
      exists Q'. split; [auto|]. split; [auto|]. intros k r Hr. apply HQ in Hr as [Hr|Hr]; [auto|right; right; auto].
Qed.

Lemma c11_simple_adds h ah : Forall2 (denotes L) h ah ->
  (forall o, In o h -> (exists v, o = CAdd v) \/ o = CVariables) ->
  exists s outs s1 vs s2 fl, vcrun spOf base (vc_init false) h = Ok (s, outs) /\
    variables spOf base s = Ok (s1, vs) /\ simple spOf base s = Ok (s2, fl) /\ length fl = length vs /\
    forall i v, nth_error vs i = Some v -> nth_error fl i = Some true ->
      exists q, In (AAdd (c_sup v) q) ah /\ made_of L v q.
Proof.
  intros F N. destruct (run_spec L spOf base G h ah _ _ (vinv_init L false) F) as (s & outs & E & V & Es).
  destruct (ainv_run h ah _ _ (fun _ => []) s outs (vinv_init L false)) as (Q & _ & A & HQ); auto.
  { constructor; simpl; auto; [intros k q []|intros; lia]. }
  destruct (update_ok L spOf base G s _ V) as (s' & U & V' & Ut & Es' & Hn & _).
  destruct (v_up _ _ _ V' Ut) as (ps & [[H1 H0] H2] & H3).
  exists s, outs, s', (variables_ s'), s', (simple_ s'). split; [auto|]. split; [unfold variables; rewrite U; auto|].
  split; [unfold simple; rewrite Es, U; auto|].
  assert (Len : length (simple_ s') = length (variables_ s')).
  { rewrite H3, map_length. clear - H1. induction H1; simpl; auto. }
  split; [auto|]. intros i v Hv Hf. simpl in Es.
  assert (Hp : exists p, nth_error ps i = Some p /\ c_sup v = fst p /\ made_of L v (snd p)).
  { clear - H1 Hv. revert i Hv. induction H1 as [|x y l l' Hxy HF IH]; intros [|i] Hv; simpl in *; try discriminate.
    - inversion Hv; subst. eauto.
    - apply IH; auto. }
  destruct Hp as (p & Hp & Ec & M). exists (snd p). split; [|auto].
  rewrite H3 in Hf. rewrite (map_nth_error _ _ _ Hp) in Hf. inversion Hf as [Hfl]. clear Hf.
  unfold flag in Hfl. rewrite Hn in Hfl. rewrite Ec.
  assert (An := a_num _ _ _ A (fst p)). destruct (number (fst p) (count_ s)) as [n|]; [|discriminate].
  apply Z.eqb_eq in Hfl. destruct (H2 (fst p)) as [_ C]. rewrite Es' in C. specialize (C Es).
  destruct (pig _ _ (Q (fst p)) C) as [_ K].
  - apply A.
  - apply A.
  - assert (In (snd p) (Q (fst p))).
    { apply K; [apply Nat2Z.inj; fold (aspec ah) in *; congruence|]. apply of_sup_In. apply nth_error_In in Hp. destruct p; auto. }
    apply HQ in H as [[]|H]. auto.
Qed.
End Atoms.
