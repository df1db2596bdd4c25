(* add never loses a limit, so the pieces of ranges(true) refine every added range. *)
Require Import ZArith List Bool Sorting Lia.
Require Import Verif.Base Verif.RangeModel Verif.RangeCountingModel Verif.RangeCountingSpec.
Require Import Verif.RangeCountingProofs Verif.RangeCountingProofs2 Verif.RangeCountingProofs3.
Require Import Verif.RangeCountingProofs4 Verif.RangeCountingProofs5.
Import ListNotations.
Local Open Scope Z_scope.

Definition posn (l : list lim) (i : Z) : Prop := In i (map fst l).

Lemma posn_app a b i : posn (a ++ b) i <-> posn a i \/ posn b i.
Proof. unfold posn. rewrite map_app, in_app_iff. tauto. Qed.
Lemma posn_cons x a i : posn (x :: a) i <-> fst x = i \/ posn a i.
Proof. unfold posn. simpl. tauto. Qed.
Lemma posn_nil i : posn [] i <-> False.
Proof. unfold posn. simpl. tauto. Qed.

Lemma insertLower_posn i pre post d pre' post' d' :
  wf (pre ++ post) -> d = dsum pre -> insertLower i pre post d = Ok (pre', post', d') ->
  1 <= d' /\ forall j, (posn pre' j \/ posn post' j) <-> (posn pre j \/ posn post j) \/ j = i.
Proof.
  intros W Hd. assert (H0 : 0 <= dsum pre) by (eapply wf_prefix; eauto).
  unfold insertLower. destruct post as [|[j t] rest]; [discriminate|].
  assert (Hins : 1 <= d + 1 /\ forall k, (posn (pre ++ [(i, Lower)]) k \/ posn ((j, t) :: rest) k) <-> (posn pre k \/ posn ((j, t) :: rest) k) \/ k = i).
  { split; [lia|]. intros k. rewrite posn_app, !posn_cons, posn_nil. simpl. intuition auto. }
  destruct (Z.eqb_spec i j) as [<-|N]; [|intros E; inversion E; subst; auto].
  destruct t; [discriminate| |].
  - destruct rest as [|n rest]; [intros E; inversion E; subst; auto|].
    destruct (lim_eq n (i, Upper)) eqn:En; [|intros E; inversion E; subst; auto].
    apply lim_eq_spec in En. subst n.
    assert (1 <= dsum pre).
    { assert (H : 0 <= dsum (pre ++ [(i, Cut); (i, Upper)])) by (eapply wf_prefix; [exact W|rewrite <- app_assoc; reflexivity]).
      rewrite dsum_app in H. simpl in H. lia. }
    destruct (Z.eqb_spec d 0); [lia|]. intros E; inversion E; subst. split; [lia|].
    intros k. rewrite posn_app, !posn_cons, posn_nil. simpl. intuition auto.
  - assert (1 <= dsum pre).
    { assert (H : 0 <= dsum (pre ++ [(i, Upper)])) by (eapply wf_prefix; [exact W|rewrite <- app_assoc; reflexivity]).
      rewrite dsum_app in H. simpl in H. lia. }
    destruct (Z.eqb_spec d 0); [lia|]. intros E; inversion E; subst. split; [lia|].
    intros k. rewrite posn_app, !posn_cons, posn_nil. simpl. intuition auto.
Qed.

Lemma insertUpper_posn i pre d pre' d' :
  1 <= d -> (forall q, pre = q ++ [(i, Lower)] -> d <> 1) -> insertUpper i pre d = Ok (pre', d') ->
  forall j, posn pre' j <-> posn pre j \/ j = i.
Proof.
  intros Hd Hl. unfold insertUpper. destruct (rev pre) as [|p pr] eqn:Er; [discriminate|].
  apply (f_equal (@rev _)) in Er. rewrite rev_involutive in Er. simpl in Er.
  destruct (lim_eq p (i, Upper)) eqn:E1; [discriminate|].
  assert (Hins : forall j, posn (pre ++ [(i, Upper)]) j <-> posn pre j \/ j = i).
  { intros j. rewrite posn_app, posn_cons, posn_nil. simpl. intuition auto. }
  destruct (Z.eqb_spec i (fst p)) as [Ei|N]; [|intros E; inversion E; subst pre' d'; apply Hins].
  destruct p as [pi pt]. simpl in Ei. subst pi.
  cbn [snd fst]. destruct pt.
  - destruct (Z.eqb_spec d 1); [exfalso; eapply Hl; [exact Er|auto]|].
    intros E; inversion E; subst. intros j. rewrite !posn_app, !posn_cons, !posn_nil. simpl. intuition auto.
  - destruct pr as [|q pr]; [intros E; inversion E; subst pre' d'; apply Hins|].
    destruct (lim_eq q (i, Lower)) eqn:E2; [|intros E; inversion E; subst pre' d'; apply Hins].
    apply lim_eq_spec in E2. subst q. destruct (Z.eqb_spec d 0); [lia|].
    intros E; inversion E; subst. intros j. simpl. rewrite !posn_app, !posn_cons, !posn_nil. simpl. intuition auto.
  - exfalso. assert (lim_eq (i, Upper) (i, Upper) = true) by (apply lim_eq_spec; auto). congruence.
Qed.

Lemma add_posn st r st' b : wf (limits st) -> 0 < dim r -> add st r = Ok (st', b) ->
  forall j, posn (limits st') j <-> posn (limits st) j \/ j = start r \/ j = rend r.
Proof.
  intros W D. unfold add. destruct (Z.eqb_spec (dim r) 0); [lia|].
  destruct (limits st) as [|f l0] eqn:El.
  { intros E; inversion E; subst. intros j. simpl. rewrite !posn_cons, !posn_nil. simpl. intuition auto. }
  rewrite <- El in *. clear El f l0.
  destruct (move (start r, Lower) 0 0 (limits st)) as [[[[h pre] post] d]| |] eqn:Em; cbn [bind]; try discriminate.
  apply move_ok in Em as (El & Hpre & _ & Hd & _).
  destruct post as [|y0 post0] eqn:Ep.
  { intros E; inversion E; subst. intros j. simpl. rewrite El, !app_nil_r, posn_app, !posn_cons, !posn_nil. simpl. intuition auto. }
  rewrite <- Ep in *. clear Ep y0 post0.
  destruct (insertLower (start r) pre post d) as [[[pre1 post1] d1]| |] eqn:E1; cbn [bind]; try discriminate.
  assert (Hse : start r < rend r) by (unfold rend; lia).
  assert (Hpre1 : forall x, In x pre1 -> fst x <= start r).
  { assert (Hp : forall x, In x pre -> fst x <= start r).
    { intros x Hx. apply Hpre in Hx. unfold le in Hx. simpl in Hx. lia. }
    clear - E1 Hp. intros x Hx. unfold insertLower in E1. destruct post as [|[j t] rest]; [discriminate|].
    assert (K : In x (pre ++ [(start r, Lower)]) -> fst x <= start r).
    { intros K. apply in_app_or in K as [K|[<-|[]]]; [auto|simpl; lia]. }
    assert (K2 : In x (pre ++ [(start r, Cut)]) -> fst x <= start r).
    { intros K2. apply in_app_or in K2 as [K2|[<-|[]]]; [auto|simpl; lia]. }
    destruct (Z.eqb_spec (start r) j) as [<-|N]; [|inversion E1; subst; auto].
    destruct t; [discriminate| |].
    - destruct rest as [|n rest]; [inversion E1; subst; auto|].
      destruct (lim_eq n (start r, Upper)); [|inversion E1; subst; auto].
      destruct (d =? 0); inversion E1; subst; auto.
    - destruct (d =? 0); inversion E1; subst; auto. }
  apply insertLower_posn in E1 as [Hd1 Hp1]; [|rewrite <- El; auto|lia].
  destruct (move (rend r, Cut) 1 d1 post1) as [[[[hit mid] post2] d2]| |] eqn:Em; cbn [bind]; try discriminate.
  apply move_ok in Em as (E2 & Hmid & _ & Hd2 & Hge & _).
  destruct (insertUpper (rend r) (pre1 ++ mid) d2) as [[pre2 d3]| |] eqn:E3; cbn [bind]; try discriminate.
  assert (G : forall q q', mid = q ++ q' -> 1 <= d1 + dsum q).
  { intros [|x q] q' Eq; [simpl; lia|]. apply (Hge (x :: q) q' Eq). discriminate. }
  assert (E3' := fun H1 H2 => insertUpper_posn _ _ _ _ _ H1 H2 E3).
  assert (H1 : 1 <= d2).
  { assert (Gm := G mid [] ltac:(rewrite app_nil_r; auto)). lia. }
  assert (H2 : forall q, pre1 ++ mid = q ++ [(rend r, Lower)] -> d2 <> 1).
  { intros q Eq. destruct (exists_last (l := mid)) as (m & x & Emm).
      - intros ->. rewrite app_nil_r in Eq. assert (Hin : In (rend r, Lower) pre1) by (rewrite Eq; apply in_or_app; simpl; auto).
        apply Hpre1 in Hin. simpl in Hin. lia.
      - rewrite Emm, app_assoc in Eq. apply app_inj_tail in Eq as [_ ->].
        specialize (G m _ Emm). rewrite Hd2, Emm, dsum_app. simpl. lia. }
  intros E; inversion E; subst. intros j. simpl. specialize (Hp1 j). specialize (E3' H1 H2 j).
  rewrite posn_app, E3', El, !posn_app. rewrite posn_app in Hp1. tauto.
Qed.

Lemma ranges_true_uncut st st' out : wf (limits st) -> fresh st -> ranges st true = Ok (st', out) ->
  forall r, In r out -> forall i, posn (limits st) i -> ~ (start r < i < rend r).
Proof.
  intros W F E r Hr i Hi. unfold posn in Hi. apply in_map_iff in Hi as (y & <- & Hy).
  unfold ranges in E. destruct (limits st) as [|x l] eqn:El; [destruct Hy|].
  assert (B := wf_bra _ W).
  assert (N : negb (recompute_ st) && negb (recomputeSplit_ st) = false).
  { destruct (recompute_ st) eqn:A1, (recomputeSplit_ st) eqn:A2; auto. destruct (F A1 A2). congruence. }
  rewrite N in E. destruct (next_spec 0 x l) as (a & it & En & Eit & Ha & Hn). rewrite En in E.
  assert (Hx := bra0_head _ _ B).
  assert (Eall : x :: l = (x :: a) ++ it) by (rewrite Eit; auto).
  assert (Hxa : forall y, In y (x :: a) -> y = x) by (intros z [<-|Hz]; auto).
  assert (B1 : bra (0 + dsum (x :: a)) it) by (apply bra_app; rewrite <- Eall; auto).
  assert (HS := bra_ss _ _ B). apply SS_cons in HS as [HS HRx].
  assert (Hall : 0 < 0 + dsum (x :: a)).
  { assert (0 <= dsum a); [|cbn [dsum]; rewrite Hx; cbn [tval]; lia]. clear - Ha Hx.
    induction a as [|z a IH]; cbn [dsum]; [lia|].
    rewrite (Ha z (or_introl eq_refl)), Hx. cbn [tval]. assert (0 <= dsum a) by (apply IH; intros w Hw; apply Ha; right; auto). lia. }
  destruct (split_ok (length (x :: l)) (0 + dsum (x :: a)) x it []) as (o & Eo & P & U); auto.
  { rewrite Eall, app_length. lia. }
  { intros z Hz. split.
    - apply HRx. rewrite Eit. apply in_or_app; auto.
    - intros ->. destruct it as [|w it']; [destruct Hz|]. 
      assert (Hw : w = x \/ R x w /\ w <> x).
      { destruct (lim_eq w x) eqn:Ew; [left; apply lim_eq_spec; auto|right].
        split; [apply HRx; rewrite Eit; apply in_or_app; simpl; auto|apply lim_eq_false; auto]. }
      destruct Hw as [Hw|[Hw1 Hw2]]; [eapply Hn; eauto|].
      destruct Hz as [Hz|Hz]; [congruence|].
      assert (HSi : SS (w :: it')) by (apply (bra_ss _ _ B1)). apply SS_cons in HSi as [_ HSi].
      apply HSi in Hz. clear - Hz Hw1 Hw2 Hx. destruct w as [wi wt], x as [xi xt]. simpl in Hx. subst xt. limsolve. }
  rewrite Eo in E. simpl in E. inversion E; subst. rewrite Forall_forall in U.
  rewrite Eall in Hy. apply in_app_or in Hy as [Hy|Hy]; [|apply (U r Hr); auto].
  apply Hxa in Hy. subst y. destruct P as (P1 & _ & P3). rewrite Forall_forall in P1. specialize (P1 r Hr).
  assert (K : fst x <= start r /\ 0 < 0 + dsum (x :: a) + cnt it (start r)).
  { apply P3. exists r. split; [auto|]. unfold In_range. lia. }
  lia.
Qed.
